(* Property C73 (the zones made by Zone::zero and Zone::universal), and what
   properties C15, C39, C55 and C71 say about entries, blanks and flags that
   their other theorems leave open. *)
From Coq Require Import QArith Lqa Bool List ZArith Arith Lia Permutation.
From Verif Require Import Num NumFacts Outcome Constraint Zone ZoneFacts TA Spec TAFacts WfDec PropBase ZoneOps Intersection IntersectionSignal Text PropText.
Import ListNotations.
Open Scope nat_scope.

(* ================= C73 ================= *)

(* Zone::zero(n) is the single valuation in which all clocks are 0. *)
Theorem C73_zero : forall n v, zin n (zval (zone_zero n)) v <-> forall x, S x < n -> (v x == 0)%Q.
Proof.
  intros n v. unfold zone_zero. cbn [zval]. split.
  - intros H x Hx. pose proof (H (S x) 0 Hx ltac:(lia)) as H1. pose proof (H 0 (S x) ltac:(lia) Hx) as H2.
    rewrite mget_fill in H1, H2 by lia. unfold below, bzero, ev in H1, H2. cbn in H1, H2. lra.
  - intros H i j Hi Hj. rewrite mget_fill by auto. unfold below, bzero. cbn [fst snd].
    assert (E : forall k, k < n -> (ev v k == 0)%Q) by (intros [|k] Hk; cbn; [reflexivity|apply H; auto]).
    pose proof (E i Hi). pose proof (E j Hj). lra.
Qed.

(* Zone::universal(n) is the set of all valuations of n clocks. *)
Theorem C73_universal : forall n v, square (S n) (zval (zone_universal n)) /\ zin (S n) (zval (zone_universal n)) v.
Proof.
  intros n v. unfold zone_universal. cbn [zval]. split; [apply square_mset, fill_square|].
  intros i j Hi Hj. rewrite (mget_mset (S n)) by (auto using fill_square; lia).
  destruct (Nat.eqb_spec i 0), (Nat.eqb_spec j 0); subst; cbn [andb]; try (rewrite mget_fill by auto; exact I).
  unfold below, bzero, ev. cbn. lra.
Qed.

(* Both have M = (0,<): unless M is set, abstractize drops every constraint with
   a constant that is not negative. *)
Theorem C73_forgets : forall n k z m i j q s, z = zone_zero k \/ z = zone_universal k -> square n m -> i < n -> j < n ->
  mget m i j = (Fin q, s) -> (mget (abstractize (zM z) m) i j = if Qle_bool 0 q then binf else (Fin q, s)).
Proof.
  intros n k z m i j q s Hz [S1 S2] Hi Hj E.
  assert (EM : zM z = (Fin 0, false)) by (destruct Hz as [->| ->]; reflexivity). rewrite EM. unfold abstractize, mget in *.
  assert (R : length (nth i m []) = n) by (rewrite Forall_forall in S2; apply S2, nth_In; lia).
  rewrite (nth_indep _ [] (map (fun b => if bgeb b (Fin 0, false) then binf else b) [])) by (rewrite map_length; lia). rewrite map_nth.
  rewrite (nth_indep _ binf ((fun b => if bgeb b (Fin 0, false) then binf else b) binf)) by (rewrite map_length; lia).
  rewrite (map_nth (fun b => if bgeb b (Fin 0, false) then binf else b)).
  rewrite E. unfold bgeb. cbn [fst snd neqb nltb implb]. destruct (Qeq_bool q 0) eqn:E1.
  - apply Qeq_bool_iff in E1. assert (E2 : Qle_bool 0 q = true) by (apply Qle_bool_iff; lra). rewrite E2. reflexivity.
  - assert (N : ~ (q == 0)%Q) by (intros H; apply Qeq_bool_iff in H; congruence). destruct (Qle_bool 0 q) eqn:E2.
    + apply Qle_bool_iff in E2. assert (E3 : Qltb 0 q = true) by (apply Qltb_true; lra). rewrite E3. reflexivity.
    + destruct (Qltb 0 q) eqn:E3; auto. apply Qltb_true in E3. assert (Qle_bool 0 q = true) by (apply Qle_bool_iff; lra). congruence.
Qed.

(* So an elapsed zero zone, abstracted without setting M, admits every value. *)
Example C73_forgets_case : mget (elapse (zval (zone_zero 3))) 1 2 = (Fin 0, true) /\
  forall x, zin 3 (abstractize (zM (zone_zero 3)) (elapse (zval (zone_zero 3)))) x.
Proof.
  split; [reflexivity|]. intros v [|[|[|i]]] [|[|[|j]]] Hi Hj; try lia; vm_compute; exact I.
Qed.

(* The static zones: zero and universal, libmonaa/zone.hh:68-89, return the zone
   of the previous call when the size is the same.  The static zone has size 0
   at first. *)
Definition zero_call (st : zone) (size : nat) : zone * zone :=
  if length (zval st) =? size then (st, st) else let z := mkZone (fill size bzero) (zM st) in (z, z).
Definition universal_call (st : zone) (size : nat) : zone * zone :=
  if length (zval st) =? S size then (st, st)
  else let z := mkZone (mset (fill (S size) binf) 0 0 bzero) (zM st) in (z, z).
Definition zone_default : zone := mkZone [] (Fin 0, false).
Fixpoint calls (f : zone -> nat -> zone * zone) (st : zone) (l : list nat) : list zone :=
  match l with [] => [] | n :: t => let (z, st') := f st n in z :: calls f st' t end.

Theorem C73_cache : forall l, calls zero_call zone_default l = map zone_zero l /\ calls universal_call zone_default l = map zone_universal l.
Proof.
  intros l. split.
  - assert (X : forall l st, st = zone_zero (length (zval st)) -> calls zero_call st l = map zone_zero l).
    { induction l0 as [|n t IH]; intros st E; auto. cbn [calls]. unfold zero_call. destruct (Nat.eqb_spec (length (zval st)) n) as [<-|N].
      - cbn [map]. rewrite <- E. f_equal. apply IH. exact E.
      - assert (EM : zM st = (Fin 0, false)) by (rewrite E; reflexivity). rewrite EM. cbn [map]. f_equal. apply IH.
        cbn [zval]. unfold zone_zero. rewrite (proj1 (fill_square n bzero)). reflexivity. }
    apply X. reflexivity.
  - assert (L : forall n, length (zval (zone_universal n)) = S n) by (intros n; apply (proj1 (proj1 (C73_universal n (fun _ => 0%Q))))).
    assert (X : forall l st, zM st = (Fin 0, false) -> (st = zone_default \/ exists n, st = zone_universal n) -> calls universal_call st l = map zone_universal l).
    { induction l0 as [|n t IH]; intros st EM H; auto. cbn [calls]. unfold universal_call. destruct (Nat.eqb_spec (length (zval st)) (S n)) as [E|N].
      - destruct H as [->|(k & ->)]; [discriminate|]. rewrite L in E. injection E as ->. cbn [map]. f_equal. apply IH; eauto.
      - rewrite EM. cbn [map]. f_equal. apply IH; [reflexivity|]. right. exists n. reflexivity. }
    apply X; auto.
Qed.
Example C73_cache_case : calls zero_call zone_default [3; 3; 2] = [zone_zero 3; zone_zero 3; zone_zero 2] /\
  zone_zero 3 <> zone_zero 2 /\ length (zval (zone_universal 2)) = 3.
Proof. split; [apply (proj1 (C73_cache [3; 3; 2]))|]. split; [discriminate|reflexivity]. Qed.

(* ================= C15 with entries that are -infinity ================= *)

Definition no_nan (n : nat) (m : mat) : Prop := forall i j, i < n -> j < n -> fst (mget m i j) <> NaN.

Lemma beqb_self : forall b, fst b <> NaN -> beqb b b = true.
Proof. intros [[| |q|] []] H; cbn in *; try congruence; try reflexivity; unfold beqb; cbn; rewrite Qeq_bool_refl; reflexivity. Qed.

Lemma zone_eqb_nonan : forall n m z, square n m -> square n z -> 0 < n -> fst (mget m 0 0) <> NaN ->
  (forall i j, i < n -> j < n -> (i, j) <> (0, 0) -> beqb (mget m i j) (mget z i j) = true) -> zone_eqb m z = true.
Proof.
  intros n m z HM HZ Hn HG H. unfold zone_eqb. pose proof (square_mset n z 0 0 (mget m 0 0) HZ) as HZ'.
  apply (list_eqb_intro _ _ _ []); [destruct HM, HZ'; lia|]. intros i Hi. rewrite (proj1 HM) in Hi.
  apply (list_eqb_intro _ _ _ binf).
  - rewrite (square_row n m) by auto. rewrite (square_row n _ i HZ') by auto. auto.
  - intros j Hj. rewrite (square_row n m) in Hj by auto.
    change (beqb (mget m i j) (mget (mset z 0 0 (mget m 0 0)) i j) = true).
    rewrite (mget_mset n) by auto. destruct (Nat.eqb_spec i 0), (Nat.eqb_spec j 0); subst; cbn [andb]; try (apply H; auto; congruence).
    apply beqb_self. auto.
Qed.

(* Also zones marked by makeUnsat are equal to themselves, and == is symmetric. *)
Theorem C15_reflexive_all : forall n m, square n m -> 0 < n -> no_nan n m -> zone_eqb m m = true /\ zone_eqb (makeUnsat m) (makeUnsat m) = true.
Proof.
  intros n m S Hn N. split; [apply (zone_eqb_nonan n); auto; intros; apply beqb_self; auto|].
  pose proof (square_mset n m 0 0 (MInf, false) S) as S'. apply (zone_eqb_nonan n); auto.
  - unfold makeUnsat. rewrite (mget_mset n) by auto. cbn. discriminate.
  - intros i j Hi Hj NE. apply beqb_self. unfold makeUnsat. rewrite (mget_mset n) by auto. destruct ((i =? 0) && (j =? 0)); [cbn; discriminate|auto].
Qed.
Theorem C15_symmetric_all : forall n m z, square n m -> square n z -> 0 < n -> no_nan n z -> zone_eqb m z = true -> zone_eqb z m = true.
Proof.
  intros n m z HM HZ Hn GZ E. apply (zone_eqb_nonan n); auto.
  intros i j Hi Hj NE. pose proof (zone_eqb_entries n m z HM HZ E i j Hi Hj NE) as K.
  revert K. generalize (mget m i j) (mget z i j). intros [[| |x|] []] [[| |y|] []]; unfold beqb; cbn; auto;
    rewrite !andb_true_iff; intros [A B]; split; auto; apply Qeq_bool_iff in A; apply Qeq_bool_iff; lra.
Qed.
Example C15_all_case : square 3 (makeUnsat (fill 3 bzero)) /\ no_nan 3 (makeUnsat (fill 3 bzero)) /\ mget (makeUnsat (fill 3 bzero)) 0 0 = (MInf, false).
Proof.
  split; [apply square_mset, fill_square|]. split; [|reflexivity]. intros [|[|[|i]]] [|[|[|j]]] Hi Hj; try lia; cbn; discriminate.
Qed.

(* ================= C39 blanks ================= *)

(* The characters skipped are blank, tab, newline, vertical tab, form feed and
   carriage return. *)
Theorem C39_blanks : forall c, space c = true <-> In c [32; 9; 10; 11; 12; 13].
Proof.
  intros c. unfold space. rewrite orb_true_iff, andb_true_iff, Nat.eqb_eq, !Nat.leb_le. cbn [In]. lia.
Qed.
Example C39_tabs_case : text_word [9; 97; 9; 49; 11; 12; 13; 10; 98; 32; 50] = Ok [(97, 1%Q); (98, 2%Q)].
Proof. vm_compute. reflexivity. Qed.

(* ================= C55 and C71 flags ================= *)

(* No state read from a text has zero duration, whatever was printed. *)
Theorem C55_flags_lost : forall al G p s, In (p, s) (states (convBoostTA al G)) -> zeroDur s = false.
Proof. intros al G p s H. unfold convBoostTA in H. cbn [states] in H. apply in_map_iff in H as (v & E & _). injection E as <- <-. reflexivity. Qed.

(* The automaton of the empty word printed and read again has the same language,
   but its product with the automaton that was printed is empty. *)
Definition exEmpty : ta := mkTA [(1, mkS true true [])] [1] [].
Theorem C55_flags_refuted : exists vs es G, print_ta exEmpty = Ok (vs, es) /\ parseBoostTA vs es = Ok G /\
  (forall w, accepts (convBoostTA S G) w <-> accepts exEmpty w) /\ accepts exEmpty [] /\
  forall f w, ~ accepts (intersectionTA (convBoostTA S G) exEmpty f) w.
Proof.
  assert (W : wf_ta exEmpty) by (apply wf_tab_ok; reflexivity).
  assert (P : printable_ta exEmpty). { intros p c e (s & es & [E|[]] & I2 & _). injection E as <- <-. destruct I2. }
  destruct (C55_round_trip exEmpty W P) as (vs & es & E & R). destruct (R vs (Permutation_refl vs)) as (G & EG & WG & L).
  exists vs, es, G. split; auto. split; auto. split; [apply L; intros x y _ _ H; injection H; auto|]. split.
  - exists 1, 1, zeroval, 0%Q. split; [left; reflexivity|]. split; [constructor|]. exists (mkS true true []). split; [left; reflexivity|reflexivity].
  - intros f w. vm_compute in E. injection E as <- <-. vm_compute in EG. injection EG as <-.
    intros (p & q & v & T & Hp & _). vm_compute in Hp. exact Hp.
Qed.

(* No state of the product of signal automata has zero duration. *)
Theorem C71_flags : forall A B f p s, In (p, s) (states (intersectionSignalTA A B f)) -> zeroDur s = false.
Proof.
  intros A B f p s H. unfold intersectionSignalTA in H. cbn [states] in H. apply in_flat_map in H as (ps1 & _ & H). apply in_flat_map in H as (ps2 & _ & H).
  destruct (Bool.eqb (zeroDur (snd ps1)) (zeroDur (snd ps2))); [|destruct H]. destruct H as [E|[]]. injection E as <- <-. reflexivity.
Qed.
