(* C13: what makeGuard lists, exactly. *)
From Coq Require Import QArith Lqa Bool List ZArith Arith Lia.
From Verif Require Import Num NumFacts Constraint Zone ZoneFacts ZoneOps TA Spec PropBase.
Import ListNotations.
Open Scope nat_scope.

Lemma fold_guards : forall (f : nat -> option (list constr)) l acc gs,
  fold_left (fun acc i => match acc, f i with Some a, Some g => Some (a ++ g) | _, _ => None end) l acc = Some gs ->
  exists a, acc = Some a /\ forall g, In g gs <-> In g a \/ exists i k, In i l /\ f i = Some k /\ In g k.
Proof.
  intros f. induction l as [|i l IH]; intros acc gs E; cbn [fold_left] in E.
  - exists gs. split; auto. intros g. split; auto. intros [H|(i & k & [] & _)]. auto.
  - apply IH in E as (b & Eb & H). destruct acc as [a|]; [|discriminate]. destruct (f i) as [k|] eqn:F; [|discriminate]. injection Eb as <-.
    exists a. split; auto. intros g. rewrite H, in_app_iff. split.
    + intros [[X|X]|(j & k' & Hj & Fj & X)]; auto; right; [exists i, k|exists j, k']; repeat split; auto; [left; auto|right; auto].
    + intros [X|(j & k' & [<-|Hj] & Fj & X)]; auto; [left; right; congruence|right; exists j, k'; auto].
Qed.

Lemma int_value : forall q, (exists k, q == inject_Z k)%Q -> (inject_Z (Z.quot (Qnum q) (Zpos (Qden q))) == q)%Q.
Proof.
  intros [a d] (k & H). unfold Qeq in *. cbn in *. assert (a = k * Z.pos d)%Z by lia. subst a. rewrite Z.quot_mul by lia. lia.
Qed.

Section Guard.
  Variables (n : nat) (z : zone) (gs : list constr) (m : Q) (f : bool).
  Hypothesis HS : square n (zval z).
  Hypothesis HG : mgood n (zval z).
  Hypothesis NE : exists u, zin n (zval z) u.
  Hypothesis HM : zM z = (Fin m, f).
  Hypothesis E : makeGuard z = Some gs.
  Notation can := (canonize (zval z)).

  Lemma listed : forall g, In g gs <-> exists i k, S i < n /\ makeGuard1 (zM z) (abstractize (zM z) can) i = Some k /\ In g k.
  Proof.
    intros g. pose proof E as E1. unfold makeGuard in E1. apply fold_guards in E1 as (a & Ea & H). injection Ea as <-. rewrite H.
    assert (L : length (abstractize (zM z) can) = n) by apply (abstractize_square n (zM z) _ (canonize_square _ _ HS HG)). rewrite L. split.
    - intros [[]|(i & k & Hi & X)]. apply in_seq in Hi. exists i, k. split; [lia|auto].
    - intros (i & k & Hi & X). right. exists i, k. split; auto. apply in_seq. lia.
  Qed.
  Lemma some_k : forall i, S i < n -> exists k, makeGuard1 (zM z) (abstractize (zM z) can) i = Some k.
  Proof.
    intros i Hi. pose proof E as E1. unfold makeGuard in E1.
    assert (L : length (abstractize (zM z) can) = n) by apply (abstractize_square n (zM z) _ (canonize_square _ _ HS HG)). rewrite L in E1.
    assert (K : forall l acc gs, fold_left (fun acc i => match acc, makeGuard1 (zM z) (abstractize (zM z) can) i with Some a, Some g => Some (a ++ g) | _, _ => None end) l acc = Some gs ->
      acc <> None /\ (In i l -> exists k, makeGuard1 (zM z) (abstractize (zM z) can) i = Some k)).
    { clear. induction l as [|j l IH]; intros acc gs E; cbn [fold_left] in E.
      - split; [congruence|intros []].
      - apply IH in E as (A & B). destruct acc as [a|]; [|congruence]. destruct (makeGuard1 _ _ j) as [k|] eqn:F; [|congruence]. split; [discriminate|]. intros [<-|H]; eauto. }
    pose proof (K _ _ _ E1) as (_ & H). apply H. apply in_seq. lia.
  Qed.

  (* The upper bound of a clock below the greatest constant, as strong as it
     can be said with integers. *)
  Theorem C13_upper : forall i k (strict : bool) v, S i < n -> (forall j, S j < n -> int_bound (mget can (S j) 0)) ->
    (inject_Z k < m)%Q -> let g := mkC i (if strict then Lt else Le) k in
    (forall u, zin n (zval z) u -> holds g (u i)) -> sat_guard v gs -> holds g (v i).
  Proof.
    intros i k strict v Hi HI Hk g Imp Sat.
    assert (T : ble (mget can (S i) 0) (Fin (inject_Z k), negb strict)).
    { apply (C07_canonize_tightest n); auto; try lia; try exact I. intros u Hu. specialize (Imp u Hu). unfold holds, g in Imp. cbn in Imp |- *. unfold below. cbn. destruct strict; cbn in *; lra. }
    pose proof (canonize_good _ _ HS HG (S i) 0 Hi ltac:(lia)) as Gd. specialize (HI i Hi). destruct (some_k i Hi) as (l & El).
    assert (Sub : forall c, In c l -> In c gs) by (intros c Hc; apply listed; eauto).
    destruct (mget can (S i) 0) as [b fb] eqn:Eb. unfold good in Gd. cbn [fst] in Gd. destruct b as [| |x|]; try contradiction.
    assert (Lx : (x < m)%Q) by (unfold ble in T; cbn in T; destruct fb, strict; cbn in T; lra).
    assert (Gx : bgeb (Fin x, fb) (zM z) = false).
    { rewrite HM. unfold bgeb. cbn. destruct (Qeq_bool x m) eqn:Q1; [apply Qeq_bool_iff in Q1; lra|]. unfold Qltb. apply negb_false_iff, Qle_bool_iff. lra. }
    assert (Bx : bltb (Fin x, fb) (zM z) = true).
    { rewrite HM. unfold bltb. cbn. destruct (Qeq_bool x m) eqn:Q1; [apply Qeq_bool_iff in Q1; lra|]. unfold Qltb. apply negb_true_iff. apply not_true_is_false. rewrite Qle_bool_iff. lra. }
    unfold makeGuard1 in El. rewrite !(mget_abstractize n) in El by (auto using canonize_square; lia). rewrite Eb, Gx, Bx in El. cbn [fst snd num_to_int] in El.
    destruct (if _ || _ then _ else _) as [lo|]; [|discriminate]. injection El as <-.
    assert (Inc : In (mkC i (if fb then Le else Lt) (Z.quot (Qnum x) (Zpos (Qden x)))) gs) by (apply Sub, in_or_app; right; left; reflexivity).
    specialize (Sat _ Inc). pose proof (int_value x (HI x eq_refl)) as Ex.
    unfold holds, g in *. cbn [codr cc cx] in *. unfold ble in T. cbn in T. destruct fb, strict; cbn in *; lra.
  Qed.

  (* Of the lower bounds only x > 0 is ever listed, and only if no greater one holds. *)
  Theorem C13_lower : forall i, S i < n -> (forall j, S j < n -> ble (mget (zval z) 0 (S j)) bzero) -> (0 < m)%Q ->
    (forall o c, (o = Gt \/ o = Ge) -> In (mkC i o c) gs ->  o = Gt /\ c = 0%Z) /\
    (In (mkC i Gt 0) gs <-> (forall u, zin n (zval z) u -> 0 < u i)%Q /\ forall q, (forall u, zin n (zval z) u -> q <= u i)%Q -> (q <= 0)%Q).
  Proof.
    intros i Hi HL Hm. pose proof (canonize_good _ _ HS HG 0 (S i) ltac:(lia) Hi) as Gd.
    pose proof (canonize_le n (zval z) HS HG 0 (S i) ltac:(lia) Hi) as Le0. specialize (HL i Hi).
    destruct (some_k i Hi) as (l & El).
    assert (Own : forall o c, In (mkC i o c) gs <-> In (mkC i o c) l).
    { intros o c. rewrite listed. split; [|eauto]. intros (j & k & Hj & Ej & X). assert (j = i); [|subst; congruence].
      unfold makeGuard1 in Ej. destruct (if _ || _ then _ else _) as [lo|] eqn:E1 in Ej; [|discriminate]. destruct (if bltb _ _ then _ else _) as [up|] eqn:E2 in Ej; [|discriminate]. injection Ej as <-.
      apply in_app_or in X as [X|X].
      - destruct (_ || _) in E1; [|injection E1 as <-; destruct X]. destruct (num_to_int _) in E1; [|discriminate]. injection E1 as <-. destruct X as [X|[]]. congruence.
      - destruct (bltb _ _) in E2; [|injection E2 as <-; destruct X]. destruct (num_to_int _) in E2; [|discriminate]. injection E2 as <-. destruct X as [X|[]]. congruence. }
    destruct (mget can 0 (S i)) as [b fb] eqn:Eb. destruct (mget (zval z) 0 (S i)) as [b' fb'] eqn:Eb'. unfold good in Gd. cbn [fst] in Gd.
    assert (X : exists x, b = Fin x /\ (x <= 0)%Q).
    { unfold ble, bzero in *. cbn [fst snd] in *. destruct b as [| |x|]; try contradiction; destruct b' as [| |x'|]; try contradiction. exists x. split; auto. destruct fb', fb; cbn in *; lra. }
    destruct X as (x & -> & Lx). clear Le0 HL Eb' b' fb'.
    assert (Gx : bgeb (Fin x, fb) (zM z) = false).
    { rewrite HM. unfold bgeb. cbn. destruct (Qeq_bool x m) eqn:Q1; [apply Qeq_bool_iff in Q1; lra|]. unfold Qltb. apply negb_false_iff, Qle_bool_iff. lra. }
    assert (Zin : forall u, zin n (zval z) u -> below (Fin x, fb) (0 - u i)%Q).
    { intros u Hu. apply (canonize_zin n _ _ HS HG) in Hu. specialize (Hu 0 (S i) ltac:(lia) Hi). rewrite Eb in Hu. exact Hu. }
    unfold makeGuard1 in El. rewrite !(mget_abstractize n) in El by (auto using canonize_square; lia). rewrite Eb, Gx in El. cbn [fst snd] in El.
    assert (N0 : nltb (Fin 0) (Fin x) = false) by (cbn; unfold Qltb; apply negb_false_iff, Qle_bool_iff; auto). rewrite N0 in El. cbn [orb neqb] in El.
    assert (Ups : forall B up, (if bltb B (zM z) then match num_to_int (fst B) with None => None | Some c => Some [mkC i (if snd B then Le else Lt) c] end else Some []) = Some up ->
      forall o c, (o = Gt \/ o = Ge) -> ~ In (mkC i o c) up).
    { intros B up EB o c Ho H. destruct (bltb B (zM z)); [|injection EB as <-; destruct H].
      destruct (num_to_int (fst B)) as [c1|]; [|discriminate]. injection EB as <-. destruct H as [H|[]]. destruct (snd B), Ho; congruence. }
    destruct (if bltb _ _ then _ else _) as [up|] eqn:EU; [|destruct (_ && _); discriminate]. specialize (Ups _ up EU).
    destruct (Qeq_bool x 0 && negb fb) eqn:Lo.
    - apply andb_true_iff in Lo as (Lo & Lf). apply Qeq_bool_iff in Lo. apply negb_true_iff in Lf. subst fb. cbn [num_to_int] in El. injection El as <-.
      assert (C0 : Z.quot (Qnum x) (Zpos (Qden x)) = 0%Z) by (unfold Qeq in Lo; cbn in Lo; replace (Qnum x) with 0%Z by lia; reflexivity). rewrite C0 in Own. split.
      + intros o c Ho H. apply Own in H. destruct H as [H|H]; [injection H as <- <-; auto|destruct (Ups o c Ho H)].
      + split; [|intros _; apply Own; left; reflexivity]. intros _. split.
        * intros u Hu. apply Zin in Hu. unfold below in Hu. cbn in Hu. lra.
        * intros q Hq. assert (T : ble (mget can 0 (S i)) (Fin (- q), true)).
          { apply (C07_canonize_tightest n); auto; try lia; try exact I. intros u Hu. specialize (Hq u Hu). unfold below. cbn. lra. }
          rewrite Eb in T. unfold ble in T. cbn in T. lra.
    - injection El as <-. split.
      + intros o c Ho H. apply Own in H. destruct (Ups o c Ho H).
      + split; [intros H; apply Own in H; destruct (Ups Gt 0%Z (or_introl eq_refl) H)|]. intros (P & Q). exfalso.
        assert (T : ble (mget can 0 (S i)) (Fin 0, false)).
        { apply (C07_canonize_tightest n); auto; try lia; try exact I. intros u Hu. specialize (P u Hu). unfold below. cbn. lra. }
        assert (X0 : (- x <= 0)%Q). { apply Q. intros u Hu. apply Zin in Hu. unfold below in Hu. cbn in Hu. destruct fb; lra. }
        rewrite Eb in T. unfold ble in T. cbn in T. assert (Ex : (x == 0)%Q) by lra. apply Qeq_bool_iff in Ex. rewrite Ex in Lo. cbn in Lo. apply negb_false_iff in Lo. subst fb. cbn in T. apply Qeq_bool_iff in Ex. lra.
  Qed.
End Guard.

(* 0 < x <= 5, with the greatest constant 10: x > 0 and x <= 5. *)
Definition zpos : zone := mkZone [ [(Fin 0, true); (Fin 0, false)]; [(Fin 5, true); (Fin 0, true)] ] (Fin 10, false).
Example C13_exact_case : square 2 (zval zpos) /\ mgood 2 (zval zpos) /\ zin 2 (zval zpos) (fun _ => 1%Q) /\ makeGuard zpos = Some [mkC 0 Gt 0; mkC 0 Le 5].
Proof.
  split; [repeat constructor|]. split; [intros [|[|i]] [|[|j]] Hi Hj; try lia; exact I|]. split.
  - intros [|[|i]] [|[|j]] Hi Hj; try lia; unfold below, mget; simpl; lra.
  - vm_compute. reflexivity.
Qed.
