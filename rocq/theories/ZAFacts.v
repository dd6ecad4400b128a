(* Facts about the construction of zone automata. *)
From Coq Require Import QArith Lqa Bool List ZArith Arith Lia.
From Verif Require Import Num NumFacts Outcome Constraint Zone ZoneFacts ZoneOps TA Spec TAFacts ZA ZASpec.
Import ListNotations.
Open Scope nat_scope.

(* ---------- successor zones ---------- *)

Section Succ.
  Variable k : nat.                       (* number of clocks *)
  Hypothesis K : k <= 255.
  Let n := S k.

  Lemma tg1_ok : forall m g, square n m -> mgood n m -> cx g < k ->
    square n (tighten_guard1 m g) /\ mgood n (tighten_guard1 m g) /\
    (forall v, zin n (tighten_guard1 m g) v <-> zin n m v /\ holds g (v (cx g))).
  Proof.
    intros m g Hs Hg Hx. unfold n in *.
    assert (X1 : cv_succ (cx g) = S (cx g)) by (apply cv_succ_small; lia).
    assert (B1 : cv_succ (cx g) < S k) by lia. assert (B0 : cv_succ cv_none < S k) by (rewrite cv_succ_none; lia).
    unfold tighten_guard1, holds.
    destruct (codr g); (split; [apply tighten_square; auto|]; split; [apply tighten_good; auto; exact I|]);
      intros v; (rewrite tighten_zin; auto; [|exact I]); rewrite X1, cv_succ_none; cbn [ev]; unfold below; cbn [fst snd];
      rewrite ?inject_Z_opp; split; intros [A B]; split; auto; lra.
  Qed.

  Lemma tg_ok : forall gs m, square n m -> mgood n m -> Forall (fun g => cx g < k) gs ->
    square n (tighten_guard m gs) /\ mgood n (tighten_guard m gs) /\
    (forall v, zin n (tighten_guard m gs) v <-> zin n m v /\ sat_guard v gs).
  Proof.
    induction gs as [|g gs IH]; intros m Hs Hg F.
    - split; auto. split; auto. intros v. simpl. split; [intros; split; auto; intros g []|tauto].
    - inversion F; subst. destruct (tg1_ok m g Hs Hg H1) as (S1 & G1 & Z1).
      destruct (IH _ S1 G1 H2) as (S2 & G2 & Z2). simpl. split; auto. split; auto.
      intros v. unfold tighten_guard in Z2. rewrite Z2, Z1. split.
      + intros [[A B] C]. split; auto. intros g' [<-|Hg']; auto.
      + intros [A B]. split; [split; auto; apply B; left; auto|]. intros g' Hg'. apply B; right; auto.
  Qed.

  Lemma resets_ok : forall xs m, square n m -> mgood n m -> Forall (fun x => x < k) xs ->
    square n (fold_left reset xs m) /\ mgood n (fold_left reset xs m) /\
    (forall v, zin n m v -> zin n (fold_left reset xs m) (fold_left vreset xs v)).
  Proof.
    induction xs as [|x xs IH]; intros m Hs Hg F; [simpl; auto|].
    inversion F; subst. simpl. unfold n in *.
    assert (S1 : square (S k) (reset m x)) by (apply reset_square; auto; lia).
    assert (G1 : mgood (S k) (reset m x)) by (apply reset_good; auto; lia).
    destruct (IH _ S1 G1 H2) as (S2 & G2 & Z2). split; auto. split; auto.
    intros v Hv. apply Z2. apply reset_forward; auto; lia.
  Qed.

  Lemma vresets_reset_set : forall xs v y, (fold_left vreset xs v y == reset_set v xs y)%Q.
  Proof.
    induction xs as [|x xs IH]; intros v y; simpl; [unfold reset_set; simpl; reflexivity|].
    rewrite IH. unfold reset_set, vreset. destruct (in_dec Nat.eq_dec y xs) as [I|N].
    - destruct (in_dec Nat.eq_dec y (x :: xs)) as [I'|N']; [reflexivity|]. exfalso. apply N'. right; auto.
    - destruct (Nat.eqb_spec y x); destruct (in_dec Nat.eq_dec y (x :: xs)) as [I'|N']; try reflexivity.
      + exfalso. apply N'. left; auto.
      + destruct I' as [->|I']; [congruence|contradiction].
  Qed.

  Lemma zin_veq : forall m v u, zin n m v -> veq k v u -> zin n m u.
  Proof.
    intros m v u H E i j Hi Hj. specialize (H i j Hi Hj). eapply below_eq; [|exact H].
    unfold n in *. destruct i, j; simpl; rewrite ?(E i), ?(E j) by lia; reflexivity.
  Qed.

  (* what a successor zone is *)
  Lemma succ_zone_ok : forall M now e m, square n now -> mgood n now ->
    Forall (fun x => x < k) (eresets e) -> Forall (fun g => cx g < k) (eguard e) ->
    succ_zone M now e = Some m -> square n m /\ mgood n m /\ exists v, zin n m v.
  Proof.
    intros M now e m Hs Hg FR FG E. unfold succ_zone in E.
    destruct (tg_ok _ _ Hs Hg FG) as (S1 & G1 & Z1).
    destruct (isSatisfiable (tighten_guard now (eguard e))) as [sat m1] eqn:ES.
    destruct sat; [|discriminate].
    assert (HN : 0 < n) by (unfold n; lia).
    pose proof (proj1 (isSatisfiable_correct n _ S1 HN G1)) as NE. rewrite ES in NE. specialize (NE eq_refl).
    assert (M1 : m1 = canonize (tighten_guard now (eguard e))) by (unfold isSatisfiable in ES; congruence).
    assert (S2 : square n m1) by (subst; apply canonize_square; auto).
    assert (G2 : mgood n m1) by (subst; apply canonize_good; auto).
    destruct (resets_ok _ _ S2 G2 FR) as (S3 & G3 & Z3).
    assert (S4 : square n (abstractize M (fold_left reset (eresets e) m1))) by (apply abstractize_square; auto).
    assert (G4 : mgood n (abstractize M (fold_left reset (eresets e) m1))) by (apply abstractize_good; auto).
    inversion E; subst m. split; [apply canonize_square; auto|]. split; [apply canonize_good; auto|].
    destruct NE as (v & Hv). exists (fold_left vreset (eresets e) v).
    apply canonize_zin; auto. apply abstractize_zin; auto. apply Z3. subst m1. apply canonize_zin; auto.
  Qed.

  (* every timed step is covered *)
  Lemma succ_zone_forward : forall M now e v, square n now -> mgood n now ->
    Forall (fun x => x < k) (eresets e) -> Forall (fun g => cx g < k) (eguard e) ->
    zin n now v -> sat_guard v (eguard e) ->
    exists m, succ_zone M now e = Some m /\ zin n m (reset_set v (eresets e)).
  Proof.
    intros M now e v Hs Hg FR FG Hv HG. unfold succ_zone.
    destruct (tg_ok _ _ Hs Hg FG) as (S1 & G1 & Z1).
    assert (HN : 0 < n) by (unfold n; lia).
    assert (V1 : zin n (tighten_guard now (eguard e)) v) by (apply Z1; auto).
    pose proof (proj2 (isSatisfiable_correct n _ S1 HN G1) (ex_intro _ v V1)) as NE.
    destruct (isSatisfiable (tighten_guard now (eguard e))) as [sat m1] eqn:ES. simpl in NE. subst sat.
    assert (M1 : m1 = canonize (tighten_guard now (eguard e))) by (unfold isSatisfiable in ES; congruence).
    eexists; split; [reflexivity|].
    assert (S2 : square n m1) by (subst; apply canonize_square; auto).
    assert (G2 : mgood n m1) by (subst; apply canonize_good; auto).
    destruct (resets_ok _ _ S2 G2 FR) as (S3 & G3 & Z3).
    apply canonize_zin; auto using abstractize_square, abstractize_good.
    apply abstractize_zin; auto.
    apply (zin_veq _ (fold_left vreset (eresets e) v)).
    - apply Z3. subst m1. apply canonize_zin; auto.
    - intros x Hx. apply vresets_reset_set.
  Qed.

  (* equal zones, both non-empty, have the same elements *)
  Lemma zone_eqb_zin : forall m z v u w, square n m -> square n z -> zone_eqb m z = true ->
    zin n m v -> zin n z u -> zin n m w -> zin n z w.
  Proof.
    intros m z v u w Sm Sz E Hv Hu Hw i j Hi Hj.
    destruct (Nat.eq_dec i 0), (Nat.eq_dec j 0); subst.
    - eapply below_eq; [|exact (Hu 0 0 Hi Hj)]. simpl. ring.
    - apply (beqb_below _ _ _ (zone_eqb_entries n m z Sm Sz E 0 j Hi Hj ltac:(congruence))). auto.
    - apply (beqb_below _ _ _ (zone_eqb_entries n m z Sm Sz E i 0 Hi Hj ltac:(congruence))). auto.
    - apply (beqb_below _ _ _ (zone_eqb_entries n m z Sm Sz E i j Hi Hj ltac:(congruence))). auto.
  Qed.
End Succ.

(* ---------- bookkeeping ---------- *)

Lemma nth_error_set_nth : forall {T} (l : list T) i j x,
  nth_error (set_nth l i x) j = if j =? i then match nth_error l i with Some _ => Some x | None => None end else nth_error l j.
Proof.
  induction l as [|a l IH]; intros i j x; simpl.
  - destruct (j =? i), i, j; auto.
  - destruct i as [|i], j as [|j]; simpl; auto. 
Qed.

Lemma zget_zupd : forall Z i f j, zget (zupd Z i f) j =
  if j =? i then match zget Z i with Some s => Some (f s) | None => None end else zget Z j.
Proof.
  intros Z i f j. unfold zupd. destruct (zget Z i) as [s|] eqn:E.
  - unfold zget in *. simpl. rewrite nth_error_set_nth, E. auto.
  - destruct (Nat.eqb_spec j i); subst; auto.
Qed.

Lemma zupd_length : forall Z i f, length (zsts (zupd Z i f)) = length (zsts Z).
Proof. intros Z i f. unfold zupd. destruct (zget Z i); simpl; auto. apply set_nth_length. Qed.

Lemma zupd_init : forall Z i f, zinit (zupd Z i f) = zinit Z.
Proof. intros Z i f. unfold zupd. destruct (zget Z i); simpl; auto. Qed.

Lemma zget_lt : forall Z i s, zget Z i = Some s -> i < length (zsts Z).
Proof. intros Z i s H. apply nth_error_Some. unfold zget in H. congruence. Qed.

Lemma zget_some : forall Z i, i < length (zsts Z) -> exists s, zget Z i = Some s.
Proof. intros Z i H. unfold zget. destruct (nth_error (zsts Z) i) eqn:E; eauto. apply nth_error_None in E. lia. Qed.

Lemma zget_app : forall sts ini s i, zget (mkZA (sts ++ [s]) ini) i =
  if i =? length sts then Some s else nth_error sts i.
Proof.
  intros. unfold zget; simpl. destruct (Nat.eqb_spec i (length sts)).
  - subst. rewrite nth_error_app2, Nat.sub_diag by lia. auto.
  - destruct (Nat.lt_ge_cases i (length sts)).
    + apply nth_error_app1; auto.
    + rewrite nth_error_app2 by lia. destruct (i - length sts) as [|k] eqn:E; [lia|]. simpl.
      rewrite (proj2 (nth_error_None sts i)) by lia. destruct k; auto.
Qed.

Lemma zfind_from_spec : forall l i q m j, zfind_from l i q m = Some j ->
  exists s, i <= j /\ nth_error l (j - i) = Some s /\ zlive s = true /\ zq s = q /\ zone_eqb m (zm s) = true.
Proof.
  induction l as [|s l IH]; simpl; intros i q m j H; [discriminate|].
  destruct (zlive s && zst_eqb s q m) eqn:E.
  - inversion H; subst. exists s. rewrite Nat.sub_diag. apply andb_true_iff in E as [E1 E2].
    unfold zst_eqb in E2. apply andb_true_iff in E2 as [E2 E3]. apply Nat.eqb_eq in E2. simpl. auto.
  - apply IH in H as (s' & L & N & R). exists s'. split; [lia|]. split; auto.
    replace (j - i) with (S (j - S i)) by lia. auto.
Qed.

Lemma zfind_spec : forall Z q m j, zfind Z q m = Some j ->
  exists s, zget Z j = Some s /\ zlive s = true /\ zq s = q /\ zone_eqb m (zm s) = true.
Proof.
  intros Z q m j H. apply zfind_from_spec in H as (s & _ & N & R). rewrite Nat.sub_0_r in N. exists s. auto.
Qed.

(* growth of the automaton under construction *)
Definition ext (Z Z' : za) : Prop := forall i s, zget Z i = Some s ->
  exists l, zget Z' i = Some (mkZ (zq s) (zm s) (zacc s) (znx s ++ l) (zlive s)).

Lemma ext_refl : forall Z, ext Z Z.
Proof. intros Z i s H. exists []. rewrite app_nil_r. destruct s; auto. Qed.

Lemma ext_trans : forall X Y Z, ext X Y -> ext Y Z -> ext X Z.
Proof.
  intros X Y Z H1 H2 i s H. destruct (H1 i s H) as (l & E). destruct (H2 _ _ E) as (k & E'). simpl in E'.
  rewrite <- app_assoc in E'. eauto.
Qed.

Lemma ext_length : forall X Y, ext X Y -> length (zsts X) <= length (zsts Y).
Proof.
  intros X Y H. destruct (zsts X) as [|a l] eqn:E; [simpl; lia|].
  assert (L : length l < length (zsts X)) by (rewrite E; simpl; lia).
  destruct (zget_some X _ L) as (s & Hs). destruct (H _ _ Hs) as (k & Hk). apply zget_lt in Hk.
  rewrite E in L. simpl in *. lia.
Qed.

Section Build.
  Variables (A : ta) (M : bound).
  Hypothesis W : wf_ta A.
  Hypothesis K : clockSize A <= 255.
  Let n := S (clockSize A).

  Definition st_ok (s : zst) : Prop :=
    square n (zm s) /\ mgood n (zm s) /\ (exists v, zin n (zm s) v) /\ In (zq s) (map fst (states A)) /\ zlive s = true.

  Definition edge_ok (Z : za) (s : zst) (c j : nat) : Prop :=
    c < char_max /\ exists s' e q m, zget Z j = Some s' /\ is_edge A (zq s) c e /\ etgt e = Some q /\
      succ_zone M (elapse (zm s)) e = Some m /\ zq s' = q /\ zone_eqb m (zm s') = true.

  Definition Inv (Z : za) : Prop := forall i s, zget Z i = Some s ->
    st_ok s /\ forall c j, In (c, j) (znx s) -> edge_ok Z s c j.

  Definition covered (Z : za) (i c : nat) (e : edge) : Prop := forall s q m, zget Z i = Some s ->
    etgt e = Some q -> succ_zone M (elapse (zm s)) e = Some m ->
    exists j s', In (c, j) (znx s) /\ zget Z j = Some s' /\ zq s' = q /\ zone_eqb m (zm s') = true.

  Definition expanded (Z : za) (i : nat) : Prop := forall s c e, zget Z i = Some s ->
    is_edge A (zq s) c e -> covered Z i c e.

  Lemma covered_ext : forall Z Z' i c e, ext Z Z' -> i < length (zsts Z) -> covered Z i c e -> covered Z' i c e.
  Proof.
    intros Z Z' i c e X L H s q m Hs Et Es. destruct (zget_some Z i L) as (s0 & H0).
    destruct (X _ _ H0) as (l & Hl). rewrite Hl in Hs. inversion Hs; subst s. simpl in Es.
    destruct (H s0 q m H0 Et Es) as (j & s' & I & G & Q & E). destruct (X _ _ G) as (l' & Hl').
    exists j, (mkZ (zq s') (zm s') (zacc s') (znx s' ++ l') (zlive s')). simpl. repeat split; auto. apply in_or_app; auto.
  Qed.

  Lemma expanded_ext : forall Z Z' i, ext Z Z' -> i < length (zsts Z) -> expanded Z i -> expanded Z' i.
  Proof.
    intros Z Z' i X L H s c e Hs He. destruct (zget_some Z i L) as (s0 & H0).
    destruct (X _ _ H0) as (l & Hl). rewrite Hl in Hs. inversion Hs; subst s. simpl in He.
    apply (covered_ext Z Z'); auto. apply (H s0); auto.
  Qed.

  Lemma edge_ok_ext : forall Z Z' s c j, ext Z Z' -> edge_ok Z s c j -> edge_ok Z' s c j.
  Proof.
    intros Z Z' s c j X (Hc & s' & e & q & m & G & R). split; auto. destruct (X _ _ G) as (l & Hl).
    exists (mkZ (zq s') (zm s') (zacc s') (znx s' ++ l) (zlive s')), e, q, m. simpl. auto.
  Qed.

  Lemma elapse_ok : forall s, st_ok s -> square n (elapse (zm s)) /\ mgood n (elapse (zm s)).
  Proof. intros s (S1 & G1 & _). split; [apply elapse_square; auto|apply elapse_good; auto]. Qed.

  (* one transition *)
  Lemma ta2za_edge_inv : forall Z nq i s c e Z' nq', Inv Z -> zget Z i = Some s -> is_edge A (zq s) c e ->
    ta2za_edge A M i (elapse (zm s)) c e (Z, nq) = Ok (Z', nq') ->
    Inv Z' /\ ext Z Z' /\ zinit Z' = zinit Z /\ covered Z' i c e /\
    (exists l, nq' = nq ++ l /\ forall j, In j l <-> length (zsts Z) <= j < length (zsts Z')) /\
    (forall j s', length (zsts Z) <= j -> zget Z' j = Some s' -> zacc s' = match_at A (zq s')).
  Proof.
    intros Z nq i s c e Z' nq' HI Hs He H. unfold ta2za_edge in H.
    destruct (HI i s Hs) as [SO EO]. destruct (elapse_ok s SO) as [ES EG].
    pose proof (wf_is_edge _ _ _ _ W He) as (WT & WR & WG).
    assert (Triv : Z' = Z /\ nq' = nq -> (etgt e = None \/ succ_zone M (elapse (zm s)) e = None) ->
      Inv Z' /\ ext Z Z' /\ zinit Z' = zinit Z /\ covered Z' i c e /\
      (exists l, nq' = nq ++ l /\ forall j, In j l <-> length (zsts Z) <= j < length (zsts Z')) /\
      (forall j s', length (zsts Z) <= j -> zget Z' j = Some s' -> zacc s' = match_at A (zq s'))).
    { intros [-> ->] D. split; auto. split; [apply ext_refl|]. split; auto. split; [|split].
      - intros s0 q m H0 Et Es. rewrite Hs in H0; inversion H0; subst. destruct D; congruence.
      - exists []. rewrite app_nil_r. split; auto. intros j. simpl. lia.
      - intros j s' Hj Hg. apply zget_lt in Hg. lia. }
    destruct (etgt e) as [q|] eqn:Et; [|inversion H; subst; apply Triv; auto].
    destruct (succ_zone M (elapse (zm s)) e) as [m|] eqn:Es; [|inversion H; subst; apply Triv; auto].
    clear Triv. destruct (Nat.leb_spec char_max c) as [|Hc]; [discriminate|].
    pose proof (succ_zone_ok _ K M _ e m ES EG WR WG Es) as (SM & GM & NM).
    assert (HN : 0 < n) by (unfold n; lia).
    destruct (zfind Z q m) as [j|] eqn:EF.
    - inversion H; subst Z' nq'; clear H. apply zfind_spec in EF as (sj & Gj & Lj & Qj & Ej).
      assert (X : ext Z (zupd Z i (zpush c j))).
      { intros i0 s0 H0. rewrite zget_zupd. destruct (Nat.eqb_spec i0 i); [subst|].
        - rewrite Hs. rewrite Hs in H0; inversion H0; subst. exists [(c, j)]. auto.
        - exists []. rewrite app_nil_r. rewrite H0. destruct s0; auto. }
      assert (NE : edge_ok (zupd Z i (zpush c j)) s c j).
      { apply (edge_ok_ext Z); auto. split; auto. exists sj, e, q, m. do 5 (split; auto). }
      split; [|split; [exact X|split; [apply zupd_init|split; [|split]]]].
      + intros i0 s0 H0. rewrite zget_zupd in H0. destruct (Nat.eqb_spec i0 i); [subst|].
        * rewrite Hs in H0. inversion H0; subst s0. split; [exact SO|]. simpl. intros c' j' I.
          apply in_app_or in I as [I|[I|[]]]; [|inversion I; subst; exact NE].
          apply (edge_ok_ext Z _ s); auto.
        * destruct (HI _ _ H0) as [SO0 EO0]. split; auto. intros c' j' I. apply (edge_ok_ext Z); auto.
      + intros s0 q0 m0 H0 Et0 Es0. rewrite zget_zupd, Nat.eqb_refl, Hs in H0. inversion H0; subst s0. simpl in Es0.
        rewrite Et in Et0. rewrite Es in Es0. inversion Et0; inversion Es0; subst q0 m0.
        destruct (X _ _ Gj) as (l & Hl). exists j. eexists. split; [simpl; apply in_or_app; right; left; reflexivity|].
        split; [exact Hl|]. simpl. auto.
      + exists []. rewrite app_nil_r. split; auto. intros j0. rewrite zupd_length. simpl. lia.
      + intros j0 s' Hj Hg. apply zget_lt in Hg. rewrite zupd_length in Hg. lia.
    - destruct (deref A q) as [ts|] eqn:Ed; [|discriminate]. inversion H; subst Z' nq'; clear H.
      set (new := mkZ q m (isMatch ts) [] true). set (Z1 := mkZA (zsts Z ++ [new]) (zinit Z)). set (j := length (zsts Z)).
      assert (Gn : forall i0, zget Z1 i0 = if i0 =? j then Some new else zget Z i0) by (intros; apply zget_app).
      pose proof (zget_lt _ _ _ Hs) as Li. fold j in Li.
      assert (X : ext Z (zupd Z1 i (zpush c j))).
      { intros i0 s0 H0. pose proof (zget_lt _ _ _ H0) as L0. fold j in L0. rewrite zget_zupd, !Gn.
        destruct (Nat.eqb_spec i0 i); [subst|].
        - destruct (Nat.eqb_spec i j); [lia|]. rewrite Hs. rewrite Hs in H0; inversion H0; subst. exists [(c, j)]. auto.
        - destruct (Nat.eqb_spec i0 j); [lia|]. exists []. rewrite app_nil_r, H0. destruct s0; auto. }
      assert (Gj : zget (zupd Z1 i (zpush c j)) j = Some new).
      { rewrite zget_zupd, !Gn, Nat.eqb_refl. destruct (Nat.eqb_spec j i); [lia|auto]. }
      assert (Em : zone_eqb m m = true) by (apply (zone_eqb_refl n); auto).
      assert (NE : edge_ok (zupd Z1 i (zpush c j)) s c j).
      { split; auto. exists new, e, q, m. do 5 (split; auto). }
      assert (SN : st_ok new).
      { split; [exact SM|split; [exact GM|split; [exact NM|split; [|reflexivity]]]]. simpl. apply assoc_In in Ed. apply (in_map fst _ _ Ed). }
      split; [|split; [exact X|split; [rewrite zupd_init; reflexivity|split; [|split]]]].
      + intros i0 s0 H0. rewrite zget_zupd, !Gn in H0. destruct (Nat.eqb_spec i0 i); [subst|].
        * destruct (Nat.eqb_spec i j); [lia|]. rewrite Hs in H0. inversion H0; subst s0. split; [exact SO|]. simpl. intros c' j' I.
          apply in_app_or in I as [I|[I|[]]]; [|inversion I; subst; exact NE].
          apply (edge_ok_ext Z _ s); auto.
        * destruct (Nat.eqb_spec i0 j).
          -- inversion H0; subst s0. split; auto. intros c' j' [].
          -- destruct (HI _ _ H0) as [SO0 EO0]. split; auto. intros c' j' I. apply (edge_ok_ext Z); auto.
      + intros s0 q0 m0 H0 Et0 Es0. rewrite zget_zupd, !Gn, Nat.eqb_refl in H0. destruct (Nat.eqb_spec i j); [lia|].
        rewrite Hs in H0. inversion H0; subst s0. simpl in Es0.
        rewrite Et in Et0. rewrite Es in Es0. inversion Et0; inversion Es0; subst q0 m0.
        exists j, new. split; [simpl; apply in_or_app; right; left; reflexivity|]. auto.
      + exists [j]. split; auto. intros j0. rewrite zupd_length. unfold Z1; simpl. rewrite app_length. simpl. unfold j. lia.
      + intros j0 s' Hj Hg. pose proof (zget_lt _ _ _ Hg) as L0. rewrite zupd_length in L0. unfold Z1 in L0; simpl in L0.
        rewrite app_length in L0; simpl in L0. fold j in Hj, L0. assert (j0 = j) by lia. subst j0. rewrite Gj in Hg. inversion Hg; subst.
        simpl. unfold match_at. rewrite Ed. auto.
  Qed.

  Definition grows (Z : za) (nq : list nat) (Z' : za) (nq' : list nat) : Prop :=
    Inv Z' /\ ext Z Z' /\ zinit Z' = zinit Z /\
    (exists l, nq' = nq ++ l /\ forall j, In j l <-> length (zsts Z) <= j < length (zsts Z')) /\
    (forall j s', length (zsts Z) <= j -> zget Z' j = Some s' -> zacc s' = match_at A (zq s')).

  Lemma grows_refl : forall Z nq, Inv Z -> grows Z nq Z nq.
  Proof.
    intros Z nq H. split; auto. split; [apply ext_refl|]. split; auto. split.
    - exists []. rewrite app_nil_r. split; auto. intros j. simpl. lia.
    - intros j s' Hj Hg. apply zget_lt in Hg. lia.
  Qed.

  Lemma ext_zget : forall X Y i s, ext X Y -> i < length (zsts X) -> zget Y i = Some s ->
    exists s0 l, zget X i = Some s0 /\ s = mkZ (zq s0) (zm s0) (zacc s0) (znx s0 ++ l) (zlive s0).
  Proof.
    intros X Y i s E L H. destruct (zget_some X i L) as (s0 & H0). destruct (E _ _ H0) as (l & Hl).
    exists s0, l. split; auto. congruence.
  Qed.

  Lemma grows_trans : forall X a Y b Z c, grows X a Y b -> grows Y b Z c -> grows X a Z c.
  Proof.
    intros X a Y b Z c (I1 & E1 & N1 & (l1 & L1 & R1) & A1) (I2 & E2 & N2 & (l2 & L2 & R2) & A2).
    pose proof (ext_length _ _ E1) as LE1. pose proof (ext_length _ _ E2) as LE2.
    split; auto. split; [eapply ext_trans; eauto|]. split; [congruence|]. split.
    - exists (l1 ++ l2). split; [subst; rewrite app_assoc; auto|]. intros j. rewrite in_app_iff, R1, R2. lia.
    - intros j s' Hj Hg. destruct (Nat.lt_ge_cases j (length (zsts Y))) as [L|L].
      + destruct (ext_zget _ _ _ _ E2 L Hg) as (s0 & l & H0 & ->). simpl. apply (A1 j s0); auto.
      + apply (A2 j); auto.
  Qed.

  Lemma fold_out_inv : forall {S X} (f : X -> S -> outcome S) (P : list X -> S -> Prop) l s s',
    P [] s -> (forall d x t t', In x l -> P d t -> f x t = Ok t' -> P (d ++ [x]) t') ->
    fold_out f l s = Ok s' -> P l s'.
  Proof.
    intros S X f P l s s' H0 HS.
    assert (G : forall r d t, (forall x, In x r -> In x l) -> P d t -> fold_out f r t = Ok s' -> P (d ++ r) s').
    { induction r as [|x r IH]; intros d t HR HP HF; simpl in HF.
      - inversion HF; subst. rewrite app_nil_r. auto.
      - destruct (f x t) as [t1| | | |] eqn:E; simpl in HF; try discriminate.
        replace (d ++ x :: r) with ((d ++ [x]) ++ r) by (rewrite <- app_assoc; auto).
        apply (IH _ t1); auto; [intros; apply HR; right; auto|]. eapply HS; eauto. apply HR. left; auto. }
    intros H. apply (G l [] s); auto.
  Qed.

  Lemma ta2za_conf_inv : forall Z i Z' nq', Inv Z -> ta2za_conf A M i (Z, []) = Ok (Z', nq') ->
    grows Z [] Z' nq' /\ expanded Z' i.
  Proof.
    intros Z i Z' nq' HI H. unfold ta2za_conf in H. simpl in H.
    destruct (zget Z i) as [s|] eqn:Hs; [|discriminate]. destruct (deref A (zq s)) as [ts|] eqn:Ed; [|discriminate].
    pose proof (zget_lt _ _ _ Hs) as Li.
    assert (Hts : In (zq s, ts) (states A)) by (apply assoc_In; auto).
    assert (Same : forall Zc, ext Z Zc -> exists l, zget Zc i = Some (mkZ (zq s) (zm s) (zacc s) (znx s ++ l) (zlive s))) by (intros Zc E; apply E; auto).
    assert (G : grows Z [] Z' nq' /\ forall ce e, In ce (next ts) -> In e (snd ce) -> covered Z' i (fst ce) e).
    { apply (fold_out_inv _ (fun d (p : za * list nat) => grows Z [] (fst p) (snd p) /\
         forall ce e, In ce d -> In e (snd ce) -> covered (fst p) i (fst ce) e)) in H; [exact H| |].
      - split; [apply grows_refl; auto|]. intros ce e [].
      - intros d [c es] [Z1 q1] [Z2 q2] Hce [G1 C1] H1. cbn [fst snd] in *.
        apply (fold_out_inv _ (fun d' (p : za * list nat) => grows Z1 q1 (fst p) (snd p) /\
           forall e, In e d' -> covered (fst p) i c e)) in H1.
        + destruct H1 as [G2 C2]. cbn [fst snd] in *. pose proof (grows_trans _ _ _ _ _ _ G1 G2) as G3. split; auto.
          intros ce e Hd He. apply in_app_or in Hd as [Hd|[<-|[]]]; [|apply C2; auto].
          apply (covered_ext Z1); [apply G2| |apply C1; auto].
          destruct G1 as (_ & E1 & _). pose proof (ext_length _ _ E1). lia.
        + split; [apply grows_refl; apply G1|]. intros e [].
        + intros d' e [Z3 q3] [Z4 q4] He [G3 C3] H3. cbn [fst snd] in *.
          pose proof (grows_trans _ _ _ _ _ _ G1 G3) as G13. destruct (Same Z3 (proj1 (proj2 G13))) as (l & Hl).
          destruct (ta2za_edge_inv Z3 q3 i _ c e Z4 q4 (proj1 G3) Hl) as (A1 & A2 & A3 & A4 & A5 & A6).
          * simpl. exists ts, es. auto.
          * exact H3.
          * assert (G4 : grows Z3 q3 Z4 q4) by (repeat (split; auto)). split; [eapply grows_trans; eauto|].
            intros e' He'. apply in_app_or in He' as [He'|[<-|[]]]; [|exact A4].
            apply (covered_ext Z3); auto. destruct G13 as (_ & E1 & _). pose proof (ext_length _ _ E1). lia. }
    destruct G as [G C]. split; auto. intros s' c e Hs' He. destruct (Same Z' (proj1 (proj2 G))) as (l & Hl).
    rewrite Hl in Hs'. inversion Hs'; subst s'. simpl in He. destruct He as (ts' & es & I1 & I2 & I3).
    assert (ts' = ts) by (pose proof (In_assoc _ _ _ (wf_nodup _ W) I1); unfold deref in Ed; congruence). subst ts'.
    apply (C (c, es)); auto.
  Qed.

  Lemma ta2za_loop_inv : forall fuel Z queue Z', Inv Z ->
    (forall i, i < length (zsts Z) -> In i queue \/ expanded Z i) ->
    ta2za_loop fuel A M Z queue = Ok Z' ->
    Inv Z' /\ ext Z Z' /\ zinit Z' = zinit Z /\ (forall i, expanded Z' i) /\
    (forall j s', length (zsts Z) <= j -> zget Z' j = Some s' -> zacc s' = match_at A (zq s')).
  Proof.
    induction fuel as [|f IH]; intros Z queue Z' HI HQ H.
    - destruct queue; simpl in H; [|discriminate]. inversion H; subst.
      split; auto. split; [apply ext_refl|]. split; auto. split.
      + intros i s c e Hs. pose proof (zget_lt _ _ _ Hs) as L. destruct (HQ i L) as [[]|X]. apply X; auto.
      + intros j s' Hj Hg. apply zget_lt in Hg. lia.
    - destruct queue as [|i rest]; simpl in H.
      { inversion H; subst.
        split; auto. split; [apply ext_refl|]. split; auto. split.
        + intros i s c e Hs. pose proof (zget_lt _ _ _ Hs) as L. destruct (HQ i L) as [[]|X]. apply X; auto.
        + intros j s' Hj Hg. apply zget_lt in Hg. lia. }
      destruct (ta2za_conf A M i (Z, [])) as [[Z1 nq]| | | |] eqn:E; simpl in H; try discriminate.
      destruct (ta2za_conf_inv _ _ _ _ HI E) as [(I1 & E1 & N1 & (l & -> & R) & A1) X1]. simpl in *.
      apply IH in H; auto.
      + destruct H as (I2 & E2 & N2 & X2 & A2). split; auto. split; [eapply ext_trans; eauto|]. split; [congruence|]. split; auto.
        intros j s' Hj Hg. destruct (Nat.lt_ge_cases j (length (zsts Z1))) as [L|L].
        * destruct (ext_zget _ _ _ _ E2 L Hg) as (s0 & k & H0 & ->). simpl. apply (A1 j s0); auto.
        * apply (A2 j); auto.
      + intros j Lj. destruct (Nat.lt_ge_cases j (length (zsts Z))) as [L|L].
        * destruct (HQ j L) as [[->|Q]|X]; auto.
          -- left. apply in_or_app; auto.
          -- right. apply (expanded_ext Z); auto.
        * left. apply in_or_app. right. apply R. lia.
  Qed.

  (* ---------- the whole construction ---------- *)

  Definition default_zone (iz : mat) : mat := match iz with [] => fill n bzero | _ => iz end.

  Definition zone_ok (m : mat) : Prop := square n m /\ mgood n m /\ exists v, zin n m v.

  Lemma zero_zone_ok : zone_ok (fill n bzero) /\ zin n (fill n bzero) zeroval.
  Proof.
    assert (zin n (fill n bzero) zeroval).
    { intros i j Hi Hj. rewrite mget_fill by auto. unfold ev, zeroval, bzero, below. simpl. destruct i, j; lra. }
    split; auto. split; [apply fill_square|]. split; [|eauto]. intros i j Hi Hj. rewrite mget_fill by auto. exact I.
  Qed.

  Definition new_state (z : mat) (p : ptr) : zst := mkZ p z (match_at A p) [] true.

  Lemma new_states_ok : forall z l acc, (forall p, In p l -> In p (map fst (states A))) ->
    fold_out (fun p l => match deref A p with
                   | Some s => Ok (l ++ [mkZ p z (isMatch s) [] true])
                   | None => UB
                   end) l acc = Ok (acc ++ map (new_state z) l).
  Proof.
    induction l as [|p l IH]; intros acc H; simpl; [rewrite app_nil_r; auto|].
    destruct (deref A p) as [s|] eqn:E.
    - simpl. rewrite IH by (intros; apply H; right; auto). rewrite <- app_assoc. simpl. do 3 f_equal.
      unfold new_state, match_at. rewrite E. auto.
    - exfalso. apply assoc_None in E. apply E. apply H. left; auto.
  Qed.

  Lemma zget_app1 : forall sts ini ss i s, zget (mkZA (sts ++ ss) ini) i = Some s ->
    (i < length sts /\ nth_error sts i = Some s) \/ (length sts <= i /\ nth_error ss (i - length sts) = Some s).
  Proof.
    intros sts ini ss i s H. unfold zget in H. simpl in H. destruct (Nat.lt_ge_cases i (length sts)).
    - rewrite nth_error_app1 in H by auto. auto.
    - rewrite nth_error_app2 in H by auto. auto.
  Qed.

  Lemma ta2za_inv : forall fuel Z iz Z', M = max_const A -> Inv Z -> (forall i, expanded Z i) ->
    zone_ok (default_zone iz) -> ta2za fuel A Z iz = Ok Z' ->
    Inv Z' /\ ext Z Z' /\ (forall i, expanded Z' i) /\
    (forall i, In i (zinit Z') <-> In i (zinit Z) \/
       exists s p, length (zsts Z) <= i /\ zget Z' i = Some s /\ In p (inits A) /\ zq s = p /\ zm s = default_zone iz /\ In i (zinit Z')) /\
    (forall p, In p (inits A) -> exists i s, zget Z' i = Some s /\ zq s = p /\ zone_eqb (default_zone iz) (zm s) = true /\
       (zsts Z = [] -> In i (zinit Z') /\ zm s = default_zone iz)) /\
    (forall j s', length (zsts Z) <= j -> zget Z' j = Some s' -> zacc s' = match_at A (zq s')).
  Proof.
    intros fuel Z iz Z' HM HI HE HZ H. unfold ta2za in H. fold n in H. fold (default_zone iz) in H.
    set (z := default_zone iz) in *. destruct HZ as (Zs & Zg & Zn).
    set (new := filter (fun p => match zfind Z p z with Some _ => false | None => true end) (inits A)) in *.
    assert (Old : forall p, In p (inits A) -> In p new \/ exists i s, zget Z i = Some s /\ zq s = p /\ zone_eqb z (zm s) = true).
    { intros p Hp. destruct (zfind Z p z) as [i|] eqn:E.
      - right. apply zfind_spec in E. destruct E as (s & G & L & Q & E). eauto 6.
      - left. apply filter_In. rewrite E. auto. }
    assert (NewI : forall p, In p new -> In p (inits A)) by (intros p Hp; apply filter_In in Hp; tauto).
    assert (NewS : forall p, In p new -> In p (map fst (states A))) by (intros p Hp; apply (wf_inits _ W); auto).
    destruct new as [|p0 new'] eqn:EN.
    { inversion H; subst Z'. split; auto. split; [apply ext_refl|]. split; auto. split.
      - intros i. split; auto. intros [X|(s & p & L & G & _)]; auto. 
        apply zget_lt in G. lia.
      - split.
        + intros p Hp. destruct (Old p Hp) as [[]|(i & s & G & Q & E)]. exists i, s. split; auto. split; auto. split; auto.
          intros E0. unfold zget in G. rewrite E0 in G. destruct i; discriminate.
        + intros j s' L G. apply zget_lt in G. lia. }
    rewrite <- EN in *. clear p0 new' EN.
    rewrite (new_states_ok z new []) in H by auto. simpl in H.
    set (Z1 := mkZA (zsts Z ++ map (new_state z) new) (zinit Z ++ seq (length (zsts Z)) (length new))) in *.
    assert (X1 : ext Z Z1).
    { intros i s G. exists []. rewrite app_nil_r. unfold zget, Z1. simpl.
      rewrite nth_error_app1 by (apply (zget_lt _ _ _ G)). pose proof G as G9; unfold zget in G9; rewrite G9. destruct s; auto. }
    assert (I1 : Inv Z1).
    { intros i s G. destruct (zget_app1 _ _ _ _ _ G) as [[L G0]|[L G0]].
      - destruct (HI i s G0) as [A1 A2]. split; auto. intros c j Hc. apply (edge_ok_ext Z); auto.
      - apply nth_error_In in G0. apply in_map_iff in G0 as (p & <- & Hp). split; [|intros c j []].
        repeat (split; auto). }
    rewrite <- HM in H. apply ta2za_loop_inv in H; auto.
    2:{ intros i L. unfold Z1 in L. simpl in L. rewrite app_length, map_length in L. destruct (Nat.lt_ge_cases i (length (zsts Z))).
        - right. apply (expanded_ext Z); auto.
        - left. apply in_seq. lia. }
    destruct H as (I2 & X2 & N2 & E2 & A2).
    assert (NewG : forall k p, nth_error new k = Some p -> exists l,
       zget Z' (length (zsts Z) + k) = Some (mkZ p z (match_at A p) l true)).
    { intros k p Hk. assert (G : zget Z1 (length (zsts Z) + k) = Some (new_state z p)).
      { unfold zget, Z1. simpl. rewrite nth_error_app2 by lia. replace (length (zsts Z) + k - length (zsts Z)) with k by lia.
        rewrite nth_error_map, Hk. auto. }
      destruct (X2 _ _ G) as (l & Hl). simpl in Hl. exists l. auto. }
    split; auto. split; [eapply ext_trans; eauto|]. split; auto. split.
    - intros i. rewrite N2. unfold Z1. simpl. rewrite in_app_iff, in_seq. split.
      + intros [Hi|Hi]; auto. right. destruct (nth_error new (i - length (zsts Z))) as [p|] eqn:E.
        * destruct (NewG _ _ E) as (l & Hl). replace (length (zsts Z) + (i - length (zsts Z))) with i in Hl by lia.
          exists (mkZ p z (match_at A p) l true), p. split; [lia|]. split; auto. split; [apply NewI; eapply nth_error_In; eauto|].
          simpl. split; auto. split; auto. apply in_or_app. right. apply in_seq. lia.
        * apply nth_error_None in E. lia.
      + intros [Hi|(s & p & L & _ & _ & _ & _ & Hi)]; auto. apply in_app_or in Hi. rewrite in_seq in Hi. auto.
    - split.
      + intros p Hp. destruct (Old p Hp) as [Hn|(i & s & G & Q & E)].
        * apply In_nth_error in Hn as (k & Hk). destruct (NewG _ _ Hk) as (l & Hl).
          exists (length (zsts Z) + k), (mkZ p z (match_at A p) l true). split; auto. split; auto. split.
          -- simpl. apply (zone_eqb_refl n); auto. unfold n; lia.
          -- intros _. split; auto. rewrite N2. unfold Z1. simpl. apply in_or_app. right. apply in_seq.
             assert (k < length new) by (apply nth_error_Some; congruence). lia.
        * assert (X3 : ext Z Z') by (eapply ext_trans; eauto). destruct (X3 _ _ G) as (l & Hl).
          exists i, (mkZ (zq s) (zm s) (zacc s) (znx s ++ l) (zlive s)). simpl. split; auto. split; auto. split; auto.
          intros E0. unfold zget in G. rewrite E0 in G. destruct i; discriminate.
      + intros j s' L G. destruct (Nat.lt_ge_cases j (length (zsts Z1))) as [L1|L1].
        * destruct (ext_zget _ _ _ _ X2 L1 G) as (s0 & l & G0 & ->). simpl.
          destruct (zget_app1 _ _ _ _ _ G0) as [[L2 G2]|[L2 G2]]; [lia|].
          apply nth_error_In in G2. apply in_map_iff in G2 as (p & <- & Hp). auto.
        * apply (A2 j); auto.
  Qed.

  (* the construction never meets undefined behaviour *)
  Definition labels_ok : Prop := forall p c e, is_edge A p c e -> c < char_max.

  Lemma ta2za_edge_fine : forall Z nq i s c e, labels_ok -> Inv Z -> zget Z i = Some s -> is_edge A (zq s) c e ->
    exists Z' nq', ta2za_edge A M i (elapse (zm s)) c e (Z, nq) = Ok (Z', nq').
  Proof.
    intros Z nq i s c e HL HI Hs He. unfold ta2za_edge. destruct (etgt e) as [q|] eqn:Et; eauto.
    destruct (succ_zone M (elapse (zm s)) e) as [m|]; eauto.
    pose proof (HL _ _ _ He) as L. destruct (Nat.leb_spec char_max c); [lia|].
    destruct (zfind Z q m); eauto.
    pose proof (wf_is_edge _ _ _ _ W He) as (WT & _). pose proof (WT q Et) as Hq.
    destruct (deref A q) eqn:E; eauto. exfalso. apply assoc_None in E. contradiction.
  Qed.

  Lemma fold_out_fine : forall {T X} (f : X -> T -> outcome T) (P : T -> Prop) l s,
    P s -> (forall x t, In x l -> P t -> exists t', f x t = Ok t' /\ P t') -> exists s', fold_out f l s = Ok s' /\ P s'.
  Proof.
    induction l as [|x l IH]; intros s Hs Hf; simpl; eauto.
    destruct (Hf x s) as (t & E & Pt); [left; auto|auto|]. rewrite E. simpl. apply IH; auto. intros. apply Hf; auto. right; auto.
  Qed.

  Lemma ta2za_conf_fine : forall Z i, labels_ok -> Inv Z -> i < length (zsts Z) ->
    exists Z' nq', ta2za_conf A M i (Z, []) = Ok (Z', nq').
  Proof.
    intros Z i HL HI Hi. unfold ta2za_conf. simpl. destruct (zget_some Z i Hi) as (s & Hs). rewrite Hs.
    destruct (HI i s Hs) as [(S1 & S2 & S3 & S4 & S5) _].
    destruct (deref A (zq s)) as [ts|] eqn:Ed; [|exfalso; apply assoc_None in Ed; contradiction].
    assert (Hts : In (zq s, ts) (states A)) by (apply assoc_In; auto).
    destruct (fold_out_fine (fun ce Zq => fold_out (fun e Zq => ta2za_edge A M i (elapse (zm s)) (fst ce) e Zq) (snd ce) Zq)
       (fun p => Inv (fst p) /\ ext Z (fst p)) (next ts) (Z, [])) as ([Z' nq'] & E & _); eauto.
    - split; auto. apply ext_refl.
    - intros [c es] [Z1 q1] Hce [I1 X1]. apply fold_out_fine; auto. intros e [Z2 q2] He [I2 X2]. cbn [fst snd] in *.
      destruct (X2 _ _ Hs) as (l & Hl).
      assert (Hed : is_edge A (zq s) c e) by (exists ts, es; auto).
      destruct (ta2za_edge_fine Z2 q2 i _ c e HL I2 Hl Hed) as (Z3 & q3 & E). simpl in E.
      exists (Z3, q3). split; auto. destruct (ta2za_edge_inv Z2 q2 i _ c e Z3 q3 I2 Hl Hed E) as (A1 & A2 & _).
      split; auto. eapply ext_trans; eauto.
  Qed.

  Lemma ta2za_loop_fine : forall fuel Z queue, labels_ok -> Inv Z ->
    (forall i, In i queue -> i < length (zsts Z)) ->
    ta2za_loop fuel A M Z queue = OutOfFuel \/ exists Z', ta2za_loop fuel A M Z queue = Ok Z'.
  Proof.
    induction fuel as [|f IH]; intros Z queue HL HI HQ; destruct queue as [|i rest]; simpl; eauto.
    destruct (ta2za_conf_fine Z i HL HI) as (Z' & nq' & E); [apply HQ; left; auto|]. rewrite E. simpl.
    destruct (ta2za_conf_inv _ _ _ _ HI E) as [(I1 & X1 & _ & (l & -> & R) & _) _]. simpl.
    apply IH; auto. intros j Hj. apply in_app_or in Hj as [Hj|Hj].
    - assert (j < length (zsts Z)) by (apply HQ; right; auto). pose proof (ext_length _ _ X1). lia.
    - apply R in Hj. lia.
  Qed.

  (* ---------- simulation ---------- *)

  Lemma zedge_intro : forall Z i s c j, Inv Z -> zget Z i = Some s -> In (c, j) (znx s) -> zedge Z i c j.
  Proof.
    intros Z i s c j HI Hs Hc. destruct (HI i s Hs) as [(_ & _ & _ & _ & L) EO].
    destruct (EO c j Hc) as (_ & s' & e & q & m & G & _). destruct (HI j s' G) as [(_ & _ & _ & _ & L') _].
    exists s. repeat (split; auto). exists s'. auto.
  Qed.

  Lemma ta2za_step : forall Z i s c e q v d, Inv Z -> expanded Z i -> zget Z i = Some s -> zin n (zm s) v -> (0 < d)%Q ->
    is_edge A (zq s) c e -> etgt e = Some q -> sat_guard (delay v d) (eguard e) ->
    exists j s', zedge Z i c j /\ zget Z j = Some s' /\ zq s' = q /\ zin n (zm s') (reset_set (delay v d) (eresets e)).
  Proof.
    intros Z i s c e q v d HI HX Hs Hv Hd He Et Hg.
    destruct (HI i s Hs) as [SO _]. pose proof SO as (S1 & S2 & _). destruct (elapse_ok s SO) as [ES EG].
    pose proof (wf_is_edge _ _ _ _ W He) as (WT & WR & WG).
    pose proof (elapse_forward n _ _ d S1 S2 Hv Hd) as Hel.
    destruct (succ_zone_forward (clockSize A) K M _ e (delay v d) ES EG WR WG Hel Hg) as (m & Em & Hm).
    destruct (HX s c e Hs He s q m Hs Et Em) as (j & s' & Hin & G & Q & E).
    exists j, s'. split; [eapply zedge_intro; eauto|]. split; auto. split; auto.
    destruct (succ_zone_ok (clockSize A) K M _ e m ES EG WR WG Em) as (M1 & M2 & (u & Hu)).
    destruct (HI j s' G) as [(T1 & T2 & (u' & Hu') & _) _].
    apply (zone_eqb_zin (clockSize A) m (zm s') u u'); auto.
  Qed.

  Lemma ta2za_run : forall Z, Inv Z -> (forall i, expanded Z i) ->
    forall p v T w q v' T', run A p v T w q v' T' -> increasing T w ->
    forall i s, zget Z i = Some s -> zq s = p -> zin n (zm s) v ->
    exists j s', zpath Z i (map fst w) j /\ zget Z j = Some s' /\ zq s' = q /\ zin n (zm s') v'.
  Proof.
    intros Z HI HX p v T w q v' T' R. induction R as [|p v T c t e w q p' v' T' He Ht Hg R IH]; intros Inc i s Hs Hq Hz.
    - exists i, s. split; [constructor|]. auto.
    - destruct Inc as [Hd Inc]. subst p.
      destruct (ta2za_step Z i s c e q v (t - T)%Q) as (j & s' & E & G & Q & Hz'); auto; [lra|].
      destruct (IH Inc j s' G Q Hz') as (k & s2 & P & G2 & Q2 & Z2).
      exists k, s2. split; auto. simpl. econstructor; eauto.
  Qed.
End Build.
