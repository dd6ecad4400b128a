(* Facts about IntermediateZone: every operation, in both representations, is
   exact on the sets it denotes and keeps the matrix canonical. *)
From Coq Require Import QArith Lqa Bool List ZArith Arith Lia.
From Verif Require Import Num NumFacts Outcome Constraint Zone ZoneFacts ZoneOps TA Spec TAFacts ZA Word Monaa MonaaFacts Skip EpsZone.
Import ListNotations.
Open Scope nat_scope.

(* ---------------- relaxation ---------------- *)

Definition valid (n : nat) (m : mat) : Prop := forall i j, i < n -> j < n -> ble bzero (badd (mget m i j) (mget m j i)).

Lemma valid_diag : forall n m i, mgood n m -> valid n m -> i < n -> ble bzero (mget m i i).
Proof. intros n m i G V H. apply diag_from_sum; auto. Qed.

(* One step: an entry is lowered to the sum along a path of length two. *)
Inductive relaxes (n : nat) : mat -> mat -> Prop :=
| rl_refl : forall m, relaxes n m m
| rl_step : forall m i x j m', i < n -> x < n -> j < n ->
    relaxes n (mset m i j (bmin (mget m i j) (badd (mget m i x) (mget m x j)))) m' -> relaxes n m m'.

Lemma relaxes_trans : forall n a b c, relaxes n a b -> relaxes n b c -> relaxes n a c.
Proof. intros n a b c R. induction R as [m|m i x j m1 Hi Hx Hj R IH]; intros Q; auto. apply (rl_step n m i x j); auto. Qed.

Lemma relaxes_square : forall n m m', relaxes n m m' -> square n m -> square n m'.
Proof. intros n m m' R. induction R; auto. intros. apply IHR. apply square_mset; auto. Qed.

Lemma relax1_good : forall n m i x j, square n m -> mgood n m -> i < n -> x < n -> j < n ->
  mgood n (mset m i j (bmin (mget m i j) (badd (mget m i x) (mget m x j)))).
Proof. intros. apply mset_good; auto. auto with bnd. Qed.

Lemma relaxes_good : forall n m m', relaxes n m m' -> square n m -> mgood n m -> mgood n m'.
Proof. intros n m m' R. induction R; auto. intros. apply IHR; [apply square_mset; auto|apply relax1_good; auto]. Qed.

Lemma relaxes_le : forall n m m', relaxes n m m' -> square n m -> mgood n m ->
  forall a b, a < n -> b < n -> ble (mget m' a b) (mget m a b).
Proof.
  intros n m m' R. induction R as [m|m i x j m' Hi Hx Hj R IH]; intros S G a b Ha Hb; [apply ble_refl; auto|].
  pose proof (relax1_good n m i x j S G Hi Hx Hj) as G1.
  pose proof (square_mset n m i j (bmin (mget m i j) (badd (mget m i x) (mget m x j))) S) as S1.
  apply ble_trans with (mget (mset m i j (bmin (mget m i j) (badd (mget m i x) (mget m x j)))) a b); auto.
  - apply (relaxes_good _ _ _ R); auto.
  - rewrite (mget_mset n) by auto. destruct (Nat.eqb_spec a i), (Nat.eqb_spec b j); cbn [andb]; subst; try (apply ble_refl; solve [auto]).
    apply bmin_l; auto with bnd.
Qed.

Lemma relaxes_zin : forall n m m' v, relaxes n m m' -> square n m -> mgood n m -> (zin n m' v <-> zin n m v).
Proof.
  intros n m m' v R. induction R as [m|m i x j m' Hi Hx Hj R IH]; intros S G; [tauto|].
  pose proof (relax1_good n m i x j S G Hi Hx Hj) as G1.
  pose proof (square_mset n m i j (bmin (mget m i j) (badd (mget m i x) (mget m x j))) S) as S1.
  rewrite IH by auto. split; intros H a b Ha Hb.
  - eapply below_ble; [| | |apply (H a b Ha Hb)]; auto. rewrite (mget_mset n) by auto.
    destruct (Nat.eqb_spec a i), (Nat.eqb_spec b j); cbn [andb]; subst; try (apply ble_refl; solve [auto]).
    apply bmin_l; auto with bnd.
  - rewrite (mget_mset n) by auto. destruct (Nat.eqb_spec a i), (Nat.eqb_spec b j); cbn [andb]; subst; auto.
    apply below_min; auto with bnd. split; auto. eapply below_sum; [| |apply (H i x)|apply (H x j)|]; auto. lra.
Qed.

(* A triangular lower bound stays one. *)
Lemma relaxes_above : forall n m m' (H : nat -> nat -> bound), relaxes n m m' -> square n m -> mgood n m ->
  (forall a b, a < n -> b < n -> good (H a b)) ->
  (forall a b c, a < n -> b < n -> c < n -> ble (H a b) (badd (H a c) (H c b))) ->
  (forall a b, a < n -> b < n -> ble (H a b) (mget m a b)) ->
  forall a b, a < n -> b < n -> ble (H a b) (mget m' a b).
Proof.
  intros n m m' H R. induction R as [m|m i x j m' Hi Hx Hj R IH]; intros S G GH T L a b Ha Hb; auto.
  apply IH; auto.
  - apply square_mset; auto.
  - apply relax1_good; auto.
  - intros a' b' Ha' Hb'. rewrite (mget_mset n) by auto. destruct (Nat.eqb_spec a' i), (Nat.eqb_spec b' j); cbn [andb]; subst; auto.
    apply bmin_glb; auto. eapply ble_trans; [| | |apply (T i j x)|apply badd_mono]; auto with bnd.
Qed.

(* An unused index. *)
Definition dead (n : nat) (m : mat) (k : nat) : Prop :=
  ble bzero (mget m k k) /\ forall j, j < n -> j <> k -> fst (mget m k j) = PInf /\ fst (mget m j k) = PInf.

Lemma pinf_add_l : forall a b, good b -> fst a = PInf -> fst (badd a b) = PInf.
Proof. intros [[| |x|] s] [[| |y|] s']; unfold good; cbn; intros; auto; try discriminate; contradiction. Qed.
Lemma pinf_add_r : forall a b, good a -> fst b = PInf -> fst (badd a b) = PInf.
Proof. intros [[| |x|] s] [[| |y|] s']; unfold good; cbn; intros; auto; try discriminate; contradiction. Qed.
Lemma ble_pinf : forall a b, good a -> fst b = PInf -> ble a b.
Proof. intros [[| |x|] []] [[| |y|] []]; unfold good, ble; cbn; intros; try discriminate; try contradiction; auto. Qed.
Lemma pinf_min : forall a b, fst a = PInf -> fst b = PInf -> fst (bmin a b) = PInf.
Proof. intros a b H1 H2. destruct (bmin_cases a b) as [->| ->]; auto. Qed.

Lemma relaxes_dead : forall n m m' k, relaxes n m m' -> k < n -> square n m -> mgood n m -> dead n m k -> dead n m' k.
Proof.
  intros n m m' k R Hk. induction R as [m|m i x j m' Hi Hx Hj R IH]; intros S G [D0 D]; auto; [split; auto|].
  apply IH; [apply square_mset; auto|apply relax1_good; auto|]. split.
  - rewrite (mget_mset n) by auto. destruct (Nat.eqb_spec k i), (Nat.eqb_spec k j); cbn [andb]; subst; subst; auto.
    apply bmin_glb; auto. destruct (Nat.eq_dec x j) as [->|Nx].
    + eapply ble_trans; [| | |exact D0|apply badd_nonneg_l]; auto with bnd.
    + apply ble_pinf; auto with bnd. apply pinf_add_l; auto. apply D; auto.
  - intros b Hb Nb. destruct (D b Hb Nb) as [D1 D2]. rewrite !(mget_mset n) by auto. split.
    + destruct (Nat.eqb_spec k i), (Nat.eqb_spec b j); cbn [andb]; subst; auto. apply pinf_min; auto.
      destruct (Nat.eq_dec x i) as [->|Nx]; [apply pinf_add_r; auto|apply pinf_add_l; auto; apply D; auto].
    + destruct (Nat.eqb_spec b i), (Nat.eqb_spec k j); cbn [andb]; subst; auto. apply pinf_min; auto.
      destruct (Nat.eq_dec x j) as [->|Nx]; [apply pinf_add_l; auto|apply pinf_add_r; auto; apply D; auto].
Qed.

(* ---------------- close1 ---------------- *)

(* Closing through one more index, whatever the order. *)
Lemma close1_tri : forall n k m (P : nat -> Prop), square n m -> mgood n m -> k < n ->
  (forall i, i < n -> ble bzero (mget (close1 m k) i i)) ->
  (forall i j l, i < n -> j < n -> l < n -> P l -> ble (mget m i j) (badd (mget m i l) (mget m l j))) ->
  forall i j l, i < n -> j < n -> l < n -> P l \/ l = k ->
    ble (mget (close1 m k) i j) (badd (mget (close1 m k) i l) (mget (close1 m k) l j)).
Proof.
  intros n k m' P Hs Hg' Hk Hd' IH.
  assert (Hd : forall i, i < n -> ble bzero (mget m' i i)).
  { intros i Hi. eapply ble_trans; [| | |apply Hd'; auto|apply (close1_le n k m'); auto]; auto with bnd.
    apply (close1_good n k m'); auto. }
  assert (HG : mgood n (close1 m' k)) by (apply close1_good; auto).
  pose proof (close1_exact n k m' Hs Hk Hg' (Hd k Hk)) as EX.
  assert (U1 : forall i j, i < n -> j < n -> ble (mget (close1 m' k) i j) (mget m' i j))
    by (intros; apply (close1_le n k m'); auto).
  assert (U2 : forall i j, i < n -> j < n ->
             ble (mget (close1 m' k) i j) (badd (mget m' i k) (mget m' k j))).
  { intros i j Hi Hj. destruct (EX i j Hi Hj) as [E _].
    eapply ble_trans; [| | |exact E|]; auto with bnd.
    eapply ble_trans; [| | |apply bmin_r|]; auto using badd_comm_le with bnd. }
  assert (LB : forall i j, i < n -> j < n ->
             ble (mget m' i j) (mget (close1 m' k) i j) \/
             ble (badd (mget m' i k) (mget m' k j)) (mget (close1 m' k) i j)).
  { intros i j Hi Hj. destruct (EX i j Hi Hj) as [_ E].
    destruct (bmin_cases (mget m' i j) (badd (mget m' k j) (mget m' i k))) as [W|W]; rewrite W in E.
    - left; auto.
    - right. eapply ble_trans; [| | |apply badd_comm_le|exact E]; auto with bnd. }
  assert (Rk : forall j, j < n -> ble (mget m' k j) (mget (close1 m' k) k j)).
  { intros j Hj. destruct (LB k j Hk Hj) as [E|E]; auto.
    eapply ble_trans; [| | |apply badd_nonneg_l|exact E]; auto with bnd. }
  assert (Ck : forall i, i < n -> ble (mget m' i k) (mget (close1 m' k) i k)).
  { intros i Hi. destruct (LB i k Hi Hk) as [E|E]; auto.
    eapply ble_trans; [| | |apply badd_nonneg_r|exact E]; auto with bnd. }
  intros i j l Hi Hj Hln Pl.
  destruct (Nat.eq_dec l k) as [->|Hlk].
  - eapply ble_trans; [| | |apply U2; auto|apply badd_mono; auto]; auto with bnd.
  - assert (Pl' : P l) by (destruct Pl; [auto|congruence]).
    destruct (LB i l Hi Hln) as [A|A]; destruct (LB l j Hln Hj) as [B|B].
    + eapply ble_trans; [| | |apply U1; auto|]; auto with bnd.
      eapply ble_trans; [| | |apply (IH i j l); auto|apply badd_mono; auto]; auto with bnd.
    + eapply ble_trans; [| | |apply U2; auto|]; auto with bnd.
      eapply ble_trans with (badd (badd (mget m' i l) (mget m' l k)) (mget m' k j)); auto with bnd.
      { apply badd_mono_l; auto with bnd. }
      eapply ble_trans; [| | |apply badd_assoc_ge|]; auto 6 with bnd.
      apply badd_mono; auto with bnd.
    + eapply ble_trans; [| | |apply U2; auto|]; auto with bnd.
      eapply ble_trans with (badd (mget m' i k) (badd (mget m' k l) (mget m' l j))); auto with bnd.
      { apply badd_mono_r; auto with bnd. }
      eapply ble_trans; [| | |apply badd_assoc_le|]; auto 6 with bnd.
      apply badd_mono; auto with bnd.
    + eapply ble_trans; [| | |apply U2; auto|]; auto with bnd.
      eapply ble_trans with (badd (badd (mget m' i k) (mget m' k l)) (badd (mget m' l k) (mget m' k j)));
        [auto with bnd | auto 6 with bnd | auto with bnd | | apply badd_mono; auto with bnd].
      eapply ble_trans with (badd (mget m' i k) (badd (mget m' k l) (badd (mget m' l k) (mget m' k j))));
        [auto 6 with bnd|auto 6 with bnd|auto 6 with bnd| |apply badd_assoc_le; auto with bnd].
      apply badd_mono_r; auto 6 with bnd.
      eapply ble_trans with (badd (badd (mget m' k l) (mget m' l k)) (mget m' k j));
        [auto 6 with bnd|auto 6 with bnd|auto 6 with bnd| |apply badd_assoc_ge; auto with bnd].
      apply badd_nonneg_l; auto with bnd.
      eapply ble_trans; [| | |apply (Hd k Hk)|apply (IH k k l); auto]; auto with bnd.
Qed.

Lemma close1_dead : forall n x m k, square n m -> x < n -> k < n -> mgood n m -> dead n m k -> dead n (close1 m x) k.
Proof.
  intros n x m k S Hx Hk G D. destruct (close1_ind n x (fun m => mgood n m /\ dead n m k) m S Hx) as [_ [_ H]]; auto.
  clear - Hx Hk. intros m i S Hi [G [D0 D]]. split; [|split].
  - intros a b Ha Hb. rewrite (mget_close_row n) by auto. destruct (a =? i); auto with bnd.
  - rewrite (mget_close_row n) by auto. destruct (Nat.eqb_spec k i); auto. subst. apply bmin_glb; auto.
    destruct (Nat.eq_dec x i) as [->|Nx].
    + eapply ble_trans; [| | |exact D0|apply badd_nonneg_l]; auto with bnd.
    + apply ble_pinf; auto with bnd. apply pinf_add_l; auto. apply D; auto.
  - intros b Hb Nb. destruct (D b Hb Nb) as [D1 D2]. rewrite !(mget_close_row n) by auto. split.
    + destruct (Nat.eqb_spec k i); auto. subst. apply pinf_min; auto.
      destruct (Nat.eq_dec x i) as [->|Nx]; [apply pinf_add_l; auto|apply pinf_add_r; auto; apply D; auto].
    + destruct (Nat.eqb_spec b i); auto. subst. apply pinf_min; auto.
      destruct (Nat.eq_dec x k) as [->|Nx]; [apply pinf_add_r; auto|apply pinf_add_l; auto; apply D; auto].
Qed.

(* ---------------- the matrix part of the invariant ---------------- *)

(* Canonical as soon as it passes the test of isSatisfiableCanonized. *)
Definition mat_ok (n : nat) (m : mat) : Prop :=
  square n m /\ mgood n m /\ (forall i, i < n -> ble (mget m i i) bzero) /\ (valid n m -> canonical n m).

Lemma valid_le : forall n m m', mgood n m -> mgood n m' ->
  (forall a b, a < n -> b < n -> ble (mget m' a b) (mget m a b)) -> valid n m' -> valid n m.
Proof.
  intros n m m' G G' L V i j Hi Hj. eapply ble_trans; [| | |apply (V i j)|apply badd_mono]; auto with bnd.
Qed.

Lemma zin_valid : forall n m v, mgood n m -> zin n m v -> valid n m.
Proof.
  intros n m v G Z i j Hi Hj. apply below_zero; auto with bnd.
  eapply below_sum; [| |apply (Z i j)|apply (Z j i)|]; auto. lra.
Qed.

Lemma beqb_false_min : forall a c, good a -> good c -> beqb (bmin a c) c = false -> bmin a c = a.
Proof.
  intros a c Ga Gc H. destruct (bmin_cases a c) as [E|E]; auto. rewrite E in H. exfalso. clear E. revert H Gc.
  destruct c as [[| |x|] []]; unfold beqb, good; cbn; try discriminate; try tauto.
  - destruct (Qeq_bool x x) eqn:E; [discriminate|]. apply Qeq_bool_neq in E. exfalso. apply E. reflexivity.
  - destruct (Qeq_bool x x) eqn:E; [discriminate|]. apply Qeq_bool_neq in E. exfalso. apply E. reflexivity.
Qed.

Lemma mset_same : forall n m i j a b, square n m -> i < n -> j < n -> a < n -> b < n ->
  mget (mset m i j (mget m i j)) a b = mget m a b.
Proof. intros. rewrite (mget_mset n) by auto. destruct (Nat.eqb_spec a i), (Nat.eqb_spec b j); cbn [andb]; subst; auto. Qed.

Lemma mat_ok_ext : forall n m m', square n m' -> (forall a b, a < n -> b < n -> mget m' a b = mget m a b) -> mat_ok n m -> mat_ok n m'.
Proof.
  intros n m m' S' E (S & G & D & C). split; [auto|split; [|split]].
  - intros a b Ha Hb. rewrite E; auto.
  - intros i Hi. rewrite E; auto.
  - intros V. destruct C as [C1 C2].
    + intros i j Hi Hj. rewrite <- !E by auto. auto.
    + split; intros; rewrite !E; auto.
Qed.

Lemma zin_ext : forall n m m' v, (forall a b, a < n -> b < n -> mget m' a b = mget m a b) -> (zin n m' v <-> zin n m v).
Proof. intros n m m' v E. split; intros Z a b Ha Hb; [rewrite <- E|rewrite E]; auto. Qed.

(* A new bound on one entry and the two closing steps. *)
Lemma mset_close_spec : forall n m x y c, mat_ok n m -> x < n -> y < n -> good c ->
  let m1 := mset m x y (bmin (mget m x y) c) in
  let m2 := close1 (close1 m1 x) y in
  mat_ok n m2 /\ (forall v, zin n m2 v <-> zin n m v /\ below c (ev v x - ev v y)%Q) /\
  (forall a b, a < n -> b < n -> ble (mget m2 a b) (mget m a b)) /\
  (forall k, k < n -> k <> x -> k <> y -> dead n m k -> dead n m2 k).
Proof.
  intros n m x y c (S & G & D & C) Hx Hy Gc m1 m2.
  assert (S1 : square n m1) by (apply square_mset; auto).
  assert (G1 : mgood n m1) by (apply mset_good; auto with bnd).
  assert (L1 : forall a b, a < n -> b < n -> ble (mget m1 a b) (mget m a b)).
  { intros a b Ha Hb. unfold m1. rewrite (mget_mset n) by auto.
    destruct (Nat.eqb_spec a x), (Nat.eqb_spec b y); cbn [andb]; subst; try (apply ble_refl; solve [auto]). apply bmin_l; auto. }
  pose proof (close1_square n x m1 S1 Hx) as S2. pose proof (close1_good n x m1 S1 Hx G1) as G2.
  pose proof (close1_square n y _ S2 Hy) as S3. pose proof (close1_good n y _ S2 Hy G2) as G3.
  assert (L2 : forall a b, a < n -> b < n -> ble (mget m2 a b) (mget (close1 m1 x) a b)) by (intros; apply (close1_le n y); auto).
  assert (L3 : forall a b, a < n -> b < n -> ble (mget m2 a b) (mget m1 a b)).
  { intros a b Ha Hb. eapply ble_trans; [| | |apply L2; auto|apply (close1_le n x); auto]; auto. }
  assert (L : forall a b, a < n -> b < n -> ble (mget m2 a b) (mget m a b)).
  { intros a b Ha Hb. eapply ble_trans; [| | |apply L3|apply L1]; auto. }
  split; [|split; [|split]]; auto.
  - split; [auto|split; [auto|split]].
    + intros i Hi. eapply ble_trans; [| | |apply L|apply D]; auto with bnd.
    + intros V. pose proof (C (valid_le n m m2 G G3 L V)) as [C1 C2].
      assert (Dg : forall i, i < n -> ble bzero (mget m2 i i)) by (intros; apply (valid_diag n); auto).
      assert (Dg' : forall i, i < n -> ble bzero (mget (close1 m1 x) i i)).
      { intros i Hi. eapply ble_trans; [| | |apply Dg|apply L2]; auto with bnd. }
      split; auto. intros i j k Hi Hj Hk.
      apply (close1_tri n y (close1 m1 x) (fun k => k <> y)); auto.
      * intros i' j' l Hi' Hj' Hl Nl.
        apply (close1_tri n x m1 (fun k => k <> x /\ k <> y)); auto.
        -- intros a b p Ha Hb Hp [N1 N2]. unfold m1 at 2 3. rewrite !(mget_mset n) by auto.
           rewrite (proj2 (Nat.eqb_neq p y) N2), (proj2 (Nat.eqb_neq p x) N1), andb_false_r. cbn [andb].
           eapply ble_trans; [| | |apply L1|apply C2]; auto with bnd.
        -- destruct (Nat.eq_dec l x); auto.
      * destruct (Nat.eq_dec k y); auto.
  - intros v. unfold m2. rewrite (close1_zin n y) by auto. rewrite (close1_zin n x) by auto. split.
    + intros Z. split.
      * intros a b Ha Hb. eapply below_ble; [| |apply L1|apply Z]; auto.
      * pose proof (Z x y Hx Hy) as Zxy. unfold m1 in Zxy. rewrite (mget_mset n), !Nat.eqb_refl in Zxy by auto. cbn [andb] in Zxy.
        apply below_min in Zxy; auto with bnd. tauto.
    + intros [Z B] a b Ha Hb. unfold m1. rewrite (mget_mset n) by auto.
      destruct (Nat.eqb_spec a x), (Nat.eqb_spec b y); cbn [andb]; subst; auto. apply below_min; auto.
  - intros k Hk Nx Ny Dk. apply close1_dead; auto. apply close1_dead; auto.
    destruct Dk as [Dk0 Dk]. split; [|intros j Hj Nj]; unfold m1; rewrite !(mget_mset n) by auto;
      rewrite (proj2 (Nat.eqb_neq k y) Ny), (proj2 (Nat.eqb_neq k x) Nx), ?andb_false_r; cbn [andb]; auto.
Qed.

Lemma mat_tighten_spec : forall n m p x y c, mat_ok n m -> x < n -> y < n -> good c -> p <> 1 ->
  let m2 := mat_tighten m p x y c in
  mat_ok n m2 /\ (forall v, zin n m2 v <-> zin n m v /\ below c (ev v x - ev v y)%Q) /\
  (forall a b, a < n -> b < n -> ble (mget m2 a b) (mget m a b)) /\
  (forall k, k < n -> k <> x -> k <> y -> dead n m k -> dead n m2 k).
Proof.
  intros n m p x y c K Hx Hy Gc Np m2. unfold m2, mat_tighten, initialClock.
  rewrite (proj2 (Nat.eqb_neq p 1) Np). cbn [negb]. rewrite andb_true_r.
  destruct (beqb (mget (mset m x y (bmin (mget m x y) c)) x y) c) eqn:E.
  - apply mset_close_spec; auto.
  - destruct K as (S & G & D & C). rewrite (mget_mset n), !Nat.eqb_refl in E by auto. cbn [andb] in E.
    pose proof (beqb_false_min _ _ (G x y Hx Hy) Gc E) as Q. rewrite Q.
    assert (X : forall a b, a < n -> b < n -> mget (mset m x y (mget m x y)) a b = mget m a b) by (intros; apply (mset_same n); auto).
    split; [|split; [|split]].
    + apply (mat_ok_ext n m); [apply square_mset; auto|auto|repeat split; auto]; apply S || apply (C H).
    + intros v. rewrite (zin_ext n m _ v X). split; [|tauto]. intros Z. split; auto.
      eapply below_ble; [| | |apply (Z x y)]; auto. rewrite <- Q. apply bmin_r; auto.
    + intros a b Ha Hb. rewrite X by auto. auto with bnd.
    + intros k Hk N1 N2 [Dk0 Dk]. split; [rewrite X by auto; auto|]. intros j Hj Nj. rewrite !X by auto. auto.
Qed.

(* ---------------- alloc ---------------- *)

Lemma min_via_in : forall n m i k, square n m -> i < n -> exists x, x < n /\ min_via m i k = badd (mget m i x) (mget m x k).
Proof.
  intros n m i k [HL _] Hi. unfold min_via. rewrite HL.
  assert (X : forall b, In b (map (fun x => badd (mget m i x) (mget m x k)) (seq 0 n)) -> exists x, x < n /\ b = badd (mget m i x) (mget m x k)).
  { intros b Hb. apply in_map_iff in Hb as (x & <- & Hx). apply in_seq in Hx. exists x. split; auto; lia. }
  destruct n; [lia|]. cbn [seq map] in *. destruct (fold_bmin_in (map (fun x => badd (mget m i x) (mget m x k)) (seq 1 n)) (badd (mget m i 0) (mget m 0 k))) as [E|E].
  - rewrite E. apply X. now left.
  - apply X. now right.
Qed.

Lemma min_via_le : forall n m i k x, square n m -> mgood n m -> i < n -> k < n -> x < n -> ble (min_via m i k) (badd (mget m i x) (mget m x k)).
Proof.
  intros n m i k x [HL _] G Hi Hk Hx. unfold min_via. rewrite HL.
  assert (X : forall b, In b (map (fun x => badd (mget m i x) (mget m x k)) (seq 0 n)) -> good b).
  { intros b Hb. apply in_map_iff in Hb as (y & <- & Hy). apply in_seq in Hy. apply good_add; apply G; lia. }
  assert (Y : In (badd (mget m i x) (mget m x k)) (map (fun x => badd (mget m i x) (mget m x k)) (seq 0 n))).
  { apply in_map_iff. exists x. split; auto. apply in_seq. lia. }
  destruct (map (fun x => badd (mget m i x) (mget m x k)) (seq 0 n)) as [|c t] eqn:E; [destruct Y|].
  destruct (fold_bmin_le t c) as (A & B & C); [apply X; now left|intros; apply X; now right|].
  destruct Y as [<-|Y]; auto.
Qed.

Lemma close_col_relaxes : forall n m k i, square n m -> i < n -> k < n -> relaxes n m (close_col k m i).
Proof.
  intros n m k i S Hi Hk. destruct (min_via_in n m i k S Hi) as (x & Hx & E). unfold close_col. rewrite E.
  apply (rl_step n m i x k); auto. apply rl_refl.
Qed.
Lemma close_line_relaxes : forall n m k xj, square n m -> fst xj < n -> snd xj < n -> k < n -> relaxes n m (close_line k m xj).
Proof. intros n m k [x j] S Hx Hj Hk. unfold close_line. apply (rl_step n m k x j); auto. apply rl_refl. Qed.

Lemma cols_relaxes : forall n k l m, square n m -> k < n -> (forall i, In i l -> i < n) -> relaxes n m (fold_left (close_col k) l m).
Proof.
  induction l as [|i l IH]; intros m S Hk Hl; [apply rl_refl|]. cbn [fold_left].
  assert (R : relaxes n m (close_col k m i)) by (apply close_col_relaxes; auto; apply Hl; now left).
  apply (relaxes_trans n _ (close_col k m i)); auto.
  apply IH; auto; [apply (relaxes_square n m); auto|intros; apply Hl; now right].
Qed.
Lemma lines_relaxes : forall n k l m, square n m -> k < n -> (forall p, In p l -> fst p < n /\ snd p < n) -> relaxes n m (fold_left (close_line k) l m).
Proof.
  induction l as [|i l IH]; intros m S Hk Hl; [apply rl_refl|]. cbn [fold_left].
  assert (R : relaxes n m (close_line k m i)) by (apply close_line_relaxes; auto; apply Hl; now left).
  apply (relaxes_trans n _ (close_line k m i)); auto.
  apply IH; auto; [apply (relaxes_square n m); auto|intros; apply Hl; now right].
Qed.

Lemma close_col_other : forall n k m i a b, square n m -> i < n -> k < n -> a < n -> b < n -> b <> k -> mget (close_col k m i) a b = mget m a b.
Proof. intros. unfold close_col. rewrite (mget_mset n) by auto. destruct (Nat.eqb_spec b k); [contradiction|]. rewrite andb_false_r. reflexivity. Qed.
Lemma close_line_other : forall n k m xj a b, square n m -> k < n -> fst xj < n -> snd xj < n -> a < n -> b < n -> a <> k -> mget (close_line k m xj) a b = mget m a b.
Proof. intros. unfold close_line. rewrite (mget_mset n) by auto. destruct (Nat.eqb_spec a k); [contradiction|]. reflexivity. Qed.

Lemma cols_other : forall n k l m a b, square n m -> k < n -> (forall i, In i l -> i < n) -> a < n -> b < n -> b <> k ->
  mget (fold_left (close_col k) l m) a b = mget m a b.
Proof.
  induction l as [|i l IH]; intros m a b S Hk Hl Ha Hb Nb; auto. cbn [fold_left].
  assert (Hi : i < n) by (apply Hl; now left).
  rewrite IH; auto; [|apply (relaxes_square n m); auto; apply close_col_relaxes; auto|intros; apply Hl; now right].
  apply (close_col_other n); auto.
Qed.
Lemma lines_other : forall n k l m a b, square n m -> k < n -> (forall p, In p l -> fst p < n /\ snd p < n) -> a < n -> b < n -> a <> k ->
  mget (fold_left (close_line k) l m) a b = mget m a b.
Proof.
  induction l as [|i l IH]; intros m a b S Hk Hl Ha Hb Nb; auto. cbn [fold_left].
  destruct (Hl i (or_introl eq_refl)) as [H1 H2].
  rewrite IH; auto; [|apply (relaxes_square n m); auto; apply close_line_relaxes; auto|intros; apply Hl; now right].
  apply (close_line_other n); auto.
Qed.

Lemma prod_in : forall n p, In p (list_prod (seq 0 n) (seq 0 n)) <-> fst p < n /\ snd p < n.
Proof. intros n [a b]. rewrite in_prod_iff, !in_seq. cbn [fst snd]. lia. Qed.

(* The column k after its loop. *)
Lemma cols_min : forall n k l m i x, square n m -> mgood n m -> k < n -> i < n -> x < n -> x <> k -> (forall i, In i l -> i < n) -> In i l ->
  ble (mget (fold_left (close_col k) l m) i k) (badd (mget m i x) (mget m x k)).
Proof.
  induction l as [|a l IH]; intros m i x S G Hk Hi Hx Nx Hl Hin; [destruct Hin|]. cbn [fold_left].
  assert (Ha : a < n) by (apply Hl; now left).
  assert (R1 : relaxes n m (close_col k m a)) by (apply close_col_relaxes; auto).
  pose proof (relaxes_square n _ _ R1 S) as S1. pose proof (relaxes_good n _ _ R1 S G) as G1.
  assert (R2 : relaxes n (close_col k m a) (fold_left (close_col k) l (close_col k m a))).
  { apply cols_relaxes; auto. intros; apply Hl; now right. }
  pose proof (relaxes_good n _ _ R2 S1 G1) as G2.
  destruct (Nat.eq_dec a i) as [->|Na].
  - eapply ble_trans; [| | |apply (relaxes_le n _ _ R2)|]; auto with bnd.
    unfold close_col. rewrite (mget_mset n), !Nat.eqb_refl by auto. cbn [andb].
    destruct (min_via_in n m i k S Hi) as (y & Hy & Ey).
    eapply ble_trans; [| | |apply bmin_r|apply (min_via_le n m i k x); auto]; auto with bnd; rewrite Ey; auto with bnd.
  - destruct Hin as [->|Hin]; [congruence|]. specialize (IH (close_col k m a) i x S1 G1 Hk Hi Hx Nx ltac:(intros; apply Hl; now right) Hin).
    eapply ble_trans; [| | |exact IH|]; auto with bnd.
    apply badd_mono; auto; apply (relaxes_le n _ _ R1); auto.
Qed.

(* The row k after its loop. *)
Lemma lines_min : forall n k l m x j, square n m -> mgood n m -> k < n -> j < n -> x < n -> (forall p, In p l -> fst p < n /\ snd p < n) -> In (x, j) l ->
  ble (mget (fold_left (close_line k) l m) k j) (badd (mget m k x) (mget m x j)).
Proof.
  induction l as [|a l IH]; intros m x j S G Hk Hj Hx Hl Hin; [destruct Hin|]. cbn [fold_left].
  destruct (Hl a (or_introl eq_refl)) as [H1 H2].
  assert (R1 : relaxes n m (close_line k m a)) by (apply close_line_relaxes; auto).
  pose proof (relaxes_square n _ _ R1 S) as S1. pose proof (relaxes_good n _ _ R1 S G) as G1.
  assert (R2 : relaxes n (close_line k m a) (fold_left (close_line k) l (close_line k m a))).
  { apply lines_relaxes; auto. intros; apply Hl; now right. }
  pose proof (relaxes_good n _ _ R2 S1 G1) as G2.
  destruct Hin as [->|Hin].
  - eapply ble_trans; [| | |apply (relaxes_le n _ _ R2)|]; auto with bnd.
    unfold close_line. cbn [fst snd]. rewrite (mget_mset n), !Nat.eqb_refl by auto. cbn [andb]. apply bmin_r; auto with bnd.
  - specialize (IH (close_line k m a) x j S1 G1 Hk Hj Hx ltac:(intros; apply Hl; now right) Hin).
    eapply ble_trans; [| | |exact IH|]; auto with bnd.
    apply badd_mono; auto; apply (relaxes_le n _ _ R1); auto.
Qed.

Lemma alloc_close_relaxes : forall n k m, square n m -> k < n -> relaxes n m (alloc_close k m).
Proof.
  intros n k m S Hk. unfold alloc_close. assert (length m = n) as -> by apply S.
  assert (R : relaxes n m (fold_left (close_col k) (seq 0 n) m)) by (apply cols_relaxes; auto; intros i Hi; apply in_seq in Hi; lia).
  eapply relaxes_trans; [exact R|]. apply lines_relaxes; auto.
  - apply (relaxes_square n m); auto.
  - intros p Hp. now apply prod_in.
Qed.

Lemma alloc_close_old : forall n k m a b, square n m -> k < n -> a < n -> b < n -> a <> k -> b <> k ->
  mget (alloc_close k m) a b = mget m a b.
Proof.
  intros n k m a b S Hk Ha Hb Na Nb. unfold alloc_close. assert (length m = n) as -> by apply S.
  assert (Q : forall i, In i (seq 0 n) -> i < n) by (intros i Hi; apply in_seq in Hi; lia).
  rewrite (lines_other n); auto.
  - apply (cols_other n); auto.
  - apply (relaxes_square n m); auto. apply cols_relaxes; auto.
  - intros p Hp. now apply prod_in.
Qed.

Lemma alloc_close_col : forall n k m i x, square n m -> mgood n m -> k < n -> i < n -> x < n -> i <> k -> x <> k ->
  ble (mget (alloc_close k m) i k) (badd (mget m i x) (mget m x k)).
Proof.
  intros n k m i x S G Hk Hi Hx Ni Nx. unfold alloc_close. assert (length m = n) as -> by apply S.
  assert (Q : forall i, In i (seq 0 n) -> i < n) by (intros j Hj; apply in_seq in Hj; lia).
  rewrite (lines_other n); auto.
  - apply (cols_min n); auto. apply in_seq. lia.
  - apply (relaxes_square n m); auto. apply cols_relaxes; auto.
  - intros p Hp. now apply prod_in.
Qed.

Lemma alloc_close_line : forall n k m x j, square n m -> mgood n m -> k < n -> j < n -> x < n -> j <> k -> x <> k ->
  ble (mget (alloc_close k m) k j) (badd (mget m k x) (mget m x j)).
Proof.
  intros n k m x j S G Hk Hj Hx Nj Nx. unfold alloc_close. assert (length m = n) as -> by apply S.
  assert (Q : forall i, In i (seq 0 n) -> i < n) by (intros i Hi; apply in_seq in Hi; lia).
  assert (R : relaxes n m (fold_left (close_col k) (seq 0 n) m)) by (apply cols_relaxes; auto).
  pose proof (relaxes_square n _ _ R S) as S1. pose proof (relaxes_good n _ _ R S G) as G1.
  rewrite <- (cols_other n k (seq 0 n) m x j) by auto.
  rewrite <- (cols_other n k (seq 0 n) m k x) by auto.
  apply (lines_min n); auto; [intros p Hp; now apply prod_in|apply prod_in; auto].
Qed.

Lemma ble_zero_add : forall a b, good a -> good b -> ble a bzero -> ble (badd a b) b.
Proof. intros [[| |x|] []] [[| |y|] []]; bunf; bgo. Qed.
Lemma ble_add_zero : forall a b, good a -> good b -> ble b bzero -> ble (badd a b) a.
Proof. intros [[| |x|] []] [[| |y|] []]; bunf; bgo. Qed.

(* Closing a matrix m1 that is canonical apart from k, whose only finite entries
   are (k,0), (0,k) and (p,k). *)
Lemma alloc_close_spec : forall n m1 p k up lo, square n m1 -> mgood n m1 -> k < n -> p < n -> 0 < n -> k <> 0 -> k <> p ->
  good up -> good lo ->
  (forall i, i < n -> ble (mget m1 i i) bzero) ->
  ((forall i j, i < n -> j < n -> i <> k -> j <> k -> ble bzero (badd (mget m1 i j) (mget m1 j i))) ->
   forall i j l, i < n -> j < n -> l < n -> i <> k -> j <> k -> l <> k -> ble (mget m1 i j) (badd (mget m1 i l) (mget m1 l j))) ->
  mget m1 k 0 = up -> mget m1 0 k = lo -> mget m1 p k = bzero ->
  (forall j, j < n -> j <> k -> j <> 0 -> fst (mget m1 k j) = PInf) ->
  (forall i, i < n -> i <> k -> i <> 0 -> i <> p -> fst (mget m1 i k) = PInf) ->
  p <> 0 -> ble (mget m1 p 0) up ->
  let m2 := alloc_close k m1 in
  mat_ok n m2 /\ (forall v, zin n m2 v <-> zin n m1 v) /\
  (forall a b, a < n -> b < n -> a <> k -> b <> k -> mget m2 a b = mget m1 a b) /\
  (forall a b, a < n -> b < n -> ble (mget m2 a b) (mget m1 a b)) /\
  (forall j, j < n -> j <> k -> dead n m1 j -> dead n m2 j).
Proof.
  intros n m1 p k up lo S1 G1 Hk Hp H0 Nk0 Nkp Gu Gl D1 Tri Eu El Ep Krow Kcol Np0 Lup m2.
  pose proof (alloc_close_relaxes n k m1 S1 Hk) as R.
  pose proof (relaxes_square n _ _ R S1) as S2. pose proof (relaxes_good n _ _ R S1 G1) as G2.
  pose proof (relaxes_le n _ _ R S1 G1) as L2.
  fold m2 in R, S2, G2, L2.
  assert (Old : forall a b, a < n -> b < n -> a <> k -> b <> k -> mget m2 a b = mget m1 a b) by (intros; apply (alloc_close_old n); auto).
  split; [|split; [|split; [|split]]]; auto.
  2: { intros v. apply (relaxes_zin n m1 m2 v R); auto. }
  2: { intros j Hj Nj Dj. apply (relaxes_dead n m1 m2 j R); auto. }
  split; [auto|split; [auto|split]].
  { intros i Hi. eapply ble_trans; [| | |apply L2|apply D1]; auto with bnd. }
  intros V.
  assert (V1 : forall i j, i < n -> j < n -> i <> k -> j <> k -> ble bzero (badd (mget m1 i j) (mget m1 j i))).
  { intros i j Hi Hj Ni Nj. rewrite <- !Old by auto. auto. }
  specialize (Tri V1).
  assert (Vul : ble bzero (badd up lo)).
  { eapply ble_trans; [| | |apply (V k 0); auto|]; auto with bnd. rewrite <- Eu, <- El. apply badd_mono; auto. }
  assert (Vlu : ble bzero (badd lo up)) by (apply bcomm0; auto).
  assert (Dg : forall i, i < n -> i <> k -> ble bzero (mget m1 i i)) by (intros; apply diag_from_sum; auto).
  set (H := fun i j => if i =? k then (if j =? k then bzero else badd up (mget m1 0 j))
                       else if j =? k then bmin (badd (mget m1 i 0) lo) (mget m1 i p) else mget m1 i j).
  assert (Hoo : forall i j, i <> k -> j <> k -> H i j = mget m1 i j).
  { intros i j Ni Nj. unfold H. rewrite (proj2 (Nat.eqb_neq i k) Ni), (proj2 (Nat.eqb_neq j k) Nj). reflexivity. }
  assert (Hko : forall j, j <> k -> H k j = badd up (mget m1 0 j)).
  { intros j Nj. unfold H. rewrite Nat.eqb_refl, (proj2 (Nat.eqb_neq j k) Nj). reflexivity. }
  assert (Hok : forall i, i <> k -> H i k = bmin (badd (mget m1 i 0) lo) (mget m1 i p)).
  { intros i Ni. unfold H. rewrite Nat.eqb_refl, (proj2 (Nat.eqb_neq i k) Ni). reflexivity. }
  assert (Hkk : H k k = bzero) by (unfold H; rewrite Nat.eqb_refl; reflexivity).
  clearbody H.
  assert (GH : forall a b, a < n -> b < n -> good (H a b)).
  { intros a b Ha Hb. destruct (Nat.eq_dec a k) as [->|Na], (Nat.eq_dec b k) as [->|Nb];
      rewrite ?Hkk, ?Hko, ?Hok, ?Hoo by auto; auto 6 with bnd. }
  assert (TH : forall a b c, a < n -> b < n -> c < n -> ble (H a b) (badd (H a c) (H c b))).
  { intros i j l Hi Hj Hl.
    destruct (Nat.eq_dec l k) as [->|Nl].
    - destruct (Nat.eq_dec i k) as [->|Ni]; [rewrite Hkk; apply badd_nonneg_l; auto with bnd|].
      destruct (Nat.eq_dec j k) as [->|Nj]; [rewrite Hkk; apply badd_nonneg_r; auto with bnd|].
      rewrite Hoo, Hok, Hko by auto. apply ble_add_min; auto with bnd.
      + apply ble_trans with (badd (mget m1 i 0) (badd lo (badd up (mget m1 0 j)))); [auto|auto 8 with bnd|auto 8 with bnd| |apply badd_assoc_le; auto with bnd].
        apply ble_trans with (badd (mget m1 i 0) (mget m1 0 j)); [auto|auto with bnd|auto 8 with bnd|apply Tri; auto|].
        apply badd_mono_r; auto with bnd. apply ble_3; auto.
      + apply ble_trans with (badd (badd (mget m1 i p) up) (mget m1 0 j)); [auto|auto 8 with bnd|auto 8 with bnd| |apply badd_assoc_ge; auto with bnd].
        apply ble_trans with (badd (mget m1 i 0) (mget m1 0 j)); [auto|auto with bnd|auto 8 with bnd|apply Tri; auto|].
        apply badd_mono_l; auto with bnd.
        apply ble_trans with (badd (mget m1 i p) (mget m1 p 0)); [auto|auto with bnd|auto with bnd|apply Tri; auto|apply badd_mono_r; auto].
    - destruct (Nat.eq_dec i k) as [->|Ni].
      + destruct (Nat.eq_dec j k) as [->|Nj].
        * rewrite Hkk, Hko, Hok by auto. apply ble_add_min_r; auto with bnd.
          -- apply ble_trans with (badd (badd (badd up (mget m1 0 l)) (mget m1 l 0)) lo); [auto with bnd|auto 8 with bnd|auto 8 with bnd| |apply badd_assoc_ge; auto with bnd].
             apply ble_trans with (badd (badd up (badd (mget m1 0 l) (mget m1 l 0))) lo); [auto with bnd|auto 8 with bnd|auto 8 with bnd| |apply badd_mono_l; auto 8 with bnd; apply badd_assoc_le; auto with bnd].
             apply ble_trans with (badd up lo); [auto with bnd|auto 8 with bnd|auto 8 with bnd|auto|].
             apply badd_mono_l; auto with bnd. apply badd_nonneg_r; auto with bnd.
          -- apply ble_trans with (badd up (badd (mget m1 0 l) (mget m1 l p))); [auto with bnd|auto 8 with bnd|auto 8 with bnd| |apply badd_assoc_le; auto with bnd].
             apply ble_trans with (badd (mget m1 p 0) (mget m1 0 p)); [auto with bnd|auto 8 with bnd|auto 8 with bnd|auto|].
             apply badd_mono; auto with bnd.
        * rewrite !Hko, Hoo by auto.
          apply ble_trans with (badd up (badd (mget m1 0 l) (mget m1 l j))); [auto with bnd|auto 8 with bnd|auto 8 with bnd| |apply badd_assoc_le; auto with bnd].
          apply badd_mono_r; auto with bnd.
      + destruct (Nat.eq_dec j k) as [->|Nj].
        * rewrite !Hok, Hoo by auto. apply ble_add_min_r; auto with bnd.
          -- apply ble_trans with (badd (mget m1 i 0) lo); [auto with bnd|auto with bnd|auto with bnd|apply bmin_l; auto with bnd|].
             apply ble_trans with (badd (badd (mget m1 i l) (mget m1 l 0)) lo); [auto with bnd|auto 8 with bnd|auto 8 with bnd| |apply badd_assoc_ge; auto with bnd].
             apply badd_mono_l; auto with bnd.
          -- apply ble_trans with (mget m1 i p); [auto with bnd|auto with bnd|auto with bnd|apply bmin_r; auto with bnd|]. apply Tri; auto.
        * rewrite !Hoo by auto. apply Tri; auto. }
  assert (H1 : forall a b, a < n -> b < n -> ble (H a b) (mget m1 a b)).
  { intros a b Ha Hb. destruct (Nat.eq_dec a k) as [->|Na], (Nat.eq_dec b k) as [->|Nb].
    - rewrite Hkk. eapply ble_trans; [| | |apply (valid_diag n m2 k); auto|apply L2]; auto with bnd.
    - destruct (Nat.eq_dec b 0) as [->|N0].
      + rewrite Hko, Eu by auto. apply ble_add_zero; auto.
      + apply ble_pinf; auto.
    - rewrite Hok by auto. destruct (Nat.eq_dec a 0) as [->|N0].
      + rewrite El. eapply ble_trans; [| | |apply bmin_l|apply ble_zero_add]; auto with bnd.
      + destruct (Nat.eq_dec a p) as [->|N1].
        * rewrite Ep. eapply ble_trans; [| | |apply bmin_r|apply D1]; auto with bnd.
        * apply ble_pinf; auto with bnd.
    - rewrite Hoo by auto. auto with bnd. }
  assert (H2 : forall a b, a < n -> b < n -> ble (H a b) (mget m2 a b)) by (apply (relaxes_above n m1 m2 H R); auto).
  assert (H3 : forall a b, a < n -> b < n -> ble (mget m2 a b) (H a b)).
  { intros a b Ha Hb. destruct (Nat.eq_dec a k) as [->|Na], (Nat.eq_dec b k) as [->|Nb].
    - rewrite Hkk. eapply ble_trans; [| | |apply L2|apply D1]; auto with bnd.
    - rewrite Hko by auto. rewrite <- Eu. apply (alloc_close_line n); auto.
    - rewrite Hok by auto. apply bmin_glb.
      + rewrite <- El. apply (alloc_close_col n); auto.
      + eapply ble_trans; [| | |apply (alloc_close_col n k m1 a p); auto|rewrite Ep; apply ble_add_zero]; auto with bnd.
    - rewrite Hoo, Old by auto. auto with bnd. }
  split.
  - intros i Hi. apply (valid_diag n); auto.
  - intros i j l Hi Hj Hl. eapply ble_trans; [| | |apply H3|]; auto with bnd.
    eapply ble_trans; [| | |apply (TH i j l)|apply badd_mono]; auto with bnd.
Qed.

(* ---------------- both representations at once ---------------- *)

(* The matrix denoted by a zone. *)
Definition iz_mat (z : izone) : mat :=
  match z with
  | IvZone [i0] _ => [[bzero; fst i0]; [snd i0; bzero]]
  | IvZone [i0; i1; i2] _ => ans_zone (mk6 (snd i0) (fst i0) (snd i1) (fst i1) (snd i2) (fst i2))
  | IvZone _ _ => []
  | MatZone m _ _ => m
  end.

Definition used (k : nat) (z : izone) : Prop :=
  match z with
  | IvZone [_] _ => k < 2
  | IvZone _ _ => k < 3
  | MatZone _ al _ => nth k al false = true
  end.

Definition shape (n : nat) (z : izone) : Prop :=
  match z with
  | IvZone [_] p => n = 2 /\ p = 1
  | IvZone [_; _; _] p => n = 3 /\ p = 2
  | IvZone _ _ => False
  | MatZone m al p =>
      length al = n /\ 2 <= p < n /\ nth 0 al false = true /\ nth 1 al false = true /\ nth p al false = true /\
      forall k, k < n -> nth k al false = false -> dead n m k
  end.

Definition iwf (n : nat) (z : izone) : Prop := shape n z /\ mat_ok n (iz_mat z).

Lemma used_lt : forall n z k, iwf n z -> used k z -> k < n.
Proof.
  intros n [l p|m al p] k [H _] U; cbn in *.
  - destruct l as [|a [|b [|c [|d l]]]]; try contradiction; destruct H; subst; auto.
  - destruct H as (H & _). rewrite <- H. destruct (Nat.lt_ge_cases k (length al)); auto. rewrite nth_overflow in U; auto; discriminate.
Qed.

Lemma used_0 : forall n z, iwf n z -> used 0 z.
Proof.
  intros n [l p|m al p] [H _]; cbn in *; [|tauto].
  destruct l as [|a [|b [|c [|d l]]]]; try contradiction; lia.
Qed.
Lemma used_1 : forall n z, iwf n z -> used 1 z.
Proof.
  intros n [l p|m al p] [H _]; cbn in *; [|tauto].
  destruct l as [|a [|b [|c [|d l]]]]; try contradiction; lia.
Qed.
Lemma used_new : forall n z, iwf n z -> used (newestClock z) z.
Proof.
  intros n [l p|m al p] [H _]; cbn in *; [|tauto].
  destruct l as [|a [|b [|c [|d l]]]]; try contradiction; lia.
Qed.
Lemma new_pos : forall n z, iwf n z -> 1 <= newestClock z < n.
Proof.
  intros n [l p|m al p] [H _]; cbn in *; [|lia].
  destruct l as [|a [|b [|c [|d l]]]]; try contradiction; lia.
Qed.
Lemma iwf_dim : forall n z, iwf n z -> 2 <= n.
Proof. intros n z H. pose proof (new_pos n z H). pose proof (used_lt n z 1 H (used_1 n z H)). lia. Qed.

Lemma lt2 : forall i, i < 2 -> i = 0 \/ i = 1. Proof. intros. lia. Qed.

Lemma zin2 : forall l u v, zin 2 [[bzero; l]; [u; bzero]] v <-> below u (v 0) /\ below l (- v 0).
Proof.
  intros l u v. split.
  - intros H. pose proof (H 1 0 ltac:(lia) ltac:(lia)) as H1. pose proof (H 0 1 ltac:(lia) ltac:(lia)) as H2.
    cbn in H1, H2. split; (eapply below_eq; [|eassumption]); cbn; lra.
  - intros [A B] i j Hi Hj. destruct (lt2 i Hi) as [->| ->], (lt2 j Hj) as [->| ->]; unfold mget; cbn [nth ev];
      try (unfold bzero, below; cbn; lra); (eapply below_eq; [|eassumption]); lra.
Qed.

Lemma mat_ok2 : forall l u, good l -> good u -> mat_ok 2 [[bzero; l]; [u; bzero]].
Proof.
  intros l u Gl Gu. split; [|split; [|split]].
  - split; [reflexivity|repeat constructor].
  - intros i j Hi Hj. destruct (lt2 i Hi) as [->| ->], (lt2 j Hj) as [->| ->]; cbn; auto; exact I.
  - intros i Hi. destruct (lt2 i Hi) as [->| ->]; apply ble_refl; exact I.
  - intros V. assert (Z : forall a, good a -> ble a (badd bzero a)) by (intros; apply badd_nonneg_l; auto with bnd; apply ble_refl; exact I).
    assert (Z' : forall a, good a -> ble a (badd a bzero)) by (intros; apply badd_nonneg_r; auto with bnd; apply ble_refl; exact I).
    pose proof (V 0 1 ltac:(lia) ltac:(lia)) as V1. pose proof (V 1 0 ltac:(lia) ltac:(lia)) as V2. unfold mget in V1, V2. cbn [nth] in V1, V2.
    split.
    + intros i Hi. destruct (lt2 i Hi) as [->| ->]; apply ble_refl; exact I.
    + intros i j k Hi Hj Hk. destruct (lt2 i Hi) as [->| ->], (lt2 j Hj) as [->| ->], (lt2 k Hk) as [->| ->];
        unfold mget; cbn [nth]; first [apply Z; solve [auto with bnd]|apply Z'; solve [auto with bnd]|assumption].
Qed.

Lemma zin3 : forall b v, zin 3 (ans_zone b) v <-> in6 b (v 0) (v 1).
Proof.
  intros b v. rewrite <- ans_zone_zin.
  assert (E : forall i, i < 3 -> ev (pairv (v 0) (v 1)) i = ev v i) by (intros i Hi; destruct (lt3 i Hi) as [->|[->| ->]]; reflexivity).
  split; intros Z i j Hi Hj; [rewrite !E by auto|rewrite <- !E by auto]; auto.
Qed.

Lemma valid3 : forall b, good6 b -> (valid 3 (ans_zone b) <-> valid6 b).
Proof.
  intros b (A & B & C & D & E & F). split.
  - intros V. pose proof (V 1 0 ltac:(lia) ltac:(lia)) as H1. pose proof (V 2 0 ltac:(lia) ltac:(lia)) as H3. pose proof (V 2 1 ltac:(lia) ltac:(lia)) as H5.
    unfold mget in *. cbn [ans_zone nth] in *. repeat split; auto.
  - intros (V1 & V2 & V3) i j Hi Hj. destruct (lt3 i Hi) as [->|[->| ->]], (lt3 j Hj) as [->|[->| ->]];
      unfold mget; cbn [ans_zone nth]; auto using bcomm0; apply ble_refl; exact I.
Qed.

Lemma mat_good6 : forall b, mgood 3 (ans_zone b) -> good6 b.
Proof.
  intros b G. pose proof (G 1 0 ltac:(lia) ltac:(lia)) as H1. pose proof (G 0 1 ltac:(lia) ltac:(lia)) as H2.
  pose proof (G 2 0 ltac:(lia) ltac:(lia)) as H3. pose proof (G 0 2 ltac:(lia) ltac:(lia)) as H4.
  pose proof (G 2 1 ltac:(lia) ltac:(lia)) as H5. pose proof (G 1 2 ltac:(lia) ltac:(lia)) as H6.
  unfold mget in *. cbn [ans_zone nth] in *. repeat split; auto.
Qed.

Lemma canonical_closed6 : forall b, canonical 3 (ans_zone b) -> closed6 b.
Proof.
  intros b [_ T]. repeat split.
  - apply (T 1 0 2); lia.
  - apply (T 0 1 2); lia.
  - apply (T 2 0 1); lia.
  - apply (T 0 2 1); lia.
  - apply (T 2 1 0); lia.
  - apply (T 1 2 0); lia.
Qed.

Lemma mat_ok3 : forall b, mat_ok 3 (ans_zone b) <-> good6 b /\ (valid6 b -> closed6 b).
Proof.
  intros b. split.
  - intros (S & G & D & C). pose proof (mat_good6 b G) as G6. split; auto. intros V. apply canonical_closed6. apply C. apply valid3; auto.
  - intros (G & C). split; [apply ans_zone_square|split; [apply ans_zone_good; auto|split]].
    + intros i Hi. destruct (lt3 i Hi) as [->|[->| ->]]; apply ble_refl; exact I.
    + intros V. apply valid3 in V; auto. apply closed6_canonical; auto.
Qed.

(* The six assignments of tighten in interval mode. *)
Definition tight6 (x y : nat) (c : bound) (b : six) : six :=
  let (u0, l0, u1, l1, u2, l2) := b in
  match x, y with
  | 0, 1 => let l0 := bmin l0 c in mk6 u0 l0 u1 (bmin l1 (badd l0 l2)) (bmin u2 (badd u1 l0)) l2
  | 1, 0 => let u0 := bmin u0 c in mk6 u0 l0 (bmin u1 (badd u2 u0)) l1 u2 (bmin l2 (badd u0 l1))
  | 0, 2 => let l1 := bmin l1 c in mk6 u0 (bmin l0 (badd l1 u2)) u1 l1 u2 (bmin l2 (badd l1 u0))
  | 2, 0 => let u1 := bmin u1 c in mk6 (bmin u0 (badd u1 l2)) l0 u1 l1 (bmin u2 (badd u1 l0)) l2
  | 1, 2 => let l2 := bmin l2 c in mk6 (bmin u0 (badd u1 l2)) l0 u1 (bmin l1 (badd l2 l0)) u2 l2
  | 2, 1 => let u2 := bmin u2 c in mk6 u0 (bmin l0 (badd l1 u2)) (bmin u1 (badd u2 u0)) l1 u2 l2
  | _, _ => b
  end.

Lemma tight6_spec : forall x y c b, x < 3 -> y < 3 -> x <> y -> good c -> good6 b -> (valid6 b -> closed6 b) ->
  let b' := tight6 x y c b in
  good6 b' /\ (valid6 b' -> valid6 b) /\ (valid6 b' -> closed6 b') /\
  (forall a d, a < 3 -> d < 3 -> ble (mget (ans_zone b') a d) (mget (ans_zone b) a d)) /\
  (forall v, in6 b' (v 0) (v 1) <-> in6 b (v 0) (v 1) /\ below c (ev v x - ev v y)%Q).
Proof.
  intros x y c [u0 l0 u1 l1 u2 l2] Hx Hy Nxy Gc (A & B & C & D & E & F) K b'. cbn [ub lb ue le6 ud ld] in A, B, C, D, E, F.
  assert (V : valid6 b' -> valid6 (mk6 u0 l0 u1 l1 u2 l2)).
  { unfold b', valid6. destruct (lt3 x Hx) as [->|[->| ->]], (lt3 y Hy) as [->|[->| ->]]; try congruence;
      cbn [tight6 ub lb ue le6 ud ld]; intros (V1 & V2 & V3);
      (split; [|split]);
      match goal with
      | H : ble bzero (badd ?x ?y) |- ble bzero (badd ?x' ?y') =>
        apply ble_trans with (badd x y); [auto 8 with bnd|auto 8 with bnd|auto 8 with bnd|exact H|];
        apply badd_mono; [auto 8 with bnd|auto 8 with bnd|auto 8 with bnd|auto 8 with bnd|
          first [apply ble_refl; solve [auto 8 with bnd]|apply bmin_l; solve [auto 8 with bnd]]|
          first [apply ble_refl; solve [auto 8 with bnd]|apply bmin_l; solve [auto 8 with bnd]]]
      end. }
  split; [|split; [exact V|split; [|split]]].
  - unfold b', good6. destruct (lt3 x Hx) as [->|[->| ->]], (lt3 y Hy) as [->|[->| ->]]; try congruence;
      cbn [tight6 ub lb ue le6 ud ld]; repeat split; auto 8 with bnd.
  - intros V'. pose proof (K (V V')) as (T1 & T2 & T3 & T4 & T5 & T6). clear V K. cbn [ub lb ue le6 ud ld] in *.
    revert V'. unfold b', valid6, closed6.
    destruct (lt3 x Hx) as [->|[->| ->]], (lt3 y Hy) as [->|[->| ->]]; try congruence;
      cbn [tight6 ub lb ue le6 ud ld]; intros (V1 & V2 & V3).
    + t3 l0 u0 l1 u1 l2 u2 c (badd (bmin l0 c) l2) (badd u1 (bmin l0 c)).
    + t3 l1 u1 l0 u0 u2 l2 c (badd (bmin l1 c) u2) (badd (bmin l1 c) u0).
    + t3 u0 l0 l2 u2 l1 u1 c (badd (bmin u0 c) l1) (badd u2 (bmin u0 c)).
    + t3 l2 u2 u0 l0 u1 l1 c (badd u1 (bmin l2 c)) (badd (bmin l2 c) l0).
    + t3 u1 l1 u2 l2 l0 u0 c (badd (bmin u1 c) l0) (badd (bmin u1 c) l2).
    + t3 u2 l2 u1 l1 u0 l0 c (badd (bmin u2 c) u0) (badd l1 (bmin u2 c)).
  - intros a d Ha Hd. unfold b'. destruct (lt3 x Hx) as [->|[->| ->]], (lt3 y Hy) as [->|[->| ->]]; try congruence;
      destruct (lt3 a Ha) as [->|[->| ->]], (lt3 d Hd) as [->|[->| ->]]; unfold mget; cbn [tight6 ans_zone nth ub lb ue le6 ud ld];
      first [apply ble_refl; solve [auto 8 with bnd]|apply bmin_l; solve [auto 8 with bnd]].
  - intros v. clear V K. set (t := v 0). set (t' := v 1). unfold b', in6.
    destruct (lt3 x Hx) as [->|[->| ->]], (lt3 y Hy) as [->|[->| ->]]; try congruence;
      cbn [tight6 ub lb ue le6 ud ld ev]; fold t t'; repeat rewrite below_min by auto 8 with bnd;
      (split;
       [ intros (H1 & H2 & H3 & H4 & H5 & H6); repeat split; try tauto;
         repeat match goal with H : _ /\ _ |- _ => destruct H end; (eapply below_eq; [|eassumption]); lra
       | intros ((H1 & H2 & H3 & H4 & H5 & H6) & H7)]).
    all: repeat split; auto.
    all: match type of H7 with below ?c ?d =>
           first [assert (H8 : below c t) by (eapply below_eq; [|exact H7]; lra)
                 |assert (H8 : below c (- t)) by (eapply below_eq; [|exact H7]; lra)
                 |assert (H8 : below c t') by (eapply below_eq; [|exact H7]; lra)
                 |assert (H8 : below c (- t')) by (eapply below_eq; [|exact H7]; lra)
                 |assert (H8 : below c (t' - t)) by (eapply below_eq; [|exact H7]; lra)
                 |assert (H8 : below c (t - t')) by (eapply below_eq; [|exact H7]; lra)] end.
    all: auto.
    Local Ltac batom' := first [assumption | rewrite below_min by auto 8 with bnd; split; assumption].
    Local Ltac bpick' d e := apply (below_sum _ _ d e); [solve [auto 8 with bnd] | solve [auto 8 with bnd] | solve [batom'] | solve [batom'] | lra].
    all: first [ bpick' t' (- t)%Q | bpick' (- t)%Q t' | bpick' (- t')%Q t | bpick' t (- t')%Q
             | bpick' (t - t')%Q t' | bpick' t' (t - t')%Q | bpick' (t' - t)%Q t | bpick' t (t' - t)%Q
             | bpick' (- t)%Q (t - t')%Q | bpick' (t - t')%Q (- t)%Q
             | bpick' (- t')%Q (t' - t)%Q | bpick' (t' - t)%Q (- t')%Q ].

Qed.

Definition same_clocks (z z' : izone) : Prop := newestClock z' = newestClock z /\ forall k, used k z' <-> used k z.

Lemma same_clocks_refl : forall z, same_clocks z z.
Proof. split; [reflexivity|tauto]. Qed.
Lemma same_clocks_trans : forall a b c, same_clocks a b -> same_clocks b c -> same_clocks a c.
Proof. intros a b c [A B] [C D]. split; [congruence|]. intros k. rewrite D. auto. Qed.

Theorem iz_tighten_spec : forall n z x y c, iwf n z -> used x z -> used y z -> x <> y -> good c ->
  exists z', iz_tighten x y c z = Ok z' /\ iwf n z' /\ same_clocks z z' /\
    (forall v, zin n (iz_mat z') v <-> zin n (iz_mat z) v /\ below c (ev v x - ev v y)%Q) /\
    (forall a b, a < n -> b < n -> ble (mget (iz_mat z') a b) (mget (iz_mat z) a b)).
Proof.
  intros n z x y c W Ux Uy N Gc. pose proof (used_lt _ _ _ W Ux) as Hx. pose proof (used_lt _ _ _ W Uy) as Hy.
  destruct W as [Sh K]. destruct z as [l p|m al p].
  - destruct l as [|[l0 u0] [|[l1 u1] [|[l2 u2] [|d l]]]]; cbn [shape] in Sh; try contradiction; destruct Sh; subst n p.
    + cbn [iz_mat fst snd] in K. destruct K as (S & G & D & C).
      assert (G0 : good l0) by (apply (G 0 1); lia). assert (G1 : good u0) by (apply (G 1 0); lia).
      destruct (lt2 x Hx) as [->| ->], (lt2 y Hy) as [->| ->]; try congruence; cbn [iz_tighten iv_tighten bind].
      * eexists. split; [reflexivity|]. split; [split; [split; reflexivity|apply mat_ok2; cbn [fst snd]; auto with bnd]|].
        split; [split; [reflexivity|cbn; tauto]|]. cbn [iz_mat fst snd]. split.
        -- intros v. rewrite !zin2, below_min by auto. cbn [ev]. split.
           ++ intros (A & B & E). repeat split; auto. eapply below_eq; [|exact E]. lra.
           ++ intros ((A & B) & E). repeat split; auto. eapply below_eq; [|exact E]. lra.
        -- intros a b Ha Hb. destruct (lt2 a Ha) as [->| ->], (lt2 b Hb) as [->| ->]; unfold mget; cbn [nth]; auto with bnd. apply bmin_l; auto.
      * eexists. split; [reflexivity|]. split; [split; [split; reflexivity|apply mat_ok2; cbn [fst snd]; auto with bnd]|].
        split; [split; [reflexivity|cbn; tauto]|]. cbn [iz_mat fst snd]. split.
        -- intros v. rewrite !zin2, below_min by auto. cbn [ev]. split.
           ++ intros ((A & E) & B). repeat split; auto. eapply below_eq; [|exact E]. lra.
           ++ intros ((A & B) & E). repeat split; auto. eapply below_eq; [|exact E]. lra.
        -- intros a b Ha Hb. destruct (lt2 a Ha) as [->| ->], (lt2 b Hb) as [->| ->]; unfold mget; cbn [nth]; auto with bnd. apply bmin_l; auto.
    + cbn [iz_mat fst snd] in K. set (b := mk6 u0 l0 u1 l1 u2 l2) in *. apply mat_ok3 in K as [G K].
      pose proof (tight6_spec x y c b Hx Hy N Gc G K) as (A & V & C & L & Z).
      assert (E : exists z', iz_tighten x y c (IvZone [(l0, u0); (l1, u1); (l2, u2)] 2) = Ok z' /\ iz_mat z' = ans_zone (tight6 x y c b) /\ exists i j k, z' = IvZone [i; j; k] 2).
      { destruct (lt3 x Hx) as [->|[->| ->]], (lt3 y Hy) as [->|[->| ->]]; try congruence;
          (eexists; split; [reflexivity|split; [reflexivity|do 3 eexists; reflexivity]]). }
      destruct E as (z' & E1 & E2 & (i & j & k & E3)). exists z'. split; auto. rewrite E2.
      split; [split; [rewrite E3; split; reflexivity|rewrite E2; apply mat_ok3; split; auto]|].
      split; [rewrite E3; split; [reflexivity|cbn; tauto]|]. split.
      * intros v. cbn [iz_mat fst snd]. rewrite !zin3. apply Z.
      * exact L.
  - cbn [shape iz_mat used] in *. destruct Sh as (A1 & A2 & A3 & A4 & A5 & A6).
    cbn [iz_tighten]. assert (length m = n) as -> by apply K. rewrite (proj2 (Nat.ltb_lt x n) Hx), (proj2 (Nat.ltb_lt y n) Hy). cbn [andb].
    destruct (mat_tighten_spec n m p x y c K Hx Hy Gc ltac:(lia)) as (B1 & B2 & B3 & B4).
    eexists. split; [reflexivity|]. split; [split|split; [split; [reflexivity|cbn; tauto]|cbn [iz_mat]; auto]].
    + cbn [shape]. do 5 (split; [auto|]). intros k Hk Nk. apply B4; auto; intros ->; congruence.
    + exact B1.
Qed.

(* ---------------- isSatisfiableCanonized ---------------- *)

Lemma iz_sat_valid : forall n z, iwf n z -> (iz_sat z = true <-> valid n (iz_mat z)).
Proof.
  intros n [l p|m al p] [Sh K].
  - destruct l as [|[l0 u0] [|[l1 u1] [|[l2 u2] [|d l]]]]; cbn [shape] in Sh; try contradiction; destruct Sh; subst n p; cbn [iz_mat fst snd iz_sat forallb] in *.
    + rewrite andb_true_r. destruct K as (S & G & D & C).
      assert (G0 : good l0) by (apply (G 0 1); lia). assert (G1 : good u0) by (apply (G 1 0); lia).
      rewrite bgeb_zero by auto with bnd. split.
      * intros V i j Hi Hj. destruct (lt2 i Hi) as [->| ->], (lt2 j Hj) as [->| ->]; unfold mget; cbn [nth]; auto using bcomm0; apply ble_refl; exact I.
      * intros V. apply (V 1 0); lia.
    + apply mat_ok3 in K as [G K]. rewrite valid3 by auto. destruct G as (A & B & C & D & E & F). cbn [ub lb ue le6 ud ld] in *.
      unfold valid6. cbn [ub lb ue le6 ud ld]. rewrite !andb_true_iff, !bgeb_zero by auto with bnd. tauto.
  - cbn [iz_mat iz_sat shape] in *. destruct K as (S & G & D & C). destruct Sh as (A1 & A2 & _). rewrite (min_sym_spec n) by (auto; try lia; apply S). reflexivity.
Qed.

Lemma iz_sat_canonical : forall n z, iwf n z -> iz_sat z = true -> canonical n (iz_mat z).
Proof. intros n z W H. apply (iz_sat_valid n) in H; auto. apply W. auto. Qed.

Theorem iz_sat_spec : forall n z, iwf n z -> (iz_sat z = true <-> exists v, zin n (iz_mat z) v).
Proof.
  intros n z W. split.
  - intros H. apply canonical_nonempty; [apply iz_sat_canonical; auto|apply W|pose proof (iwf_dim n z W); lia].
  - intros (v & H). apply (iz_sat_valid n); auto. apply (zin_valid n _ v); auto. apply W.
Qed.

(* ---------------- alloc, both representations ---------------- *)

Definition put4 (m : mat) (k p : nat) (up lo : bound) : mat := mset (mset (mset (mset m k 0 up) 0 k lo) k p binf) p k bzero.

Lemma put4_get : forall n m k p up lo a b, square n m -> k < n -> p < n -> k <> 0 -> k <> p -> p <> 0 -> a < n -> b < n ->
  mget (put4 m k p up lo) a b =
  if (a =? p) && (b =? k) then bzero else if (a =? k) && (b =? p) then binf
  else if (a =? 0) && (b =? k) then lo else if (a =? k) && (b =? 0) then up else mget m a b.
Proof.
  intros n m k p up lo a b S Hk Hp N1 N2 N3 Ha Hb. unfold put4.
  assert (0 < n) by lia. repeat rewrite (mget_mset n) by (auto; repeat apply square_mset; auto). reflexivity.
Qed.

Lemma alloc_mat_spec : forall n M k p up lo, square n M -> mgood n M -> k < n -> p < n -> k <> 0 -> k <> p -> p <> 0 ->
  good up -> good lo -> dead n M k -> (forall i, i < n -> ble (mget M i i) bzero) ->
  ((forall i j, i < n -> j < n -> i <> k -> j <> k -> ble bzero (badd (mget M i j) (mget M j i))) ->
   forall i j l, i < n -> j < n -> l < n -> i <> k -> j <> k -> l <> k -> ble (mget M i j) (badd (mget M i l) (mget M l j))) ->
  ble (mget M p 0) up ->
  let m2 := alloc_close k (put4 M k p up lo) in
  mat_ok n m2 /\
  (forall v, zin n m2 v <-> (zin n M v /\ below up (ev v k) /\ below lo (- ev v k) /\ ev v p <= ev v k)%Q) /\
  (forall a b, a < n -> b < n -> a <> k -> b <> k -> mget m2 a b = mget M a b) /\
  (forall j, j < n -> j <> k -> j <> 0 -> j <> p -> dead n M j -> dead n m2 j).
Proof.
  intros n M k p up lo S G Hk Hp N1 N2 N3 Gu Gl [Dk0 Dk] Dg T L m2.
  assert (H0 : 0 < n) by lia.
  pose proof (fun a b => put4_get n M k p up lo a b S Hk Hp N1 N2 N3) as E.
  assert (S1 : square n (put4 M k p up lo)) by (unfold put4; repeat apply square_mset; auto).
  assert (Old : forall a b, a < n -> b < n -> a <> k -> b <> k -> mget (put4 M k p up lo) a b = mget M a b).
  { intros a b Ha Hb Na Nb. rewrite E by auto. rewrite (proj2 (Nat.eqb_neq a k) Na), (proj2 (Nat.eqb_neq b k) Nb), !andb_false_r. reflexivity. }
  assert (Ekk : mget (put4 M k p up lo) k k = mget M k k).
  { rewrite E by auto. rewrite (proj2 (Nat.eqb_neq k p) N2), (proj2 (Nat.eqb_neq k 0) N1), Nat.eqb_refl. cbn [andb].
    destruct (Nat.eqb_spec 0 k); [lia|]. reflexivity. }
  assert (Ek0 : mget (put4 M k p up lo) k 0 = up).
  { rewrite E by auto. rewrite (proj2 (Nat.eqb_neq k p) N2), (proj2 (Nat.eqb_neq k 0) N1), !Nat.eqb_refl. cbn [andb].
    destruct (Nat.eqb_spec 0 p); [lia|]. reflexivity. }
  assert (E0k : mget (put4 M k p up lo) 0 k = lo).
  { rewrite E by auto. rewrite (proj2 (Nat.eqb_neq k p) N2), !Nat.eqb_refl. cbn [andb].
    destruct (Nat.eqb_spec 0 p); [lia|]. cbn [andb]. destruct (Nat.eqb_spec 0 k); [lia|]. reflexivity. }
  assert (Epk : mget (put4 M k p up lo) p k = bzero).
  { rewrite E by auto. rewrite !Nat.eqb_refl. reflexivity. }
  assert (Ekj : forall j, j < n -> j <> k -> j <> 0 -> fst (mget (put4 M k p up lo) k j) = PInf).
  { intros j Hj Nk N0. rewrite E by auto. rewrite (proj2 (Nat.eqb_neq k p) N2), (proj2 (Nat.eqb_neq k 0) N1), (proj2 (Nat.eqb_neq j 0) N0), Nat.eqb_refl. cbn [andb].
    destruct (j =? p); [reflexivity|]. apply Dk; auto. }
  assert (Ejk : forall i, i < n -> i <> k -> i <> 0 -> i <> p -> fst (mget (put4 M k p up lo) i k) = PInf).
  { intros i Hi Nk N0 Np. rewrite E by auto. rewrite (proj2 (Nat.eqb_neq i p) Np), (proj2 (Nat.eqb_neq i k) Nk), (proj2 (Nat.eqb_neq i 0) N0). cbn [andb]. apply Dk; auto. }
  assert (G1 : mgood n (put4 M k p up lo)).
  { intros a b Ha Hb. rewrite E by auto. destruct ((a =? p) && (b =? k)); [exact I|]. destruct ((a =? k) && (b =? p)); [exact I|].
    destruct ((a =? 0) && (b =? k)); auto. destruct ((a =? k) && (b =? 0)); auto. }
  destruct (alloc_close_spec n (put4 M k p up lo) p k up lo) as (A1 & A2 & A3 & A4 & A5); auto.
  - intros i Hi. destruct (Nat.eq_dec i k) as [->|Ni]; [rewrite Ekk|rewrite Old by auto]; auto.
  - intros V i j l Hi Hj Hl Ni Nj Nl. rewrite !Old by auto. apply T; auto.
    intros a b Ha Hb Na Nb. rewrite <- !Old by auto. auto.
  - rewrite Old by auto. auto.
  - split; [exact A1|split; [|split]].
    + intros v. fold m2 in A2. rewrite A2. clear - E Old Ekk Ek0 E0k Epk Ekj Ejk Dk Hk Hp N1 N2 N3 H0. split.
      * intros Z. split; [|split; [|split]].
        -- intros a b Ha Hb. destruct (Nat.eq_dec a k) as [->|Na], (Nat.eq_dec b k) as [->|Nb].
           ++ rewrite <- Ekk. apply Z; auto.
           ++ unfold below. destruct (Dk b Hb Nb) as [-> _]. exact I.
           ++ unfold below. destruct (Dk a Ha Na) as [_ ->]. exact I.
           ++ rewrite <- Old by auto. apply Z; auto.
        -- pose proof (Z k 0 Hk H0) as B. rewrite Ek0 in B. cbn [ev] in B. eapply below_eq; [|exact B]. cbn [ev]. lra.
        -- pose proof (Z 0 k H0 Hk) as B. rewrite E0k in B. cbn [ev] in B. eapply below_eq; [|exact B]. cbn [ev]. lra.
        -- pose proof (Z p k Hp Hk) as B. rewrite Epk in B. unfold below, bzero in B. cbn in B. lra.
      * intros (Z & B1 & B2 & B3) a b Ha Hb. destruct (Nat.eq_dec a k) as [->|Na], (Nat.eq_dec b k) as [->|Nb].
        -- rewrite Ekk. auto.
        -- destruct (Nat.eq_dec b 0) as [->|N0]; [rewrite Ek0; eapply below_eq; [|exact B1]; cbn [ev]; lra|].
           unfold below. rewrite Ekj by auto. exact I.
        -- destruct (Nat.eq_dec a 0) as [->|N0]; [rewrite E0k; eapply below_eq; [|exact B2]; cbn [ev]; lra|].
           destruct (Nat.eq_dec a p) as [->|Np]; [rewrite Epk; unfold below, bzero; cbn; lra|].
           unfold below. rewrite Ejk by auto. exact I.
        -- rewrite Old by auto. auto.
    + intros a b Ha Hb Na Nb. unfold m2. rewrite A3 by auto. auto.
    + intros j Hj Nk N0 Np [Dj0 Dj]. apply A5; auto. split; [rewrite Old by auto; auto|]. intros b Hb Nb. destruct (Dj b Hb Nb) as [D1 D2].
      destruct (Nat.eq_dec b k) as [->|Nbk].
      * split; [apply Ejk; auto|apply Ekj; auto].
      * rewrite !Old by auto. auto.
Qed.

Lemma grow_square : forall n m, square n m -> square (S n) (grow m).
Proof.
  intros n m [HL HF]. unfold grow. split.
  - rewrite app_length, map_length. cbn. lia.
  - apply Forall_app. split.
    + apply Forall_forall. intros r Hr. apply in_map_iff in Hr as (r0 & <- & Hr). rewrite Forall_forall in HF. rewrite app_length, (HF r0 Hr). cbn. lia.
    + constructor; [|constructor]. rewrite app_length, repeat_length. cbn. lia.
Qed.

Lemma grow_get : forall n m a b, square n m -> a < S n -> b < S n ->
  mget (grow m) a b = if a =? n then (if b =? n then bzero else binf) else if b =? n then binf else mget m a b.
Proof.
  intros n m a b [HL HF] Ha Hb. unfold grow, mget. destruct (Nat.eqb_spec a n) as [->|Na].
  - rewrite app_nth2 by (rewrite map_length; lia). rewrite map_length, HL, Nat.sub_diag. cbn [nth].
    destruct (Nat.eqb_spec b n) as [->|Nb].
    + rewrite app_nth2; rewrite repeat_length; [|lia]. rewrite Nat.sub_diag. reflexivity.
    + rewrite app_nth1 by (rewrite repeat_length; lia). apply nth_repeat_in. lia.
  - rewrite app_nth1 by (rewrite map_length; lia).
    rewrite (nth_indep _ [] ([] ++ [binf])) by (rewrite map_length; lia). rewrite map_nth with (f := fun r => r ++ [binf]) (d := []).
    assert (length (nth a m []) = n) as HR. { rewrite Forall_forall in HF. apply HF. apply nth_In. lia. }
    destruct (Nat.eqb_spec b n) as [->|Nb].
    + rewrite app_nth2 by lia. rewrite HR, Nat.sub_diag. reflexivity.
    + rewrite app_nth1 by lia. reflexivity.
Qed.

Lemma first_free_spec : forall l k, first_free l = Some k -> k < length l /\ nth k l false = false.
Proof.
  induction l as [|b l IH]; intros k H; [discriminate|]. cbn in H. destruct b.
  - destruct (first_free l) as [j|]; [|discriminate]. injection H as <-. destruct (IH j eq_refl). cbn. split; auto; lia.
  - injection H as <-. cbn. split; auto; lia.
Qed.

Lemma first_free_none : forall l k, first_free l = None -> k < length l -> nth k l false = true.
Proof.
  induction l as [|b l IH]; intros k H Hk; [cbn in Hk; lia|]. cbn in H. destruct b; [|discriminate].
  destruct k; [reflexivity|]. cbn. apply IH; [|cbn in Hk; lia]. destruct (first_free l); [discriminate|reflexivity].
Qed.

Lemma grow_zin : forall n m v, square n m -> 0 < n -> (zin (S n) (grow m) v <-> zin n m v).
Proof.
  intros n m v S Hn. split; intros Z a b Ha Hb.
  - pose proof (Z a b ltac:(lia) ltac:(lia)) as B. rewrite (grow_get n) in B by (auto; lia).
    rewrite (proj2 (Nat.eqb_neq a n)), (proj2 (Nat.eqb_neq b n)) in B by lia. exact B.
  - rewrite (grow_get n) by auto. destruct (Nat.eqb_spec a n), (Nat.eqb_spec b n); subst.
    + unfold below, bzero. cbn. lra.
    + exact I.
    + exact I.
    + apply Z; lia.
Qed.

Lemma grow_alloc : forall n m p up lo, mat_ok n m -> 1 <= p < n -> good up -> good lo -> ble (mget m p 0) up ->
  let m2 := alloc_close n (put4 (grow m) n p up lo) in
  mat_ok (S n) m2 /\
  (forall v, zin (S n) m2 v <-> (zin n m v /\ below up (ev v n) /\ below lo (- ev v n) /\ ev v p <= ev v n)%Q) /\
  (forall a b, a < n -> b < n -> mget m2 a b = mget m a b) /\
  (forall j, j < n -> j <> 0 -> j <> p -> dead n m j -> dead (S n) m2 j).
Proof.
  intros n m p up lo (S & G & D & C) Hp Gu Gl L m2.
  assert (Old : forall a b, a < n -> b < n -> mget (grow m) a b = mget m a b).
  { intros a b Ha Hb. rewrite (grow_get n) by (auto; lia). rewrite (proj2 (Nat.eqb_neq a n)), (proj2 (Nat.eqb_neq b n)) by lia. reflexivity. }
  destruct (alloc_mat_spec (Datatypes.S n) (grow m) n p up lo) as (A1 & A2 & A3 & A4); auto; try lia.
  - apply grow_square; auto.
  - intros a b Ha Hb. rewrite (grow_get n) by auto. destruct (Nat.eqb_spec a n), (Nat.eqb_spec b n); subst; try exact I. apply G; lia.
  - split; [rewrite (grow_get n) by (auto; lia); rewrite Nat.eqb_refl; auto with bnd|]. intros j Hj Nj. rewrite !(grow_get n) by (auto; lia). rewrite Nat.eqb_refl, (proj2 (Nat.eqb_neq j n)) by lia. split; reflexivity.
  - intros i Hi. rewrite (grow_get n) by auto. destruct (Nat.eqb_spec i n); subst; [apply ble_refl; exact I|apply D; lia].
  - intros V i j l Hi Hj Hl Ni Nj Nl. rewrite !Old by lia. destruct C as [_ C]; [|apply C; lia].
    intros a b Ha Hb. rewrite <- !Old by lia. apply V; lia.
  - rewrite Old by lia. auto.
  - fold m2 in A1, A2, A3, A4. split; [exact A1|split; [|split]].
    + intros v. rewrite A2, grow_zin by (auto; lia). tauto.
    + intros a b Ha Hb. rewrite A3 by lia. apply Old; auto.
    + intros j Hj N0 Np [Dj0 Dj]. apply A4; auto; try lia. split; [rewrite Old by auto; auto|]. intros b Hb Nb. destruct (Nat.eq_dec b n) as [->|Nbn].
      * rewrite !(grow_get n) by (auto; lia). rewrite Nat.eqb_refl, (proj2 (Nat.eqb_neq j n)) by lia. split; reflexivity.
      * rewrite !Old by lia. apply Dj; lia.
Qed.

Lemma nth_set_nth : forall (l : list bool) k i, k < length l -> nth i (set_nth l k true) false = if i =? k then true else nth i l false.
Proof.
  induction l as [|b l IH]; intros k i Hk; [cbn in Hk; lia|]. destruct k, i; cbn; auto. apply IH. cbn in Hk. lia.
Qed.
Lemma len_set_nth : forall {T} (l : list T) k a, length (set_nth l k a) = length l.
Proof. induction l as [|b l IH]; intros [|k] a; cbn; auto. Qed.

Theorem iz_alloc_spec : forall n z up lo, iwf n z -> good up -> good lo ->
  ble (mget (iz_mat z) (newestClock z) 0) up ->
  (newestClock z = 1 -> ble lo (mget (iz_mat z) 0 1)) ->
  exists n' z', iz_alloc up lo z = Ok z' /\ iwf n' z' /\ n <= n' /\
    ~ used (newestClock z') z /\ (forall i, used i z' <-> used i z \/ i = newestClock z') /\
    (forall v, zin n' (iz_mat z') v <->
       (zin n (iz_mat z) v /\ below up (ev v (newestClock z')) /\ below lo (- ev v (newestClock z')) /\ ev v (newestClock z) <= ev v (newestClock z'))%Q) /\
    (forall a b, used a z -> used b z -> ble (mget (iz_mat z') a b) (mget (iz_mat z) a b)).
Proof.
  intros n z up lo [Sh K] Gu Gl Lu Ll. destruct z as [l p|m al p].
  - destruct l as [|[l0 u0] [|[l1 u1] [|[l2 u2] [|d l]]]]; cbn [shape] in Sh; try contradiction; destruct Sh; subst n p; cbn [newestClock iz_mat fst snd] in *.
    + exists 3. eexists. split; [reflexivity|]. cbn [newestClock fst snd]. destruct K as (S & G & D & C).
      assert (G0 : good l0) by (apply (G 0 1); lia). assert (G1 : good u0) by (apply (G 1 0); lia).
      specialize (Ll eq_refl). unfold mget in Lu, Ll. cbn [nth] in Lu, Ll.
      assert (P : iz_mat (IvZone [(l0, u0); (lo, up); (bmin (badd u0 lo) bzero, badd up l0)] 2) = ans_zone (mk6 u0 l0 up lo (badd up l0) (bmin (badd u0 lo) bzero))) by reflexivity.
      split; [split; [split; reflexivity|]|split; [lia|split; [|split; [|split]]]].
      * rewrite P. apply mat_ok3. split; [unfold good6; cbn [ub lb ue le6 ud ld]; repeat split; auto with bnd|].
        intros (V1 & V2 & V3). cbn [ub lb ue le6 ud ld] in V1, V2, V3. unfold closed6. cbn [ub lb ue le6 ud ld].
        split; [|split; [|split; [|split; [|split]]]].
        -- apply ble_add_min; auto with bnd.
           ++ apply ble_trans with (badd u0 (badd lo up)); [auto|auto with bnd|auto with bnd| |apply badd_assoc_le; auto].
              apply badd_nonneg_r; auto with bnd. apply bcomm0; auto.
           ++ eapply ble_trans; [| | |exact Lu|apply badd_nonneg_l]; auto with bnd.
        -- apply ble_3; auto. apply bcomm0; auto.
        -- apply ble_3'; auto. apply bcomm0; auto.
        -- apply ble_add_min_r; auto with bnd.
           ++ apply ble_trans with (badd (badd l0 u0) lo); [auto|auto with bnd|auto with bnd| |apply badd_assoc_ge; auto].
              apply badd_nonneg_l; auto with bnd. apply bcomm0; auto.
           ++ eapply ble_trans; [| | |exact Ll|apply badd_nonneg_r]; auto with bnd.
        -- apply ble_refl; auto with bnd.
        -- apply bmin_l; auto with bnd.
      * cbn. lia.
      * intros i. cbn. lia.
      * intros v. rewrite P, zin3, zin2. unfold in6. cbn [ub lb ue le6 ud ld ev]. rewrite below_min by auto with bnd. split.
        -- intros (A & B & C' & D' & E & F & F'). repeat split; auto. unfold below in F'. cbn in F'. lra.
        -- intros ((A & B) & C' & D' & E). repeat split; auto.
           ++ bpick (v 1%nat) (- v 0%nat)%Q.
           ++ bpick (v 0%nat) (- v 1%nat)%Q.
           ++ unfold below. cbn. lra.
      * intros a b Ha Hb. cbn in Ha, Hb. destruct (lt2 a Ha) as [->| ->], (lt2 b Hb) as [->| ->]; unfold mget; cbn [iz_mat ans_zone nth fst snd ub lb]; auto with bnd.
    + exists 4. eexists. split; [reflexivity|]. cbn [newestClock fst snd].
      assert (P : iv_matrix (l0, u0) (l1, u1) (l2, u2) up lo = put4 (grow (ans_zone (mk6 u0 l0 u1 l1 u2 l2))) 3 2 up lo) by reflexivity.
      rewrite P. destruct (grow_alloc 3 (ans_zone (mk6 u0 l0 u1 l1 u2 l2)) 2 up lo K ltac:(lia) Gu Gl Lu) as (A1 & A2 & A3 & A4).
      split; [split; [|exact A1]|split; [lia|split; [|split; [|split]]]].
      * cbn [shape]. split; [reflexivity|]. split; [lia|]. do 3 (split; [reflexivity|]). intros k Hk H.
        destruct k as [|[|[|[|k]]]]; cbn in H; try discriminate. lia.
      * cbn. lia.
      * intros i. cbn [used]. destruct i as [|[|[|[|i]]]]; cbn; try (split; intros; auto; lia). destruct i; split; intros; try discriminate; lia.
      * exact A2.
      * intros a b Ha Hb. cbn in Ha, Hb. cbn [iz_mat]. rewrite A3 by auto. apply ble_refl. apply K; auto.
  - cbn [shape] in Sh. destruct Sh as (B1 & B2 & B3 & B4 & B5 & B6). cbn [newestClock iz_mat] in *. unfold iz_alloc.
    destruct (first_free al) as [k|] eqn:F.
    + apply first_free_spec in F as [F1 F2]. rewrite B1 in F1.
      assert (N0 : k <> 0) by (intros ->; congruence). assert (N1 : k <> 1) by (intros ->; congruence). assert (Np : k <> p) by (intros ->; congruence).
      change (mset (mset (mset (mset m k 0 up) 0 k lo) k p binf) p k bzero) with (put4 m k p up lo).
      pose proof K as (S & G & D & C).
      destruct (alloc_mat_spec n m k p up lo) as (A1 & A2 & A3 & A4); auto; try lia.
      { intros V i j l Hi Hj Hl Ni Nj Nl. destruct C as [_ C]; [|apply C; lia].
        intros a b Ha Hb. destruct (Nat.eq_dec a k) as [->|Na], (Nat.eq_dec b k) as [->|Nb]; auto.
        - eapply ble_trans; [| | |apply (B6 k); auto|apply badd_nonneg_l]; auto with bnd. apply (B6 k); auto.
        - apply ble_pinf; auto with bnd. apply pinf_add_l; auto. apply (B6 k); auto.
        - apply ble_pinf; auto with bnd. apply pinf_add_l; auto. apply (B6 k); auto. }
      exists n. eexists. split; [reflexivity|]. cbn [newestClock].
      split; [split; [|exact A1]|split; [lia|split; [|split; [|split]]]].
      * cbn [shape]. rewrite len_set_nth. rewrite !nth_set_nth by lia. split; [auto|]. split; [lia|].
        rewrite Nat.eqb_refl, B3, B4. split; [destruct (0 =? k); auto|]. split; [destruct (1 =? k); auto|]. split; [auto|].
        intros j Hj Nj. rewrite nth_set_nth in Nj by lia. destruct (Nat.eqb_spec j k); [discriminate|].
        apply A4; auto; intros ->; congruence.
      * cbn [used]. congruence.
      * intros i. cbn [used]. rewrite nth_set_nth by lia. destruct (Nat.eqb_spec i k); intuition congruence.
      * exact A2.
      * cbn [used iz_mat]. intros a b Ha Hb.
        assert (Ha' : a < n) by (destruct (Nat.lt_ge_cases a n); auto; rewrite nth_overflow in Ha by lia; discriminate).
        assert (Hb' : b < n) by (destruct (Nat.lt_ge_cases b n); auto; rewrite nth_overflow in Hb by lia; discriminate).
        rewrite A3; auto with bnd; intros ->; congruence.
    + pose proof (fun k H => first_free_none al k F H) as F'. assert (length m = n) as -> by apply K.
      change (mset (mset (mset (mset (grow m) n 0 up) 0 n lo) n p binf) p n bzero) with (put4 (grow m) n p up lo).
      destruct (grow_alloc n m p up lo K ltac:(lia) Gu Gl Lu) as (A1 & A2 & A3 & A4).
      assert (LA : length (al ++ [false]) = S n) by (rewrite app_length, B1; cbn; lia).
      assert (NA : forall i, nth i (al ++ [false]) false = if i <? n then true else false).
      { intros i. destruct (Nat.ltb_spec i n).
        - rewrite app_nth1 by lia. apply F'. lia.
        - rewrite app_nth2 by lia. destruct (i - length al) as [|[|q]]; reflexivity. }
      assert (US : forall i, nth i al false = true <-> i < n).
      { intros i. split; [|intros; apply F'; lia]. intros H. destruct (Nat.lt_ge_cases i n); auto. rewrite nth_overflow in H by lia. discriminate. }
      exists (S n). eexists. split; [reflexivity|]. cbn [newestClock].
      split; [split; [|exact A1]|split; [lia|split; [|split; [|split]]]].
      * cbn [shape]. rewrite len_set_nth. rewrite !nth_set_nth, !NA by lia. split; [auto|]. split; [lia|].
        rewrite Nat.eqb_refl. destruct (Nat.ltb_spec 0 n); [|lia]. destruct (Nat.ltb_spec 1 n); [|lia].
        split; [destruct (0 =? n); auto|]. split; [destruct (1 =? n); auto|]. split; [auto|].
        intros j Hj Nj. rewrite nth_set_nth, NA in Nj by lia. destruct (Nat.eqb_spec j n); [discriminate|].
        destruct (Nat.ltb_spec j n); [discriminate|lia].
      * cbn [used]. rewrite US. lia.
      * intros i. cbn [used]. rewrite nth_set_nth, NA, US by lia. destruct (Nat.eqb_spec i n), (Nat.ltb_spec i n); intuition (try congruence; try lia).
      * exact A2.
      * cbn [used iz_mat]. intros a b Ha Hb. apply US in Ha, Hb. rewrite A3 by auto. apply ble_refl. apply K; auto.
Qed.
