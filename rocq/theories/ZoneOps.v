(* Facts about tighten, reset, elapse, abstractize, makeUnsat, ==. *)
From Coq Require Import QArith Qminmax Lqa Bool List ZArith Arith Lia.
From Verif Require Import Num NumFacts Constraint Zone ZoneFacts.
Import ListNotations.
Open Scope nat_scope.

Lemma cv_succ_small : forall x, x < 255 -> cv_succ x = S x.
Proof. intros. unfold cv_succ. rewrite Nat.mod_small; lia. Qed.

Lemma cv_succ_none : cv_succ cv_none = 0.
Proof. reflexivity. Qed.

(* ---------- tighten ---------- *)

Lemma tighten_square : forall n m x y c, square n m -> cv_succ x < n -> cv_succ y < n ->
  square n (tighten m x y c).
Proof.
  intros. unfold tighten. apply close1_square; auto. apply close1_square; auto.
  apply square_mset; auto.
Qed.

Lemma mset_good : forall n m i j b, square n m -> i < n -> j < n -> mgood n m -> good b ->
  mgood n (mset m i j b).
Proof.
  intros n m i j b H Hi Hj Hg Hb a c Ha Hc. rewrite (mget_mset n) by auto.
  destruct ((a =? i) && (c =? j)); auto.
Qed.

Lemma tighten_good : forall n m x y c, square n m -> cv_succ x < n -> cv_succ y < n ->
  mgood n m -> good c -> mgood n (tighten m x y c).
Proof.
  intros. unfold tighten.
  apply close1_good; auto; [apply close1_square; auto; apply square_mset; auto|].
  apply close1_good; auto; [apply square_mset; auto|].
  apply mset_good; auto with bnd.
Qed.

Lemma tighten_zin : forall n m x y c v, square n m -> cv_succ x < n -> cv_succ y < n ->
  mgood n m -> good c ->
  (zin n (tighten m x y c) v <-> zin n m v /\ below c (ev v (cv_succ x) - ev v (cv_succ y))%Q).
Proof.
  intros n m x y c v Hs Hx Hy Hg Hc. unfold tighten.
  set (x' := cv_succ x) in *. set (y' := cv_succ y) in *.
  assert (S1 : square n (mset m x' y' (bmin (mget m x' y') c))) by (apply square_mset; auto).
  assert (G1 : mgood n (mset m x' y' (bmin (mget m x' y') c))) by (apply mset_good; auto with bnd).
  rewrite close1_zin; auto using close1_square, close1_good.
  rewrite close1_zin; auto. split.
  - intros H. split.
    + intros i j Hi Hj. specialize (H i j Hi Hj). rewrite (mget_mset n) in H by auto.
      destruct (Nat.eqb_spec i x'), (Nat.eqb_spec j y'); simpl in H; auto. subst.
      apply below_min in H; auto. tauto.
    + specialize (H x' y' Hx Hy). rewrite (mget_mset n) in H by auto.
      rewrite !Nat.eqb_refl in H. simpl in H. apply below_min in H; auto. tauto.
  - intros [H1 H2] i j Hi Hj. rewrite (mget_mset n) by auto.
    destruct (Nat.eqb_spec i x'), (Nat.eqb_spec j y'); simpl; auto. subst.
    apply below_min; auto.
Qed.

(* ---------- elapse ---------- *)

Lemma elapse_square : forall n m, square n m -> square n (elapse m).
Proof.
  intros n m [HL HF]. unfold elapse.
  assert (S1 : square n (map (fun r => set_nth r 0 binf) m)).
  { split; [rewrite map_length; auto|].
    rewrite Forall_forall in *. intros r Hr. apply in_map_iff in Hr as (r' & <- & Hr').
    rewrite set_nth_length. auto. }
  change (set_nth (map (fun r => set_nth r 0 binf) m) 0) with
    (setrow (map (fun r => set_nth r 0 binf) m) 0).
  destruct n.
  - destruct m; [|discriminate]. simpl. split; auto.
  - apply square_setrow; auto. rewrite map_length. apply square_row; auto. lia.
Qed.

Lemma mget_elapse : forall n m i j, square n m -> i < n -> j < n ->
  mget (elapse m) i j =
  if j =? 0 then binf else if i =? 0 then (fst (mget m 0 j), false) else mget m i j.
Proof.
  intros n m i j Hs Hi Hj. unfold elapse.
  set (m1 := map (fun r => set_nth r 0 binf) m).
  assert (S1 : square n m1).
  { destruct Hs as [HL HF]. split; [unfold m1; rewrite map_length; auto|].
    rewrite Forall_forall in *. intros r Hr. apply in_map_iff in Hr as (r' & <- & Hr').
    rewrite set_nth_length. auto. }
  assert (M1 : forall i j, i < n -> j < n -> mget m1 i j = if j =? 0 then binf else mget m i j).
  { intros a b Ha Hb. unfold mget, m1. destruct Hs as [HL HF].
    rewrite nth_map_in with (a := []) by lia.
    rewrite nth_set_nth; auto. rewrite (square_row n); [lia|split; auto|auto]. }
  change (set_nth m1 0) with (setrow m1 0). rewrite (mget_setrow n) by (auto; lia).
  destruct (Nat.eqb_spec i 0).
  - subst. rewrite nth_map_in with (a := binf) by (rewrite (square_row n); auto).
    change (nth j (nth 0 m1 []) binf) with (mget m1 0 j). rewrite M1 by auto.
    destruct (Nat.eqb_spec j 0); auto.
  - apply M1; auto.
Qed.

Lemma elapse_good : forall n m, square n m -> mgood n m -> mgood n (elapse m).
Proof.
  intros n m Hs Hg i j Hi Hj. rewrite (mget_elapse n) by auto.
  destruct (j =? 0); [exact I|]. destruct (Nat.eqb_spec i 0); auto.
  pose proof (Hg 0 j ltac:(lia) Hj) as G. revert G. destruct (mget m 0 j). auto.
Qed.

Definition vplus (v : valuation) (d : Q) : valuation := fun x => (v x + d)%Q.

Lemma below_strict : forall b d e, good b -> below b d -> (e < d)%Q -> below (fst b, false) e.
Proof. intros [[| |x|] []]; bunf; bgo. Qed.

(* Every positive delay from a zone stays in its elapse. *)
Lemma elapse_forward : forall n m v d, square n m -> mgood n m -> zin n m v -> (0 < d)%Q ->
  zin n (elapse m) (vplus v d).
Proof.
  intros n m v d Hs Hg Hv Hd i j Hi Hj. rewrite (mget_elapse n) by auto.
  destruct (Nat.eqb_spec j 0); [exact I|].
  destruct (Nat.eqb_spec i 0).
  - subst. apply below_strict with (ev v 0 - ev v j)%Q; [apply Hg; auto|auto|].
    destruct j; [congruence|]. simpl. unfold vplus. lra.
  - apply below_eq with (ev v i - ev v j)%Q; auto.
    destruct i, j; try congruence. simpl. unfold vplus. ring.
Qed.

(* On a canonical matrix the elapse contains nothing else. *)
Lemma elapse_backward : forall n m v, square n m -> mgood n m -> canonical n m ->
  zin n (elapse m) v -> exists d u, (0 < d)%Q /\ zin n m u /\ forall x, (v x == u x + d)%Q.
Proof.
  intros n m v Hs Hg Hc Hv. pose proof Hc as [Hd Ht].
  (* unknown d: v i - d <= m i 0 ; d - v j <= m 0 j ; d > 0 *)
  destruct (helly ((Fin 0, false) :: map (fun i => bshift (mget m i 0) (- ev v i)%Q) (seq 1 (n - 1)))
                  (map (fun j => bshift (mget m 0 j) (ev v j)) (seq 1 (n - 1)))) as (d & Hlo & Hup).
  - intros b [<-|Hb]; [exact I|]. apply in_map_iff in Hb as (i & <- & Hi). apply in_seq in Hi.
    apply good_bshift. apply Hg; lia.
  - intros b Hb. apply in_map_iff in Hb as (i & <- & Hi). apply in_seq in Hi.
    apply good_bshift. apply Hg; lia.
  - intros l u Hl Hu. apply in_map_iff in Hu as (j & <- & Hj). apply in_seq in Hj.
    destruct Hl as [<-|Hl].
    + specialize (Hv 0 j ltac:(lia) ltac:(lia)). rewrite (mget_elapse n) in Hv by (auto; lia).
      destruct (Nat.eqb_spec j 0); [lia|]. simpl in Hv.
      pose proof (Hg 0 j ltac:(lia) ltac:(lia)) as G. revert G Hv.
      generalize (mget m 0 j). intros [[| |x|] []]; unfold bshift; bunf; bgo.
    + apply in_map_iff in Hl as (i & <- & Hi). apply in_seq in Hi.
      pose proof (Hv i j ltac:(lia) ltac:(lia)) as B. rewrite (mget_elapse n) in B by (auto; lia).
      destruct (Nat.eqb_spec j 0); [lia|]. destruct (Nat.eqb_spec i 0); [lia|].
      pose proof (Ht i j 0 ltac:(lia) ltac:(lia) ltac:(lia)) as T.
      apply below_ble with (b := badd (mget m i 0) (mget m 0 j)) in B;
        [|apply Hg; lia|apply good_add; apply Hg; lia|auto].
      pose proof (Hg i 0 ltac:(lia) ltac:(lia)) as G1. pose proof (Hg 0 j ltac:(lia) ltac:(lia)) as G2.
      revert B G1 G2. clear. generalize (mget m i 0) (mget m 0 j).
      intros [[| |x|] []] [[| |y|] []]; unfold bshift; bunf; bgo.
  - assert (Hd0 : (0 < d)%Q).
    { specialize (Hlo (Fin 0, false) (or_introl eq_refl)). unfold below in Hlo. simpl in Hlo. lra. }
    exists d, (vplus v (- d)). split; auto. split.
    + intros i j Hi Hj. destruct (Nat.eq_dec i 0) as [->|Hi0], (Nat.eq_dec j 0) as [->|Hj0].
      * apply below_eq with 0%Q; [simpl; ring|]. apply below_zero; auto.
      * specialize (Hup (bshift (mget m 0 j) (ev v j))).
        apply below_eq with (d - ev v j)%Q.
        { destruct j; [congruence|]. simpl. unfold vplus. ring. }
        apply below_bshift; auto. apply Hup. apply in_map_iff. exists j. split; auto. apply in_seq. lia.
      * specialize (Hlo (bshift (mget m i 0) (- ev v i)%Q)).
        apply below_eq with (- d - - ev v i)%Q.
        { destruct i; [congruence|]. simpl. unfold vplus. ring. }
        apply below_bshift; auto. apply Hlo. right. apply in_map_iff. exists i. split; auto. apply in_seq. lia.
      * specialize (Hv i j Hi Hj). rewrite (mget_elapse n) in Hv by auto.
        destruct (Nat.eqb_spec j 0); [lia|]. destruct (Nat.eqb_spec i 0); [lia|].
        apply below_eq with (ev v i - ev v j)%Q; auto.
        destruct i, j; try congruence. simpl. unfold vplus. ring.
    + intros x. unfold vplus. ring.
Qed.

(* ---------- reset ---------- *)

Definition vreset (v : valuation) (x : nat) : valuation := fun y => if y =? x then 0%Q else v y.

Lemma reset_aux : forall n m x, square n m -> S x < n -> x < 255 ->
  square n (reset m x) /\
  forall i j, i < n -> j < n -> mget (reset m x) i j =
    if i =? S x then (if (j =? 0) || (j =? S x) then bzero else mget m 0 j)
    else if j =? S x then (if i =? 0 then bzero else mget m i 0)
    else mget m i j.
Proof.
  intros n m x Hs Hx H255. unfold reset. rewrite cv_succ_small by auto.
  pose proof Hs as [HL _]. rewrite HL.
  set (m1 := mset m 0 (S x) bzero). set (m2 := mset m1 (S x) 0 bzero).
  assert (S1 : square n m1) by (apply square_mset; auto).
  assert (S2 : square n m2) by (apply square_mset; auto).
  assert (E2 : forall i j, mget m2 i j =
     if (i =? S x) && (j =? 0) then bzero else if (i =? 0) && (j =? S x) then bzero else mget m i j).
  { intros i j. unfold m2. rewrite (mget_mset n) by (auto; lia).
    destruct ((i =? S x) && (j =? 0)); auto. unfold m1. rewrite (mget_mset n) by (auto; lia). auto. }
  set (m3 := fold_left (fun m i => mset m i (S x) (mget m i 0)) (seq 1 (n - 1)) m2).
  assert (P3 : square n m3 /\ forall i j, i < n -> j < n ->
     mget m3 i j = if (1 <=? i) && (i <? 1 + (n - 1)) && (j =? S x) then mget m2 i 0 else mget m2 i j).
  { unfold m3. apply (fold_range (fun m i => mset m i (S x) (mget m i 0))
      (fun p m' => square n m' /\ forall i j, i < n -> j < n ->
        mget m' i j = if (1 <=? i) && (i <? p) && (j =? S x) then mget m2 i 0 else mget m2 i j) (n - 1) 1 m2).
    - split; auto. intros i j Hi Hj. destruct (Nat.leb_spec 1 i), (Nat.ltb_spec i 1); simpl; auto; lia.
    - intros p m' Hp [Sm Em]. split; [apply square_mset; auto|]. intros i j Hi Hj.
      rewrite (mget_mset n) by (auto; lia).
      destruct (Nat.eqb_spec i p) as [->|Hne].
      + destruct (Nat.eqb_spec j (S x)) as [->|Hj']; cbn [andb].
        * rewrite Em by lia.
          replace (1 <=? p) with true by (symmetry; apply Nat.leb_le; lia).
          replace (p <? S p) with true by (symmetry; apply Nat.ltb_lt; lia).
          replace (p <? p) with false by (symmetry; apply Nat.ltb_ge; lia).
          rewrite ?Nat.eqb_refl. reflexivity.
        * rewrite Em by auto. destruct (Nat.eqb_spec j (S x)); [congruence|]. rewrite !andb_false_r. auto.
      + simpl. rewrite Em by auto.
        destruct (Nat.ltb_spec i p), (Nat.ltb_spec i (S p)); auto; lia. }
  destruct P3 as [S3 E3].
  set (m4 := fold_left (fun m j => mset m (S x) j (mget m 0 j)) (seq 1 (n - 1)) m3).
  assert (P4 : square n m4 /\ forall i j, i < n -> j < n ->
     mget m4 i j = if (1 <=? j) && (j <? 1 + (n - 1)) && (i =? S x) then mget m3 0 j else mget m3 i j).
  { unfold m4. apply (fold_range (fun m j => mset m (S x) j (mget m 0 j))
      (fun p m' => square n m' /\ forall i j, i < n -> j < n ->
        mget m' i j = if (1 <=? j) && (j <? p) && (i =? S x) then mget m3 0 j else mget m3 i j) (n - 1) 1 m3).
    - split; auto. intros i j Hi Hj. destruct (Nat.leb_spec 1 j), (Nat.ltb_spec j 1); simpl; auto; lia.
    - intros p m' Hp [Sm Em]. split; [apply square_mset; auto|]. intros i j Hi Hj.
      rewrite (mget_mset n) by (auto; lia).
      destruct (Nat.eqb_spec j p) as [->|Hne].
      + destruct (Nat.eqb_spec i (S x)) as [->|Hi']; cbn [andb].
        * rewrite Em by lia.
          replace (1 <=? p) with true by (symmetry; apply Nat.leb_le; lia).
          replace (p <? S p) with true by (symmetry; apply Nat.ltb_lt; lia).
          replace (p <? p) with false by (symmetry; apply Nat.ltb_ge; lia).
          rewrite ?Nat.eqb_refl. reflexivity.
        * rewrite Em by auto. destruct (Nat.eqb_spec i (S x)); [congruence|]. rewrite !andb_false_r. auto.
      + rewrite andb_false_r. rewrite Em by auto.
        destruct (Nat.ltb_spec j p), (Nat.ltb_spec j (S p)); auto; lia. }
  destruct P4 as [S4 E4]. split; auto.
  intros i j Hi Hj. rewrite E4 by auto. rewrite !E3 by lia. rewrite !E2.
  destruct (Nat.ltb_spec j (1 + (n - 1))); [|lia]. destruct (Nat.ltb_spec i (1 + (n - 1))); [|lia].
  rewrite !andb_true_r.
  destruct (Nat.eqb_spec i (S x)) as [->|Hi']; simpl.
  - destruct j as [|j]; simpl; auto.
  - destruct i as [|i]; simpl.
    + rewrite andb_false_r. destruct (j =? S x); auto.
    + rewrite andb_false_r. destruct (Nat.eqb_spec i x); [congruence|]. simpl. destruct (j =? S x); auto.
Qed.

Lemma reset_square : forall n m x, square n m -> S x < n -> x < 255 -> square n (reset m x).
Proof. intros. apply (reset_aux n m x); auto. Qed.

Lemma mget_reset : forall n m x i j, square n m -> S x < n -> x < 255 -> i < n -> j < n ->
  mget (reset m x) i j =
    if i =? S x then (if (j =? 0) || (j =? S x) then bzero else mget m 0 j)
    else if j =? S x then (if i =? 0 then bzero else mget m i 0)
    else mget m i j.
Proof. intros. apply (reset_aux n m x); auto. Qed.

Lemma reset_good : forall n m x, square n m -> S x < n -> x < 255 -> mgood n m -> mgood n (reset m x).
Proof.
  intros n m x Hs Hx H255 Hg i j Hi Hj. rewrite (mget_reset n) by auto.
  destruct (i =? S x).
  - destruct ((j =? 0) || (j =? S x)); [exact I|]. apply Hg; lia.
  - destruct (j =? S x); auto. destruct (i =? 0); [exact I|]. apply Hg; lia.
Qed.

Lemma reset_forward : forall n m x v, square n m -> S x < n -> x < 255 -> mgood n m ->
  zin n m v -> zin n (reset m x) (vreset v x).
Proof.
  intros n m x v Hs Hx H255 Hg Hv.
  assert (E0 : ev (vreset v x) (S x) = 0%Q) by (simpl; unfold vreset; rewrite Nat.eqb_refl; auto).
  assert (E1 : forall k, k <> S x -> ev (vreset v x) k = ev v k).
  { intros [|k] Hk; auto. simpl. unfold vreset. destruct (Nat.eqb_spec k x); auto. congruence. }
  intros i j Hi Hj. rewrite (mget_reset n) by auto.
  destruct (Nat.eqb_spec i (S x)) as [->|Hi'].
  - rewrite E0. destruct (Nat.eqb_spec j 0) as [->|Hj0]; simpl orb.
    + unfold below, bzero. simpl. lra.
    + destruct (Nat.eqb_spec j (S x)) as [->|Hj'].
      * rewrite E0. unfold below, bzero. simpl. lra.
      * rewrite E1 by auto. apply below_eq with (ev v 0 - ev v j)%Q; [simpl; ring|]. apply Hv; lia.
  - rewrite E1 by auto. destruct (Nat.eqb_spec j (S x)) as [->|Hj'].
    + rewrite E0. destruct (Nat.eqb_spec i 0) as [->|].
      * unfold below, bzero. simpl. lra.
      * apply below_eq with (ev v i - ev v 0)%Q; [simpl; ring|]. apply Hv; lia.
    + rewrite E1 by auto. apply Hv; auto.
Qed.

Lemma reset_backward : forall n m x v, square n m -> S x < n -> x < 255 -> mgood n m -> canonical n m ->
  zin n (reset m x) v -> exists u, zin n m u /\ forall y, y < n - 1 -> (v y == vreset u x y)%Q.
Proof.
  intros n m x v Hs Hx H255 Hg Hc Hv.
  pose (S0 := filter (fun k => negb (k =? S x)) (seq 0 n)).
  assert (HS : forall k, In k S0 <-> k < n /\ k <> S x).
  { intros k. unfold S0. rewrite filter_In, in_seq, negb_true_iff, Nat.eqb_neq. lia. }
  destruct (extend_one n m S0 (S x) (ev v) Hc Hg) as (g & Eg & Hgs).
  - intros k Hk. apply HS in Hk. tauto.
  - auto.
  - intro Hk. apply HS in Hk. tauto.
  - intros i j Hi Hj. apply HS in Hi, Hj. destruct Hi as [Hi Hi'], Hj as [Hj Hj'].
    specialize (Hv i j Hi Hj). rewrite (mget_reset n) in Hv by auto.
    destruct (Nat.eqb_spec i (S x)); [congruence|]. destruct (Nat.eqb_spec j (S x)); [congruence|]. auto.
  - assert (G0 : g 0 = 0%Q) by (rewrite Eg; auto; apply HS; lia).
    exists (fun k => g (S k)). split.
    + intros i j Hi Hj.
      assert (Ee : forall k, ev (fun k => g (S k)) k = g k) by (intros [|k]; simpl; auto).
      rewrite !Ee. apply Hgs.
      * destruct (Nat.eq_dec i (S x)); [left; auto|right; apply HS; auto].
      * destruct (Nat.eq_dec j (S x)); [left; auto|right; apply HS; auto].
    + intros y Hy. unfold vreset. destruct (Nat.eqb_spec y x) as [->|Hne].
      * pose proof (Hv 0 (S x) ltac:(lia) Hx) as A. pose proof (Hv (S x) 0 Hx ltac:(lia)) as B.
        rewrite (mget_reset n) in A, B by (auto; lia).
        simpl in A, B. rewrite Nat.eqb_refl in A, B. unfold below, bzero in A, B. simpl in A, B. lra.
      * rewrite Eg by (apply HS; lia). simpl. reflexivity.
Qed.

(* ---------- abstractize ---------- *)

Lemma abstractize_square : forall n M m, square n m -> square n (abstractize M m).
Proof.
  intros n M m [HL HF]. unfold abstractize. split; [rewrite map_length; auto|].
  rewrite Forall_forall in *. intros r Hr. apply in_map_iff in Hr as (r' & <- & Hr').
  rewrite map_length. auto.
Qed.

Lemma mget_abstractize : forall n M m i j, square n m -> i < n -> j < n ->
  mget (abstractize M m) i j = if bgeb (mget m i j) M then binf else mget m i j.
Proof.
  intros n M m i j Hs Hi Hj. unfold mget, abstractize. pose proof Hs as [HL _].
  rewrite nth_map_in with (a := []) by lia.
  rewrite nth_map_in with (a := binf) by (rewrite (square_row n); auto). auto.
Qed.

Lemma abstractize_good : forall n M m, square n m -> mgood n m -> mgood n (abstractize M m).
Proof.
  intros n M m Hs Hg i j Hi Hj. rewrite (mget_abstractize n) by auto.
  destruct (bgeb _ _); auto. exact I.
Qed.

Lemma abstractize_zin : forall n M m v, square n m -> zin n m v -> zin n (abstractize M m) v.
Proof.
  intros n M m v Hs Hv i j Hi Hj. rewrite (mget_abstractize n) by auto.
  destruct (bgeb _ _); auto. exact I.
Qed.

(* ---------- equality ---------- *)

Lemma list_eqb_nth : forall {A} (e : A -> A -> bool) l k d, list_eqb e l k = true ->
  length l = length k /\ forall i, i < length l -> e (nth i l d) (nth i k d) = true.
Proof.
  induction l; destruct k; simpl; intros; try discriminate.
  - split; auto. intros; lia.
  - apply andb_true_iff in H as [H1 H2]. destruct (IHl _ d H2) as [E F].
    split; [lia|]. intros [|i] Hi; auto. apply F. lia.
Qed.

Lemma zone_eqb_entries : forall n m z, square n m -> square n z -> zone_eqb m z = true ->
  forall i j, i < n -> j < n -> (i, j) <> (0, 0) -> beqb (mget m i j) (mget z i j) = true.
Proof.
  intros n m z Hm Hz H i j Hi Hj Hij. unfold zone_eqb in H.
  apply list_eqb_nth with (d := []) in H as [_ H].
  specialize (H i). pose proof Hm as [HL _]. specialize (H ltac:(lia)).
  apply list_eqb_nth with (d := binf) in H as [_ H].
  specialize (H j). rewrite (square_row n) in H by auto. specialize (H Hj).
  change (nth j (nth i m []) binf) with (mget m i j) in H.
  change (nth j (nth i (mset z 0 0 (mget m 0 0)) []) binf) with (mget (mset z 0 0 (mget m 0 0)) i j) in H.
  rewrite (mget_mset n) in H by (auto; lia).
  destruct (Nat.eqb_spec i 0), (Nat.eqb_spec j 0); simpl in H; auto; subst; congruence.
Qed.

Lemma beqb_below : forall a b d, beqb a b = true -> (below a d <-> below b d).
Proof.
  intros [[| |x|] []] [[| |y|] []] d; unfold beqb, below; simpl; try (intro; discriminate); try tauto;
  intro H; rewrite ?andb_true_r, ?andb_false_r in H; try discriminate; apply Qeq_bool_iff in H; split; intro; try lra.
Qed.

Lemma zone_eqb_refl : forall n m, square n m -> 0 < n -> mgood n m -> zone_eqb m m = true.
Proof.
  intros n m Hs Hn Hg. unfold zone_eqb.
  assert (R : forall {A} (e : A -> A -> bool) (l k : list A) d, length l = length k ->
     (forall i, i < length l -> e (nth i l d) (nth i k d) = true) -> list_eqb e l k = true).
  { intros A e. induction l; destruct k; simpl; intros d HL H; try discriminate; auto.
    rewrite (H 0 ltac:(lia)). simpl. apply (IHl k d); [lia|]. intros i Hi. apply (H (S i)). lia. }
  pose proof Hs as [HL _].
  assert (SM : square n (mset m 0 0 (mget m 0 0))) by (apply square_mset; auto).
  apply R with (d := []).
  - destruct SM. lia.
  - intros i Hi. apply R with (d := binf); [rewrite !(square_row n); auto; lia|].
    rewrite (square_row n) by (auto; lia). intros j Hj.
    change (nth j (nth i m []) binf) with (mget m i j).
    change (nth j (nth i (mset m 0 0 (mget m 0 0)) []) binf) with (mget (mset m 0 0 (mget m 0 0)) i j).
    rewrite (mget_mset n) by (auto; lia).
    assert (E : beqb (mget m i j) (mget m i j) = true).
    { pose proof (Hg i j ltac:(lia) Hj) as G. revert G. generalize (mget m i j).
      intros [[| |x|] []]; unfold good, beqb; simpl; try tauto; intros _; rewrite ?andb_true_r; auto;
      apply Qeq_bool_iff; reflexivity. }
    destruct (Nat.eqb_spec i 0), (Nat.eqb_spec j 0); simpl; subst; auto.
Qed.

(* ---------- makeUnsat ---------- *)

(* (-infinity,false) is a fixed point of every min. *)
Lemma bmin_minf : forall b, bmin (MInf, false) b = (MInf, false).
Proof. intros [[| |x|] []]; reflexivity. Qed.

Definition corner (n : nat) (m : mat) : Prop := square n m /\ mget m 0 0 = (MInf, false).

Lemma close1_corner : forall n x m, 0 < n -> x < n -> corner n m -> corner n (close1 m x).
Proof.
  intros n x m Hn Hx [Hs Hc].
  destruct (close1_ind n x (fun m => mget m 0 0 = (MInf, false)) m Hs Hx Hc) as [A B]; [|split; auto].
  intros m' i Hs' Hi H. rewrite (mget_close_row n) by auto.
  destruct (0 =? i) eqn:E; auto. apply Nat.eqb_eq in E. subst. rewrite H. apply bmin_minf.
Qed.

Lemma tighten_corner : forall n m x y c, cv_succ x < n -> cv_succ y < n -> corner n m -> corner n (tighten m x y c).
Proof.
  intros n m x y c Hx Hy [Hs Hc]. unfold tighten.
  assert (0 < n) by lia.
  apply close1_corner; auto. apply close1_corner; auto. split; [apply square_mset; auto|].
  rewrite (mget_mset n) by auto.
  destruct (0 =? cv_succ x) eqn:E1; cbn [andb]; auto. destruct (0 =? cv_succ y) eqn:E2; auto.
  apply Nat.eqb_eq in E1, E2. rewrite <- E1, <- E2, Hc. apply bmin_minf.
Qed.

Lemma fold_bmin_minf : forall l, fold_left bmin l (MInf, false) = (MInf, false).
Proof. induction l as [|a l IH]; simpl; auto. rewrite bmin_minf. auto. Qed.

Lemma corner_unsat : forall n m, 0 < n -> corner n m -> fst (isSatisfiable m) = false.
Proof.
  intros n m Hn Hc. unfold isSatisfiable. simpl.
  assert (C : corner n (canonize m)).
  { unfold canonize. pose proof Hc as [[HL _] _]. rewrite HL.
    apply (fold_range close1 (fun _ m => corner n m) n 0 m); auto.
    intros. apply close1_corner; auto. lia. }
  destruct C as [[HL _] C]. unfold min_sym. rewrite HL.
  destruct n; [lia|]. simpl. rewrite C. simpl. rewrite fold_bmin_minf. reflexivity.
Qed.
