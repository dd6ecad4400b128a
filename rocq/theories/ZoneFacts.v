(* Facts about difference bound matrices. *)
From Coq Require Import QArith Qminmax Lqa Bool List ZArith Arith Lia.
From Verif Require Import Num NumFacts Constraint Zone.
Import ListNotations.
Open Scope nat_scope.

(* ---------- lists and matrices ---------- *)

Lemma set_nth_length : forall {A} (l : list A) i a, length (set_nth l i a) = length l.
Proof. induction l; destruct i; simpl; auto. Qed.

Lemma nth_set_nth : forall {A} (l : list A) i j a d, i < length l ->
  nth j (set_nth l i a) d = if j =? i then a else nth j l d.
Proof.
  induction l; simpl; intros i j x d H; [lia|].
  destruct i, j; simpl; auto. apply IHl. lia.
Qed.

Lemma nth_set_nth_other : forall {A} (l : list A) i j a d, j <> i ->
  nth j (set_nth l i a) d = nth j l d.
Proof.
  induction l; simpl; intros i j x d H; auto.
  destruct i, j; simpl; auto; try congruence.
Qed.

Lemma zip_with_length : forall {A B C} (f : A -> B -> C) l k,
  length (zip_with f l k) = Nat.min (length l) (length k).
Proof. intros. unfold zip_with. rewrite map_length, combine_length. auto. Qed.

Lemma nth_zip_with : forall {A B C} (f : A -> B -> C) l k j a b c,
  j < length l -> j < length k ->
  nth j (zip_with f l k) c = f (nth j l a) (nth j k b).
Proof.
  unfold zip_with. induction l; simpl; intros; [lia|].
  destruct k; simpl in *; [lia|]. destruct j; simpl; auto.
  apply IHl; lia.
Qed.

Lemma nth_map_in : forall {A B} (f : A -> B) l j a b, j < length l ->
  nth j (map f l) b = f (nth j l a).
Proof.
  induction l; simpl; intros; [lia|]. destruct j; auto. apply IHl. lia.
Qed.

Lemma square_row : forall n m i, square n m -> i < n -> length (nth i m []) = n.
Proof.
  intros n m i [H1 H2] Hi. rewrite Forall_forall in H2. apply H2.
  apply nth_In. lia.
Qed.

Lemma Forall_set_nth : forall {A} (P : A -> Prop) l i a,
  Forall P l -> P a -> Forall P (set_nth l i a).
Proof.
  induction l; simpl; intros; auto. inversion H; subst.
  destruct i; constructor; auto.
Qed.

Lemma square_setrow : forall n m i r, square n m -> length r = n -> square n (setrow m i r).
Proof.
  intros n m i r [H1 H2] Hr. split.
  - unfold setrow. rewrite set_nth_length. auto.
  - apply Forall_set_nth; auto.
Qed.

Lemma set_nth_oob : forall {A} (l : list A) i a, length l <= i -> set_nth l i a = l.
Proof. induction l; destruct i; simpl; intros; auto; try lia. f_equal. apply IHl. lia. Qed.

Lemma square_mset : forall n m i j b, square n m -> square n (mset m i j b).
Proof.
  intros n m i j b H. unfold mset.
  destruct (lt_dec i n).
  - apply square_setrow; auto. rewrite set_nth_length. apply square_row; auto.
  - rewrite set_nth_oob; auto. destruct H; lia.
Qed.

Lemma mget_setrow : forall n m i r a b, square n m -> i < n ->
  mget (setrow m i r) a b = if a =? i then nth b r binf else mget m a b.
Proof.
  intros n m i r a b [H1 H2] Hi. unfold mget, setrow.
  rewrite nth_set_nth by lia. destruct (a =? i); auto.
Qed.

Lemma mget_mset : forall n m i j x a b, square n m -> i < n -> j < n ->
  mget (mset m i j x) a b = if (a =? i) && (b =? j) then x else mget m a b.
Proof.
  intros n m i j x a b H Hi Hj. unfold mset.
  change (set_nth m i) with (setrow m i). rewrite (mget_setrow n) by auto.
  destruct (Nat.eqb_spec a i); simpl; auto. subst.
  rewrite nth_set_nth by (rewrite (square_row n); auto).
  destruct (b =? j); auto.
Qed.

Lemma fill_square : forall n b, square n (fill n b).
Proof.
  intros. unfold fill. split; [apply repeat_length|].
  apply Forall_forall. intros r Hr. apply repeat_spec in Hr. subst. apply repeat_length.
Qed.

Lemma nth_repeat_in : forall {A} (a : A) n i d, i < n -> nth i (repeat a n) d = a.
Proof. induction n; simpl; intros; [lia|]. destruct i; auto. apply IHn. lia. Qed.

Lemma mget_fill : forall n b i j, i < n -> j < n -> mget (fill n b) i j = b.
Proof. intros. unfold mget, fill. rewrite (nth_repeat_in (repeat b n)) by auto. apply nth_repeat_in; auto. Qed.

(* ---------- close1 ---------- *)

Lemma close_row_square : forall n x m i, square n m -> x < n -> i < n -> square n (close_row x m i).
Proof.
  intros. unfold close_row. apply square_setrow; auto.
  rewrite zip_with_length, map_length, !(square_row n) by auto. lia.
Qed.

Lemma mget_close_row : forall n x m i a b, square n m -> x < n -> i < n -> b < n ->
  mget (close_row x m i) a b =
  if a =? i then bmin (mget m i b) (badd (mget m x b) (mget m i x)) else mget m a b.
Proof.
  intros n x m i a b H Hx Hi Hb. unfold close_row. rewrite (mget_setrow n) by auto.
  destruct (a =? i); auto.
  rewrite nth_zip_with with (a := binf) (b := binf).
  - rewrite nth_map_in with (a := binf) by (rewrite (square_row n); auto). reflexivity.
  - rewrite (square_row n); auto.
  - rewrite map_length, (square_row n); auto.
Qed.

(* Fold over a range with an invariant indexed by the position. *)
Lemma fold_range : forall {T} (f : T -> nat -> T) (P : nat -> T -> Prop) len a s,
  P a s -> (forall i s, a <= i < a + len -> P i s -> P (S i) (f s i)) ->
  P (a + len) (fold_left f (seq a len) s).
Proof.
  induction len; simpl; intros a s H0 Hs.
  - rewrite Nat.add_0_r. auto.
  - replace (a + S len) with (S a + len) by lia. apply IHlen.
    + apply Hs; auto. lia.
    + intros. apply Hs; auto. lia.
Qed.

Lemma close1_ind : forall n x (P : mat -> Prop) m, square n m -> x < n ->
  P m -> (forall m i, square n m -> i < n -> P m -> P (close_row x m i)) ->
  square n (close1 m x) /\ P (close1 m x).
Proof.
  intros n x P m Hsq Hx H0 Hs. unfold close1. destruct Hsq as [HL HF].
  rewrite HL.
  apply (fold_range (close_row x) (fun _ m => square n m /\ P m) n 0 m).
  - repeat split; auto.
  - intros i s Hi [A B]. split.
    + apply close_row_square; auto; lia.
    + apply Hs; auto; lia.
Qed.

Lemma close1_square : forall n x m, square n m -> x < n -> square n (close1 m x).
Proof. intros. apply (close1_ind n x (fun _ => True) m); auto. Qed.

Lemma close1_good : forall n x m, square n m -> x < n -> mgood n m -> mgood n (close1 m x).
Proof.
  intros n x m Hsq Hx Hg. apply (close1_ind n x (mgood n) m); auto.
  intros m0 i Hs Hi Hm a b Ha Hb. rewrite (mget_close_row n) by auto.
  destruct (a =? i); auto with bnd.
Qed.

(* close1 never loosens an entry. *)
Lemma close1_le : forall n x m, square n m -> x < n -> mgood n m ->
  forall a b, a < n -> b < n -> ble (mget (close1 m x) a b) (mget m a b).
Proof.
  intros n x m Hsq Hx Hg.
  apply (close1_ind n x (fun m' => mgood n m' /\ forall a b, a < n -> b < n -> ble (mget m' a b) (mget m a b)) m); auto.
  - split; auto with bnd.
  - intros m' i Hs Hi [Hg' Hle]. split.
    + intros a b Ha Hb. rewrite (mget_close_row n) by auto. destruct (a =? i); auto with bnd.
    + intros a b Ha Hb. rewrite (mget_close_row n) by auto.
      destruct (Nat.eqb_spec a i); auto. subst.
      eapply ble_trans; [| | |apply bmin_l|]; auto with bnd.
Qed.

(* close1 keeps the set of valuations. *)
Lemma close1_zin : forall n x m v, square n m -> x < n -> mgood n m ->
  (zin n (close1 m x) v <-> zin n m v).
Proof.
  intros n x m v Hsq Hx Hg. split; intro H.
  - intros a b Ha Hb. eapply below_ble; [| |apply (close1_le n x m)|apply H]; auto.
    apply (close1_good n x m); auto.
  - apply (close1_ind n x (fun m' => mgood n m' /\ zin n m' v) m); auto.
    intros m' i Hs Hi [Hg' Hz]. split.
    + intros a b Ha Hb. rewrite (mget_close_row n) by auto. destruct (a =? i); auto with bnd.
    + intros a b Ha Hb. rewrite (mget_close_row n) by auto.
      destruct (Nat.eqb_spec a i); auto. subst. apply below_min; auto with bnd.
      split; auto. apply below_eq with ((ev v x - ev v b) + (ev v i - ev v x))%Q.
      * ring.
      * apply below_add; auto.
Qed.

(* Exact effect of close1 when the diagonal entry is non-negative. *)
Definition eqv (a b : bound) : Prop := ble a b /\ ble b a.

Lemma eqv_refl : forall a, good a -> eqv a a.
Proof. split; apply ble_refl; auto. Qed.

Lemma eqv_trans : forall a b c, good a -> good b -> good c -> eqv a b -> eqv b c -> eqv a c.
Proof. intros a b c Ha Hb Hc [] []. split; apply ble_trans with b; auto. Qed.

Lemma bmin_eqv : forall a b a' b', good a -> good b -> good a' -> good b' ->
  eqv a a' -> eqv b b' -> eqv (bmin a b) (bmin a' b').
Proof.
  intros a b a' b' ? ? ? ? [] []. split; apply bmin_glb.
  - eapply ble_trans; [| | |apply bmin_l|]; auto with bnd.
  - eapply ble_trans; [| | |apply bmin_r|]; auto with bnd.
  - eapply ble_trans; [| | |apply bmin_l|]; auto with bnd.
  - eapply ble_trans; [| | |apply bmin_r|]; auto with bnd.
Qed.

Lemma badd_eqv : forall a b a' b', good a -> good b -> good a' -> good b' ->
  eqv a a' -> eqv b b' -> eqv (badd a b) (badd a' b').
Proof. intros a b a' b' ? ? ? ? [] []. split; apply badd_mono; auto. Qed.

Lemma close1_exact : forall n k m, square n m -> k < n -> mgood n m ->
  ble bzero (mget m k k) ->
  forall i j, i < n -> j < n ->
  eqv (mget (close1 m k) i j) (bmin (mget m i j) (badd (mget m k j) (mget m i k))).
Proof.
  intros n k m Hsq Hk Hg Hd.
  unfold close1. pose proof Hsq as [HL _]. rewrite HL.
  assert (Hrow : forall j, j < n -> eqv (mget m k j) (bmin (mget m k j) (badd (mget m k j) (mget m k k)))).
  { intros j Hj. split.
    - apply bmin_glb; auto with bnd. apply badd_nonneg_r; auto.
    - apply bmin_l; auto with bnd. }
  cut (square n (fold_left (close_row k) (seq 0 n) m) /\ mgood n (fold_left (close_row k) (seq 0 n) m) /\
       forall i j, i < n -> j < n ->
         (i < 0 + n -> eqv (mget (fold_left (close_row k) (seq 0 n) m) i j)
                           (bmin (mget m i j) (badd (mget m k j) (mget m i k)))) /\
         (0 + n <= i -> mget (fold_left (close_row k) (seq 0 n) m) i j = mget m i j)).
  { intros (_ & _ & H) i j Hi Hj. apply H; auto. }
  apply (fold_range (close_row k)
    (fun p m' => square n m' /\ mgood n m' /\ forall i j, i < n -> j < n ->
       (i < p -> eqv (mget m' i j) (bmin (mget m i j) (badd (mget m k j) (mget m i k)))) /\
       (p <= i -> mget m' i j = mget m i j)) n 0 m).
  - split; [auto|]. split; [auto|]. intros; split; intros; [lia|auto].
  - intros p m' Hp (Hs' & Hg' & H'). simpl in Hp.
    assert (Hg'' : mgood n (close_row k m' p)).
    { intros a b Ha Hb. rewrite (mget_close_row n) by (auto; lia).
      destruct (a =? p); auto. apply good_min; [apply Hg'; lia|apply good_add; apply Hg'; auto; lia]. }
    split; [apply close_row_square; auto; lia|]. split; [auto|].
    intros i j Hi Hj. rewrite (mget_close_row n) by (auto; lia). split; intro Hlt.
    + destruct (Nat.eqb_spec i p) as [->|Hne].
      * rewrite (proj2 (H' p j Hi Hj)) by lia. rewrite (proj2 (H' p k Hi Hk)) by lia.
        apply bmin_eqv; auto with bnd.
        -- apply eqv_refl; auto.
        -- apply badd_eqv; auto.
           ++ destruct (le_lt_dec p k).
              ** rewrite (proj2 (H' k j Hk Hj)) by lia. apply eqv_refl; auto.
              ** eapply eqv_trans; [| | |apply (proj1 (H' k j Hk Hj)); lia|]; auto with bnd.
                 destruct (Hrow j Hj). split; auto.
           ++ apply eqv_refl; auto.
      * apply (proj1 (H' i j Hi Hj)). lia.
    + destruct (Nat.eqb_spec i p); [lia|]. apply (proj2 (H' i j Hi Hj)). lia.
Qed.

(* ---------- canonize ---------- *)

Lemma canonize_ind : forall n (P : nat -> mat -> Prop) m, square n m -> mgood n m ->
  P 0 m -> (forall k m, square n m -> mgood n m -> k < n -> P k m -> P (S k) (close1 m k)) ->
  square n (canonize m) /\ mgood n (canonize m) /\ P n (canonize m).
Proof.
  intros n P m Hsq Hg H0 Hs. unfold canonize. pose proof Hsq as [HL _]. rewrite HL.
  apply (fold_range close1 (fun k m => square n m /\ mgood n m /\ P k m) n 0 m); auto.
  intros k m' Hk (A & B & C). repeat split.
  - apply (close1_square n k m'); auto; lia.
  - apply (close1_square n k m'); auto; lia.
  - apply close1_good; auto; lia.
  - apply Hs; auto; lia.
Qed.

Lemma canonize_square : forall n m, square n m -> mgood n m -> square n (canonize m).
Proof. intros. apply (canonize_ind n (fun _ _ => True) m); auto. Qed.

Lemma canonize_good : forall n m, square n m -> mgood n m -> mgood n (canonize m).
Proof. intros. apply (canonize_ind n (fun _ _ => True) m); auto. Qed.

Lemma canonize_zin : forall n m v, square n m -> mgood n m ->
  (zin n (canonize m) v <-> zin n m v).
Proof.
  intros n m v Hsq Hg.
  apply (canonize_ind n (fun _ m' => zin n m' v <-> zin n m v) m); auto; [tauto|].
  intros k m' A B C D. rewrite close1_zin; auto.
Qed.

Lemma canonize_le : forall n m, square n m -> mgood n m ->
  forall a b, a < n -> b < n -> ble (mget (canonize m) a b) (mget m a b).
Proof.
  intros n m Hsq Hg.
  apply (canonize_ind n (fun _ m' => forall a b, a < n -> b < n -> ble (mget m' a b) (mget m a b)) m);
    auto with bnd.
  intros k m' A B C D a b Ha Hb.
  eapply ble_trans; [| | |apply (close1_le n k m'); auto|apply D; auto]; auto.
  apply (close1_good n k m'); auto.
Qed.

(* Floyd-Warshall: if the final diagonal is non-negative, the result satisfies
   the triangle inequality. *)
Lemma canonize_canonical : forall n m, square n m -> mgood n m ->
  (forall i, i < n -> ble bzero (mget (canonize m) i i)) -> canonical n (canonize m).
Proof.
  intros n m Hsq Hg Hdiag. split; auto.
  pose (Tri := fun (k : nat) (m' : mat) =>
    (forall i, i < n -> ble bzero (mget m' i i)) ->
    forall i j l, i < n -> j < n -> l < k -> ble (mget m' i j) (badd (mget m' i l) (mget m' l j))).
  assert (H : square n (canonize m) /\ mgood n (canonize m) /\ Tri n (canonize m)).
  { apply canonize_ind; auto.
    - intros _ i j l _ _ Hl. lia.
    - intros k m' Hs Hg' Hk IH Hd'.
      assert (Hd : forall i, i < n -> ble bzero (mget m' i i)).
      { intros i Hi. eapply ble_trans; [| | |apply Hd'; auto|apply (close1_le n k m'); auto]; auto with bnd.
        apply (close1_good n k m'); auto. }
      specialize (IH Hd).
      assert (HG : mgood n (close1 m' k)) by (apply close1_good; auto).
      pose proof (close1_exact n k m' Hs Hk Hg' (Hd k Hk)) as EX.
      (* upper and lower characterisations *)
      assert (U1 : forall i j, i < n -> j < n -> ble (mget (close1 m' k) i j) (mget m' i j))
        by (intros; apply (close1_le n k m'); auto).
      assert (U2 : forall i j, i < n -> j < n ->
                 ble (mget (close1 m' k) i j) (badd (mget m' i k) (mget m' k j))).
      { intros i j Hi Hj. destruct (EX i j Hi Hj) as [E _].
        eapply ble_trans; [| | |exact E|]; auto with bnd.
        eapply ble_trans; [| | |apply bmin_r|]; auto using badd_comm_le with bnd. }
      assert (LB : forall i j, i < n -> j < n ->
                 ble (mget m' i j) (mget (close1 m' k) i j) \/
                 ble (badd (mget m' i k) (mget m' k j)) (mget (close1 m' k) i j)).
      { intros i j Hi Hj. destruct (EX i j Hi Hj) as [_ E].
        destruct (bmin_cases (mget m' i j) (badd (mget m' k j) (mget m' i k))) as [W|W]; rewrite W in E.
        - left; auto.
        - right. eapply ble_trans; [| | |apply badd_comm_le|exact E]; auto with bnd. }
      assert (Rk : forall j, j < n -> ble (mget m' k j) (mget (close1 m' k) k j)).
      { intros j Hj. destruct (LB k j Hk Hj) as [E|E]; auto.
        eapply ble_trans; [| | |apply badd_nonneg_l|exact E]; auto with bnd. }
      assert (Ck : forall i, i < n -> ble (mget m' i k) (mget (close1 m' k) i k)).
      { intros i Hi. destruct (LB i k Hi Hk) as [E|E]; auto.
        eapply ble_trans; [| | |apply badd_nonneg_r|exact E]; auto with bnd. }
      intros i j l Hi Hj Hl.
      assert (Hln : l < n) by lia.
      destruct (Nat.eq_dec l k) as [->|Hlk].
      + eapply ble_trans; [| | |apply U2; auto|apply badd_mono; auto]; auto with bnd.
      + assert (Hl' : l < k) by lia.
        destruct (LB i l Hi Hln) as [A|A]; destruct (LB l j Hln Hj) as [B|B].
        * eapply ble_trans; [| | |apply U1; auto|]; auto with bnd.
          eapply ble_trans; [| | |apply (IH i j l); auto|apply badd_mono; auto]; auto with bnd.
        * (* i-l direct, l-j through k *)
          eapply ble_trans; [| | |apply U2; auto|]; auto with bnd.
          eapply ble_trans with (badd (badd (mget m' i l) (mget m' l k)) (mget m' k j)); auto with bnd.
          { apply badd_mono_l; auto with bnd. }
          eapply ble_trans; [| | |apply badd_assoc_ge|]; auto 6 with bnd.
          apply badd_mono; auto with bnd.
        * eapply ble_trans; [| | |apply U2; auto|]; auto with bnd.
          eapply ble_trans with (badd (mget m' i k) (badd (mget m' k l) (mget m' l j))); auto with bnd.
          { apply badd_mono_r; auto with bnd. }
          eapply ble_trans; [| | |apply badd_assoc_le|]; auto 6 with bnd.
          apply badd_mono; auto with bnd.
        * eapply ble_trans; [| | |apply U2; auto|]; auto with bnd.
          eapply ble_trans with (badd (badd (mget m' i k) (mget m' k l)) (badd (mget m' l k) (mget m' k j)));
            [auto with bnd | auto 6 with bnd | auto with bnd | | apply badd_mono; auto with bnd].
          (* (ik + kl) + (lk + kj) >= ik + kj because kl + lk >= kk >= 0 *)
          eapply ble_trans with (badd (mget m' i k) (badd (mget m' k l) (badd (mget m' l k) (mget m' k j))));
            [auto 6 with bnd|auto 6 with bnd|auto 6 with bnd| |apply badd_assoc_le; auto with bnd].
          apply badd_mono_r; auto 6 with bnd.
          eapply ble_trans with (badd (badd (mget m' k l) (mget m' l k)) (mget m' k j));
            [auto 6 with bnd|auto 6 with bnd|auto 6 with bnd| |apply badd_assoc_ge; auto with bnd].
          apply badd_nonneg_l; auto with bnd.
          eapply ble_trans; [| | |apply (Hd k Hk)|apply (IH k k l); auto]; auto with bnd. }
  destruct H as (_ & _ & HT). intros i j k Hi Hj Hk. apply HT; auto.
Qed.

(* ---------- finding a point ---------- *)

(* A finite set of good bounds has a tightest element. *)
Lemma tightest : forall (l : list bound), (forall b, In b l -> good b) ->
  exists b, good b /\ (b = binf \/ In b l) /\ forall c, In c l -> ble b c.
Proof.
  induction l as [|a l IH]; intros Hg.
  - exists binf. repeat split; auto. contradiction.
  - destruct IH as (b & Hb & Hin & Hle). { intros; apply Hg; right; auto. }
    assert (Ha : good a) by (apply Hg; left; auto).
    exists (bmin a b). split; [auto with bnd|]. split.
    + destruct (bmin_cases a b) as [->| ->]; [right; left; auto|].
      destruct Hin; [left; auto|right; right; auto].
    + intros c [<-|Hc]; [apply bmin_l; auto|].
      eapply ble_trans; [| | |apply bmin_r|apply Hle; auto]; auto with bnd.
      apply Hg; right; auto.
Qed.

(* Helly in dimension one: lower bounds (on -x) and upper bounds (on x) that
   are pairwise compatible have a common point. *)
Lemma helly : forall (lo up : list bound),
  (forall b, In b lo -> good b) -> (forall b, In b up -> good b) ->
  (forall l u, In l lo -> In u up -> ble bzero (badd l u)) ->
  exists x : Q, (forall l, In l lo -> below l (- x)%Q) /\ (forall u, In u up -> below u x).
Proof.
  intros lo up Hl Hu Hp.
  destruct (tightest lo Hl) as (l & Gl & Il & Ll).
  destruct (tightest up Hu) as (u & Gu & Iu & Lu).
  assert (H : below (badd l u) 0).
  { apply below_zero; auto with bnd.
    destruct Il as [->|Il]; [exact I || (destruct u as [[] ?]; simpl in *; auto; exact I)|].
    destruct Iu as [->|Iu]; [destruct l as [[] ?]; simpl in *; auto; exact I|].
    auto. }
  destruct (below_split l u 0 Gl Gu H) as (x & y & Hx & Hy & E).
  exists y. split.
  - intros c Hc. eapply below_ble; [| |apply Ll; auto|]; auto.
    apply below_eq with x; auto. lra.
  - intros c Hc. eapply below_ble; [| |apply Lu; auto|]; auto.
Qed.

Definition bshift (b : bound) (q : Q) : bound := badd b (Fin q, true).
Lemma below_bshift : forall b q d, good b -> (below (bshift b q) d <-> below b (d - q)%Q).
Proof.
  intros [[| |x|] []] q d; unfold good, bshift, badd, below; simpl; try tauto; intros; split; intros; try lra.
Qed.
Lemma good_bshift : forall b q, good b -> good (bshift b q).
Proof. intros. apply good_add; auto. exact I. Qed.

(* Assignments to some of the matrix indices extend to all of them. *)
Definition satS (f : nat -> Q) (m : mat) (S : list nat) : Prop :=
  forall i j, In i S -> In j S -> below (mget m i j) (f i - f j)%Q.

Lemma extend_one : forall n m S p f, canonical n m -> mgood n m ->
  (forall i, In i S -> i < n) -> p < n -> ~ In p S -> satS f m S ->
  exists g, (forall i, In i S -> g i = f i) /\ satS g m (p :: S).
Proof.
  intros n m S p f [Hd Ht] Hg HS Hp Hnp Hf.
  (* x - f j <= m p j,   f i - x <= m i p *)
  destruct (helly (map (fun i => bshift (mget m i p) (- f i)%Q) S)
                  (map (fun j => bshift (mget m p j) (f j)) S)) as (x & Hlo & Hup).
  - intros b Hb. apply in_map_iff in Hb as (i & <- & Hi). apply good_bshift; auto.
  - intros b Hb. apply in_map_iff in Hb as (i & <- & Hi). apply good_bshift; auto.
  - intros l u Hlx Hux.
    apply in_map_iff in Hlx as (i & <- & Hi). apply in_map_iff in Hux as (j & <- & Hj).
    assert (B : below (badd (mget m i p) (mget m p j)) (f i - f j)%Q).
    { eapply below_ble; [| |apply (Ht i j p); auto|apply Hf; auto]; auto with bnd. }
    apply below_zero; [auto using good_bshift with bnd|].
    revert B. pose proof (Hg i p (HS i Hi) Hp) as G1. pose proof (Hg p j Hp (HS j Hj)) as G2.
    revert G1 G2. generalize (mget m i p) (mget m p j).
    intros [[| |x|] []] [[| |y|] []]; unfold good, bshift, badd, below; simpl; try tauto; intros; lra.
  - exists (fun i => if i =? p then x else f i). split.
    + intros i Hi. destruct (Nat.eqb_spec i p); auto. subst. contradiction.
    + intros i j Hi Hj.
      assert (E : forall i, In i S -> (i =? p) = false).
      { intros k Hk. apply Nat.eqb_neq. intros ->. contradiction. }
      destruct Hi as [<-|Hi], Hj as [<-|Hj]; rewrite ?Nat.eqb_refl, ?E by auto.
      * apply below_eq with 0%Q; [lra|]. apply below_zero; auto.
      * specialize (Hup (bshift (mget m p j) (f j))).
        apply (below_bshift (mget m p j) (f j) x); auto. apply Hup.
        apply in_map_iff. exists j. auto.
      * specialize (Hlo (bshift (mget m i p) (- f i)%Q)).
        apply below_eq with (- x - - f i)%Q; [lra|].
        apply (below_bshift (mget m i p) (- f i)%Q (- x)%Q); auto.
        apply Hlo. apply in_map_iff. exists i. auto.
      * auto.
Qed.

Lemma extend_all : forall n m, canonical n m -> mgood n m ->
  forall T S f, (forall i, In i S -> i < n) -> (forall i, In i T -> i < n) -> satS f m S ->
  exists g, (forall i, In i S -> g i = f i) /\ satS g m (T ++ S).
Proof.
  intros n m Hc Hg. induction T as [|p T IH]; intros S f HS HT Hf.
  - exists f. split; auto.
  - destruct (IH S f HS (fun i Hi => HT i (or_intror Hi)) Hf) as (g & E & Hs).
    destruct (in_dec Nat.eq_dec p (T ++ S)) as [Hin|Hnin].
    + exists g. split; auto. intros i j Hi Hj. apply Hs.
      * destruct Hi as [<-|]; auto.
      * destruct Hj as [<-|]; auto.
    + destruct (extend_one n m (T ++ S) p g Hc Hg) as (h & Eh & Hh); auto.
      * intros i Hi. apply in_app_or in Hi as [Hi|Hi]; [apply HT; right; auto|auto].
      * apply HT; left; auto.
      * exists h. split; auto. intros i Hi. rewrite Eh; auto. apply in_or_app; auto.
Qed.

(* Any pair of indices can take any difference allowed by the two entries. *)
Lemma canonical_realise : forall n m i j d, canonical n m -> mgood n m -> 0 < n -> i < n -> j < n ->
  (i = j -> d == 0)%Q ->
  below (mget m i j) d -> below (mget m j i) (- d)%Q ->
  exists v, zin n m v /\ (ev v i - ev v j == d)%Q.
Proof.
  intros n m i j d Hc Hg Hn Hi Hj Hij H1 H2.
  pose (f := fun k => if k =? i then d else 0%Q).
  assert (Hf : satS f m [j; i]).
  { intros a b Ha Hb. unfold f. destruct Hc as [Hd _].
    assert (Z : forall k x, k < n -> (x == 0)%Q -> below (mget m k k) x).
    { intros k x Hk Hx. apply below_eq with 0%Q; [lra|]. apply below_zero; auto. }
    destruct Ha as [<-|[<-|[]]], Hb as [<-|[<-|[]]];
      rewrite ?Nat.eqb_refl.
    - apply Z; auto. lra.
    - destruct (Nat.eqb_spec j i); [subst; apply Z; auto; lra|].
      apply below_eq with (-d)%Q; [lra|auto].
    - destruct (Nat.eqb_spec j i); [subst; apply Z; auto; lra|].
      apply below_eq with d; [lra|auto].
    - apply Z; auto. lra. }
  destruct (extend_all n m Hc Hg (seq 0 n) [j; i] f) as (g & E & Hs).
  - intros k [<-|[<-|[]]]; auto.
  - intros k Hk. apply in_seq in Hk. lia.
  - exact Hf.
  - exists (fun k => (g (S k) - g 0%nat)%Q).
    assert (Ee : forall k, (ev (fun k => (g (S k) - g 0%nat)%Q) k == g k - g 0%nat)%Q).
    { intros [|k]; simpl; lra. }
    split.
    + intros a b Ha Hb. apply below_eq with (g a - g b)%Q.
      * rewrite !Ee. ring.
      * apply Hs; apply in_or_app; left; apply in_seq; lia.
    + rewrite !Ee. rewrite (E i), (E j) by (simpl; auto). unfold f.
      rewrite Nat.eqb_refl. destruct (Nat.eqb_spec j i); [subst; specialize (Hij eq_refl); lra|lra].
Qed.

Lemma canonical_nonempty : forall n m, canonical n m -> mgood n m -> 0 < n -> exists v, zin n m v.
Proof.
  intros n m Hc Hg Hn. pose proof Hc as [Hd _].
  assert (Z : below (mget m 0 0) 0) by (apply below_zero; auto).
  destruct (canonical_realise n m 0 0 0 Hc Hg Hn Hn Hn) as (v & Hv & _); auto.
  - intros; lra.
  - exists v. auto.
Qed.

(* ---------- isSatisfiable ---------- *)

Lemma fold_bmin_le : forall l a, good a -> (forall b, In b l -> good b) ->
  good (fold_left bmin l a) /\ ble (fold_left bmin l a) a /\ forall b, In b l -> ble (fold_left bmin l a) b.
Proof.
  induction l as [|c l IH]; simpl; intros a Ha Hl.
  - repeat split; auto with bnd. contradiction.
  - destruct (IH (bmin a c)) as (G & L & A); auto with bnd.
    assert (Gc : good c) by auto.
    split; auto. split.
    + eapply ble_trans; [| | |exact L|apply bmin_l]; auto with bnd.
    + intros b [<-|Hb]; auto.
      eapply ble_trans; [| | |exact L|apply bmin_r]; auto with bnd.
Qed.

Lemma fold_bmin_in : forall l a, fold_left bmin l a = a \/ In (fold_left bmin l a) l.
Proof.
  induction l as [|c l IH]; simpl; intros a; auto.
  destruct (IH (bmin a c)) as [E|E]; auto. rewrite E.
  destruct (bmin_cases a c) as [->| ->]; auto.
Qed.

Lemma min_sym_spec : forall n m, length m = n -> 0 < n -> mgood n m ->
  (bgeb (min_sym m) bzero = true <->
   forall i j, i < n -> j < n -> ble bzero (badd (mget m i j) (mget m j i))).
Proof.
  intros n m HL Hn Hg. unfold min_sym. rewrite HL.
  set (cells := flat_map _ _).
  assert (Hin : forall b, In b cells <-> exists i j, i < n /\ j < n /\ b = badd (mget m i j) (mget m j i)).
  { intros b. unfold cells. rewrite in_flat_map. split.
    - intros (j & Hj & Hb). apply in_map_iff in Hb as (i & <- & Hi).
      apply in_seq in Hj, Hi. exists i, j. repeat split; lia.
    - intros (i & j & Hi & Hj & ->). exists j. split; [apply in_seq; lia|].
      apply in_map_iff. exists i. split; auto. apply in_seq; lia. }
  assert (Hgood : forall b, In b cells -> good b).
  { intros b Hb. apply Hin in Hb as (i & j & Hi & Hj & ->). auto with bnd. }
  destruct cells as [|c t] eqn:Ec.
  - exfalso. assert (In (badd (mget m 0 0) (mget m 0 0)) []); [|contradiction].
    apply Hin. exists 0, 0. auto.
  - destruct (fold_bmin_le t c) as (G & L & A).
    + apply Hgood; left; auto.
    + intros; apply Hgood; right; auto.
    + rewrite bgeb_zero by auto. split.
      * intros H i j Hi Hj.
        assert (Hb : In (badd (mget m i j) (mget m j i)) (c :: t)).
        { apply Hin. exists i, j. auto. }
        eapply ble_trans; [| | |exact H|]; auto with bnd.
        destruct Hb as [<-|Hb]; auto.
      * intros H. destruct (fold_bmin_in t c) as [E|E].
        -- rewrite E. destruct (proj1 (Hin c) (or_introl eq_refl)) as (i & j & Hi & Hj & ->). auto.
        -- destruct (proj1 (Hin _) (or_intror E)) as (i & j & Hi & Hj & ->). auto.
Qed.

Lemma diag_from_sum : forall a, good a -> ble bzero (badd a a) -> ble bzero a.
Proof. intros [[| |x|] []]; bunf; bgo. Qed.

Theorem isSatisfiable_correct : forall n m, square n m -> 0 < n -> mgood n m ->
  (fst (isSatisfiable m) = true <-> exists v, zin n m v).
Proof.
  intros n m Hsq Hn Hg. unfold isSatisfiable. simpl.
  pose proof (canonize_square n m Hsq Hg) as [HL _].
  pose proof (canonize_good n m Hsq Hg) as Hg'.
  rewrite (min_sym_spec n) by auto. split.
  - intros H.
    assert (Hc : canonical n (canonize m)).
    { apply canonize_canonical; auto. intros i Hi. apply diag_from_sum; auto. }
    destruct (canonical_nonempty n (canonize m) Hc Hg' Hn) as (v & Hv).
    exists v. apply (canonize_zin n m v Hsq Hg); auto.
  - intros (v & Hv) i j Hi Hj.
    apply (canonize_zin n m v Hsq Hg) in Hv.
    apply below_zero; auto with bnd.
    apply below_eq with ((ev v i - ev v j) + (ev v j - ev v i))%Q; [ring|].
    apply below_add; auto.
Qed.

Lemma isSatisfiable_canonical : forall n m, square n m -> 0 < n -> mgood n m ->
  fst (isSatisfiable m) = true -> canonical n (snd (isSatisfiable m)).
Proof.
  intros n m Hsq Hn Hg. unfold isSatisfiable. simpl.
  pose proof (canonize_square n m Hsq Hg) as [HL _].
  pose proof (canonize_good n m Hsq Hg) as Hg'.
  rewrite (min_sym_spec n) by auto. intros H.
  apply canonize_canonical; auto. intros i Hi. apply diag_from_sum; auto.
Qed.

(* The entries of a canonical matrix are the tightest bounds. *)
Lemma canonical_tight : forall n m i j b, canonical n m -> mgood n m -> i < n -> j < n -> i <> j ->
  good b -> (forall v, zin n m v -> below b (ev v i - ev v j)%Q) -> ble (mget m i j) b.
Proof.
  intros n m i j b Hc Hg Hi Hj Hij Hb H.
  assert (Hn : 0 < n) by lia.
  destruct (canonical_nonempty n m Hc Hg Hn) as (v0 & Hv0).
  pose proof (Hv0 i j Hi Hj) as B1. pose proof (Hv0 j i Hj Hi) as B2.
  set (d1 := (ev v0 i - ev v0 j)%Q) in *.
  assert (B2' : below (mget m j i) (- d1)%Q) by (apply below_eq with (ev v0 j - ev v0 i)%Q; [unfold d1; ring|auto]).
  assert (K : forall d, (d1 <= d)%Q -> below (mget m i j) d -> below b d).
  { intros d Hd Hd'.
    destruct (canonical_realise n m i j d Hc Hg Hn Hi Hj) as (v & Hv & E); auto.
    - intros; contradiction.
    - apply below_le with (- d1)%Q; auto. lra.
    - apply below_eq with (ev v i - ev v j)%Q; auto. }
  revert K B1. pose proof (Hg i j Hi Hj) as G. revert G Hb.
  generalize (mget m i j) b. clearbody d1. clear.
  intros [[| |x|] fa] [[| |y|] fb]; unfold good, ble, below; simpl; try tauto; intros _ _ K B; destruct fa, fb; simpl in *.
  - apply K; lra.
  - apply K; lra.
  - destruct (Qlt_le_dec y x) as [L|L]; auto. exfalso.
    pose proof (Q.max_spec d1 ((x+y)/2)%Q) as MX.
    assert (E : ((x+y)/2 == (1#2)*(x+y))%Q) by field.
    destruct MX as [[M1 M2]|[M1 M2]].
    + specialize (K ((x+y)/2)%Q). lra.
    + specialize (K ((x+d1)/2)%Q).
      assert (E' : ((x+d1)/2 == (1#2)*(x+d1))%Q) by field. lra.
  - destruct (Qlt_le_dec y x) as [L|L]; auto. exfalso.
    pose proof (Q.max_spec d1 ((x+y)/2)%Q) as MX.
    assert (E : ((x+y)/2 == (1#2)*(x+y))%Q) by field.
    destruct MX as [[M1 M2]|[M1 M2]].
    + specialize (K ((x+y)/2)%Q). lra.
    + specialize (K ((x+d1)/2)%Q).
      assert (E' : ((x+d1)/2 == (1#2)*(x+d1))%Q) by field. lra.
  - destruct (Qlt_le_dec d1 (y + 1)); [specialize (K (y+1)%Q)|specialize (K d1)]; lra.
  - destruct (Qlt_le_dec d1 (y + 1)); [specialize (K (y+1)%Q)|specialize (K d1)]; lra.
  - destruct (Qlt_le_dec d1 (y + 1)); [specialize (K (y+1)%Q)|specialize (K d1)]; lra.
  - destruct (Qlt_le_dec d1 (y + 1)); [specialize (K (y+1)%Q)|specialize (K d1)]; lra.
Qed.
