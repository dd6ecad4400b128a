(* Facts about extended numbers and bounds. *)
From Coq Require Import QArith Lqa Bool List ZArith Lia.
From Verif Require Import Num.
Import ListNotations.
Open Scope Q_scope.

Lemma Qle_bool_false : forall a b, Qle_bool a b = false <-> b < a.
Proof.
  intros a b. split; intro H.
  - destruct (Qlt_le_dec b a) as [L|L]; auto.
    apply Qle_bool_iff in L. congruence.
  - destruct (Qle_bool a b) eqn:E; auto.
    apply Qle_bool_iff in E. exfalso. lra.
Qed.

Lemma Qltb_true : forall a b, Qltb a b = true <-> a < b.
Proof. intros. unfold Qltb. rewrite negb_true_iff. apply Qle_bool_false. Qed.

Lemma Qltb_false : forall a b, Qltb a b = false <-> b <= a.
Proof. intros. unfold Qltb. rewrite negb_false_iff. apply Qle_bool_iff. Qed.

Lemma Qeq_bool_false : forall a b, Qeq_bool a b = false <-> ~ a == b.
Proof.
  intros. split; intro H.
  - intro E. apply Qeq_bool_iff in E. congruence.
  - destruct (Qeq_bool a b) eqn:E; auto. apply Qeq_bool_iff in E. contradiction.
Qed.

(* Case split on every rational comparison in the context or goal. *)
Ltac qcase :=
  match goal with
  | H : Qltb _ _ = true |- _ => apply Qltb_true in H
  | H : Qltb _ _ = false |- _ => apply Qltb_false in H
  | H : Qeq_bool _ _ = true |- _ => apply Qeq_bool_iff in H
  | H : Qeq_bool _ _ = false |- _ => apply Qeq_bool_false in H
  | H : Qle_bool _ _ = true |- _ => apply Qle_bool_iff in H
  | H : Qle_bool _ _ = false |- _ => apply Qle_bool_false in H
  | |- context [Qeq_bool ?a ?b] => destruct (Qeq_bool a b) eqn:?
  | |- context [Qltb ?a ?b] => destruct (Qltb a b) eqn:?
  | |- context [Qle_bool ?a ?b] => destruct (Qle_bool a b) eqn:?
  | H : context [Qeq_bool ?a ?b] |- _ => destruct (Qeq_bool a b) eqn:?
  | H : context [Qltb ?a ?b] |- _ => destruct (Qltb a b) eqn:?
  | H : context [Qle_bool ?a ?b] |- _ => destruct (Qle_bool a b) eqn:?
  end.

Ltac lneq :=
  match goal with
  | H : ~ ?a == ?b |- _ =>
      let L := fresh in let G := fresh in
      destruct (Qlt_le_dec a b) as [L|L];
      [| destruct (Qlt_le_dec b a) as [G|G]; [|exfalso; apply H; lra]]; clear H
  end.

(* Brute force on bounds. *)
Ltac bsolve :=
  repeat match goal with
         | b : bound |- _ => destruct b
         | n : num |- _ => destruct n
         | b : bool |- _ => destruct b
         end;
  unfold good, below, ble, bltb, bgeb, beqb, bmin, bmax, badd, bzero, binf in *;
  simpl in *;
  repeat qcase; simpl in *;
  try tauto; try congruence; try lra.

Ltac bgo := intros; repeat qcase; simpl in *; try tauto; try congruence; try lra;
  repeat lneq; try tauto; try congruence; try lra.

(* Start of a proof about good bounds: case analysis. *)
Ltac bunf := unfold good, ble, bltb, bgeb, below, badd, bzero, binf; simpl; try tauto.

Lemma good_add : forall a b, good a -> good b -> good (badd a b).
Proof. intros [[] ?] [[] ?]; bunf. Qed.

Lemma good_min : forall a b, good a -> good b -> good (bmin a b).
Proof. intros a b Ha Hb. unfold bmin. destruct (bltb b a); auto. Qed.

Lemma good_zero : good bzero. Proof. exact I. Qed.
Lemma good_inf : good binf. Proof. exact I. Qed.

Lemma ble_refl : forall a, good a -> ble a a.
Proof. intros [[] []]; bunf; bgo. Qed.

Lemma bltb_false_ble : forall a b, good a -> good b -> bltb b a = false -> ble a b.
Proof. intros [[| |x|] []] [[| |y|] []]; bunf; bgo. Qed.

Lemma bltb_true_ble : forall a b, good a -> good b -> bltb a b = true -> ble a b.
Proof. intros [[| |x|] []] [[| |y|] []]; bunf; bgo. Qed.

Lemma ble_trans : forall a b c, good a -> good b -> good c ->
  ble a b -> ble b c -> ble a c.
Proof. intros [[| |x|] []] [[| |y|] []] [[| |z|] []]; bunf; bgo. Qed.

Lemma ble_total : forall a b, good a -> good b -> ble a b \/ ble b a.
Proof.
  intros a b Ha Hb. destruct (bltb b a) eqn:E.
  - right. apply bltb_true_ble; auto.
  - left. apply bltb_false_ble; auto.
Qed.

Lemma bmin_l : forall a b, good a -> good b -> ble (bmin a b) a.
Proof.
  intros a b Ha Hb. unfold bmin. destruct (bltb b a) eqn:E; [|apply ble_refl; auto].
  apply bltb_true_ble; auto.
Qed.

Lemma bmin_r : forall a b, good a -> good b -> ble (bmin a b) b.
Proof.
  intros a b Ha Hb. unfold bmin. destruct (bltb b a) eqn:E; [apply ble_refl; auto|].
  apply bltb_false_ble; auto.
Qed.

Lemma bmin_glb : forall a b c, ble c a -> ble c b -> ble c (bmin a b).
Proof. intros. unfold bmin. destruct (bltb b a); auto. Qed.

Lemma bmin_cases : forall a b, bmin a b = a \/ bmin a b = b.
Proof. intros. unfold bmin. destruct (bltb b a); auto. Qed.

Lemma badd_mono_l : forall a b c, good a -> good b -> good c ->
  ble a b -> ble (badd a c) (badd b c).
Proof. intros [[| |x|] []] [[| |y|] []] [[| |z|] []]; bunf; bgo. Qed.

Lemma badd_mono_r : forall a b c, good a -> good b -> good c ->
  ble a b -> ble (badd c a) (badd c b).
Proof. intros [[| |x|] []] [[| |y|] []] [[| |z|] []]; bunf; bgo. Qed.

Lemma badd_mono : forall a b c d, good a -> good b -> good c -> good d ->
  ble a b -> ble c d -> ble (badd a c) (badd b d).
Proof.
  intros. apply ble_trans with (badd b c); auto using good_add, badd_mono_l, badd_mono_r.
Qed.

Lemma badd_comm_le : forall a b, good a -> good b -> ble (badd a b) (badd b a).
Proof. intros [[| |x|] []] [[| |y|] []]; bunf; bgo. Qed.

Lemma badd_assoc_le : forall a b c, good a -> good b -> good c ->
  ble (badd a (badd b c)) (badd (badd a b) c).
Proof. intros [[| |x|] []] [[| |y|] []] [[| |z|] []]; bunf; bgo. Qed.

Lemma badd_assoc_ge : forall a b c, good a -> good b -> good c ->
  ble (badd (badd a b) c) (badd a (badd b c)).
Proof. intros [[| |x|] []] [[| |y|] []] [[| |z|] []]; bunf; bgo. Qed.

(* Adding a non-negative bound does not decrease. *)
Lemma badd_nonneg_r : forall a b, good a -> good b -> ble bzero b -> ble a (badd a b).
Proof. intros [[| |x|] []] [[| |y|] []]; bunf; bgo. Qed.

Lemma badd_nonneg_l : forall a b, good a -> good b -> ble bzero b -> ble a (badd b a).
Proof. intros [[| |x|] []] [[| |y|] []]; bunf; bgo. Qed.

(* The validity test of the code: value + value' >= (0,true). *)
Lemma bgeb_zero : forall a, good a -> (bgeb a bzero = true <-> ble bzero a).
Proof. intros [[| |x|] []]; bunf; split; bgo. Qed.

(* Semantics. *)
Lemma below_ble : forall a b d, good a -> good b -> ble a b -> below a d -> below b d.
Proof. intros [[| |x|] []] [[| |y|] []] d; bunf; bgo. Qed.

Lemma below_min : forall a b d, good a -> good b ->
  (below (bmin a b) d <-> below a d /\ below b d).
Proof.
  intros a b d Ha Hb. split.
  - intro H. split.
    + eapply below_ble; [| |apply bmin_l|exact H]; auto using good_min.
    + eapply below_ble; [| |apply bmin_r|exact H]; auto using good_min.
  - intros [H1 H2]. destruct (bmin_cases a b) as [->| ->]; auto.
Qed.

Lemma below_add : forall a b d e, good a -> good b ->
  below a d -> below b e -> below (badd a b) (d + e).
Proof. intros [[| |x|] []] [[| |y|] []] d e; bunf; bgo. Qed.

Lemma below_eq : forall b d e, d == e -> below b d -> below b e.
Proof. intros [[| |x|] []] d e; bunf; bgo. Qed.

Lemma below_le : forall b d e, e <= d -> below b d -> below b e.
Proof. intros [[| |x|] []] d e; bunf; bgo. Qed.

Lemma below_zero : forall b, good b -> (below b 0 <-> ble bzero b).
Proof. intros [[| |x|] []]; bunf; split; bgo. Qed.

(* A below-sum splits: density of the rationals. *)
Lemma below_split : forall a b d, good a -> good b ->
  below (badd a b) d -> exists x y, below a x /\ below b y /\ x + y == d.
Proof.
  intros [[| |x|] fa] [[| |y|] fb] d; bunf; intros _ _.
  - destruct fa, fb; simpl; intro H.
    + exists (d - y), y. repeat split; try lra.
    + exists x, (d - x). repeat split; try lra.
    + exists (d - y), y. repeat split; try lra.
    + exists (x - ((x + y) - d) / 2), (y - ((x + y) - d) / 2).
      assert (E : ((x + y) - d) / 2 == (1#2) * ((x+y) - d)) by field.
      repeat split; lra.
  - intros _. exists (if fa then x else x - 1), (d - (if fa then x else x - 1)).
    destruct fa; repeat split; lra.
  - intros _. exists (d - (if fb then y else y - 1)), (if fb then y else y - 1).
    destruct fb; repeat split; lra.
  - intros _. exists d, 0. repeat split; lra.
Qed.

Global Hint Resolve good_add good_min good_zero good_inf ble_refl : bnd.
