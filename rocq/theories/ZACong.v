(* Zones that are equal as far as operator== sees have equal successors. *)
From Coq Require Import QArith Lqa Bool List Arith Lia.
From Verif Require Import Num NumFacts Outcome Constraint Zone TA ZA.
Import ListNotations.
Open Scope nat_scope.

(* The same number, the same bound, the same matrix. *)
Definition nr (a b : num) : Prop := match a, b with Fin x, Fin y => (x == y)%Q | _, _ => a = b end.
Definition br (a b : bound) : Prop := nr (fst a) (fst b) /\ snd a = snd b.
Definition mr (m z : mat) : Prop := Forall2 (Forall2 br) m z.

Lemma nr_refl : forall a, nr a a.
Proof. intros []; cbn; reflexivity. Qed.
Lemma br_refl : forall a, br a a.
Proof. intros a. split; auto using nr_refl. Qed.
Lemma F2_refl : forall {X} (R : X -> X -> Prop) l, (forall x, R x x) -> Forall2 R l l.
Proof. intros X R l H. induction l; constructor; auto. Qed.
Lemma mr_refl : forall m, mr m m.
Proof. intros m. apply F2_refl. intros r. apply F2_refl. apply br_refl. Qed.

Lemma Qeq_bool_cong : forall a b c d : Q, (a == b)%Q -> (c == d)%Q -> Qeq_bool a c = Qeq_bool b d.
Proof. intros a b c d E1 E2. apply eq_true_iff_eq. rewrite !Qeq_bool_iff, E1, E2. tauto. Qed.
Lemma Qle_bool_cong : forall a b c d : Q, (a == b)%Q -> (c == d)%Q -> Qle_bool a c = Qle_bool b d.
Proof. intros a b c d E1 E2. apply eq_true_iff_eq. rewrite !Qle_bool_iff, E1, E2. tauto. Qed.
Lemma neqb_r : forall a b c d, nr a b -> nr c d -> neqb a c = neqb b d.
Proof. intros [] [] [] [] H1 H2; cbn in H1, H2 |- *; try discriminate; auto. apply Qeq_bool_cong; auto. Qed.
Lemma nltb_r : forall a b c d, nr a b -> nr c d -> nltb a c = nltb b d.
Proof. intros [] [] [] [] H1 H2; cbn in H1, H2 |- *; try discriminate; auto. unfold Qltb. f_equal. apply Qle_bool_cong; auto. Qed.
Lemma bltb_r : forall a b c d, br a b -> br c d -> bltb a c = bltb b d.
Proof. intros a b c d [H1 H2] [H3 H4]. unfold bltb. rewrite (neqb_r _ _ _ _ H1 H3), (nltb_r _ _ _ _ H1 H3), H2, H4. reflexivity. Qed.
Lemma bgeb_r : forall a b c d, br a b -> br c d -> bgeb a c = bgeb b d.
Proof. intros a b c d [H1 H2] [H3 H4]. unfold bgeb. rewrite (neqb_r _ _ _ _ H1 H3), (nltb_r _ _ _ _ H3 H1), H2, H4. reflexivity. Qed.
Lemma bmin_r : forall a b c d, br a b -> br c d -> br (bmin a c) (bmin b d).
Proof. intros a b c d H1 H2. unfold bmin. rewrite (bltb_r _ _ _ _ H2 H1). destruct (bltb d b); auto. Qed.
Lemma nadd_r : forall a b c d, nr a b -> nr c d -> nr (nadd a c) (nadd b d).
Proof. intros [] [] [] [] H1 H2; cbn in H1, H2 |- *; try discriminate; auto. rewrite H1, H2. reflexivity. Qed.
Lemma badd_r : forall a b c d, br a b -> br c d -> br (badd a c) (badd b d).
Proof. intros a b c d [H1 H2] [H3 H4]. split; cbn [badd fst snd]; [apply nadd_r; auto|congruence]. Qed.

Lemma F2_nth : forall {X} (R : X -> X -> Prop) l k d d' i, Forall2 R l k -> R d d' -> R (nth i l d) (nth i k d').
Proof. intros X R l k d d' i H D. revert i. induction H; intros [|i]; cbn; auto. Qed.
Lemma F2_set : forall {X} (R : X -> X -> Prop) l k i a b, Forall2 R l k -> R a b -> Forall2 R (set_nth l i a) (set_nth k i b).
Proof. intros X R l k i a b H D. revert i. induction H; intros [|i]; cbn; try constructor; auto. Qed.
Lemma F2_map : forall {X Y} (R : X -> X -> Prop) (S : Y -> Y -> Prop) f g l k, Forall2 R l k -> (forall a b, R a b -> S (f a) (g b)) -> Forall2 S (map f l) (map g k).
Proof. intros X Y R S f g l k H HF. induction H; constructor; auto. Qed.
Lemma F2_map_same : forall {X Y} (S : Y -> Y -> Prop) (f g : X -> Y) l, (forall a, S (f a) (g a)) -> Forall2 S (map f l) (map g l).
Proof. intros X Y S f g l H. induction l; constructor; auto. Qed.
Lemma F2_zip : forall {X Y Z} (R : X -> X -> Prop) (S : Y -> Y -> Prop) (T : Z -> Z -> Prop) (f : X -> Y -> Z) l k a b, Forall2 R l k -> Forall2 S a b ->
  (forall x y u v, R x y -> S u v -> T (f x u) (f y v)) -> Forall2 T (zip_with f l a) (zip_with f k b).
Proof.
  intros X Y Z R S T f l k a b H H2 HF. unfold zip_with. revert a b H2. induction H as [|x y l k H H0 IH]; intros a b H2; [constructor|].
  destruct H2; cbn; constructor; auto.
Qed.

Lemma F2_length : forall {X} (R : X -> X -> Prop) l k, Forall2 R l k -> length l = length k.
Proof. intros X R l k H. induction H; cbn; congruence. Qed.
Lemma row_r : forall m z i, mr m z -> Forall2 br (nth i m []) (nth i z []).
Proof. intros m z i H. apply (F2_nth (Forall2 br)); auto. Qed.
Lemma mget_r : forall m z i j, mr m z -> br (mget m i j) (mget z i j).
Proof. intros m z i j H. unfold mget. apply (F2_nth br); [apply row_r; auto|apply br_refl]. Qed.
Lemma mset_r : forall m z i j a b, mr m z -> br a b -> mr (mset m i j a) (mset z i j b).
Proof. intros m z i j a b H E. unfold mset. apply F2_set; auto. apply F2_set; auto. apply row_r. auto. Qed.
Lemma fold_r : forall {X} (f : mat -> X -> mat) l, (forall x m z, mr m z -> mr (f m x) (f z x)) -> forall m z, mr m z -> mr (fold_left f l m) (fold_left f l z).
Proof. intros X f l H. induction l as [|x l IH]; cbn; auto. Qed.
Lemma close1_r : forall x m z, mr m z -> mr (close1 m x) (close1 z x).
Proof.
  intros x m z H. unfold close1. rewrite (F2_length _ _ _ H). apply fold_r; auto. clear. intros i m z H. unfold close_row, setrow. apply F2_set; auto.
  apply (F2_zip br br br); [apply row_r; auto| |intros; apply bmin_r; auto].
  apply (F2_map br br); [apply row_r; auto|]. intros a b E. apply badd_r; auto. apply mget_r. auto.
Qed.
Lemma canonize_r : forall m z, mr m z -> mr (canonize m) (canonize z).
Proof. intros m z H. unfold canonize. rewrite (F2_length _ _ _ H). apply fold_r; auto. intros; apply close1_r; auto. Qed.
Lemma tighten_r : forall m z x y c, mr m z -> mr (tighten m x y c) (tighten z x y c).
Proof. intros m z x y c H. unfold tighten. apply close1_r, close1_r, mset_r; auto. apply bmin_r; [apply mget_r; auto|apply br_refl]. Qed.
Lemma guard_r : forall gs m z, mr m z -> mr (tighten_guard m gs) (tighten_guard z gs).
Proof. intros gs. apply fold_r. intros g m z H. unfold tighten_guard1. destruct (codr g); apply tighten_r; auto. Qed.
Lemma reset_r : forall m z x, mr m z -> mr (reset m x) (reset z x).
Proof.
  intros m z x H. unfold reset. rewrite (F2_length _ _ _ H).
  apply fold_r; [intros; apply mset_r; auto; apply mget_r; auto|]. apply fold_r; [intros; apply mset_r; auto; apply mget_r; auto|].
  apply mset_r; [apply mset_r; auto; apply br_refl|apply br_refl].
Qed.
Lemma abstractize_r : forall M m z, mr m z -> mr (abstractize M m) (abstractize M z).
Proof.
  intros M m z H. unfold abstractize. apply (F2_map (Forall2 br) (Forall2 br)); auto. intros r s E. apply (F2_map br br); auto. intros a b Eb.
  rewrite (bgeb_r a b M M Eb (br_refl M)). destruct (bgeb b M); auto. apply br_refl.
Qed.
Lemma cells_r : forall m z l k, mr m z -> Forall2 br (flat_map (fun j => map (fun i => badd (mget m i j) (mget m j i)) k) l) (flat_map (fun j => map (fun i => badd (mget z i j) (mget z j i)) k) l).
Proof.
  intros m z l k H. induction l as [|j l IH]; cbn; [constructor|]. apply Forall2_app; auto. apply F2_map_same. intros i. apply badd_r; apply mget_r; auto.
Qed.
Lemma min_sym_r : forall m z, mr m z -> br (min_sym m) (min_sym z).
Proof.
  intros m z H. unfold min_sym. rewrite (F2_length _ _ _ H). pose proof (cells_r m z (seq 0 (length z)) (seq 0 (length z)) H) as C. generalize dependent (flat_map (fun j => map (fun i => badd (mget z i j) (mget z j i)) (seq 0 (length z))) (seq 0 (length z))).
  generalize (flat_map (fun j => map (fun i => badd (mget m i j) (mget m j i)) (seq 0 (length z))) (seq 0 (length z))). intros l0 k0 C. destruct C as [|a b l k E C]; [apply br_refl|].
  revert a b E. induction C as [|c d l k E2 C IH]; intros a b E; cbn [fold_left]; auto. apply IH. apply bmin_r; auto.
Qed.

Lemma elapse_r : forall m z, zone_eqb m z = true -> mr (elapse m) (elapse z).
Proof.
  intros m z H. unfold zone_eqb in H. set (z' := mset z 0 0 (mget m 0 0)) in *.
  assert (B : forall a b, beqb a b = true -> br a b).
  { intros [[| |x|] s] [[| |y|] t]; unfold beqb, br, nr; cbn; intros E; try discriminate; try (apply eqb_prop in E; auto).
    apply andb_true_iff in E as [E1 E2]. apply eqb_prop in E2. apply Qeq_bool_iff in E1. auto. }
  assert (L : forall l k, list_eqb beqb l k = true -> Forall2 br l k).
  { induction l as [|a l IH]; intros [|b k] E; cbn in E; try discriminate; [constructor|]. apply andb_true_iff in E as [E1 E2]. constructor; auto. }
  assert (R : mr m z').
  { clearbody z'. revert z' H. induction m as [|r m IH]; intros [|s z'] E; cbn in E; try discriminate; [constructor|]. apply andb_true_iff in E as [E1 E2]. constructor; [auto|apply IH; auto]. }
  assert (E : elapse z' = elapse z).
  { unfold z', mset, elapse. destruct z as [|r z0]; [reflexivity|]. cbn [set_nth nth map]. destruct r as [|a r]; reflexivity. }
  rewrite <- E. clearbody z'. unfold elapse.
  assert (R1 : mr (map (fun r => set_nth r 0 binf) m) (map (fun r => set_nth r 0 binf) z')).
  { apply (F2_map (Forall2 br) (Forall2 br)); auto. intros a b X. apply F2_set; auto. }
  apply F2_set; auto. apply (F2_map br br); [apply row_r; auto|]. intros a b [X _]. split; auto.
Qed.

Lemma mr_eqb : forall m z, mr m z -> Forall (Forall (fun b => fst b <> NaN)) m -> zone_eqb m z = true.
Proof.
  intros m z H G. unfold zone_eqb.
  assert (B : forall a b, br a b -> fst a <> NaN -> beqb a b = true).
  { intros [[| |x|] s] [[| |y|] t] [E1 E2] NN; unfold beqb; cbn in *; try discriminate; try congruence; subst; rewrite eqb_reflx; auto. apply andb_true_intro. split; auto. apply Qeq_bool_iff. auto. }
  assert (L : forall l k, Forall2 br l k -> Forall (fun b => fst b <> NaN) l -> list_eqb beqb l k = true).
  { intros l k F. induction F; intros X; cbn; auto. inversion X; subst. rewrite B, IHF; auto. }
  assert (M : forall l k, Forall2 (Forall2 br) l k -> Forall (Forall (fun b => fst b <> NaN)) l -> list_eqb (list_eqb beqb) l k = true).
  { intros l k F. induction F; intros X; cbn; auto. inversion X; subst. rewrite L, IHF; auto. }
  apply M; auto. destruct H as [|r s m z E H]; [constructor|]. cbn [mset set_nth nth]. constructor; auto.
  inversion G as [|? ? G1 _]; subst. unfold mget. cbn [nth]. destruct E as [|a b r s E1 E2]; cbn [set_nth nth]; constructor; auto. apply br_refl.
Qed.

Lemma succ_zone_r : forall M m z e m', zone_eqb m z = true -> succ_zone M (elapse m) e = Some m' ->
  exists z', succ_zone M (elapse z) e = Some z' /\ mr m' z'.
Proof.
  intros M m z e m' E H. apply elapse_r in E. unfold succ_zone in *. unfold isSatisfiable in *.
  pose proof (guard_r (eguard e) _ _ E) as E1. pose proof (canonize_r _ _ E1) as E2. rewrite <- (bgeb_r _ _ _ _ (min_sym_r _ _ E2) (br_refl bzero)).
  destruct (bgeb _ bzero); [|discriminate]. injection H as <-. eexists. split; [reflexivity|]. apply canonize_r, abstractize_r. apply fold_r; auto. intros; apply reset_r; auto.
Qed.
