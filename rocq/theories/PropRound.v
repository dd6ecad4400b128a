(* Property C85: the rounding of doubles. *)
From Coq Require Import QArith Qabs Qpower Lqa Bool List ZArith Arith Lia.
From Verif Require Import Num NumFacts Outcome Constraint Zone TA Spec TAFacts Word WordFacts ZA Monaa MonaaFacts Skip SkipFacts Round PropMonaa.
Import ListNotations.
Open Scope nat_scope.

(* ================= specification ================= *)

(* The finite doubles (IEEE 754 binary64): m * 2^e with 53 bits. *)
Definition double (q : Q) : Prop :=
  exists m e, (Z.abs m < 2 ^ 53)%Z /\ (-1074 <= e <= 971)%Z /\ (q == inject_Z m * Qpower 2 e)%Q.

(* What IEEE 754 asks of every rounding: a double is not changed. *)
Definition exact_on_doubles (rnd : Q -> Q) : Prop := forall q, double q -> rnd q = q.

(* A rounding that answers a nearest double. *)
Definition nearest_double (rnd : Q -> Q) : Prop :=
  forall q, (Qabs q < Qpower 2 1023)%Q -> double (rnd q) /\ forall d, double d -> (Qabs (rnd q - q) <= Qabs (d - q))%Q.

Definition strict (g : constr) : Prop := codr g = Lt \/ codr g = Gt.

(* Multiples of 2^-k, at most N of them. *)
Definition on_grid (k N : Z) (q : Q) : Prop :=
  exists m, (Z.abs m <= N)%Z /\ (q == inject_Z m * Qpower 2 (- k))%Q.

(* The times and the constants are multiples of 2^-k, at most T and C of them,
   and for each transition there are enough bits for its guard. *)
Definition fits (k T C : Z) (A : ta) : Prop :=
  (0 <= k <= 1074)%Z /\ (0 <= T)%Z /\ (0 <= C)%Z /\
  forall p s c es e, In (p, s) (states A) -> In (c, es) (next s) -> In e es ->
    (forall g, In g (eguard e) -> (Z.abs (cc g) * 2 ^ k <= C)%Z) /\
    ((T + C) * 2 ^ (Z.of_nat (length (eguard e)) + 2) <= 2 ^ 53)%Z.

(* ================= powers of two ================= *)

Lemma two_nz : ~ (2 == 0)%Q.
Proof. discriminate. Qed.
Lemma p2_pos : forall e, (0 < Qpower 2 e)%Q.
Proof. intros e. apply Qpower_0_lt. reflexivity. Qed.
Lemma p2_int : forall k, (0 <= k)%Z -> (Qpower 2 k == inject_Z (2 ^ k))%Q.
Proof. intros k H. rewrite Zpower_Qpower by auto. reflexivity. Qed.
Lemma p2_plus : forall a b, (Qpower 2 (a + b) == Qpower 2 a * Qpower 2 b)%Q.
Proof. intros. apply Qpower_plus, two_nz. Qed.

Lemma double_wide : forall m e q, (Z.abs m <= 2 ^ 53)%Z -> (-1074 <= e <= 970)%Z -> (q == inject_Z m * Qpower 2 e)%Q -> double q.
Proof.
  intros m e q Hm He E. destruct (Z.lt_ge_cases (Z.abs m) (2 ^ 53)) as [L|L]; [exists m, e; split; [auto|split; [lia|auto]]|].
  exists (m / 2)%Z, (1 + e)%Z. assert (V : m = (2 ^ 53)%Z \/ m = (- 2 ^ 53)%Z) by lia. split; [destruct V as [->| ->]; reflexivity|]. split; [lia|].
  rewrite p2_plus, E. assert (M2 : m = (2 * (m / 2))%Z) by (destruct V as [->| ->]; reflexivity).
  rewrite M2 at 1. rewrite inject_Z_mult. change (Qpower 2 1) with 2%Q. change (inject_Z 2) with 2%Q. ring.
Qed.

Section Grid.
  Variable k : Z.
  Hypothesis Hk : (0 <= k <= 1074)%Z.
  Lemma grid_double : forall N q, (N <= 2 ^ 53)%Z -> on_grid k N q -> double q.
  Proof. intros N q L (m & Hm & E). apply (double_wide m (- k)); [lia|lia|auto]. Qed.
  Lemma grid_plus : forall N M a b, on_grid k N a -> on_grid k M b -> on_grid k (N + M) (a + b).
  Proof. intros N M a b (m & Hm & Em) (n & Hn & En). exists (m + n)%Z. split; [lia|]. rewrite inject_Z_plus, Em, En. ring. Qed.
  Lemma grid_opp : forall N a, on_grid k N a -> on_grid k N (- a).
  Proof. intros N a (m & Hm & Em). exists (- m)%Z. split; [lia|]. rewrite inject_Z_opp, Em. ring. Qed.
  Lemma grid_minus : forall N M a b, on_grid k N a -> on_grid k M b -> on_grid k (N + M) (a - b).
  Proof. intros. apply grid_plus; auto using grid_opp. Qed.
  Lemma grid_le : forall N M a, (N <= M)%Z -> on_grid k N a -> on_grid k M a.
  Proof. intros N M a L (m & Hm & Em). exists m. split; [lia|auto]. Qed.
  Lemma grid_0 : forall N, (0 <= N)%Z -> on_grid k N 0.
  Proof. intros N H. exists 0%Z. split; [cbn; lia|]. unfold inject_Z. ring. Qed.
  Lemma grid_int : forall N z, (Z.abs z * 2 ^ k <= N)%Z -> on_grid k N (inject_Z z).
  Proof.
    intros N z H. exists (z * 2 ^ k)%Z. split; [rewrite Z.abs_mul, (Z.abs_eq (2 ^ k)) by (apply Z.pow_nonneg; lia); auto|].
    rewrite inject_Z_mult, <- (p2_int k) by lia. rewrite <- Qmult_assoc, <- p2_plus. replace (k + - k)%Z with 0%Z by lia. cbn. ring.
  Qed.

  Definition gb (N : Z) (b : bound) : Prop := match fst b with Fin q => on_grid k N q | _ => True end.
  Lemma gb_le : forall N M b, (N <= M)%Z -> gb N b -> gb M b.
  Proof. intros N M [[| |q|] f] L H; unfold gb in *; cbn in *; auto. eapply grid_le; eauto. Qed.
  Lemma gb_min : forall N a b, gb N a -> gb N b -> gb N (bmin a b).
  Proof. intros N a b Ha Hb. unfold bmin. destruct (bltb b a); auto. Qed.
  Lemma gb_add : forall N M a b, gb N a -> gb M b -> gb (N + M) (badd a b).
  Proof. intros N M [[| |x|] fa] [[| |y|] fb] Ha Hb; unfold gb in *; cbn in *; auto. apply grid_plus; auto. Qed.
  Lemma gb_zero : forall N, (0 <= N)%Z -> gb N bzero.
  Proof. intros N H. apply grid_0. auto. Qed.

  Variable rnd : Q -> Q.
  Hypothesis Hr : exact_on_doubles rnd.
  Lemma rnd_grid : forall N q, on_grid k N q -> (N <= 2 ^ 53)%Z -> rnd q = q.
  Proof. intros N q G L. apply Hr. eapply grid_double; eauto. Qed.
  Lemma badd_r_grid : forall N M a b, gb N a -> gb M b -> (N + M <= 2 ^ 53)%Z -> badd_r rnd a b = badd a b.
  Proof.
    intros N M [[| |x|] fa] [[| |y|] fb] Ha Hb L; unfold gb, badd_r, badd, nadd_r, nadd in *; cbn in *; auto.
    rewrite (rnd_grid (N + M)); auto. apply grid_plus; auto.
  Qed.

  (* ---------------- the guard of an accepting edge ---------------- *)

  Variables T C : Z.
  Hypothesis HT : (0 <= T)%Z.
  Hypothesis HC : (0 <= C)%Z.
  Definition g6 (N : Z) (b : six) : Prop := gb N (ub b) /\ gb N (lb b) /\ gb N (ue b) /\ gb N (le6 b) /\ gb N (ud b) /\ gb N (ld b).
  Definition grst (rst : list Q) : Prop := Forall (on_grid k T) rst.

  Lemma qnth_grid : forall l x, grst l -> on_grid k T (qnth l x).
  Proof.
    intros l x F. unfold qnth. destruct (Nat.lt_ge_cases x (length l)) as [L|L].
    - unfold grst in F. rewrite Forall_forall in F. apply F, nth_In. auto.
    - rewrite nth_overflow by auto. apply grid_0; auto.
  Qed.

  Lemma acc_guard1_grid : forall N rst b g, grst rst -> g6 N b -> (Z.abs (cc g) * 2 ^ k <= C)%Z -> (T + C <= N)%Z -> (2 * N <= 2 ^ 53)%Z ->
    acc_guard1_r rnd rst b g = acc_guard1 rst b g /\ g6 (2 * N) (acc_guard1 rst b g).
  Proof.
    intros N rst b g F (H1 & H2 & H3 & H4 & H5 & H6) Hc L1 L2.
    pose proof (qnth_grid rst (cx g) F) as G. pose proof (grid_int C (cc g) Hc) as Gc.
    assert (GN : forall x, gb N x -> gb (2 * N) x) by (intros x; apply gb_le; lia).
    assert (AD : forall x y, gb N x -> gb N y -> badd_r rnd x y = badd x y /\ gb (2 * N) (badd x y)).
    { intros x y Hx Hy. split; [apply (badd_r_grid N N); auto; lia|]. replace (2 * N)%Z with (N + N)%Z by lia. apply gb_add; auto. }
    unfold acc_guard1_r, acc_guard1. set (c := inject_Z (cc g)) in *. set (r := qnth rst (cx g)) in *.
    destruct (is_reset rst (cx g)).
    - assert (P1 : on_grid k N (c + r)) by (eapply grid_le; [|apply grid_plus; eauto]; lia).
      assert (P2 : on_grid k N (- c - r)) by (eapply grid_le; [|apply grid_minus; [apply grid_opp; eauto|eauto]]; lia).
      rewrite (rnd_grid N _ P1), (rnd_grid N _ P2) by lia.
      assert (U : forall f, gb N (bmin (ue b) (bnd (c + r) f))) by (intros f; apply gb_min; auto; exact P1).
      assert (L : forall f, gb N (bmin (le6 b) (bnd (- c - r) f))) by (intros f; apply gb_min; auto; exact P2).
      destruct (codr g); cbn zeta; cbn [is_le is_ge].
      + destruct (AD _ _ (U false) H2) as (E1 & B1), (AD _ _ H6 (U false)) as (E2 & B2). rewrite E1, E2. split; [reflexivity|].
        unfold g6; cbn [ub lb ue le6 ud ld]. repeat split; auto using gb_min.
      + destruct (AD _ _ (U true) H2) as (E1 & B1), (AD _ _ H6 (U true)) as (E2 & B2). rewrite E1, E2. split; [reflexivity|].
        unfold g6; cbn [ub lb ue le6 ud ld]. repeat split; auto using gb_min.
      + destruct (AD _ _ H1 (L true)) as (E1 & B1), (AD _ _ (L true) H5) as (E2 & B2). rewrite E1, E2. split; [reflexivity|].
        unfold g6; cbn [ub lb ue le6 ud ld]. repeat split; auto using gb_min.
      + destruct (AD _ _ H1 (L false)) as (E1 & B1), (AD _ _ (L false) H5) as (E2 & B2). rewrite E1, E2. split; [reflexivity|].
        unfold g6; cbn [ub lb ue le6 ud ld]. repeat split; auto using gb_min.
    - assert (P1 : on_grid k N c) by (eapply grid_le; [|eauto]; lia).
      assert (P2 : on_grid k N (- c)) by (apply grid_opp; auto).
      assert (U : forall f, gb N (bmin (ud b) (bnd c f))) by (intros f; apply gb_min; auto; exact P1).
      assert (L : forall f, gb N (bmin (ld b) (bnd (- c) f))) by (intros f; apply gb_min; auto; exact P2).
      destruct (codr g); cbn zeta; cbn [is_le is_ge].
      + destruct (AD _ _ (U false) H1) as (E1 & B1), (AD _ _ H4 (U false)) as (E2 & B2). rewrite E1, E2. split; [reflexivity|].
        unfold g6; cbn [ub lb ue le6 ud ld]. repeat split; auto using gb_min.
      + destruct (AD _ _ (U true) H1) as (E1 & B1), (AD _ _ H4 (U true)) as (E2 & B2). rewrite E1, E2. split; [reflexivity|].
        unfold g6; cbn [ub lb ue le6 ud ld]. repeat split; auto using gb_min.
      + destruct (AD _ _ (L true) H3) as (E1 & B1), (AD _ _ H2 (L true)) as (E2 & B2). rewrite E1, E2. split; [reflexivity|].
        unfold g6; cbn [ub lb ue le6 ud ld]. repeat split; auto using gb_min.
      + destruct (AD _ _ (L false) H3) as (E1 & B1), (AD _ _ H2 (L false)) as (E2 & B2). rewrite E1, E2. split; [reflexivity|].
        unfold g6; cbn [ub lb ue le6 ud ld]. repeat split; auto using gb_min.
  Qed.

  Lemma guards_grid : forall gs N rst b, grst rst -> g6 N b -> (forall g, In g gs -> (Z.abs (cc g) * 2 ^ k <= C)%Z) -> (T + C <= N)%Z ->
    (N * 2 ^ Z.of_nat (length gs) <= 2 ^ 53)%Z ->
    fold_left (acc_guard1_r rnd rst) gs b = fold_left (acc_guard1 rst) gs b /\ g6 (N * 2 ^ Z.of_nat (length gs)) (fold_left (acc_guard1 rst) gs b).
  Proof.
    induction gs as [|g gs IH]; intros N rst b F G Hg L1 L2; cbn [fold_left].
    - cbn [length Z.of_nat] in *. rewrite Z.pow_0_r, Z.mul_1_r in *. auto.
    - cbn [length] in L2 |- *. rewrite Nat2Z.inj_succ, Z.pow_succ_r in L2 |- * by lia. set (n := Z.of_nat (length gs)) in *.
      assert (P : (1 <= 2 ^ n)%Z) by (pose proof (Z.pow_pos_nonneg 2 n); lia).
      destruct (acc_guard1_grid N rst b g F G) as (E & G'); auto; [apply Hg; left; auto|nia|]. rewrite E.
      replace (N * (2 * 2 ^ n))%Z with (2 * N * 2 ^ n)%Z in * by ring. apply IH; auto; [intros; apply Hg; right; auto|lia].
  Qed.

  Definition gcfg (cfg : iconf) : Prop := gb (T + C) (iup cfg) /\ gb (T + C) (ilo cfg) /\ grst (irst cfg).
  Definition gedge (e : edge) : Prop :=
    (forall g, In g (eguard e) -> (Z.abs (cc g) * 2 ^ k <= C)%Z) /\ ((T + C) * 2 ^ (Z.of_nat (length (eguard e)) + 2) <= 2 ^ 53)%Z.
  Lemma gedge_4 : forall e, gedge e -> (4 * (T + C) <= 2 ^ 53)%Z.
  Proof.
    intros e (_ & H). rewrite Z.pow_add_r in H by lia. pose proof (Z.pow_pos_nonneg 2 (Z.of_nat (length (eguard e)))). change (2 ^ 2)%Z with 4%Z in H. nia.
  Qed.

  Lemma valid_grid : forall N a b, gb N a -> gb N b -> (2 * N <= 2 ^ 53)%Z -> valid_r rnd a b = isValidConstraint a b.
  Proof. intros N a b Ha Hb L. unfold valid_r, isValidConstraint. rewrite (badd_r_grid N N); auto. lia. Qed.

  Lemma acc_edge_grid : forall cfg up lo e, gcfg cfg -> gb T up -> gb T lo -> gedge e -> acc_edge_r rnd cfg up lo e = acc_edge cfg up lo e.
  Proof.
    intros cfg up lo e (H1 & H2 & H3) Hu Hl He. pose proof (gedge_4 e He) as L4. destruct He as (Hg & L).
    unfold acc_edge_r, acc_edge.
    assert (Gu : gb (T + C) up) by (eapply gb_le; [|exact Hu]; lia). assert (Gl : gb (T + C) lo) by (eapply gb_le; [|exact Hl]; lia).
    assert (E0 : six_init_r rnd cfg up lo = six_init cfg up lo).
    { unfold six_init_r, six_init. rewrite (badd_r_grid (T + C) (T + C) up (ilo cfg)), (badd_r_grid (T + C) (T + C) lo (iup cfg)); auto; lia. }
    rewrite E0. set (N := (2 * (T + C))%Z).
    assert (G0 : g6 N (six_init cfg up lo)).
    { assert (D : forall x, gb (T + C) x -> gb N x) by (intros x; apply gb_le; unfold N; lia).
      assert (S : forall x y, gb (T + C) x -> gb (T + C) y -> gb N (badd x y)) by (intros x y Hx Hy; unfold N; replace (2 * (T + C))%Z with ((T + C) + (T + C))%Z by lia; apply gb_add; auto).
      unfold g6, six_init; cbn [ub lb ue le6 ud ld]. repeat split; auto. apply gb_min; auto. apply gb_zero. unfold N. lia. }
    rewrite Z.pow_add_r in L by lia. change (2 ^ 2)%Z with 4%Z in L.
    destruct (guards_grid (eguard e) N (irst cfg) (six_init cfg up lo)) as (E & G); auto; [unfold N; lia|unfold N; lia|]. rewrite E.
    set (b := fold_left _ _ _) in *. set (N' := (N * 2 ^ Z.of_nat (length (eguard e)))%Z) in *.
    destruct G as (G1 & G2 & G3 & G4 & G5 & G6). rewrite !(valid_grid N') by (auto; unfold N', N; lia). reflexivity.
  Qed.

  Lemma step_guard_grid : forall rst t gs up lo, grst rst -> on_grid k T t -> (forall g, In g gs -> (Z.abs (cc g) * 2 ^ k <= C)%Z) -> (4 * (T + C) <= 2 ^ 53)%Z ->
    gb (T + C) up -> gb (T + C) lo ->
    step_guard_r rnd rst t gs up lo = step_guard rst t gs up lo /\
    forall up' lo', step_guard rst t gs up lo = Some (up', lo') -> gb (T + C) up' /\ gb (T + C) lo'.
  Proof.
    intros rst t gs. induction gs as [|g gs IH]; intros up lo F Ht Hg L Hu Hl; cbn [step_guard_r step_guard].
    - split; auto. intros up' lo' E. injection E as <- <-. auto.
    - pose proof (qnth_grid rst (cx g) F) as G. pose proof (grid_int C (cc g) (Hg g (or_introl eq_refl))) as Gc.
      rewrite (rnd_grid (T + T) (t - qnth rst (cx g))), (rnd_grid (C + T) (inject_Z (cc g) - t)), (rnd_grid (T + C) (t - inject_Z (cc g))) by (auto using grid_minus; lia).
      assert (P1 : on_grid k (T + C) (inject_Z (cc g) - t)) by (rewrite Z.add_comm; apply grid_minus; auto).
      assert (P2 : on_grid k (T + C) (t - inject_Z (cc g))) by (apply grid_minus; auto).
      assert (Hg' : forall g', In g' gs -> (Z.abs (cc g') * 2 ^ k <= C)%Z) by (intros; apply Hg; right; auto).
      destruct (is_reset rst (cx g)).
      + destruct (satisfy g _); [|split; [reflexivity|discriminate]]. apply IH; auto.
      + destruct (codr g); apply IH; auto using gb_min.
  Qed.

  Lemma set_grid : forall l x t, grst l -> on_grid k T t -> grst (set_nth l x t).
  Proof. unfold grst. induction l as [|a l IH]; intros x t F H; [constructor|]. inversion F; subst. destruct x; cbn [set_nth]; constructor; auto. Qed.
  Lemma step_edge_grid : forall cfg t e, gcfg cfg -> on_grid k T t -> gedge e ->
    step_edge_r rnd cfg t e = step_edge cfg t e /\ forall cfg', step_edge cfg t e = Some cfg' -> gcfg cfg'.
  Proof.
    intros cfg t e (H1 & H2 & H3) Ht He. pose proof (gedge_4 e He) as L4. unfold step_edge_r, step_edge. destruct (etgt e); [|split; [reflexivity|discriminate]].
    destruct (step_guard_grid (irst cfg) t (eguard e) (iup cfg) (ilo cfg)) as (E & G); auto; [apply He|]. rewrite E.
    destruct (step_guard _ _ _ _ _) as [[up lo]|]; [|split; [reflexivity|discriminate]]. destruct (G up lo eq_refl) as (G1 & G2).
    rewrite (valid_grid (T + C)) by (auto; lia). split; [reflexivity|]. intros cfg' X. destruct (isValidConstraint up lo); [|discriminate]. injection X as <-.
    split; [auto|split; [auto|]]. cbn [irst]. clear - H3 Ht HT. revert H3. generalize (irst cfg). induction (eresets e) as [|x xs IH]; intros l F; [exact F|]. cbn [fold_left]. apply IH, set_grid; auto.
  Qed.
  Lemma hit_zone_grid : forall cfg t, gcfg cfg -> on_grid k T t -> (4 * (T + C) <= 2 ^ 53)%Z -> hit_zone_r rnd cfg t = hit_zone cfg t.
  Proof.
    intros cfg t (H1 & H2 & H3) Ht L. unfold hit_zone_r, hit_zone. cbn [ub lb ue le6 ud ld].
    assert (Gt : gb (T + C) (bnd t true)) by (eapply gb_le; [|exact Ht]; lia).
    rewrite (badd_r_grid (T + C) (T + C) (bnd t true) (ilo cfg)), (badd_r_grid (T + C) (T + C) (bnd t true) (iup cfg)) by (auto; lia).
    set (N := ((T + C) + (T + C))%Z).
    rewrite (valid_grid (T + C) (iup cfg)), (valid_grid (T + C) (bnd t true)), (valid_grid N); auto; unfold N; try lia.
    - apply gb_add; auto.
    - apply gb_min; [apply gb_add; auto|apply gb_zero; lia].
  Qed.
  Lemma opt_edge_grid : forall A cfg t e, gcfg cfg -> on_grid k T t -> gedge e -> opt_edge_r rnd A cfg t e = opt_edge A cfg t e.
  Proof.
    intros A cfg t e Hc Ht He. unfold opt_edge_r, opt_edge. destruct (step_edge_grid cfg t e Hc Ht He) as (E & G). rewrite E.
    destruct (step_edge cfg t e) as [cfg'|]; [|reflexivity]. rewrite (hit_zone_grid cfg' t); auto. eapply gedge_4; eauto.
  Qed.

  (* ---------------- the loops ---------------- *)

  Variable A : ta.
  Hypothesis HA : forall p c e, In e (edges_at A p c) -> gedge e.

  Lemma flat_map_same : forall {X Y} (f g : X -> list Y) l, (forall x, In x l -> f x = g x) -> flat_map f l = flat_map g l.
  Proof. intros X Y f g l. induction l as [|x l IH]; intros H; cbn [flat_map]; auto. rewrite (H x (or_introl eq_refl)), IH; auto. intros; apply H; right; auto. Qed.
  Lemma fold_same : forall {S X} (f g : X -> S -> outcome S) l s, (forall x s, In x l -> f x s = g x s) -> fold_out f l s = fold_out g l s.
  Proof.
    intros S X f g l. induction l as [|x l IH]; intros s H; cbn [fold_out]; auto. rewrite (H x s (or_introl eq_refl)). destruct (g x s); cbn [bind]; auto. apply IH. intros; apply H; right; auto.
  Qed.

  Lemma event_grid : forall M c t cs, Forall gcfg cs -> on_grid k T t ->
    event_confs_r rnd M A c t cs = event_confs M A c t cs /\ event_zones_r rnd M A c t cs = event_zones M A c t cs /\ Forall gcfg (event_confs M A c t cs).
  Proof.
    intros M c t cs F Ht. rewrite Forall_forall in F.
    assert (E1 : step_confs_r rnd A c t cs = step_confs A c t cs).
    { apply flat_map_same. intros cfg Hc. apply flat_map_same. intros e He. rewrite (proj1 (step_edge_grid cfg t e (F _ Hc) Ht (HA _ _ _ He))). reflexivity. }
    assert (E2 : opt_edges_r rnd A c t cs = opt_edges A c t cs).
    { apply flat_map_same. intros cfg Hc. apply flat_map_same. intros e He. rewrite (opt_edge_grid A cfg t e (F _ Hc) Ht (HA _ _ _ He)). reflexivity. }
    assert (G1 : Forall gcfg (step_confs A c t cs)).
    { apply Forall_forall. intros x Hx. unfold step_confs in Hx. apply in_flat_map in Hx as (cfg & Hc & Hx). apply in_flat_map in Hx as (e & He & Hx).
      destruct (step_edge cfg t e) eqn:E; [|destruct Hx]. destruct Hx as [<-|[]]. apply (proj2 (step_edge_grid cfg t e (F _ Hc) Ht (HA _ _ _ He))). auto. }
    assert (G2 : Forall gcfg (map fst (opt_edges A c t cs))).
    { apply Forall_forall. intros x Hx. apply in_map_iff in Hx as ([y o] & Ey & Hx). cbn in Ey. subst y. unfold opt_edges in Hx. apply in_flat_map in Hx as (cfg & Hc & Hx). apply in_flat_map in Hx as (e & He & Hx).
      unfold opt_edge in Hx. destruct (step_edge cfg t e) as [cfg'|] eqn:E; [|destruct Hx].
      assert (x = cfg'). { destruct (match_at A (ist cfg')); [destruct (hit_zone cfg' t)|]; cbn [opt_list] in Hx; first [destruct Hx as [Hx|[]]; congruence|destruct Hx]. }
      subst x. apply (proj2 (step_edge_grid cfg t e (F _ Hc) Ht (HA _ _ _ He))). auto. }
    unfold event_confs_r, event_confs, event_zones_r, event_zones. destruct M; rewrite ?E1, ?E2; auto.
  Qed.

  Variable W : cont.
  Variable S : skips.
  Variable M : mode.
  (* What is in the container is on the grid. *)
  Variable Inv : ctype W -> Prop.
  Hypothesis Icat : forall c j e, Inv c -> cat W c j = Ok e -> on_grid k T (snd e).
  Hypothesis Ifetch : forall c j b c', Inv c -> cfetch W c j = (b, c') -> Inv c'.
  Hypothesis Ifront : forall c j c', Inv c -> csetFront W c j = Ok c' -> Inv c'.

  Lemma low_grid : forall c j b, Inv c -> low_end W c j = Ok b -> gb T b.
  Proof.
    intros c j b I E. unfold low_end in E. destruct (0 <? j); [|injection E as <-; apply gb_zero; auto].
    destruct (cat W c (j - 1)) as [e| | | |] eqn:V; try discriminate. cbn [bind] in E. injection E as <-. apply Icat in V; auto. apply grid_opp. auto.
  Qed.
  Lemma acc_confs_grid : forall fin l c j cs ans, Inv c -> Forall gcfg cs -> acc_confs_r rnd W A fin l c j cs ans = acc_confs W A fin l c j cs ans.
  Proof.
    intros fin l c j cs ans I F. unfold acc_confs_r, acc_confs. apply fold_same. intros cfg s Hc. apply fold_same. intros e s' He.
    rewrite Forall_forall in F. specialize (F _ Hc). pose proof (HA _ _ _ He) as Ge.
    destruct (match etgt e with Some q => _ | None => false end); [|reflexivity].
    assert (U : forall up, (if fin then Ok (PInf, true) else do e <- cat W c j ; Ok (bnd (snd e) true)) = Ok up -> gb T up).
    { intros up E. destruct fin; [injection E as <-; exact Logic.I|]. destruct (cat W c j) as [x| | | |] eqn:V; try discriminate. cbn [bind] in E. injection E as <-. apply Icat in V; auto. }
    destruct (if fin then Ok (PInf, true) else do e <- cat W c j ; Ok (bnd (snd e) true)) as [up| | | |]; try reflexivity. cbn [bind].
    destruct (low_end W c j) as [lo| | | |] eqn:L; try reflexivity. cbn [bind]. rewrite (acc_edge_grid cfg up lo e); auto. eapply low_grid; eauto.
  Qed.
  Lemma match_loop_grid : forall fuel c j cs ls ans, Inv c -> Forall gcfg cs ->
    match_loop_r rnd W A M fuel c j cs ls ans = match_loop W A M fuel c j cs ls ans /\
    forall c' j' cs' ls' ans', match_loop W A M fuel c j cs ls ans = Ok (c', j', cs', ls', ans') -> Inv c' /\ Forall gcfg cs'.
  Proof.
    induction fuel as [|fuel IH]; intros c j cs ls ans I F; cbn [match_loop_r match_loop].
    - destruct cs as [|x cs]; [split; auto; intros * E; injection E as <- _ <- _ _; auto|].
      destruct (cfetch W c j) as [b c1] eqn:Fe. pose proof (Ifetch _ _ _ _ I Fe) as I1. destruct b; [split; [reflexivity|discriminate]|]. split; auto. intros * E; injection E as <- _ <- _ _; auto.
    - destruct cs as [|x cs]; [split; auto; intros * E; injection E as <- _ <- _ _; auto|].
      destruct (cfetch W c j) as [b c1] eqn:Fe. pose proof (Ifetch _ _ _ _ I Fe) as I1. destruct b; [|split; auto; intros * E; injection E as <- _ <- _ _; auto].
      destruct (cat W c1 j) as [e| | | |] eqn:V; try (split; [reflexivity|discriminate]). cbn [bind]. rewrite acc_confs_grid by auto.
      destruct (acc_confs _ _ _ _ _ _ _ _) as [a| | | |]; try (split; [reflexivity|discriminate]). cbn [bind].
      destruct (event_grid M (fst e) (snd e) (x :: cs) F (Icat _ _ _ I1 V)) as (E1 & E2 & G). rewrite E1, E2. apply IH; auto.
  Qed.
  Lemma start_grid : forall c i cs, Inv c -> start_confs W A c i = Ok cs -> Forall gcfg cs.
  Proof.
    intros c i cs I E. unfold start_confs in E. destruct (cat W c i) as [e| | | |] eqn:V; try discriminate. cbn [bind] in E. apply Icat in V; auto.
    assert (X : exists lo, gb T lo /\ cs = map (fun p => mkI p (repeat 0%Q (clockSize A)) (bnd (snd e) false) lo) (inits A)).
    { destruct (0 <? i).
      - destruct (cat W c (i - 1)) as [f| | | |] eqn:V2; try discriminate. cbn [bind] in E. injection E as <-. apply Icat in V2; auto. eexists. split; [|reflexivity]. apply grid_opp. auto.
      - cbn [bind] in E. injection E as <-. exists bzero. split; [apply gb_zero; auto|reflexivity]. }
    destruct X as (lo & Hl & ->). apply Forall_forall. intros x Hx. apply in_map_iff in Hx as (p & <- & _). split; [|split]; cbn [iup ilo irst].
    - eapply gb_le; [|exact V]. lia.
    - eapply gb_le; [|exact Hl]. lia.
    - apply Forall_forall. intros q Hq. apply repeat_spec in Hq. subst. apply grid_0; auto.
  Qed.
  Lemma sunday_grid : forall fuel c i c' o, Inv c -> sunday_loop W S fuel c i = Ok (c', o) -> Inv c'.
  Proof.
    induction fuel as [|fuel IH]; intros c i c' o I E; cbn [sunday_loop] in E;
      (destruct (cat W c (i + sk_m S - 1)) as [e| | | |]; try discriminate); cbn [bind] in E; (destruct (mem (fst e) (sk_end S)); [injection E as <- _; auto|]);
      destruct (cfetch W c (i + sk_m S)) as [b c1] eqn:F1; pose proof (Ifetch _ _ _ _ I F1) as I1; (destruct b; [|injection E as <- _; auto]);
      (destruct (cat W c1 (i + sk_m S)) as [e2| | | |]; try discriminate); cbn [bind] in E; (destruct (sk_delta S (fst e2)) as [d|]; [|discriminate]); [discriminate|].
    destruct (csetFront W c1 (i + d - 1)) as [c2| | | |] eqn:F2; try discriminate. cbn [bind] in E. pose proof (Ifront _ _ _ I1 F2) as I2.
    destruct (cfetch W c2 (i + d + sk_m S - 1)) as [b c3] eqn:F3. pose proof (Ifetch _ _ _ _ I2 F3) as I3. destruct b; [eauto|]. injection E as <- _. auto.
  Qed.
  Lemma shift_grid : forall fuel c i c' o, Inv c -> sunday_shift W S fuel c i = Ok (c', o) -> Inv c'.
  Proof.
    intros fuel c i c' o I E. unfold sunday_shift in E. destruct (1 <? sk_m S); [|injection E as <- _; auto].
    destruct (cfetch W c (i + sk_m S - 1)) as [b c1] eqn:F1. pose proof (Ifetch _ _ _ _ I F1) as I1. destruct b; [|injection E as <- _; auto]. eapply sunday_grid; eauto.
  Qed.

  Lemma outer_grid : forall fuel c i ls ans, Inv c -> outer_loop_r rnd W A S M fuel c i ls ans = outer_loop W A S M fuel c i ls ans.
  Proof.
    induction fuel as [|fuel IH]; intros c i ls ans I; cbn [outer_loop_r outer_loop]; [reflexivity|].
    destruct (cfetch W c (i + sk_m S - 1)) as [b c1] eqn:F1. pose proof (Ifetch _ _ _ _ I F1) as I1. destruct b; [|reflexivity].
    destruct (sunday_shift W S (Datatypes.S fuel) c1 i) as [[c2 o]| | | |] eqn:Su; cbn [bind fst snd]; [|reflexivity|reflexivity|reflexivity|reflexivity].
    pose proof (shift_grid _ _ _ _ _ I1 Su) as I2. destruct o as [i'|]; [|reflexivity].
    destruct (cfetch W c2 i') as [b c3] eqn:F3. pose proof (Ifetch _ _ _ _ I2 F3) as I3. destruct b; [|reflexivity].
    destruct (start_confs W A c3 i') as [cs| | | |] eqn:St; cbn [bind fst snd]; [|reflexivity|reflexivity|reflexivity|reflexivity].
    destruct (match_loop_grid (Datatypes.S fuel) c3 i' cs ls ans I3 (start_grid _ _ _ I3 St)) as (E & G). rewrite E.
    destruct (match_loop W A M (Datatypes.S fuel) c3 i' cs ls ans) as [[[[[c4 j] cs'] ls'] ans']| | | |]; cbn [bind fst snd]; [|reflexivity|reflexivity|reflexivity|reflexivity].
    destruct (G _ _ _ _ _ eq_refl) as (I4 & F4).
    destruct (cfetch W c4 j) as [b c5] eqn:F5. pose proof (Ifetch _ _ _ _ I4 F5) as I5.
    rewrite (acc_confs_grid true dollar c5 j cs' ans' I5 F4). destruct (if b then _ else _) as [la| | | |]; cbn [bind fst snd]; [|reflexivity|reflexivity|reflexivity|reflexivity].
    destruct (greatest S (fst la)) as [n| | | |]; cbn [bind fst snd]; [|reflexivity|reflexivity|reflexivity|reflexivity].
    destruct (csetFront W c5 (i' + n - 1)) as [c6| | | |] eqn:F6; cbn [bind fst snd]; [|reflexivity|reflexivity|reflexivity|reflexivity]. apply IH. eapply Ifront; eauto.
  Qed.
End Grid.

(* ================= C85 ================= *)

Lemma edge_at_in : forall A p c e, In e (edges_at A p c) -> exists s es, In (p, s) (states A) /\ In (c, es) (next s) /\ In e es.
Proof.
  intros A p c e H. unfold edges_at, deref, next_find in H. destruct (assoc p (states A)) as [s|] eqn:E1; [|destruct H].
  destruct (assoc c (next s)) as [es|] eqn:E2; [|destruct H]. apply assoc_In in E1, E2. eauto.
Qed.

Lemma vec_grid : forall k T (w : tword) j e, (forall x, In x w -> on_grid k T (snd x)) -> cat vecC w j = Ok e -> on_grid k T (snd e).
Proof. intros k T w j e H E. apply H. cbn in E. unfold vec_at in E. destruct (nth_error w j) eqn:N; [|discriminate]. apply nth_error_In in N. injection E as <-. auto. Qed.

Definition lazy_in (k T : Z) (d : lazy) : Prop := Forall (fun x => on_grid k T (snd x)) (lbuf d) /\ Forall (fun x => on_grid k T (snd x)) (lrest d).
Lemma Forall_skipn : forall {X} (P : X -> Prop) n l, Forall P l -> Forall P (skipn n l).
Proof. induction n as [|n IH]; intros l F; [exact F|]. destruct l; [constructor|]. inversion F; subst. cbn. auto. Qed.
Lemma lazy_read_in : forall k T n d b d', lazy_in k T d -> lazy_read n d = (b, d') -> lazy_in k T d'.
Proof.
  intros k T. induction n as [|n IH]; intros d b d' (H1 & H2) E; cbn [lazy_read] in E; [injection E as _ <-; split; auto|].
  destruct (lrest d) as [|e r]; [injection E as _ <-; split; auto|]. inversion H2; subst. eapply IH; [|exact E]. split; cbn [lbuf lrest]; auto.
  apply Forall_app. auto.
Qed.
Lemma lazy_fetch_in : forall k T d n b d', lazy_in k T d -> lazy_fetch d n = (b, d') -> lazy_in k T d'.
Proof. intros k T d n b d' H E. unfold lazy_fetch in E. destruct (_ || _); [injection E as _ <-; auto|]. eapply lazy_read_in; eauto. Qed.
Lemma lazy_front_in : forall k T d n d', lazy_in k T d -> lazy_setFront d n = Ok d' -> lazy_in k T d'.
Proof. intros k T d n d' (H1 & H2) E. unfold lazy_setFront in E. destruct (n <? lfront d); [discriminate|]. injection E as <-. split; cbn [lbuf lrest]; apply Forall_skipn; auto. Qed.
Lemma lazy_at_in : forall k T d n e, lazy_in k T d -> lazy_at d n = Ok e -> on_grid k T (snd e).
Proof.
  intros k T d n e (H1 & H2) E. unfold lazy_at in E. destruct (_ || _); [discriminate|]. destruct (nth_error (lbuf d) (n - lfront d)) eqn:N; [|discriminate].
  injection E as <-. apply nth_error_In in N. rewrite Forall_forall in H1. auto.
Qed.

Section Main.
  Variables (k T C : Z) (A : ta) (w : tword) (rnd : Q -> Q).
  Hypothesis Hf : fits k T C A.
  Hypothesis Hw : forall x, In x w -> on_grid k T (snd x).
  Hypothesis Hr : exact_on_doubles rnd.
  Lemma fits_edges : forall p c e, In e (edges_at A p c) -> gedge k T C e.
  Proof. intros p c e H. apply edge_at_in in H as (s & es & H1 & H2 & H3). exact (proj2 (proj2 (proj2 Hf)) _ _ _ _ _ H1 H2 H3). Qed.
  Lemma outer_vec : forall S M fuel i ls ans, outer_loop_r rnd vecC A S M fuel w i ls ans = outer_loop vecC A S M fuel w i ls ans.
  Proof.
    intros. destruct Hf as (H1 & H2 & H3 & _). apply (outer_grid k H1 rnd Hr T C H2 H3 A fits_edges vecC S M (fun c => c = w)); auto.
    - intros c j e ->. apply vec_grid. auto.
    - intros c j b c' -> E. cbn in E. congruence.
    - intros c j c' -> E. cbn in E. congruence.
  Qed.
  Lemma outer_lazy : forall S M fuel i ls ans, outer_loop_r rnd lazyC A S M fuel (lopen w) i ls ans = outer_loop lazyC A S M fuel (lopen w) i ls ans.
  Proof.
    intros. destruct Hf as (H1 & H2 & H3 & _). apply (outer_grid k H1 rnd Hr T C H2 H3 A fits_edges lazyC S M (lazy_in k T)).
    - intros c j e. apply lazy_at_in.
    - intros c j b c'. apply lazy_fetch_in.
    - intros c j c'. apply lazy_front_in.
    - split; [constructor|]. apply Forall_forall. auto.
  Qed.
End Main.

(* Whatever the rounding, the program reports the zones of exact numbers, word
   in memory or read while matching. *)
Theorem C85_exact : forall rnd k T C A w fuel al, exact_on_doubles rnd -> fits k T C A -> (forall x, In x w -> on_grid k T (snd x)) ->
  (monaaDollar_r rnd fuel al vecC A w = monaaDollar fuel al vecC A w /\
   monaa_plain_r rnd fuel al vecC A w = monaa_plain fuel al vecC A w /\
   monaaNotNecessaryDollar_r rnd fuel al vecC A w = monaaNotNecessaryDollar fuel al vecC A w) /\
  (monaaDollar_r rnd fuel al lazyC A (lopen w) = monaaDollar fuel al lazyC A (lopen w) /\
   monaa_plain_r rnd fuel al lazyC A (lopen w) = monaa_plain fuel al lazyC A (lopen w) /\
   monaaNotNecessaryDollar_r rnd fuel al lazyC A (lopen w) = monaaNotNecessaryDollar fuel al lazyC A (lopen w)).
Proof.
  intros rnd k T C A w fuel al Hr Hf Hw.
  unfold monaaDollar_r, monaa_plain_r, monaaNotNecessaryDollar_r, monaaDollar, monaa_plain, monaaNotNecessaryDollar. repeat split.
  all: try (destruct (make_ap A) as [Ap| | | |]; cbn [bind]; [|reflexivity|reflexivity|reflexivity|reflexivity]); (destruct (tables _ _ _) as [S| | | |]; cbn [bind]; [|reflexivity|reflexivity|reflexivity|reflexivity]); try (destruct (no_eps A); [|reflexivity]).
  all: first [apply (outer_vec k T C)|apply (outer_lazy k T C)]; auto.
Qed.

(* ---------------- rounding to the nearest double is such a rounding ---------------- *)

Lemma p2_lt : forall a b, (a < b)%Z -> (Qpower 2 a < Qpower 2 b)%Q.
Proof.
  intros a b H. replace b with (a + (b - a))%Z by lia. rewrite p2_plus, (p2_int (b - a)) by lia. pose proof (p2_pos a).
  assert (1 < 2 ^ (b - a))%Z by (apply Z.pow_gt_1; lia).
  assert (L : (1 < inject_Z (2 ^ (b - a)))%Q) by (change 1%Q with (inject_Z 1); rewrite <- Zlt_Qlt; auto). nra.
Qed.
Lemma p2_le_inv : forall a b, (Qpower 2 a <= Qpower 2 b)%Q -> (a <= b)%Z.
Proof. intros a b H. destruct (Z.le_gt_cases a b) as [L|L]; auto. apply p2_lt in L. exfalso. apply (Qlt_irrefl (Qpower 2 a)). eapply Qle_lt_trans; eauto. Qed.

Lemma nearest_int : forall q z, (q == inject_Z z)%Q -> nearest q = z.
Proof.
  intros q z E. unfold nearest. unfold Qeq in E. cbn in E. rewrite Z.mul_1_r in E. rewrite E. rewrite Z.div_mul, Z.mod_mul by lia.
  rewrite Z.mul_0_r. reflexivity.
Qed.

(* The first bit of a number is where [last_place] says. *)
Lemma last_place_low : forall q, ~ (q == 0)%Q -> (Qpower 2 (last_place q + 52) <= Qabs q)%Q \/ last_place q = (-1074)%Z.
Proof.
  intros q N. unfold last_place. set (L := (Z.log2 (Z.abs (Qnum q)) - Z.log2 (Zpos (Qden q)))%Z).
  assert (P : (Qpower 2 (if Qle_bool (Qpower 2 L) (Qabs q) then L else (L - 1)%Z) <= Qabs q)%Q).
  { destruct (Qle_bool (Qpower 2 L) (Qabs q)) eqn:B; [apply Qle_bool_iff; auto|]. clear B.
    assert (N0 : (0 < Z.abs (Qnum q))%Z) by (assert (Qnum q <> 0)%Z by (intro E; apply N; unfold Qeq; rewrite E; reflexivity); lia).
    destruct (Z.log2_spec _ N0) as (A1 & _). destruct (Z.log2_spec (Zpos (Qden q)) eq_refl) as (_ & A2).
    set (n := Z.log2 (Z.abs (Qnum q))) in *. set (d := Z.log2 (Zpos (Qden q))) in *.
    assert (0 <= n)%Z by apply Z.log2_nonneg. assert (0 <= d)%Z by apply Z.log2_nonneg.
    assert (E : (Qabs q == inject_Z (Z.abs (Qnum q)) / inject_Z (Zpos (Qden q)))%Q).
    { destruct q as [a b]. unfold Qabs, Qeq, Qdiv, Qinv, inject_Z. cbn. lia. }
    rewrite E. apply Qle_shift_div_l; [reflexivity|].
    replace (L - 1)%Z with (n + - (Z.succ d))%Z by (unfold L; lia). rewrite p2_plus. rewrite Zle_Qle in A1. rewrite <- p2_int in A1 by auto.
    rewrite Zlt_Qlt in A2. rewrite <- p2_int in A2 by lia. eapply Qle_trans; [|exact A1].
    pose proof (p2_pos n) as Pn. pose proof (p2_pos (- Z.succ d)) as Pd. 
    assert (X : (Qpower 2 (- Z.succ d) * inject_Z (Zpos (Qden q)) <= 1)%Q).
    { setoid_replace 1%Q with (Qpower 2 (- Z.succ d) * Qpower 2 (Z.succ d))%Q by (rewrite <- p2_plus; replace (- Z.succ d + Z.succ d)%Z with 0%Z by lia; reflexivity). nra. }
    nra. }
  set (p := if Qle_bool _ _ then L else (L - 1)%Z) in *. destruct (Z.max_spec (p - 52) (-1074)) as [(H & ->)|(H & ->)]; [right; auto|left].
  replace (p - 52 + 52)%Z with p by lia. auto.
Qed.

Theorem C85_nearest : exact_on_doubles rnd64.
Proof.
  intros q (m & e & Hm & He & E). unfold rnd64. set (e' := last_place q).
  assert (Z0 : exists z, (q == inject_Z z * Qpower 2 e')%Q).
  { destruct (Qeq_dec q 0) as [Q0|Q0]; [exists 0%Z; rewrite Q0; unfold inject_Z; ring|].
    destruct (Z.le_gt_cases e' e) as [L|L].
    - exists (m * 2 ^ (e - e'))%Z. rewrite inject_Z_mult, <- (p2_int (e - e')) by lia. rewrite <- Qmult_assoc, <- p2_plus. replace (e - e' + e')%Z with e by lia. auto.
    - destruct (last_place_low q Q0) as [P|P]; [|fold e' in P; lia]. fold e' in P. rewrite E, Qabs_Qmult, (Qabs_pos (Qpower 2 e)) in P by (apply Qlt_le_weak, p2_pos).
      assert (Am : (Qabs (inject_Z m) == inject_Z (Z.abs m))%Q) by reflexivity. rewrite Am in P.
      assert (P' : (Qpower 2 (e' + 52 - e) <= inject_Z (Z.abs m))%Q).
      { unfold Z.sub. rewrite p2_plus. pose proof (p2_pos (- e)) as H. assert (X : (Qpower 2 e * Qpower 2 (- e) == 1)%Q) by (rewrite <- p2_plus; replace (e + - e)%Z with 0%Z by lia; reflexivity).
        setoid_replace (inject_Z (Z.abs m)) with (inject_Z (Z.abs m) * Qpower 2 e * Qpower 2 (- e))%Q by (rewrite <- Qmult_assoc, X; ring). nra. }
      rewrite p2_int, <- Zle_Qle in P' by lia.
      exfalso. assert (Le : (2 ^ 53 <= 2 ^ (e' + 52 - e))%Z) by (apply Z.pow_le_mono_r; lia). lia. }
  destruct Z0 as (z & Ez).
  assert (Nz : nearest (q / Qpower 2 e') = z). { apply nearest_int. rewrite Ez. field. intro X. pose proof (p2_pos e') as Y. rewrite X in Y. discriminate. }
  rewrite Nz. apply Qeq_bool_iff in Ez. rewrite Ez. reflexivity.
Qed.

Lemma nearest_best : forall q z, (Qabs (inject_Z (nearest q) - q) <= Qabs (inject_Z z - q))%Q.
Proof.
  intros [n d] z.
  assert (K : (Z.abs (nearest (n # d) * Zpos d - n) <= Z.abs (z * Zpos d - n))%Z).
  { unfold nearest. cbn [Qnum Qden]. pose proof (Z.div_mod n (Zpos d) ltac:(lia)) as E. pose proof (Z.mod_pos_bound n (Zpos d) ltac:(lia)) as B.
    set (f := (n / Zpos d)%Z) in *. set (r := (n mod Zpos d)%Z) in *. rewrite E. set (D := Zpos d) in *. clearbody f r D. clear E n d.
    assert (A : (Z.abs (f * D - (D * f + r)) = r)%Z) by lia. assert (A' : (Z.abs ((f + 1) * D - (D * f + r)) = D - r)%Z) by nia.
    assert (C : (r <= Z.abs (z * D - (D * f + r)) \/ D - r <= Z.abs (z * D - (D * f + r)))%Z).
    { destruct (Z.le_gt_cases z f) as [L|L]; [left|right]; nia. }
    assert (C' : (z <= f -> r <= Z.abs (z * D - (D * f + r)))%Z) by nia. assert (C2 : (f < z -> D - r <= Z.abs (z * D - (D * f + r)))%Z) by nia.
    destruct (Z.compare_spec (2 * r) D) as [Q|Q|Q]; [destruct (Z.even f)|..]; rewrite ?A, ?A'; destruct (Z.le_gt_cases z f); lia. }
  assert (E : forall x, (Qabs (inject_Z x - (n # d)) == Z.abs (x * Zpos d - n) # d)%Q).
  { intros x. unfold Qminus, Qopp, Qplus, inject_Z, Qabs, Qeq. cbn [Qnum Qden]. rewrite Z.mul_1_r. change (1 * d)%positive with d. repeat f_equal; lia. }
  rewrite !E. unfold Qle. cbn [Qnum Qden]. nia.
Qed.

Lemma last_place_high : forall q, ~ (q == 0)%Q -> (Qabs q < Qpower 2 (last_place q + 53))%Q.
Proof.
  intros q N. unfold last_place. set (L := (Z.log2 (Z.abs (Qnum q)) - Z.log2 (Zpos (Qden q)))%Z).
  assert (P : (Qabs q < Qpower 2 ((if Qle_bool (Qpower 2 L) (Qabs q) then L else (L - 1)%Z) + 1))%Q).
  { destruct (Qle_bool (Qpower 2 L) (Qabs q)) eqn:B.
    2:{ replace (L - 1 + 1)%Z with L by lia. apply Qnot_le_lt. intro X. apply Qle_bool_iff in X. congruence. }
    clear B. assert (N0 : (0 < Z.abs (Qnum q))%Z) by (assert (Qnum q <> 0)%Z by (intro E; apply N; unfold Qeq; rewrite E; reflexivity); lia).
    destruct (Z.log2_spec _ N0) as (_ & A1). destruct (Z.log2_spec (Zpos (Qden q)) eq_refl) as (A2 & _).
    set (n := Z.log2 (Z.abs (Qnum q))) in *. set (d := Z.log2 (Zpos (Qden q))) in *.
    assert (0 <= n)%Z by apply Z.log2_nonneg. assert (0 <= d)%Z by apply Z.log2_nonneg.
    assert (E : (Qabs q == inject_Z (Z.abs (Qnum q)) / inject_Z (Zpos (Qden q)))%Q).
    { destruct q as [a b]. unfold Qabs, Qeq, Qdiv, Qinv, inject_Z. cbn. lia. }
    rewrite E. apply Qlt_shift_div_r; [reflexivity|].
    replace (L + 1)%Z with (Z.succ n + - d)%Z by (unfold L; lia). rewrite p2_plus. rewrite Zlt_Qlt in A1. rewrite <- p2_int in A1 by lia.
    rewrite Zle_Qle in A2. rewrite <- p2_int in A2 by lia. eapply Qlt_le_trans; [exact A1|].
    pose proof (p2_pos (Z.succ n)) as Pn. pose proof (p2_pos (- d)) as Pd.
    assert (X : (1 <= Qpower 2 (- d) * inject_Z (Zpos (Qden q)))%Q).
    { setoid_replace 1%Q with (Qpower 2 (- d) * Qpower 2 d)%Q by (rewrite <- p2_plus; replace (- d + d)%Z with 0%Z by lia; reflexivity). nra. }
    nra. }
  set (p := if Qle_bool _ _ then L else (L - 1)%Z) in *. eapply Qlt_le_trans; [exact P|].
  destruct (Z.eq_dec (p + 1) (Z.max (p - 52) (-1074) + 53)) as [->|D]; [apply Qle_refl|]. apply Qlt_le_weak, p2_lt. lia.
Qed.

Lemma p2_step : forall a b, (b <= a)%Z -> (Qpower 2 a == inject_Z (2 ^ (a - b)) * Qpower 2 b)%Q.
Proof. intros a b H. rewrite <- p2_int by lia. rewrite <- p2_plus. replace (a - b + b)%Z with a by lia. reflexivity. Qed.

Definition r64 (q : Q) : Q := (inject_Z (nearest (q / Qpower 2 (last_place q))) * Qpower 2 (last_place q))%Q.
Lemma rnd64_eq : forall q, (rnd64 q == r64 q)%Q.
Proof. intros q. unfold rnd64, r64. cbn zeta. destruct (Qeq_bool q _) eqn:E; [apply Qeq_bool_iff in E; exact E|apply Qred_correct]. Qed.

(* Among the multiples of 2^e'. *)
Lemma r64_multiple : forall q z, (Qabs (r64 q - q) <= Qabs (inject_Z z * Qpower 2 (last_place q) - q))%Q.
Proof.
  intros q z. unfold r64. set (e := last_place q). pose proof (p2_pos e) as P. pose proof (nearest_best (q / Qpower 2 e) z) as H.
  assert (E : forall x, (x * Qpower 2 e - q == (x - q / Qpower 2 e) * Qpower 2 e)%Q) by (intros x; field; intro X; rewrite X in P; discriminate).
  rewrite !E, !Qabs_Qmult, (Qabs_pos (Qpower 2 e)) by (apply Qlt_le_weak; auto). apply Qmult_le_compat_r; auto. apply Qlt_le_weak; auto.
Qed.

(* No double is nearer. *)
Lemma rnd64_best : forall q d, double d -> (Qabs (rnd64 q - q) <= Qabs (d - q))%Q.
Proof.
  intros q d (m & e & Hm & He & E). rewrite rnd64_eq. set (e' := last_place q).
  destruct (Z.le_gt_cases e' e) as [L|L].
  - eapply Qle_trans; [apply (r64_multiple q (m * 2 ^ (e - e')))|]. fold e'. rewrite E, (p2_step e e') by auto. rewrite inject_Z_mult. 
    setoid_replace (inject_Z m * inject_Z (2 ^ (e - e')) * Qpower 2 e')%Q with (inject_Z m * (inject_Z (2 ^ (e - e')) * Qpower 2 e'))%Q by ring. apply Qle_refl.
  - destruct (Qeq_dec q 0) as [Q0|Q0].
    { pose proof (r64_multiple q 0) as H. eapply Qle_trans; [exact H|]. setoid_replace (inject_Z 0 * Qpower 2 (last_place q) - q)%Q with 0%Q by (change (inject_Z 0) with 0%Q; rewrite Qmult_0_l; lra). apply Qabs_nonneg. }
    destruct (last_place_low q Q0) as [P|P]; [|fold e' in P; lia]. fold e' in P.
    assert (D : (Qabs d <= Qpower 2 (e' + 52))%Q).
    { rewrite E, Qabs_Qmult, (Qabs_pos (Qpower 2 e)) by (apply Qlt_le_weak, p2_pos). rewrite (p2_step (e' + 52) e) by lia. apply Qmult_le_compat_r; [|apply Qlt_le_weak, p2_pos].
      change (Qabs (inject_Z m)) with (inject_Z (Z.abs m)). rewrite <- Zle_Qle. eapply Z.le_trans; [apply Z.lt_le_incl; exact Hm|]. apply Z.pow_le_mono_r; lia. }
    assert (S : (Qpower 2 (e' + 52) == inject_Z (2 ^ 52) * Qpower 2 e')%Q) by (rewrite (p2_step (e' + 52) e') by lia; replace (e' + 52 - e')%Z with 52%Z by lia; reflexivity).
    set (t := Qpower 2 (e' + 52)) in *. destruct (Qlt_le_dec q 0) as [Sg|Sg].
    + eapply Qle_trans; [apply (r64_multiple q (- 2 ^ 52))|]. fold e'. rewrite inject_Z_opp. setoid_replace (- inject_Z (2 ^ 52) * Qpower 2 e' - q)%Q with (- t - q)%Q by (rewrite S; ring).
      rewrite (Qabs_neg q) in P by (apply Qlt_le_weak; auto). apply Qabs_Qle_condition in D. destruct D as (D1 & D2).
      rewrite (Qabs_pos (- t - q)), (Qabs_pos (d - q)) by lra. lra.
    + eapply Qle_trans; [apply (r64_multiple q (2 ^ 52))|]. fold e'. setoid_replace (inject_Z (2 ^ 52) * Qpower 2 e' - q)%Q with (t - q)%Q by (rewrite S; ring).
      rewrite (Qabs_pos q) in P by auto. apply Qabs_Qle_condition in D. destruct D as (D1 & D2).
      rewrite (Qabs_neg (t - q)), (Qabs_neg (d - q)) by lra. lra.
Qed.

(* And it is a double. *)
Lemma rnd64_double : forall q, (Qabs q < Qpower 2 1023)%Q -> double (rnd64 q).
Proof.
  intros q B. destruct (Qeq_dec q 0) as [Q0|Q0].
  { assert (D : double q) by (exists 0%Z, 0%Z; split; [lia|split; [lia|]]; change (inject_Z 0) with 0%Q; rewrite Qmult_0_l; auto). rewrite (C85_nearest q D). auto. }
  set (e := last_place q). set (z := nearest (q / Qpower 2 e)).
  assert (L : (-1074 <= e <= 970)%Z).
  { split; [unfold e, last_place; lia|]. destruct (last_place_low q Q0) as [P|P]; fold e in P; [|lia].
    assert (X : (Qpower 2 (e + 52) < Qpower 2 1023)%Q) by (eapply Qle_lt_trans; eauto). destruct (Z.le_gt_cases 1023 (e + 52)) as [G|G]; [|lia].
    exfalso. destruct (Z.eq_dec (e + 52) 1023) as [Eq|D]; [rewrite Eq in X; apply (Qlt_irrefl _ X)|]. assert (Y := p2_lt 1023 (e + 52) ltac:(lia)). apply (Qlt_irrefl (Qpower 2 1023)). eapply Qlt_trans; eauto. }
  apply (double_wide z e); [|exact L|rewrite rnd64_eq; reflexivity].
  pose proof (last_place_high q Q0) as H. fold e in H. pose proof (p2_pos e) as P. rewrite (p2_step (e + 53) e) in H by lia. replace (e + 53 - e)%Z with 53%Z in H by lia.
  assert (Y : (Qabs (q / Qpower 2 e) < inject_Z (2 ^ 53))%Q).
  { unfold Qdiv. rewrite Qabs_Qmult, (Qabs_pos (/ Qpower 2 e)) by (apply Qinv_le_0_compat, Qlt_le_weak; auto). apply Qlt_shift_div_r; auto. }
  set (x := (q / Qpower 2 e)%Q) in *. apply Qlt_le_weak in Y. apply Qabs_Qle_condition in Y. destruct Y as (Y1 & Y2).
  assert (Zz : (- 2 ^ 53 <= z <= 2 ^ 53)%Z); [|lia]. rewrite <- inject_Z_opp in Y1. split.
  - destruct (Z.le_gt_cases (- 2 ^ 53) z) as [G|G]; auto. exfalso. pose proof (nearest_best x (- 2 ^ 53)) as N. fold z in N.
    rewrite Zlt_Qlt in G. rewrite (Qabs_neg (inject_Z z - x)), (Qabs_neg (inject_Z (- 2 ^ 53) - x)) in N by lra. lra.
  - destruct (Z.le_gt_cases z (2 ^ 53)) as [G|G]; auto. exfalso. pose proof (nearest_best x (2 ^ 53)) as N. fold z in N.
    rewrite Zlt_Qlt in G. rewrite (Qabs_pos (inject_Z z - x)), (Qabs_pos (inject_Z (2 ^ 53) - x)) in N by lra. lra.
Qed.

Theorem C85_rnd64 : nearest_double rnd64.
Proof. intros q B. split; [apply rnd64_double; auto|apply rnd64_best]. Qed.

Lemma nearest_side : forall rnd q d, nearest_double rnd -> (Qabs q < Qpower 2 1023)%Q -> double d ->
  ((q <= d -> rnd q <= d) /\ (d <= q -> d <= rnd q))%Q.
Proof.
  intros rnd q d H B D. pose proof (proj2 (H q B) d D) as N. split; intros L.
  - rewrite (Qabs_pos (d - q)) in N by lra. apply Qabs_Qle_condition in N. lra.
  - rewrite (Qabs_neg (d - q)) in N by lra. apply Qabs_Qle_condition in N. lra.
Qed.

(* The comparison of a rounded clock with a constant errs in one direction only:
   strict constraints that are found to hold do hold, and the others are found
   to hold if they do. *)
Theorem C85_direction : forall rnd g d, nearest_double rnd -> (Qabs d < Qpower 2 1023)%Q -> (Z.abs (cc g) <= 2 ^ 53)%Z ->
  (strict g -> satisfy g (rnd d) = true -> holds g d) /\ (~ strict g -> holds g d -> satisfy g (rnd d) = true).
Proof.
  intros rnd g d H B Hc. assert (D : double (inject_Z (cc g))) by (apply (double_wide (cc g) 0); [auto|lia|change (Qpower 2 0) with 1%Q; ring]).
  destruct (nearest_side rnd d _ H B D) as (U & V). rewrite !satisfy_holds. unfold strict, holds. destruct (codr g); split; intros X Y; try (destruct X; discriminate); try (exfalso; apply X; auto; fail).
  - apply Qnot_le_lt. intros Z. apply V in Z. lra.
  - auto.
  - auto.
  - apply Qnot_le_lt. intros Z. apply U in Z. lra.
Qed.
Example C85_direction_case : let g := mkC 0 Le 2%Z in let d := ((4728779608739021 # (2 ^ 51)) - (3602879701896397 # (2 ^ 55)))%Q in
  (Qabs d < Qpower 2 1023)%Q /\ satisfy g (rnd64 d) = true /\ ~ holds g d /\
  satisfy (mkC 0 Lt 3%Z) (rnd64 d) = true /\ holds (mkC 0 Lt 3%Z) d.
Proof.
  cbn zeta. split; [vm_compute; reflexivity|]. split; [vm_compute; reflexivity|]. split; [vm_compute; intros X; apply X; reflexivity|].
  split; vm_compute; reflexivity.
Qed.

(* Then the pairs in the zones that the program reports with doubles are matches. *)
Corollary C85_sound : forall k T C A w fuel al zs z t t', wf_ta A -> nondecreasing 0 w -> fits k T C A -> (forall x, In x w -> on_grid k T (snd x)) ->
  monaaDollar_r rnd64 fuel al lazyC A (lopen w) = Ok zs -> In z zs -> zin 3 z (pairv t t') -> matches A w t t'.
Proof.
  intros k T C A w fuel al zs z t t' WF ND Hf Hw H. rewrite (proj1 (proj2 (C85_exact rnd64 k T C A w fuel al C85_nearest Hf Hw))) in H.
  eapply C29_sound_online; eauto.
Qed.

(* Milliseconds are no such grid, but 1024ths are. *)
Definition exGw : tword := [(97, (1025 # 1024)%Q); (98, (2051 # 1024)%Q); (97, 4%Q); (98, (8191 # 1024)%Q)].
Example C85_case : fits 10 8192 8192 exM /\ (forall x, In x exGw -> on_grid 10 8192 (snd x)) /\ exists z zs, monaaDollar_r rnd64 200 exAl vecC exM exGw = Ok (z :: zs).
Proof.
  split; [|split].
  - split; [lia|]. split; [lia|]. split; [lia|]. intros p s c es e H1 H2 H3. cbn in H1.
    repeat (destruct H1 as [H1|H1]; [injection H1 as <- <-; cbn in H2; repeat (destruct H2 as [H2|H2]; [injection H2 as <- <-; cbn in H3; repeat (destruct H3 as [<-|H3]; [split; [intros g [<-|[]]; vm_compute; discriminate|vm_compute; discriminate]|]); destruct H3|]); destruct H2|]). destruct H1.
  - intros x [<-|[<-|[<-|[<-|[]]]]]; [exists 1025%Z|exists 2051%Z|exists 4096%Z|exists 8191%Z]; (split; [lia|reflexivity]).
  - eexists. eexists. unfold monaaDollar_r. rewrite exM_ap. cbn [bind]. rewrite (tables_with _ _ _ _ _ exM_sets exM_kmp). cbn [bind]. change (no_eps exM) with true. vm_compute. reflexivity.
Qed.

(* The times 0.1 and 2.1 as doubles: their difference is more than 2, rounded it is 2. *)
Definition exRw : tword := [(97, (3602879701896397 # (2 ^ 55))%Q); (98, (4728779608739021 # (2 ^ 51))%Q)].
Definition exRz : list mat := Eval vm_compute in get [] (outer_loop_r rnd64 vecC exM (the_tables exMs exMb) MDollar 200 exRw 0 [] []).
Lemma exR_run : monaaDollar_r rnd64 200 exAl vecC exM exRw = Ok exRz.
Proof. unfold monaaDollar_r. rewrite exM_ap. cbn [bind]. rewrite (tables_with _ _ _ _ _ exM_sets exM_kmp). cbn [bind]. change (no_eps exM) with true. vm_compute. reflexivity. Qed.
Lemma exR_exact : monaaDollar 200 exAl vecC exM exRw = Ok [].
Proof. refine (eq_trans (monaaDollar_with _ _ _ _ _ _ _ _ exM_ap exM_sets exM_kmp eq_refl) _). vm_compute. reflexivity. Qed.

Theorem C85_all_doubles_refuted : exists A w zs z, wf_ta A /\ nondecreasing 0 w /\ (forall x, In x w -> double (snd x)) /\
  monaaDollar_r rnd64 200 exAl vecC A w = Ok zs /\ In z zs /\ zin 3 z (pairv 0 3) /\ ~ matches A w 0 3 /\
  monaaDollar 200 exAl vecC A w = Ok [].
Proof.
  exists exM, exRw, exRz. eexists. split; [exact exM_wf|]. split; [cbn; repeat split; unfold Qle; cbn; lia|].
  split; [intros x [<-|[<-|[]]]; [exists 3602879701896397%Z, (-55)%Z|exists 4728779608739021%Z, (-51)%Z]; (split; [lia|]); (split; [lia|]); reflexivity|].
  split; [exact exR_run|]. split; [left; reflexivity|]. split; [intros i j Hi Hj; do 3 (destruct i as [|i]; [do 3 (destruct j as [|j]; [vm_compute; repeat split; congruence|]); lia|]); lia|]. split; [|exact exR_exact].
  intros (_ & _ & p & q & v & T & e & acc & [<-|[]] & R & _). change (between exRw 0 3) with exRw in R.
  inversion R as [|? ? ? ? ? e1 ? q1 ? ? ? I1 Q1 G1 R1]; subst. clear R.
  assert (D : forall p c e, is_edge exM p c e -> (p = 0 /\ c = 97 /\ e = mkE (Some 1) [1] [mkC 0 Lt 5%Z]) \/ (p = 1 /\ c = 98 /\ e = mkE (Some 2) [] [mkC 1 Le 2%Z]) \/ c = dollar).
  { intros p' c' e' (s & es & J1 & J2 & J3). cbn in J1. repeat (destruct J1 as [J1|J1]; [injection J1 as <- <-; cbn in J2; repeat (destruct J2 as [J2|J2]; [injection J2 as <- <-; cbn in J3; destruct J3 as [<-|[]]; auto|]); destruct J2|]). destruct J1. }
  apply D in I1 as [(_ & _ & ->)|[(X & _)|X]]; try discriminate. injection Q1 as <-.
  inversion R1 as [|? ? ? ? ? e2 ? q2 ? ? ? I2 Q2 G2 R2]; subst. apply D in I2 as [(X & _)|[(_ & _ & ->)|X]]; try discriminate.
  specialize (G2 _ (or_introl eq_refl)). vm_compute in G2. apply G2. reflexivity.
Qed.

(* The times 2.4 and 4.4: the difference of the decimal numbers is 2, that of
   the nearest doubles is more. *)
Definition exDw : tword := [(97, (24 # 10)%Q); (98, (44 # 10)%Q)].
Definition as_doubles (w : tword) : tword := map (fun e => (fst e, rnd64 (snd e))) w.
Lemma exD_run : monaaDollar_r rnd64 200 exAl vecC exM (as_doubles exDw) = Ok [].
Proof. unfold monaaDollar_r. rewrite exM_ap. cbn [bind]. rewrite (tables_with _ _ _ _ _ exM_sets exM_kmp). cbn [bind]. change (no_eps exM) with true. vm_compute. reflexivity. Qed.
Theorem C85_decimal_refuted : exists A w, wf_ta A /\ nondecreasing 0 w /\ matches A w 2 5 /\
  monaaDollar_r rnd64 200 exAl vecC A (as_doubles w) = Ok [].
Proof.
  exists exM, exDw. split; [exact exM_wf|]. split; [cbn; repeat split; unfold Qle; cbn; lia|]. split; [|exact exD_run].
  split; [discriminate|]. split; [discriminate|]. eexists 0, 2, _, _, _, 3. split; [left; reflexivity|]. split; [|split; [|split; [|split]]].
  - change (between exDw 2 5) with exDw. eapply run_cons with (e := mkE (Some 1) [1] [mkC 0 Lt 5%Z]) (q := 1).
    * eexists. eexists. split; [left; reflexivity|]. split; [left; reflexivity|left; reflexivity].
    * reflexivity.
    * intros g [<-|[]]. vm_compute. reflexivity.
    * eapply run_cons with (e := mkE (Some 2) [] [mkC 1 Le 2%Z]) (q := 2); [|reflexivity| |apply run_nil].
      -- eexists. eexists. split; [right; left; reflexivity|]. split; [left; reflexivity|left; reflexivity].
      -- intros g [<-|[]]. vm_compute. discriminate.
  - eexists. eexists. split; [do 2 right; left; reflexivity|]. split; [left; reflexivity|left; reflexivity].
  - reflexivity.
  - eexists. split; [do 3 right; left; reflexivity|reflexivity].
  - intros g [<-|[]]. vm_compute. reflexivity.
Qed.
