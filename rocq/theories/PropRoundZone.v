(* Property C86: zones with the rounding of doubles. *)
From Coq Require Import QArith Lqa Bool List ZArith Arith Lia.
From Verif Require Import Num NumFacts Outcome Constraint Zone ZoneFacts TA ZA Round RoundZone PropBase PropRound.
Import ListNotations.
Open Scope nat_scope.

(* ================= specification ================= *)

(* Every finite bound is a multiple of 2^-k, at most N of them. *)
Definition bound_grid (k N : Z) (b : bound) : Prop := match fst b with Fin q => on_grid k N q | _ => True end.
Definition zone_grid (k N : Z) (m : mat) : Prop := forall r b, In r m -> In b r -> bound_grid k N b.

(* ================= proofs ================= *)

Section Grid.
  Variable k : Z.
  Hypothesis Hk : (0 <= k <= 1074)%Z.
  Variable rnd : Q -> Q.
  Hypothesis Hr : exact_on_doubles rnd.

  Definition rowg (N : Z) (m : mat) (i : nat) : Prop := Forall (gb k N) (nth i m []).
  Definition mg (N : Z) (m : mat) : Prop := forall i, rowg N m i.
  Lemma mg_zone : forall N m, mg N m <-> zone_grid k N m.
  Proof.
    intros N m. split.
    - intros H r b Hr' Hb. apply (In_nth _ _ []) in Hr' as (i & _ & <-). specialize (H i). unfold rowg in H. rewrite Forall_forall in H. exact (H _ Hb).
    - intros H i. unfold rowg. apply Forall_forall. intros b Hb. destruct (Nat.lt_ge_cases i (length m)) as [L|L].
      + apply (H (nth i m []) b); auto. apply nth_In. auto.
      + rewrite nth_overflow in Hb by auto. destruct Hb.
  Qed.
  Lemma mg_le : forall N M m, (N <= M)%Z -> mg N m -> mg M m.
  Proof. intros N M m L H i. eapply Forall_impl; [|apply H]. intros b. apply gb_le. auto. Qed.
  Lemma row_get : forall N m i j, rowg N m i -> gb k N (mget m i j).
  Proof.
    intros N m i j H. unfold mget. destruct (Nat.lt_ge_cases j (length (nth i m []))) as [L|L].
    - unfold rowg in H. rewrite Forall_forall in H. apply H, nth_In. auto.
    - rewrite nth_overflow by auto. exact I.
  Qed.
  Lemma row_set : forall N m i r j, rowg N m j -> (j = i -> Forall (gb k N) r) -> rowg N (set_nth m i r) j.
  Proof.
    intros N m i r j H E. unfold rowg. destruct (Nat.eq_dec j i) as [->|D].
    - destruct (Nat.lt_ge_cases i (length m)) as [L|L]; [rewrite nth_set_nth, Nat.eqb_refl by auto; auto|]. rewrite set_nth_oob by auto. auto.
    - rewrite nth_set_nth_other by auto. auto.
  Qed.
  Lemma mg_mset : forall N m i j b, mg N m -> gb k N b -> mg N (mset m i j b).
  Proof. intros N m i j b H B l. apply row_set; auto. intros _. apply Forall_set_nth; auto. apply H. Qed.

  Lemma zip_grid : forall N (l l' : list bound), Forall (gb k N) l -> Forall (gb k N) l' -> Forall (gb k N) (zip_with bmin l l').
  Proof.
    unfold zip_with. intros N l. induction l as [|a l IH]; intros l' F F'; [constructor|]. destruct l' as [|b l']; [constructor|].
    inversion F; inversion F'; subst. cbn. constructor; [apply gb_min; auto|apply IH; auto].
  Qed.

  Lemma close_row_grid : forall a b N x m i, rowg a m i -> rowg b m x -> (0 <= a)%Z -> (0 <= b)%Z -> (a + b <= N)%Z -> (N <= 2 ^ 53)%Z ->
    close_row_r rnd x m i = close_row x m i /\ rowg N (close_row x m i) i.
  Proof.
    intros a b N x m i Ha Hb Pa Pb L L'. pose proof (row_get a m i x Ha) as G.
    assert (E : map (fun y => badd_r rnd y (mget m i x)) (nth x m []) = map (fun y => badd y (mget m i x)) (nth x m [])).
    { apply map_ext_in. intros y Hy. apply (badd_r_grid k Hk rnd Hr b a); auto; [|lia]. unfold rowg in Hb. rewrite Forall_forall in Hb. auto. }
    unfold close_row_r, close_row, setrow. rewrite E. split; [reflexivity|]. apply row_set.
    - eapply Forall_impl; [|exact Ha]. intros y. apply gb_le. lia.
    - intros _. apply zip_grid.
      + eapply Forall_impl; [|exact Ha]. intros y. apply gb_le. lia.
      + apply Forall_forall. intros y Hy. apply in_map_iff in Hy as (z & <- & Hz). apply (gb_le k (b + a)); [lia|]. apply gb_add; auto.
        unfold rowg in Hb. rewrite Forall_forall in Hb. auto.
  Qed.
  Lemma close_row_other : forall x m i j, j <> i -> nth j (close_row x m i) [] = nth j m [].
  Proof. intros x m i j H. unfold close_row, setrow. apply nth_set_nth_other. auto. Qed.

  Lemma close1_grid : forall N m x, (0 <= N)%Z -> (3 * N <= 2 ^ 53)%Z -> mg N m -> close1_r rnd m x = close1 m x /\ mg (3 * N) (close1 m x).
  Proof.
    intros N m x P L G. unfold close1_r, close1. generalize (length m). intros n.
    assert (K : forall n s m, (forall j, s <= j -> rowg N m j) -> rowg (2 * N) m x -> mg (3 * N) m ->
      fold_left (close_row_r rnd x) (seq s n) m = fold_left (close_row x) (seq s n) m /\ mg (3 * N) (fold_left (close_row x) (seq s n) m)).
    { clear n m G. induction n as [|n IH]; intros s m G1 G2 G3; cbn [seq fold_left]; [auto|].
      destruct (close_row_grid N (2 * N) (3 * N) x m s) as (E & R); auto; [lia|lia|]. rewrite E. apply IH.
      - intros j Hj. unfold rowg. rewrite close_row_other by lia. apply G1. lia.
      - destruct (Nat.eq_dec s x) as [->|D].
        + apply (close_row_grid N N (2 * N) x m x); auto; lia.
        + unfold rowg. rewrite close_row_other by auto. exact G2.
      - intros j. destruct (Nat.eq_dec j s) as [->|D]; auto. unfold rowg. rewrite close_row_other by auto. apply G3. }
    apply K; auto; [|apply (mg_le N); auto; lia]. apply (mg_le N (2 * N)); auto. lia.
  Qed.

  Lemma canonize_grid : forall N m, (0 <= N)%Z -> (N * 3 ^ Z.of_nat (length m) <= 2 ^ 53)%Z -> mg N m ->
    canonize_r rnd m = canonize m /\ mg (N * 3 ^ Z.of_nat (length m)) (canonize m).
  Proof.
    intros N m P L G. unfold canonize_r, canonize. revert N m P L G. 
    assert (K : forall n s N m, (0 <= N)%Z -> (N * 3 ^ Z.of_nat n <= 2 ^ 53)%Z -> mg N m ->
      fold_left (close1_r rnd) (seq s n) m = fold_left close1 (seq s n) m /\ mg (N * 3 ^ Z.of_nat n) (fold_left close1 (seq s n) m)).
    { induction n as [|n IH]; intros s N m P L G; cbn [seq fold_left].
      - cbn [Z.of_nat] in *. rewrite Z.pow_0_r, Z.mul_1_r. auto.
      - rewrite Nat2Z.inj_succ, Z.pow_succ_r in L |- * by lia. assert (1 <= 3 ^ Z.of_nat n)%Z by (pose proof (Z.pow_pos_nonneg 3 (Z.of_nat n)); lia).
        destruct (close1_grid N m s) as (E & G'); auto; [nia|]. rewrite E. replace (N * (3 * 3 ^ Z.of_nat n))%Z with (3 * N * 3 ^ Z.of_nat n)%Z in * by ring.
        apply IH; auto. lia. }
    intros. apply K; auto.
  Qed.

  Lemma tighten_grid : forall N m x y c, (0 <= N)%Z -> (9 * N <= 2 ^ 53)%Z -> mg N m -> gb k N c ->
    tighten_r rnd m x y c = tighten m x y c /\ mg (9 * N) (tighten m x y c).
  Proof.
    intros N m x y c P L G C. unfold tighten_r, tighten. set (m1 := mset m _ _ _).
    assert (G1 : mg N m1) by (apply mg_mset; auto; apply gb_min; auto; apply row_get, G).
    destruct (close1_grid N m1 (cv_succ x)) as (E1 & G2); auto; [lia|]. rewrite E1.
    destruct (close1_grid (3 * N) (close1 m1 (cv_succ x)) (cv_succ y)) as (E2 & G3); auto; try lia. rewrite E2. split; auto.
    replace (9 * N)%Z with (3 * (3 * N))%Z by ring. auto.
  Qed.

  Lemma min_sym_grid : forall N m, (0 <= N)%Z -> (2 * N <= 2 ^ 53)%Z -> mg N m -> min_sym_r rnd m = min_sym m.
  Proof.
    intros N m P L G. unfold min_sym_r, min_sym.
    assert (E : forall l, flat_map (fun j => map (fun i => badd_r rnd (mget m i j) (mget m j i)) (seq 0 (length m))) l =
      flat_map (fun j => map (fun i => badd (mget m i j) (mget m j i)) (seq 0 (length m))) l).
    { intros l. apply flat_map_same. intros j _. apply map_ext. intros i. apply (badd_r_grid k Hk rnd Hr N N); [apply row_get, G|apply row_get, G|lia]. }
    cbn zeta. rewrite E. reflexivity.
  Qed.
  Lemma sat_grid : forall N m, (0 <= N)%Z -> (2 * (N * 3 ^ Z.of_nat (length m)) <= 2 ^ 53)%Z -> mg N m ->
    isSatisfiable_r rnd m = isSatisfiable m /\ mg (N * 3 ^ Z.of_nat (length m)) (snd (isSatisfiable m)).
  Proof.
    intros N m P L G. pose proof (Z.pow_pos_nonneg 3 (Z.of_nat (length m))) as P3. destruct (canonize_grid N m) as (E & G'); auto; [nia|].
    unfold isSatisfiable_r, isSatisfiable. cbn zeta. rewrite E. rewrite (min_sym_grid (N * 3 ^ Z.of_nat (length m))); auto; nia.
  Qed.

  (* ---------------- one transition of the zone automaton ---------------- *)

  Lemma close1_len : forall m x, length (close1 m x) = length m.
  Proof.
    intros m x. unfold close1. generalize (seq 0 (length m)). intros l. revert m. induction l as [|i l IH]; intros m; cbn [fold_left]; [auto|].
    rewrite IH. apply set_nth_length.
  Qed.
  Lemma tighten_len : forall m x y c, length (tighten m x y c) = length m.
  Proof. intros. unfold tighten. rewrite !close1_len. apply set_nth_length. Qed.
  Lemma canonize_len : forall m, length (canonize m) = length m.
  Proof. intros m. unfold canonize. generalize (seq 0 (length m)). intros l. revert m. induction l as [|i l IH]; intros m; cbn [fold_left]; [auto|]. rewrite IH. apply close1_len. Qed.
  Lemma guard_len : forall gs m, length (tighten_guard m gs) = length m.
  Proof. unfold tighten_guard. induction gs as [|g gs IH]; intros m; cbn [fold_left]; [auto|]. rewrite IH. unfold tighten_guard1. destruct (codr g); apply tighten_len. Qed.
  Lemma fold_mset_len : forall (f : mat -> nat -> mat) l m, (forall m i, length (f m i) = length m) -> length (fold_left f l m) = length m.
  Proof. intros f l. induction l as [|i l IH]; intros m H; cbn [fold_left]; auto. rewrite IH; auto. Qed.
  Lemma reset_len : forall m x, length (reset m x) = length m.
  Proof. intros m x. unfold reset. rewrite !fold_mset_len; intros; unfold mset; rewrite ?set_nth_length; auto. Qed.
  Lemma fold_mset_grid : forall N (f : mat -> nat -> mat) l m, (forall m i, mg N m -> mg N (f m i)) -> mg N m -> mg N (fold_left f l m).
  Proof. intros N f l. induction l as [|i l IH]; intros m H G; cbn [fold_left]; auto. Qed.
  Lemma reset_grid : forall N m x, (0 <= N)%Z -> mg N m -> mg N (reset m x).
  Proof.
    intros N m x P G. unfold reset. assert (Z0 : gb k N bzero) by (apply gb_zero; auto).
    apply fold_mset_grid; [intros m0 i G0; apply mg_mset; auto; apply row_get, G0|]. apply fold_mset_grid; [intros m0 i G0; apply mg_mset; auto; apply row_get, G0|].
    apply mg_mset; auto. apply mg_mset; auto.
  Qed.
  Lemma resets_grid : forall N xs m, (0 <= N)%Z -> mg N m -> mg N (fold_left reset xs m) /\ length (fold_left reset xs m) = length m.
  Proof. intros N xs. induction xs as [|x xs IH]; intros m P G; cbn [fold_left]; auto. destruct (IH (reset m x) P (reset_grid N m x P G)) as (H1 & H2). rewrite reset_len in H2. auto. Qed.
  Lemma abs_grid : forall N M m, mg N m -> mg N (abstractize M m).
  Proof.
    intros N M m G. apply mg_zone. apply mg_zone in G. intros r b H1 H2. unfold abstractize in H1. apply in_map_iff in H1 as (r0 & <- & H1).
    apply in_map_iff in H2 as (b0 & <- & H2). destruct (bgeb b0 M); [exact I|]. eapply G; eauto.
  Qed.

  Lemma guard_grid : forall gs N m, (0 <= N)%Z -> (N * 9 ^ Z.of_nat (length gs) <= 2 ^ 53)%Z -> (forall g, In g gs -> (Z.abs (cc g) * 2 ^ k <= N)%Z) -> mg N m ->
    tighten_guard_r rnd m gs = tighten_guard m gs /\ mg (N * 9 ^ Z.of_nat (length gs)) (tighten_guard m gs).
  Proof.
    unfold tighten_guard_r, tighten_guard. induction gs as [|g gs IH]; intros N m P L H G; cbn [fold_left length].
    - cbn [Z.of_nat]. rewrite Z.pow_0_r, Z.mul_1_r. auto.
    - cbn [length] in L. rewrite Nat2Z.inj_succ, Z.pow_succ_r in L |- * by lia. assert (1 <= 9 ^ Z.of_nat (length gs))%Z by (pose proof (Z.pow_pos_nonneg 9 (Z.of_nat (length gs))); lia).
      assert (Hc : on_grid k N (inject_Z (cc g))) by (apply (grid_int k Hk); apply H; left; auto).
      assert (Hc' : on_grid k N (inject_Z (- cc g))) by (apply (grid_int k Hk); rewrite Z.abs_opp; apply H; left; auto).
      assert (S : tighten_guard1_r rnd m g = tighten_guard1 m g /\ mg (9 * N) (tighten_guard1 m g)).
      { unfold tighten_guard1_r, tighten_guard1. destruct (codr g); apply tighten_grid; auto; nia. }
      destruct S as (E & G'). rewrite E. replace (N * (9 * 9 ^ Z.of_nat (length gs)))%Z with (9 * N * 9 ^ Z.of_nat (length gs))%Z in * by ring.
      apply IH; auto; [lia|]. intros g' Hg. specialize (H g' (or_intror Hg)). lia.
  Qed.

  Lemma succ_grid : forall N M now e, (0 <= N)%Z -> (forall g, In g (eguard e) -> (Z.abs (cc g) * 2 ^ k <= N)%Z) -> mg N now ->
    (2 * (N * 9 ^ Z.of_nat (length (eguard e)) * 9 ^ Z.of_nat (length now)) <= 2 ^ 53)%Z ->
    succ_zone_r rnd M now e = succ_zone M now e.
  Proof.
    intros N M now e P H G L. unfold succ_zone_r, succ_zone. set (a := (9 ^ Z.of_nat (length (eguard e)))%Z) in *. set (b := (3 ^ Z.of_nat (length now))%Z).
    assert (B : (9 ^ Z.of_nat (length now) = b * b)%Z) by (unfold b; rewrite <- Z.pow_mul_l; reflexivity). rewrite B in L.
    assert (Pa : (1 <= a)%Z) by (pose proof (Z.pow_pos_nonneg 9 (Z.of_nat (length (eguard e)))); lia).
    assert (Pb : (1 <= b)%Z) by (pose proof (Z.pow_pos_nonneg 3 (Z.of_nat (length now))); lia).
    assert (Q1 : (0 <= N * a)%Z) by nia. assert (Q2 : (N * a <= N * a * b)%Z) by nia. assert (Q3 : (N * a * b <= N * a * b * b)%Z) by nia.
    replace (N * a * (b * b))%Z with (N * a * b * b)%Z in L by ring.
    destruct (guard_grid (eguard e) N now) as (E1 & G1); auto; [fold a; lia|]. fold a in G1. rewrite E1. set (m1 := tighten_guard now (eguard e)) in *.
    assert (Lm : length m1 = length now) by apply guard_len.
    destruct (sat_grid (N * a) m1) as (E2 & G2); auto; [rewrite Lm; fold b; lia|]. rewrite Lm in G2. fold b in G2. rewrite E2.
    destruct (isSatisfiable m1) as [sat m2] eqn:Es. destruct sat; [|reflexivity]. f_equal. cbn [snd] in G2.
    assert (L2 : length m2 = length now) by (unfold isSatisfiable in Es; injection Es as _ <-; rewrite canonize_len; auto).
    destruct (resets_grid (N * a * b) (eresets e) m2) as (G3 & L3); [lia|auto|].
    apply (canonize_grid (N * a * b)); [lia| |apply abs_grid; auto]. unfold abstractize. rewrite map_length, L3, L2. fold b. lia.
  Qed.
End Grid.

(* ================= C86 ================= *)

Theorem C86_tighten : forall rnd k N m x y c, exact_on_doubles rnd -> (0 <= k <= 1074)%Z -> (0 <= N)%Z -> (9 * N <= 2 ^ 53)%Z ->
  zone_grid k N m -> bound_grid k N c -> tighten_r rnd m x y c = tighten m x y c.
Proof. intros rnd k N m x y c Hr Hk P L G C. apply (tighten_grid k Hk rnd Hr N); auto. apply mg_zone; auto. Qed.

Theorem C86_canonize : forall rnd k N m, exact_on_doubles rnd -> (0 <= k <= 1074)%Z -> (0 <= N)%Z -> (2 * (N * 3 ^ Z.of_nat (length m)) <= 2 ^ 53)%Z ->
  zone_grid k N m -> canonize_r rnd m = canonize m /\ isSatisfiable_r rnd m = isSatisfiable m.
Proof.
  intros rnd k N m Hr Hk P L G. apply mg_zone in G. pose proof (Z.pow_pos_nonneg 3 (Z.of_nat (length m))).
  split; [apply (canonize_grid k Hk rnd Hr N)|apply (sat_grid k Hk rnd Hr N)]; auto. nia.
Qed.

(* The answer with doubles is right. *)
Corollary C86_satisfiable : forall k N n m, square n m -> 0 < n -> mgood n m -> (0 <= k <= 1074)%Z -> (0 <= N)%Z -> (2 * (N * 3 ^ Z.of_nat n) <= 2 ^ 53)%Z ->
  zone_grid k N m -> (fst (isSatisfiable_r rnd64 m) = true <-> exists v, zin n m v).
Proof.
  intros k N n m Hs Hn Hg Hk P L G. assert (Ln : length m = n) by apply Hs.
  rewrite (proj2 (C86_canonize rnd64 k N m C85_nearest Hk P ltac:(rewrite Ln; exact L) G)). apply C08_satisfiable; auto.
Qed.

(* One transition of the zone automaton. *)
Theorem C86_succ : forall rnd k N M now e, exact_on_doubles rnd -> (0 <= k <= 1074)%Z -> (0 <= N)%Z ->
  (forall g, In g (eguard e) -> (Z.abs (cc g) * 2 ^ k <= N)%Z) -> zone_grid k N now ->
  (2 * (N * 9 ^ Z.of_nat (length (eguard e)) * 9 ^ Z.of_nat (length now)) <= 2 ^ 53)%Z ->
  succ_zone_r rnd M now e = succ_zone M now e.
Proof. intros rnd k N M now e Hr Hk P H G L. apply (succ_grid k Hk rnd Hr N); auto. apply mg_zone; auto. Qed.

(* zex has three rows with bounds up to 8. *)
Example C86_case : zone_grid 1 16 zex /\ (2 * (16 * 3 ^ Z.of_nat (length zex)) <= 2 ^ 53)%Z /\ fst (isSatisfiable_r rnd64 zex) = true.
Proof.
  split; [|split; [vm_compute; discriminate|vm_compute; reflexivity]].
  intros r b H1 H2. cbn in H1. repeat (destruct H1 as [<-|H1]; [cbn in H2; repeat (destruct H2 as [<-|H2]; [unfold bound_grid; cbn; try exact I; apply (grid_int 1 ltac:(lia)); cbn; lia|]); destruct H2|]). destruct H1.
Qed.

(* x <= 1, y - x <= 2^53, z - y <= -1 and z >= 2^53: the bounds are doubles and
   (1, 2^53 + 1, 2^53) is in the zone, but the sum 2^53 + 1 is rounded to 2^53. *)
Definition p53 : Q := inject_Z (2 ^ 53).
Definition zbig : mat :=
  [[bzero; bzero; bzero; (Fin (- p53)%Q, true)];
   [(Fin 1, true); bzero; binf; binf];
   [binf; (Fin p53, true); bzero; binf];
   [binf; binf; (Fin (-1 # 1), true); bzero]].
Theorem C86_large_refuted : square 4 zbig /\ mgood 4 zbig /\
  (forall r q f, In r zbig -> In (Fin q, f) r -> double q) /\
  fst (isSatisfiable_r rnd64 zbig) = false /\ exists v, zin 4 zbig v.
Proof.
  assert (SQ : square 4 zbig) by (split; [reflexivity|repeat constructor]).
  assert (G : mgood 4 zbig) by (intros i j Hi Hj; do 4 (destruct i as [|i]; [do 4 (destruct j as [|j]; [vm_compute; auto; try discriminate|]); lia|]); lia).
  split; [exact SQ|]. split; [exact G|]. split.
  - intros r q f H1 H2. cbn in H1. repeat (destruct H1 as [<-|H1]; [cbn in H2; repeat (destruct H2 as [H2|H2]; [try discriminate; injection H2 as <- _;
      first [exists 0%Z, 0%Z; split; [lia|split; [lia|reflexivity]]|exists 1%Z, 0%Z; split; [lia|split; [lia|reflexivity]]|apply (double_wide (2 ^ 53) 0); [lia|lia|reflexivity]|apply (double_wide (- 2 ^ 53) 0); [lia|lia|reflexivity]|exists (-1)%Z, 0%Z; split; [lia|split; [lia|reflexivity]]]|]); destruct H2|]). destruct H1.
  - split; [vm_compute; reflexivity|]. rewrite <- C08_satisfiable by (auto; lia). vm_compute. reflexivity.
Qed.
