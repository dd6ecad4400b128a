(* IntermediateZone, continued: guards, makeUnsat, update and toAns. *)
From Coq Require Import QArith Lqa Bool List ZArith Arith Lia.
From Verif Require Import Num NumFacts Outcome Constraint Zone ZoneFacts ZoneOps TA Spec TAFacts ZA Word Monaa MonaaFacts Skip EpsZone EpsZoneFacts.
Import ListNotations.
Open Scope nat_scope.

(* The time of a reset. *)
Definition reft (v : valuation) (r : rtime) : Q := match r with RTime q => q | RClock k => ev v k end.

Definition rt_ok (z : izone) (r : rtime) : Prop := match r with RTime _ => True | RClock k => 1 <= k /\ used k z end.

Lemma rt_ok_same : forall z z' r, same_clocks z z' -> rt_ok z r -> rt_ok z' r.
Proof. intros z z' [q|k] [_ H] R; cbn in *; auto. rewrite H. auto. Qed.

Lemma good_bnd' : forall q f, good (bnd q f). Proof. intros; exact I. Qed.
Local Hint Resolve good_bnd' : bnd.

(* ---------------- guards at the newest clock ---------------- *)

Lemma iz_guard1_spec : forall n z g r, iwf n z -> rt_ok z r -> r <> RClock (newestClock z) ->
  exists z', iz_guard1 g r z = Ok z' /\ iwf n z' /\ same_clocks z z' /\
    (forall v, zin n (iz_mat z') v <-> zin n (iz_mat z) v /\ holds g (ev v (newestClock z) - reft v r)%Q) /\
    (forall a b, a < n -> b < n -> ble (mget (iz_mat z') a b) (mget (iz_mat z) a b)).
Proof.
  intros n z g r W R N. pose proof (used_new n z W) as Up. pose proof (used_0 n z W) as U0. pose proof (new_pos n z W) as Pp.
  assert (X : forall x y c (P : valuation -> Prop), used x z -> used y z -> x <> y -> good c ->
     (forall v, below c (ev v x - ev v y)%Q <-> P v) ->
     exists z', iz_tighten x y c z = Ok z' /\ iwf n z' /\ same_clocks z z' /\
    (forall v, zin n (iz_mat z') v <-> zin n (iz_mat z) v /\ P v) /\
    (forall a b, a < n -> b < n -> ble (mget (iz_mat z') a b) (mget (iz_mat z) a b))).
  { intros x y c P Ux Uy Nxy Gc E. destruct (iz_tighten_spec n z x y c W Ux Uy Nxy Gc) as (z' & A1 & A2 & A3 & A4 & A5).
    exists z'. split; [auto|split; [auto|split; [auto|split; [|auto]]]]. intros v. rewrite A4, E. tauto. }
  unfold iz_guard1, holds. destruct r as [q|k]; cbn [reft rt_ok] in *.
  - destruct (codr g); apply X; auto with bnd; try lia; intros v; unfold below, bnd; cbn [fst snd ev]; lra.
  - destruct R as [K1 K2]. assert (k <> newestClock z) by congruence.
    destruct (codr g); apply X; auto with bnd; intros v; unfold below, bnd; cbn [fst snd]; lra.
Qed.

Theorem iz_guard_spec : forall n rst gs z, iwf n z -> Forall (rt_ok z) rst -> ~ In (RClock (newestClock z)) rst ->
  Forall (fun g => cx g < length rst) gs ->
  exists z', iz_guard gs rst z = Ok z' /\ iwf n z' /\ same_clocks z z' /\
    (forall v, zin n (iz_mat z') v <-> zin n (iz_mat z) v /\
       forall g, In g gs -> holds g (ev v (newestClock z) - reft v (nth (cx g) rst (RTime 0)))%Q) /\
    (forall a b, a < n -> b < n -> ble (mget (iz_mat z') a b) (mget (iz_mat z) a b)).
Proof.
  unfold iz_guard. induction gs as [|g gs IH]; intros z W R N F.
  - exists z. split; [reflexivity|split; [auto|split; [apply same_clocks_refl|split]]].
    + intros v. split; [|tauto]. intros; split; auto. intros ? [].
    + intros. apply ble_refl. apply W; auto.
  - cbn [fold_out]. inversion F as [|? ? F1 F2]; subst. unfold rget. rewrite (nth_error_nth' rst (RTime 0) F1). cbn [bind].
    rewrite Forall_forall in R.
    destruct (iz_guard1_spec n z g (nth (cx g) rst (RTime 0)) W) as (z1 & A1 & A2 & A3 & A4 & A5).
    + apply R. apply nth_In; auto.
    + intros E. apply N. rewrite <- E. apply nth_In; auto.
    + rewrite A1. cbn [bind]. destruct (IH z1) as (z2 & B1 & B2 & B3 & B4 & B5); auto.
      * apply Forall_forall. intros r Hr. apply (rt_ok_same z); auto.
      * destruct A3 as [-> _]. auto.
      * exists z2. split; [auto|split; [auto|split; [eapply same_clocks_trans; eauto|split]]].
        -- intros v. rewrite B4, A4. destruct A3 as [-> _]. split.
           ++ intros ((H1 & H2) & H3). split; auto. intros g' [<-|H]; auto.
           ++ intros (H1 & H2). split; [split; [auto|apply H2; now left]|intros; apply H2; now right].
        -- intros a b Ha Hb. apply ble_trans with (mget (iz_mat z1) a b); [apply B2|apply A2|apply W|apply B5|apply A5]; auto.
Qed.

(* ---------------- guards at a known time ---------------- *)

Definition badz (n : nat) (z : izone) : Prop :=
  match z with
  | IvZone [(l0, _)] _ => n = 2 /\ l0 = (MInf, false)
  | IvZone [(l0, _); _; _] _ => n = 3 /\ l0 = (MInf, false)
  | IvZone _ _ => False
  | MatZone m _ _ => 0 < n /\ corner n m
  end.

Lemma badz_unsat : forall n z, badz n z -> iz_sat z = false.
Proof.
  intros n [l p|m al p] H; cbn [badz iz_sat] in *.
  - destruct l as [|[l0 u0] [|[l1 u1] [|[l2 u2] [|d l]]]]; try contradiction; destruct H as [_ ->];
      cbn [forallb fst snd]; replace (bgeb (badd u0 (MInf, false)) bzero) with false; auto; destruct u0 as [[| |x|] []]; reflexivity.
  - destruct H as (Hn & S & C). destruct S as [HL _]. unfold min_sym. rewrite HL.
    destruct n; [lia|]. cbn [seq flat_map map Datatypes.app]. rewrite C. cbn [badd fst snd nadd andb]. rewrite fold_bmin_minf. reflexivity.
Qed.

Lemma badz_unsat_z : forall n z, iwf n z -> badz n (iz_unsat z) /\ same_clocks z (iz_unsat z).
Proof.
  intros n [l p|m al p] [Sh K].
  - destruct l as [|[l0 u0] [|[l1 u1] [|[l2 u2] [|d l]]]]; cbn [shape] in Sh; try contradiction; destruct Sh; subst; cbn; repeat split; auto.
  - cbn [iz_unsat badz shape] in *. destruct K as (S & _). split; [|split; [reflexivity|cbn; tauto]].
    split; [lia|]. unfold makeUnsat. split; [apply square_mset; auto|]. rewrite (mget_mset n) by (auto; lia). reflexivity.
Qed.

Lemma badz_tighten : forall n z x y c, badz n z -> x < n -> y < n ->
  exists z', iz_tighten x y c z = Ok z' /\ badz n z' /\ same_clocks z z'.
Proof.
  intros n [l p|m al p] x y c B Hx Hy.
  - destruct l as [|[l0 u0] [|[l1 u1] [|[l2 u2] [|d l]]]]; cbn [badz] in B; try contradiction; destruct B as [-> ->].
    + destruct (lt2 x Hx) as [->| ->], (lt2 y Hy) as [->| ->]; cbn [iz_tighten iv_tighten bind];
        (eexists; split; [reflexivity|split; [split; [reflexivity|rewrite ?bmin_minf; reflexivity]|split; [reflexivity|cbn; tauto]]]).
    + destruct (lt3 x Hx) as [->|[->| ->]], (lt3 y Hy) as [->|[->| ->]]; cbn [iz_tighten iv_tighten bind];
        (eexists; split; [reflexivity|split; [split; [reflexivity|rewrite ?bmin_minf; reflexivity]|split; [reflexivity|cbn; tauto]]]).
  - cbn [badz] in B. destruct B as (Hn & S & C). cbn [iz_tighten]. assert (length m = n) as -> by apply S.
    rewrite (proj2 (Nat.ltb_lt x n) Hx), (proj2 (Nat.ltb_lt y n) Hy). cbn [andb]. eexists. split; [reflexivity|].
    split; [|split; [reflexivity|cbn; tauto]]. cbn [badz]. split; auto. unfold mat_tighten.
    assert (K : corner n (mset m x y (bmin (mget m x y) c))).
    { split; [apply square_mset; auto|]. rewrite (mget_mset n) by auto.
      destruct (Nat.eqb_spec 0 x), (Nat.eqb_spec 0 y); cbn [andb]; subst; auto. rewrite C. apply bmin_minf. }
    destruct (_ && _); auto. apply close1_corner; auto. apply close1_corner; auto.
Qed.

Lemma iz_guard1_at_spec : forall n t z g r, iwf n z -> rt_ok z r ->
  exists z', iz_guard1_at t g r z = Ok z' /\ same_clocks z z' /\
    ((iwf n z' /\
      (forall v, zin n (iz_mat z') v <-> zin n (iz_mat z) v /\ holds g (t - reft v r)%Q) /\
      (forall a b, a < n -> b < n -> ble (mget (iz_mat z') a b) (mget (iz_mat z) a b))) \/
     (badz n z' /\ forall v, ~ holds g (t - reft v r)%Q)).
Proof.
  intros n t z g r W R. pose proof (used_0 n z W) as U0.
  unfold iz_guard1_at. destruct r as [q|k]; cbn [reft rt_ok] in *.
  - destruct (satisfy g (t - q)) eqn:E.
    + exists z. split; [auto|split; [apply same_clocks_refl|left; split; [auto|split]]].
      * intros v. apply satisfy_holds in E. tauto.
      * intros. apply ble_refl. apply W; auto.
    + destruct (badz_unsat_z n z W) as [B1 B2]. eexists. split; [reflexivity|]. split; [auto|]. right. split; auto.
      intros v H. apply satisfy_holds in H. congruence.
  - destruct R as [K1 K2].
    assert (X : forall x y c, used x z -> used y z -> x <> y -> good c ->
       (forall v, below c (ev v x - ev v y)%Q <-> holds g (t - ev v k)%Q) ->
       exists z', iz_tighten x y c z = Ok z' /\ same_clocks z z' /\
        ((iwf n z' /\ (forall v, zin n (iz_mat z') v <-> zin n (iz_mat z) v /\ holds g (t - ev v k)%Q) /\
        (forall a b, a < n -> b < n -> ble (mget (iz_mat z') a b) (mget (iz_mat z) a b))) \/ (badz n z' /\ forall v, ~ holds g (t - ev v k)%Q))).
    { intros x y c Ux Uy Nxy Gc E. destruct (iz_tighten_spec n z x y c W Ux Uy Nxy Gc) as (z' & A1 & A2 & A3 & A4 & A5).
      exists z'. split; [auto|split; [auto|left; split; [auto|split; [|auto]]]]. intros v. rewrite A4, E. tauto. }
    destruct (codr g) eqn:E; apply X; auto with bnd; try lia; intros v; unfold below, bnd, holds; rewrite E; cbn [fst snd ev]; lra.
Qed.

Lemma iz_guard_at_bad : forall n t rst gs z, badz n z -> Forall (fun r => match r with RTime _ => True | RClock k => k < n end) rst ->
  Forall (fun g => cx g < length rst) gs ->
  exists z', iz_guard_at t gs rst z = Ok z' /\ badz n z' /\ same_clocks z z'.
Proof.
  unfold iz_guard_at. induction gs as [|g gs IH]; intros z B R F.
  - exists z. split; [reflexivity|split; [auto|apply same_clocks_refl]].
  - cbn [fold_out]. inversion F as [|? ? F1 F2]; subst. unfold rget. rewrite (nth_error_nth' rst (RTime 0) F1). cbn [bind].
    assert (Hn : 0 < n). { destruct z as [l p|m al p]; cbn in B; [destruct l as [|[] [|[] [|[] [|]]]]; intuition lia|tauto]. }
    assert (R1 : match nth (cx g) rst (RTime 0) with RTime _ => True | RClock k => k < n end).
    { rewrite Forall_forall in R. apply R. apply nth_In; auto. }
    assert (X : exists z', iz_guard1_at t g (nth (cx g) rst (RTime 0)) z = Ok z' /\ badz n z' /\ same_clocks z z').
    { unfold iz_guard1_at. destruct (nth (cx g) rst (RTime 0)) as [q|k].
      - destruct (satisfy g (t - q)); [exists z; split; [auto|split; [auto|apply same_clocks_refl]]|].
        eexists. split; [reflexivity|]. clear - B Hn. destruct z as [l p|m al p]; cbn [badz iz_unsat] in *.
        + destruct l as [|[l0 u0] [|[l1 u1] [|[l2 u2] [|d l]]]]; try contradiction; destruct B as [-> ->]; repeat split; auto.
        + destruct B as (_ & S & C). split; [|split; [reflexivity|cbn; tauto]].
          split; [auto|]. unfold makeUnsat. split; [apply square_mset; auto|]. rewrite (mget_mset n) by auto. reflexivity.
      - destruct (codr g); apply badz_tighten; auto. }
    destruct X as (z1 & -> & B1 & B2). cbn [bind]. destruct (IH z1 B1 R F2) as (z2 & C1 & C2 & C3).
    exists z2. split; [auto|split; [auto|eapply same_clocks_trans; eauto]].
Qed.

Theorem iz_guard_at_spec : forall n t rst gs z, iwf n z -> Forall (rt_ok z) rst -> Forall (fun g => cx g < length rst) gs ->
  exists z', iz_guard_at t gs rst z = Ok z' /\ same_clocks z z' /\
    ((iwf n z' /\
      (forall v, zin n (iz_mat z') v <-> zin n (iz_mat z) v /\
         forall g, In g gs -> holds g (t - reft v (nth (cx g) rst (RTime 0)))%Q) /\
      (forall a b, a < n -> b < n -> ble (mget (iz_mat z') a b) (mget (iz_mat z) a b))) \/
     (iz_sat z' = false /\ forall v, ~ (forall g, In g gs -> holds g (t - reft v (nth (cx g) rst (RTime 0)))%Q))).
Proof.
  induction gs as [|g gs IH]; intros z W R F.
  - exists z. split; [reflexivity|split; [apply same_clocks_refl|left; split; [auto|split]]].
    + intros v. split; [|tauto]. intros; split; auto. intros ? [].
    + intros. apply ble_refl. apply W; auto.
  - unfold iz_guard_at. cbn [fold_out]. inversion F as [|? ? F1 F2]; subst. unfold rget. rewrite (nth_error_nth' rst (RTime 0) F1). cbn [bind].
    rewrite Forall_forall in R.
    destruct (iz_guard1_at_spec n t z g (nth (cx g) rst (RTime 0)) W) as (z1 & -> & A2 & A3).
    + apply R. apply nth_In; auto.
    + cbn [bind]. destruct A3 as [(A3 & A4 & A5)|(A3 & A4)].
      * destruct (IH z1) as (z2 & B1 & B2 & B3); auto.
        { apply Forall_forall. intros r Hr. apply (rt_ok_same z); auto. }
        exists z2. split; [exact B1|]. split; [eapply same_clocks_trans; eauto|]. destruct B3 as [(B3 & B4 & B5)|(B3 & B4)].
        -- left. split; [auto|split].
           ++ intros v. rewrite B4, A4. split.
              ** intros ((H1 & H2) & H3). split; auto. intros g' [<-|H]; auto.
              ** intros (H1 & H2). split; [split; [auto|apply H2; now left]|intros; apply H2; now right].
           ++ intros a b Ha Hb. apply ble_trans with (mget (iz_mat z1) a b); [apply B3|apply A3|apply W|apply B5|apply A5]; auto.
        -- right. split; auto. intros v H. apply (B4 v). intros; apply H; now right.
      * destruct (iz_guard_at_bad n t rst gs z1 A3) as (z2 & B1 & B2 & B3); auto.
        { apply Forall_forall. intros r Hr. specialize (R r Hr). destruct r as [|k]; auto. cbn in R. apply (used_lt n z); tauto. }
        exists z2. split; [exact B1|]. split; [eapply same_clocks_trans; eauto|]. right.
        split; [apply (badz_unsat n); auto|]. intros v H. apply (A4 v). apply H. now left.
Qed.

(* ---------------- update ---------------- *)

Lemma deallocate_square : forall n m x, square n m -> x < n -> square n (deallocate m x).
Proof.
  intros n m x [HL HF] Hx. unfold deallocate. apply square_mset. split.
  - rewrite len_set_nth, map_length. auto.
  - apply Forall_nth. intros i d Hi. rewrite len_set_nth, map_length in Hi.
    rewrite (nth_indep _ d []) by (rewrite len_set_nth, map_length; auto).
    destruct (Nat.eq_dec x i) as [->|Nx].
    + rewrite ZoneFacts.nth_set_nth by (rewrite map_length; auto). rewrite Nat.eqb_refl. rewrite repeat_length. auto.
    + rewrite nth_set_nth_other by auto. rewrite nth_map_in with (a := []) by auto. rewrite len_set_nth.
      rewrite Forall_forall in HF. apply HF. apply nth_In; auto.
Qed.

Lemma deallocate_get : forall n m x a b, square n m -> x < n -> a < n -> b < n ->
  mget (deallocate m x) a b = if (a =? x) && (b =? x) then bzero else if (a =? x) || (b =? x) then binf else mget m a b.
Proof.
  intros n m x a b S Hx Ha Hb. pose proof S as [HL HF].
  assert (R : forall i, i < n -> length (nth i m []) = n) by (intros i Hi; rewrite Forall_forall in HF; apply HF; apply nth_In; lia).
  assert (S1 : square n (set_nth (map (fun r => set_nth r x binf) m) x (repeat binf (length m)))).
  { split; [rewrite len_set_nth, map_length; auto|]. apply Forall_nth. intros i d Hi. rewrite len_set_nth, map_length in Hi.
    rewrite (nth_indep _ d []) by (rewrite len_set_nth, map_length; auto).
    rewrite ZoneFacts.nth_set_nth by (rewrite map_length; lia). destruct (i =? x); [rewrite repeat_length; auto|].
    rewrite nth_map_in with (a := []) by auto. rewrite len_set_nth. apply R. lia. }
  unfold deallocate. rewrite (mget_mset n) by auto. destruct ((a =? x) && (b =? x)) eqn:E; auto.
  unfold mget. rewrite ZoneFacts.nth_set_nth by (rewrite map_length; lia).
  destruct (a =? x) eqn:Ea; cbn [orb andb] in *.
  - apply nth_repeat_in. lia.
  - rewrite nth_map_in with (a := []) by lia. rewrite ZoneFacts.nth_set_nth by (rewrite R by auto; auto). destruct (b =? x); auto.
Qed.

Definition drop (a : list bool) (m : mat) (x : nat) : mat := if nth x a false then m else deallocate m x.

(* The entries after the loop of update. *)
Definition dropped (a : list bool) (l : list nat) (x : nat) : bool := existsb (Nat.eqb x) l && negb (nth x a false).

Lemma drop_fold : forall n al l m a b, square n m -> (forall x, In x l -> x < n) -> a < n -> b < n ->
  square n (fold_left (drop al) l m) /\
  (dropped al l a = false -> dropped al l b = false -> mget (fold_left (drop al) l m) a b = mget m a b) /\
  (dropped al l a = true \/ dropped al l b = true -> mget (fold_left (drop al) l m) a b = if a =? b then bzero else binf).
Proof.
  intros n al. induction l as [|x l IH]; intros m a b S Hl Ha Hb.
  - cbn. unfold dropped. cbn. split; auto. split; auto. intros [|]; discriminate.
  - cbn [fold_left]. assert (Hx : x < n) by (apply Hl; now left).
    assert (S1 : square n (drop al m x)) by (unfold drop; destruct (nth x al false); auto; apply deallocate_square; auto).
    destruct (IH (drop al m x) a b S1) as (A1 & A2 & A3); auto; [intros; apply Hl; now right|]. split; auto.
    assert (E : forall y, dropped al (x :: l) y = (y =? x) && negb (nth x al false) || dropped al l y).
    { intros y. unfold dropped. cbn [existsb]. destruct (Nat.eqb_spec y x); cbn [andb orb]; subst; auto.
      destruct (existsb (Nat.eqb x) l), (nth x al false); auto. }
    rewrite !E, !orb_false_iff, !orb_true_iff. split.
    + intros [H1 H2] [H3 H4]. rewrite A2 by auto. unfold drop. destruct (nth x al false); auto. cbn [negb] in *. rewrite andb_true_r in *.
      rewrite (deallocate_get n) by auto. rewrite H1, H3. reflexivity.
    + intros H. destruct (dropped al l a) eqn:Da; [apply A3; auto|]. destruct (dropped al l b) eqn:Db; [apply A3; auto|].
      rewrite A2 by auto. unfold drop. destruct (nth x al false); cbn [negb] in *; rewrite ?andb_false_r, ?andb_true_r in *;
        [destruct H as [[|]|[|]]; discriminate|].
      rewrite (deallocate_get n) by auto. destruct (Nat.eqb_spec a x), (Nat.eqb_spec b x); cbn [andb orb]; subst.
      * rewrite Nat.eqb_refl. reflexivity.
      * rewrite (proj2 (Nat.eqb_neq x b)) by auto. reflexivity.
      * rewrite (proj2 (Nat.eqb_neq a x)) by auto. reflexivity.
      * destruct H as [[|]|[|]]; discriminate.
Qed.

Lemma kept_spec : forall n p rst k, 2 <= p < n -> (forall r, In r rst -> match r with RTime _ => True | RClock k => k < n end) ->
  length (kept n p rst) = n /\
  (nth k (kept n p rst) false = true <-> k = 0 \/ k = 1 \/ k = p \/ In (RClock k) rst).
Proof.
  intros n p rst k Hp. unfold kept.
  assert (X : forall rst l, (forall r, In r rst -> match r with RTime _ => True | RClock k => k < length l end) ->
    length (fold_left (fun a r => match r with RClock k => set_nth a k true | RTime _ => a end) rst l) = length l /\
    (nth k (fold_left (fun a r => match r with RClock k => set_nth a k true | RTime _ => a end) rst l) false = true <-> nth k l false = true \/ In (RClock k) rst)).
  { clear. induction rst as [|r rst IH]; intros l H; cbn [fold_left].
    - split; auto. cbn. tauto.
    - destruct r as [q|j].
      + destruct (IH l) as [A B]; [intros; apply H; now right|]. split; auto. rewrite B. cbn. intuition discriminate.
      + pose proof (H (RClock j) (or_introl eq_refl)) as Hj. cbn in Hj.
        destruct (IH (set_nth l j true)) as [A B]; [intros; rewrite len_set_nth; apply H; now right|]. rewrite len_set_nth in A. split; auto.
        rewrite B, nth_set_nth by auto. cbn [In]. destruct (Nat.eqb_spec k j); [subst; tauto|]. split; [tauto|].
        intros [|[E|]]; auto. injection E as ->. congruence. }
  intros H. destruct (X rst (set_nth (set_nth (set_nth (repeat false n) 0 true) initialClock true) p true)) as [A B].
  - rewrite !len_set_nth, repeat_length. auto.
  - rewrite !len_set_nth, repeat_length in A. split; auto. rewrite B. unfold initialClock.
    rewrite !nth_set_nth by (rewrite ?len_set_nth, repeat_length; lia).
    destruct (Nat.eqb_spec k p); [tauto|]. destruct (Nat.eqb_spec k 1); [tauto|]. destruct (Nat.eqb_spec k 0); [tauto|].
    rewrite nth_repeat. intuition congruence.
Qed.

(* A canonical matrix: assignments to some clocks extend to the others. *)
Lemma project_zin : forall n m (P : nat -> bool) v, canonical n m -> mgood n m -> 0 < n -> P 0 = true ->
  (forall a b, a < n -> b < n -> P a = true -> P b = true -> below (mget m a b) (ev v a - ev v b)%Q) ->
  exists v', zin n m v' /\ forall a, a < n -> P a = true -> ev v' a = ev v a.
Proof.
  intros n m P v C G Hn P0 H.
  destruct (extend_all n m C G (seq 0 n) (filter P (seq 0 n)) (ev v)) as (g & E & Hs).
  - intros i Hi. apply filter_In in Hi as [Hi _]. apply in_seq in Hi. lia.
  - intros i Hi. apply in_seq in Hi. lia.
  - intros i j Hi Hj. apply filter_In in Hi as [Hi Pi], Hj as [Hj Pj]. apply in_seq in Hi, Hj. apply H; auto; lia.
  - assert (E0 : g 0 = 0%Q) by (apply (E 0); apply filter_In; split; auto; apply in_seq; lia).
    exists (fun k => g (S k)).
    assert (Ee : forall k, ev (fun k => g (S k)) k = g k) by (intros [|k]; cbn; auto).
    split.
    + intros a b Ha Hb. rewrite !Ee. apply Hs; apply in_or_app; left; apply in_seq; lia.
    + intros a Ha Pa. rewrite Ee. apply E. apply filter_In; split; auto; apply in_seq; lia.
Qed.

Theorem iz_update_spec : forall n z rst, iwf n z -> iz_sat z = true -> Forall (rt_ok z) rst ->
  exists z', iz_update rst z = Ok z' /\ iwf n z' /\ iz_sat z' = true /\ newestClock z' = newestClock z /\
    (forall k, used k z' -> used k z) /\ Forall (rt_ok z') rst /\
    (forall v, zin n (iz_mat z) v -> zin n (iz_mat z') v) /\
    (forall v, zin n (iz_mat z') v -> exists v', zin n (iz_mat z) v' /\ forall k, used k z' -> ev v' k = ev v k) /\
    (forall a b, used a z' -> used b z' -> mget (iz_mat z') a b = mget (iz_mat z) a b).
Proof.
  intros n z rst W Sa R. destruct z as [l p|m al p].
  - exists (IvZone l p). split; [reflexivity|]. repeat (split; [auto; fail|]). split; [|auto].
    intros v Z. exists v. auto.
  - pose proof (fun k => used_lt n (MatZone m al p) k W) as UL.
    pose proof W as [Sh K]. cbn [shape] in Sh. destruct Sh as (B1 & B2 & B3 & B4 & B5 & B6). cbn [iz_mat] in K. pose proof K as (S & G & D & C).
    pose proof (iz_sat_canonical n _ W Sa) as Can. cbn [iz_mat] in Can. rewrite Forall_forall in R.
    assert (RK : forall r, In r rst -> match r with RTime _ => True | RClock k => k < n end).
    { intros r Hr. specialize (R r Hr). destruct r as [|k]; auto. apply UL; auto. apply R. }
    unfold iz_update. assert (length m = n) as -> by apply S.
    replace (forallb _ rst) with true by (symmetry; apply forallb_forall; intros r Hr; specialize (RK r Hr); destruct r; auto; apply Nat.ltb_lt; auto).
    pose proof (fun k => kept_spec n p rst k B2 RK) as KS. set (a := kept n p rst) in *.
    change (fold_left (fun m x => if nth x a false then m else deallocate m x) (seq 1 (n - 1)) m) with (fold_left (drop a) (seq 1 (n - 1)) m).
    set (m' := fold_left (drop a) (seq 1 (n - 1)) m).
    assert (Hin : forall x, In x (seq 1 (n - 1)) -> x < n) by (intros x Hx; apply in_seq in Hx; lia).
    assert (S' : square n m') by (apply (drop_fold n a (seq 1 (n - 1)) m 0 0 S Hin); lia).
    assert (DR : forall x, x < n -> dropped a (seq 1 (n - 1)) x = negb (nth x a false)).
    { intros x Hx. unfold dropped. destruct (nth x a false) eqn:E; [apply andb_false_r|]. rewrite andb_true_r. apply existsb_exists.
      exists x. split; [|apply Nat.eqb_refl]. apply in_seq. destruct x; [|lia]. assert (nth 0 a false = true) by (apply KS; auto). congruence. }
    assert (MK : forall x y, x < n -> y < n -> nth x a false = true -> nth y a false = true -> mget m' x y = mget m x y).
    { intros x y Hx Hy Kx Ky. apply (drop_fold n a (seq 1 (n - 1)) m x y S Hin Hx Hy); rewrite DR, ?Kx, ?Ky by auto; auto. }
    assert (MD : forall x y, x < n -> y < n -> nth x a false = false \/ nth y a false = false -> mget m' x y = if x =? y then bzero else binf).
    { intros x y Hx Hy Kx. apply (drop_fold n a (seq 1 (n - 1)) m x y S Hin Hx Hy). rewrite !DR by auto. destruct Kx as [-> | ->]; auto. }
    assert (KU : forall k, nth k a false = true -> nth k al false = true).
    { intros k Hk. apply KS in Hk as [->|[->|[->|Hk]]]; auto. apply (R (RClock k) Hk). }
    assert (G' : mgood n m').
    { intros x y Hx Hy. destruct (nth x a false) eqn:Kx, (nth y a false) eqn:Ky; [rewrite MK by auto; auto| | |];
        rewrite MD by auto; destruct (x =? y); exact I. }
    assert (Can' : canonical n m').
    { destruct Can as [C1 C2]. split.
      - intros i Hi. destruct (nth i a false) eqn:Ki; [rewrite MK by auto; auto|]. rewrite MD, Nat.eqb_refl by auto. apply ble_refl; exact I.
      - intros i j k Hi Hj Hk.
        destruct (nth k a false) eqn:Kk.
        + destruct (nth i a false) eqn:Ki; [destruct (nth j a false) eqn:Kj; [rewrite !MK by auto; auto|]|].
          * assert (N : (k =? j) = false) by (apply Nat.eqb_neq; intros ->; congruence).
            apply ble_pinf; auto. apply pinf_add_r; auto. rewrite (MD k j), N by auto. reflexivity.
          * assert (N : (i =? k) = false) by (apply Nat.eqb_neq; intros ->; congruence).
            apply ble_pinf; auto. apply pinf_add_l; auto. rewrite (MD i k), N by auto. reflexivity.
        + destruct (Nat.eq_dec i k) as [->|Ni].
          * apply badd_nonneg_l; auto. rewrite MD, Nat.eqb_refl by auto. apply ble_refl; exact I.
          * apply ble_pinf; auto. apply pinf_add_l; auto. rewrite (MD i k), (proj2 (Nat.eqb_neq i k) Ni) by auto. reflexivity. }
    assert (W' : iwf n (MatZone m' a p)).
    { split.
      - cbn [shape]. split; [apply (KS 0)|]. split; [auto|]. split; [apply KS; auto|]. split; [apply KS; auto|]. split; [apply KS; auto|].
        intros k Hk Nk. split; [rewrite MD, Nat.eqb_refl by auto; apply ble_refl; exact I|]. intros j Hj Nj.
        rewrite !MD by auto. rewrite (proj2 (Nat.eqb_neq j k) Nj), (proj2 (Nat.eqb_neq k j)) by auto. split; reflexivity.
      - cbn [iz_mat]. split; [auto|split; [auto|split; [|auto]]]. intros i Hi.
        destruct (nth i a false) eqn:Ki; [rewrite MK by auto; auto|]. rewrite MD, Nat.eqb_refl by auto. apply ble_refl; exact I. }
    eexists. split; [reflexivity|]. split; [exact W'|]. split.
    { apply (iz_sat_spec n); auto. apply canonical_nonempty; auto; lia. }
    split; [reflexivity|]. split; [exact KU|]. split; [|split; [|split]].
    + apply Forall_forall. intros r Hr. specialize (R r Hr). destruct r as [|k]; cbn in *; auto. split; [tauto|]. apply KS. auto.
    + intros v Z x y Hx Hy. cbn [iz_mat]. destruct (nth x a false) eqn:Kx, (nth y a false) eqn:Ky; [rewrite MK by auto; apply Z; auto| | |];
        (rewrite MD by auto; destruct (Nat.eqb_spec x y); [subst; unfold below, bzero; cbn; lra|exact I]).
    + intros v Z. cbn [iz_mat used] in *. destruct (project_zin n m (fun x => nth x a false) v) as (v' & A1 & A2); auto; try lia.
      * apply KS; auto.
      * intros x y Hx Hy Kx Ky. rewrite <- MK by auto. apply Z; auto.
      * exists v'. auto.
    + cbn [used iz_mat]. intros x y Kx Ky. apply MK; auto; apply UL, KU; auto.
Qed.

(* ---------------- toAns ---------------- *)

Theorem iz_ans_spec : forall n z, iwf n z -> iz_sat z = true -> newestClock z <> 1 ->
  square 3 (iz_ans z) /\ mgood 3 (iz_ans z) /\ (exists v, zin 3 (iz_ans z) v) /\
  forall t t', zin 3 (iz_ans z) (pairv t t') <->
    exists v, zin n (iz_mat z) v /\ ev v 1 = t /\ ev v (newestClock z) = t'.
Proof.
  intros n z W Sa N1. pose proof (iz_sat_canonical n z W Sa) as Can. pose proof W as [Sh (S & G & D & C)]. pose proof (iwf_dim n z W) as Hd.
  pose proof (new_pos n z W) as Hp. set (p := newestClock z) in *.
  assert (E : iz_ans z = ans_zone (mk6 (mget (iz_mat z) 1 0) (mget (iz_mat z) 0 1) (mget (iz_mat z) p 0) (mget (iz_mat z) 0 p) (mget (iz_mat z) p 1) (mget (iz_mat z) 1 p))).
  { destruct z as [l q|m al q]; [|reflexivity].
    destruct l as [|[l0 u0] [|[l1 u1] [|[l2 u2] [|d l]]]]; cbn [shape] in Sh; try contradiction; destruct Sh; subst; [exfalso; apply N1; reflexivity|]. reflexivity. }
  rewrite E. clearbody p. set (m := iz_mat z) in *. clearbody m.
  assert (G6 : good6 (mk6 (mget m 1 0) (mget m 0 1) (mget m p 0) (mget m 0 p) (mget m p 1) (mget m 1 p))).
  { unfold good6. cbn [ub lb ue le6 ud ld]. repeat split; apply G; lia. }
  assert (I1 : forall t t', zin 3 (ans_zone (mk6 (mget m 1 0) (mget m 0 1) (mget m p 0) (mget m 0 p) (mget m p 1) (mget m 1 p))) (pairv t t') <->
    exists v, zin n m v /\ ev v 1 = t /\ ev v p = t').
  { intros t t'. rewrite ans_zone_zin. unfold in6. cbn [ub lb ue le6 ud ld]. split.
    - intros (A1 & A2 & A3 & A4 & A5 & A6).
      set (v0 := fun k : nat => if k =? 0 then t else t').
      assert (V1 : ev v0 1 = t) by reflexivity.
      assert (Vp : ev v0 p = t'). { destruct p as [|[|q]]; [lia|congruence|]. reflexivity. }
      destruct (project_zin n m (fun k => (k =? 0) || (k =? 1) || (k =? p)) v0) as (v' & B1 & B2); auto; try lia.
      + intros a b Ha Hb Pa Pb. rewrite !orb_true_iff, !Nat.eqb_eq in Pa, Pb.
        assert (Z : forall k, k < n -> below (mget m k k) 0) by (intros k Hk; apply below_zero; auto; apply Can; auto).
        destruct Pa as [[->| ->]| ->], Pb as [[->| ->]| ->]; rewrite ?V1, ?Vp;
          try (apply below_eq with 0%Q; [ring|apply Z; lia]); cbn [ev]; (eapply below_eq; [|eassumption]); ring.
      + exists v'. split; auto. rewrite !B2 by (try lia; rewrite ?Nat.eqb_refl, ?orb_true_r; auto). rewrite V1, Vp. split; reflexivity.
    - intros (v & Z & E1 & E2).
      repeat split;
        match goal with
        | |- below (mget m ?i ?j) ?d => apply below_eq with (ev v i - ev v j)%Q; [cbn [ev] in *; rewrite ?E1, ?E2; lra|apply Z; lia]
        end. }
  split; [apply ans_zone_square|split; [apply ans_zone_good; auto|split; [|exact I1]]].
  destruct (canonical_nonempty n m Can G ltac:(lia)) as (v & Z). exists (pairv (ev v 1) (ev v p)). apply I1. exists v. repeat split; auto; reflexivity.
Qed.
