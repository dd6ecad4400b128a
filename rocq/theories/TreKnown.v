(* The constants of the guards of a translated expression are known to its zone
   automaton: none is above all of maxConstraints. *)
From Coq Require Import QArith Bool List ZArith Arith Lia.
From Verif Require Import Num Outcome Interval Constraint Zone TA Spec TAFacts Intersection IntersectionFacts Tre TreRun TreFacts TreBuild TreLang PropTre TreMild TreConsts Skip SkipFacts PropReal.
Import ListNotations.
Open Scope nat_scope.

(* No lower bound is above the upper bound. *)
Fixpoint ordered (r : tre) : Prop :=
  match r with
  | Atom _ | Eps => True
  | Plus r1 => ordered r1
  | Cat r1 r2 | Alt r1 r2 | And r1 r2 => ordered r1 /\ ordered r2
  | Within r1 Iv => ordered r1 /\ forall lo up, fst (lob Iv) = Fin (inject_Z lo) -> fst (upb Iv) = Fin (inject_Z up) -> (lo <= up)%Z
  end.

Definition under (l : list Z) (z : Z) : Prop := exists k, In k l /\ (z <= k)%Z.

Lemma bounds_mono : forall (P Q : Z -> Prop) r, (forall z, P z -> Q z) -> bounds_in P r -> bounds_in Q r.
Proof. intros P Q r H. induction r; cbn; intuition. Qed.

Lemma under_merge : forall l r z, under l z \/ under r z -> under (max_merge l r) z.
Proof.
  intros l r z [(k & H & K)|(k & H & K)]; unfold max_merge;
    [destruct (zip_max_l (resize (Nat.max (length l) (length r)) l) (resize (Nat.max (length l) (length r)) r) k) as (k' & I1 & I2)
    |destruct (zip_max_r (resize (Nat.max (length l) (length r)) l) (resize (Nat.max (length l) (length r)) r) k) as (k' & I1 & I2)];
    try (rewrite !resize_len by lia; reflexivity); try (apply resize_in; auto; lia); exists k'; split; auto; lia.
Qed.
Lemma under_app : forall l r z, under l z \/ under r z -> under (l ++ r) z.
Proof. intros l r z [(k & H & K)|(k & H & K)]; exists k; rewrite in_app_iff; auto. Qed.

Lemma max_merged : forall A, maxC (merge A) = maxC A.
Proof. intros A. unfold merge. destruct (terminals A) as [|f [|g rest]]; reflexivity. Qed.
Lemma max_reduced : forall A B, reduceStates A = Ok B -> maxC B = maxC A.
Proof.
  intros A. unfold reduceStates. generalize (S (length (states A))). intros n. revert A. induction n as [|n IH]; intros A B E; [discriminate|].
  cbn [reduce_loop] in E. destruct (_ =? _); [injection E as <-; reflexivity|]. rewrite (IH _ _ E). reflexivity.
Qed.
Lemma num_int : forall z, num_to_int (Fin (inject_Z z)) = Some z.
Proof. intros z. cbn. rewrite Z.quot_1_r. reflexivity. Qed.
Lemma max_within : forall A Iv B up, fst (upb Iv) = Fin (inject_Z up) -> withinTA A Iv = Ok B -> maxC B = maxC A ++ [up].
Proof.
  intros A Iv B up U E. unfold withinTA in E. rewrite U, num_int in E. destruct (num_to_int (fst (lob Iv))) as [lo|]; [|discriminate]. cbn zeta in E.
  destruct (oseq _ (states A)) as [sts| | | |] eqn:O; try discriminate. cbn [bind] in E. injection E as <-. reflexivity.
Qed.

Lemma toEventTA_bounds : forall al r n A m, TreMild.plain r -> ordered r -> toEventTA al r n = Ok (A, m) -> bounds_in (under (maxC A)) r.
Proof.
  intros al r. induction r as [c| |r1 IH|r1 IH1 r2 IH2|r1 IH1 r2 IH2|r1 IH1 r2 IH2|r1 IH Iv]; intros n A m Pl Or E; cbn [toEventTA] in E; try exact Logic.I.
  - destruct Pl as (Pl & _). destruct (toEventTA al r1 n) as [[A1 m1]| | | |] eqn:E1; try discriminate. cbn [bind fst snd] in E.
    destruct (reduceStates _) as [D| | | |] eqn:R; try discriminate. cbn [bind] in E. injection E as <- <-.
    rewrite (max_reduced _ _ R), max_merged. cbn [bounds_in plusTA maxC]. eapply IH; eauto.
  - destruct Pl as (P1 & P2), Or as (O1 & O2). destruct (toEventTA al r1 n) as [[A1 m1]| | | |] eqn:E1; try discriminate. cbn [bind fst snd] in E.
    destruct (toEventTA al r2 m1) as [[A2 m2]| | | |] eqn:E2; try discriminate. cbn [bind fst snd] in E.
    destruct (reduceStates _) as [D| | | |] eqn:R; try discriminate. cbn [bind] in E. injection E as <- <-.
    rewrite (max_reduced _ _ R), max_merged. cbn [bounds_in concat2 maxC].
    split; [eapply bounds_mono; [|eapply IH1; eauto]|eapply bounds_mono; [|eapply IH2; eauto]]; intros z Hz; apply under_merge; auto.
  - destruct Pl as (P1 & P2), Or as (O1 & O2). destruct (toEventTA al r1 n) as [[A1 m1]| | | |] eqn:E1; try discriminate. cbn [bind fst snd] in E.
    destruct (toEventTA al r2 m1) as [[A2 m2]| | | |] eqn:E2; try discriminate. cbn [bind fst snd] in E.
    destruct (reduceStates _) as [D| | | |] eqn:R; try discriminate. cbn [bind] in E. injection E as <- <-.
    rewrite (max_reduced _ _ R), max_merged. cbn [bounds_in altTA maxC].
    split; [eapply bounds_mono; [|eapply IH1; eauto]|eapply bounds_mono; [|eapply IH2; eauto]]; intros z Hz; apply under_merge; auto.
  - destruct Pl as (P1 & P2 & _), Or as (O1 & O2). destruct (toEventTA al r1 n) as [[A1 m1]| | | |] eqn:E1; try discriminate. cbn [bind fst snd] in E.
    destruct (toEventTA al r2 m1) as [[A2 m2]| | | |] eqn:E2; try discriminate. cbn [bind fst snd] in E.
    destruct (reduceStates _) as [D| | | |] eqn:R; try discriminate. cbn [bind] in E. injection E as <- <-.
    rewrite (max_reduced _ _ R), max_merged. cbn [bounds_in intersectionTA maxC].
    split; [eapply bounds_mono; [|eapply IH1; eauto]|eapply bounds_mono; [|eapply IH2; eauto]]; intros z Hz; apply under_app; auto.
  - destruct Pl as (P1 & _ & _ & lo & up & EL & EU & LU), Or as (O1 & O2). destruct (toEventTA al r1 n) as [[A1 m1]| | | |] eqn:E1; try discriminate. cbn [bind fst snd] in E.
    destruct (withinTA A1 Iv) as [A2| | | |] eqn:EW; try discriminate. cbn [bind fst snd] in E.
    destruct (reduceStates _) as [D| | | |] eqn:R; try discriminate. cbn [bind] in E. injection E as <- <-.
    rewrite (max_reduced _ _ R), max_merged, (max_within _ _ _ _ EU EW). cbn [bounds_in]. specialize (O2 lo up EL EU).
    split; [eapply bounds_mono; [|eapply IH; eauto]; intros z Hz; apply under_app; auto|].
    rewrite EL, EU, !num_int. split; intros z [= <-]; apply under_app; right; exists up; split; [left; auto|lia|left; auto|lia].
Qed.

Lemma toEventTA_known : forall al r n A m, injective al -> TreMild.plain r -> ordered r -> nclocks r <= 256 -> toEventTA al r n = Ok (A, m) -> consts_known A.
Proof.
  intros al r n A m Inj Pl Or K E. pose proof (toEventTA_inv _ _ _ _ _ Inj (plain_ok _ Pl) K E) as B. split.
  - rewrite (bu_clocks _ _ _ _ _ B). exact (ca_time _ _ (toEventTA_calmed al r n A m Inj Pl K E)).
  - intros p c e g (s & es & I1 & I2 & I3) Hg. exact (toEventTA_consts _ al r n A m (toEventTA_bounds al r n A m Pl Or E) E p s c es e g I1 I2 I3 Hg).
Qed.

Lemma known_ap : forall A Ap, make_ap A = Ok Ap -> consts_known A -> consts_known Ap.
Proof.
  intros A Ap HA [H1 H2]. destruct (make_ap_states _ _ HA) as (_ & _ & E & _). split; unfold clockSize in *; rewrite E; auto.
  intros p c e g He. apply (ApFacts.ap_edge A Ap HA) in He as [He _]. eauto.
Qed.
