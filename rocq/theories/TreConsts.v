(* The constants in the guards of a translated expression are the bounds of its
   restrictions. *)
From Coq Require Import QArith Bool List ZArith Arith Lia.
From Verif Require Import Num Outcome Interval Constraint Zone TA Spec TAFacts Intersection IntersectionFacts Tre.
Import ListNotations.
Open Scope nat_scope.

(* Every guard constant of A satisfies P. *)
Definition gall (P : Z -> Prop) (A : ta) : Prop :=
  forall p s c es e g, In (p, s) (states A) -> In (c, es) (next s) -> In e es -> In g (eguard e) -> P (cc g).

Fixpoint bounds_in (P : Z -> Prop) (r : tre) : Prop :=
  match r with
  | Atom _ | Eps => True
  | Plus r1 => bounds_in P r1
  | Cat r1 r2 | Alt r1 r2 | And r1 r2 => bounds_in P r1 /\ bounds_in P r2
  | Within r1 Iv => bounds_in P r1 /\ (forall z, num_to_int (fst (lob Iv)) = Some z -> P z) /\ (forall z, num_to_int (fst (upb Iv)) = Some z -> P z)
  end.

Section Consts.
Context (P : Z -> Prop).

(* Every edge of B has the guard of an edge of A. *)
Definition from (A B : ta) : Prop :=
  forall p s c es e, In (p, s) (states B) -> In (c, es) (next s) -> In e es ->
    exists p' s' c' es' e', In (p', s') (states A) /\ In (c', es') (next s') /\ In e' es' /\ eguard e = eguard e'.
Lemma from_gall : forall A B, from A B -> gall P A -> gall P B.
Proof.
  intros A B F G p s c es e g H1 H2 H3 H4. destruct (F p s c es e H1 H2 H3) as (p' & s' & c' & es' & e' & K1 & K2 & K3 & K4).
  rewrite K4 in H4. eauto.
Qed.
Lemma from_refl : forall A, from A A.
Proof. intros A p s c es e H1 H2 H3. exists p, s, c, es, e. auto. Qed.
Lemma from_trans : forall A B C, from A B -> from B C -> from A C.
Proof.
  intros A B C F G p s c es e H1 H2 H3. destruct (G p s c es e H1 H2 H3) as (p' & s' & c' & es' & e' & K1 & K2 & K3 & K4).
  rewrite K4. eauto.
Qed.

Lemma from_stuck : forall A, from A (removeStuckStates A).
Proof.
  intros A p s c es e H1 H2 H3. unfold removeStuckStates in H1. cbn [states] in H1. apply filter_In in H1 as [H1 _].
  apply in_map_iff in H1 as ([p0 s0] & [= <- <-] & H1). cbn [next fst snd] in H2. apply filter_In in H2 as [H2 _].
  apply in_map_iff in H2 as ([c0 es0] & [= <- <-] & H2). apply filter_In in H3 as [H3 _]. exists p0, s0, c0, es0, e. auto.
Qed.
Lemma from_reduce : forall A B, reduceStates A = Ok B -> from A B.
Proof.
  intros A. unfold reduceStates. generalize (S (length (states A))). intros n. revert A. induction n as [|n IH]; intros A B E; [discriminate|].
  cbn [reduce_loop] in E. destruct (_ =? _).
  - injection E as <-. apply from_stuck.
  - eapply from_trans; [apply from_stuck|eauto].
Qed.
Lemma from_merge : forall A, from A (merge A).
Proof.
  intros A. unfold merge. destruct (terminals A) as [|f rest]; [apply from_refl|].
  assert (X : forall (l : list (ptr * tastate)) is mx, (forall x, In x l -> In x (map (fun ps => (fst ps, mkS (isMatch (snd ps)) (zeroDur (snd ps))
                       (map_next (map (redirect (f :: rest) f)) (next (snd ps))))) (states A))) -> from A (mkTA l is mx)).
  { intros l is mx L p s c es e H1 H2 H3. cbn [states] in H1. apply L in H1. apply in_map_iff in H1 as ([p0 s0] & [= <- <-] & H1).
    cbn [next fst snd] in H2. apply in_map_iff in H2 as ([c0 es0] & [= <- <-] & H2). apply in_map_iff in H3 as (e0 & <- & H3).
    exists p0, s0, c0, es0, e0. repeat split; auto. unfold redirect. destruct (tgt_in _ _); reflexivity. }
  destruct rest as [|q rest]; apply X; auto. intros x Hx. apply filter_In in Hx as [Hx _]. exact Hx.
Qed.
Lemma from_plus : forall A, from A (plusTA A).
Proof.
  intros A p s c es e H1 H2 H3. cbn [plusTA states] in H1. apply in_map_iff in H1 as ([p0 s0] & [= <- <-] & H1).
  cbn [next fst snd] in H2. apply in_map_iff in H2 as ([c0 es0] & [= <- <-] & H2). unfold plus_edges in H3. cbn [snd] in H3. apply in_app_iff in H3 as [H3|H3].
  - exists p0, s0, c0, es0, e. auto.
  - apply in_flat_map in H3 as (e0 & H3 & K). exists p0, s0, c0, es0, e0. repeat split; auto.
    destruct (acc_tgt A e0 && negb (zero_tgt A e0)); [|destruct K]. apply in_map_iff in K as (i & <- & _). reflexivity.
Qed.
Lemma gall_alt : forall A B, gall P A -> gall P B -> gall P (altTA A B).
Proof. intros A B GA GB p s c es e g H1. cbn [altTA states] in H1. apply in_app_iff in H1 as [H1|H1]; eauto. Qed.
Lemma gall_cat : forall A B, gall P A -> gall P B -> gall P (concat2 A B).
Proof.
  intros A B GA GB p s c es e g H1 H2 H3 H4. cbn [concat2 states] in H1. apply in_app_iff in H1 as [H1|H1].
  - apply in_map_iff in H1 as ([p0 s0] & [= <- <-] & H1). cbn [next fst snd] in H2. apply in_map_iff in H2 as ([c0 es0] & [= <- <-] & H2).
    unfold cat_edges in H3. cbn [snd] in H3. apply in_app_iff in H3 as [H3|H3]; [eauto|].
    apply in_flat_map in H3 as (e0 & H3 & K). destruct (acc_tgt A e0); [|destruct K]. apply in_map_iff in K as (i & <- & _). cbn [eguard] in H4. eauto.
  - unfold cat_right in H1. destruct (cat_jumps A); [|eauto]. apply in_map_iff in H1 as ([p0 s0] & [= <- <-] & H1). cbn [fst snd] in H2.
    destruct (mem p0 (inits B)); cbn [next] in H2; eauto.
Qed.
Lemma oseq_in : forall X Y (f : X -> outcome Y) l l', oseq f l = Ok l' -> forall y, In y l' -> exists x, In x l /\ f x = Ok y.
Proof.
  intros X Y f. induction l as [|x l IH]; intros l' E y H; cbn [oseq] in E; [injection E as <-; destruct H|].
  destruct (f x) as [y0| | | |] eqn:F; try discriminate. cbn [bind] in E. destruct (oseq f l) as [t| | | |]; try discriminate. cbn [bind] in E.
  injection E as <-. destruct H as [<-|H]; [exists x; split; [left|]; auto|]. destruct (IH t eq_refl y H) as (x' & A & B). exists x'. split; [right|]; auto.
Qed.
Lemma gall_within : forall A Iv B, (forall z, num_to_int (fst (lob Iv)) = Some z -> P z) -> (forall z, num_to_int (fst (upb Iv)) = Some z -> P z) ->
  gall P A -> withinTA A Iv = Ok B -> gall P B.
Proof.
  intros A Iv B PL PU G E. unfold withinTA in E. destruct (num_to_int (fst (upb Iv))) as [up|]; [|discriminate].
  destruct (num_to_int (fst (lob Iv))) as [lo|]; [|discriminate]. cbn zeta in E.
  destruct (oseq _ (states A)) as [sts| | | |] eqn:O; try discriminate. cbn [bind] in E. injection E as <-.
  intros p s c es e g H1 H2 H3 H4. cbn [states] in H1. destruct (oseq_in _ _ _ _ _ O _ H1) as ([p0 s0] & K1 & K2). cbn [fst snd] in K2.
  destruct (oseq _ (next s0)) as [nx| | | |] eqn:O2; try discriminate. cbn [bind] in K2. injection K2 as <- <-. cbn [next] in H2.
  destruct (oseq_in _ _ _ _ _ O2 _ H2) as ([c0 es0] & K3 & K4). cbn [fst snd] in K4. destruct (oseq _ es0) as [es1| | | |] eqn:O3; try discriminate.
  cbn [bind] in K4. injection K4 as <- <-. destruct (oseq_in _ _ _ _ _ O3 _ H3) as (e0 & K5 & K6). unfold within_edge in K6.
  destruct (acc_tgt A e0); [|injection K6 as <-; eauto]. destruct (etgt e0); [|discriminate]. destruct (deref A _) as [s1|]; [|discriminate].
  destruct (is_nil (next s1)); [|discriminate]. injection K6 as <-. cbn [eguard] in H4. apply in_app_iff in H4 as [H4|H4]; [eauto|].
  destruct H4 as [<-|[<-|[]]]; cbn [cc]; auto.
Qed.
Lemma next_find_key : forall s c e, In e (next_find s c) -> exists es, In (c, es) (next s) /\ In e es.
Proof.
  intros s c e H. unfold next_find in H. destruct (assoc c (next s)) as [es|] eqn:E; [|destruct H]. apply assoc_In in E. eauto.
Qed.
Lemma gall_inter : forall A B f, gall P A -> gall P B -> gall P (intersectionTA A B f).
Proof.
  intros A B f GA GB p s c es e g H1 H2 H3 H4. cbn [intersectionTA states] in H1. apply in_flat_map in H1 as ([p1 s1] & K1 & H1).
  apply in_flat_map in H1 as ([p2 s2] & K2 & H1). cbn [fst snd] in H1. destruct (Bool.eqb _ _); [|destruct H1]. destruct H1 as [[= <- <-]|[]].
  assert (HE : has_edge (next (prod_state A B f p1 s1 p2 s2)) c e) by (exists es; auto). cbn [prod_state next] in HE.
  apply has_edge_fold in HE as [(x & [] & _)|HE]. clear es H2 H3.
  assert (X : forall n q e1 e2, (forall g, In g (eguard e1) -> P (cc g)) -> (forall g, In g (eguard e2) -> P (cc g)) ->
    forall g, In g (eguard (prod_edge n q e1 e2)) -> P (cc g)).
  { intros n q e1 e2 Y1 Y2 g0 Hg. cbn [prod_edge eguard] in Hg. apply in_app_iff in Hg as [Hg|Hg]; auto.
    apply in_map_iff in Hg as (g1 & <- & Hg). cbn [shift_guard cc]. auto. }
  assert (N : forall g, In g (eguard empty_edge) -> P (cc g)) by (intros g0 []).
  unfold prod_pushes in HE. rewrite !in_app_iff, !in_flat_map in HE. destruct HE as [(e1 & He & H)|[(e2 & He & H)|([c' es1] & Hc & H)]].
  - apply next_find_key in He as (es & I1 & I2). destruct (etgt e1); [|destruct H]. destruct H as [[= <- <-]|[]]. eapply X; [| |exact H4]; eauto.
  - apply next_find_key in He as (es & I1 & I2). destruct (etgt e2); [|destruct H]. destruct H as [[= <- <-]|[]]. eapply X; [| |exact H4]; eauto.
  - cbn [fst snd] in H. apply in_flat_map in H as (e1 & He1 & H). destruct (etgt e1); [|destruct H]. apply in_flat_map in H as (e2 & He2 & H).
    destruct (etgt e2); [|destruct H]. destruct H as [[= <- <-]|[]]. apply next_find_key in He2 as (es2 & I1 & I2).
    assert (I3 : In (c', es1) (next s1)).
    { unfold touch0 in Hc. destruct (assoc 0 (next s1)); auto. cbn [next] in Hc. apply in_app_iff in Hc as [Hc|[[= <- <-]|[]]]; auto. destruct He1. }
    eapply X; [| |exact H4]; eauto.
Qed.

Lemma toEventTA_consts : forall al r n A m, bounds_in P r -> toEventTA al r n = Ok (A, m) -> gall P A.
Proof.
  intros al r. induction r as [c| |r1 IH|r1 IH1 r2 IH2|r1 IH1 r2 IH2|r1 IH1 r2 IH2|r1 IH Iv]; intros n A m B E; cbn [toEventTA] in E.
  - cbn [bind fst snd] in E. destruct (reduceStates _) as [D| | | |] eqn:R; try discriminate. cbn [bind] in E. injection E as <- <-.
    eapply from_gall; [eapply from_trans; [apply from_merge|apply from_reduce; exact R]|].
    intros p s c0 es e g [[= <- <-]|[[= <- <-]|[]]] H2 H3 H4; cbn [next] in H2; [|destruct H2]. destruct H2 as [[= <- <-]|[]]. destruct H3 as [<-|[]]. destruct H4.
  - cbn [bind fst snd] in E. destruct (reduceStates _) as [D| | | |] eqn:R; try discriminate. cbn [bind] in E. injection E as <- <-.
    eapply from_gall; [eapply from_trans; [apply from_merge|apply from_reduce; exact R]|].
    intros p s c0 es e g [[= <- <-]|[]] H2. destruct H2.
  - destruct (toEventTA al r1 n) as [[A1 m1]| | | |] eqn:E1; try discriminate. cbn [bind fst snd] in E.
    destruct (reduceStates _) as [D| | | |] eqn:R; try discriminate. cbn [bind] in E. injection E as <- <-.
    eapply from_gall; [eapply from_trans; [apply from_plus|eapply from_trans; [apply from_merge|apply from_reduce; exact R]]|]. eapply IH; eauto.
  - destruct B as [B1 B2]. destruct (toEventTA al r1 n) as [[A1 m1]| | | |] eqn:E1; try discriminate. cbn [bind fst snd] in E.
    destruct (toEventTA al r2 m1) as [[A2 m2]| | | |] eqn:E2; try discriminate. cbn [bind fst snd] in E.
    destruct (reduceStates _) as [D| | | |] eqn:R; try discriminate. cbn [bind] in E. injection E as <- <-.
    eapply from_gall; [eapply from_trans; [apply from_merge|apply from_reduce; exact R]|]. apply gall_cat; eauto.
  - destruct B as [B1 B2]. destruct (toEventTA al r1 n) as [[A1 m1]| | | |] eqn:E1; try discriminate. cbn [bind fst snd] in E.
    destruct (toEventTA al r2 m1) as [[A2 m2]| | | |] eqn:E2; try discriminate. cbn [bind fst snd] in E.
    destruct (reduceStates _) as [D| | | |] eqn:R; try discriminate. cbn [bind] in E. injection E as <- <-.
    eapply from_gall; [eapply from_trans; [apply from_merge|apply from_reduce; exact R]|]. apply gall_alt; eauto.
  - destruct B as [B1 B2]. destruct (toEventTA al r1 n) as [[A1 m1]| | | |] eqn:E1; try discriminate. cbn [bind fst snd] in E.
    destruct (toEventTA al r2 m1) as [[A2 m2]| | | |] eqn:E2; try discriminate. cbn [bind fst snd] in E.
    destruct (reduceStates _) as [D| | | |] eqn:R; try discriminate. cbn [bind] in E. injection E as <- <-.
    eapply from_gall; [eapply from_trans; [apply from_merge|apply from_reduce; exact R]|]. apply gall_inter; eauto.
  - destruct B as (B1 & B2 & B3). destruct (toEventTA al r1 n) as [[A1 m1]| | | |] eqn:E1; try discriminate. cbn [bind fst snd] in E.
    destruct (withinTA A1 Iv) as [A2| | | |] eqn:EW; try discriminate. cbn [bind fst snd] in E.
    destruct (reduceStates _) as [D| | | |] eqn:R; try discriminate. cbn [bind] in E. injection E as <- <-.
    eapply from_gall; [eapply from_trans; [apply from_merge|apply from_reduce; exact R]|]. eapply gall_within; eauto.
Qed.
End Consts.
