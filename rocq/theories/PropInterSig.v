(* C71: the signal product. *)
From Coq Require Import QArith Lqa Bool List ZArith Arith Lia.
From Verif Require Import Num NumFacts Constraint Zone ZoneFacts TA Spec TAFacts Intersection IntersectionFacts IntersectionSignal WfDec PropTA.
Import ListNotations.
Open Scope nat_scope.

(* ---------------- what is stated ---------------- *)

(* The letter shown at time y: that of the first event at y or later. *)
Definition shown (w : tword) (y : Q) : option nat := option_map fst (find (fun e => Qle_bool y (snd e)) w).
Definition same_shown (w w' : tword) : Prop := forall y, (0 < y)%Q -> shown w y = shown w' y.

(* Every letter lasts. *)
Fixpoint lasting (lo : Q) (w : tword) : Prop :=
  match w with [] => True | (_, t) :: w' => (lo < t)%Q /\ lasting t w' end.

(* A has an entry for the letter c at p. *)
Definition has_key (A : ta) (p : ptr) (c : nat) : Prop := exists s es, In (p, s) (states A) /\ In (c, es) (next s).
Definition one_letter (A : ta) : Prop := forall p c c', c <> 0 -> c' <> 0 -> has_key A p c -> has_key A p c' -> c = c'.
Definition final_accepting (A : ta) : Prop := forall p c, accepting A p -> has_key A p c -> c = 0.
Definition no_unobservable (A : ta) : Prop := forall p e, ~ is_edge A p 0 e.

(* ---------------- facts ---------------- *)

Lemma assoc_some : forall (B : Type) (k : nat) (l : list (nat * B)), (exists b, In (k, b) l) -> exists b, assoc k l = Some b.
Proof.
  intros B k l (b & H). destruct (assoc k l) as [x|] eqn:E; eauto. exfalso. apply assoc_None in E. apply E. apply (in_map fst _ _ H).
Qed.
Lemma touch0_key : forall s c, (exists es, assoc c (next (touch0 s)) = Some es) <-> c = 0 \/ exists es, In (c, es) (next s).
Proof.
  intros s c. unfold touch0. split.
  - intros (es & E). destruct (assoc 0 (next s)); [right; eauto using assoc_In|]. cbn in E. apply assoc_In in E.
    apply in_app_or in E as [E|[E|[]]]; [eauto|]. injection E as <- _. auto.
  - intros H. apply assoc_some. destruct (assoc 0 (next s)) as [x|] eqn:E0.
    + destruct H as [->|H]; [|exact H]. exists x. apply assoc_In. exact E0.
    + cbn. destruct H as [->|(es & H)]; [exists []|exists es]; apply in_or_app; cbn; auto.
Qed.

Section Sig.
  Variables (in1 in2 : ta) (fresh2 : ptr -> ptr -> ptr).
  Hypothesis W1 : wf_ta in1.
  Hypothesis W2 : wf_ta in2.
  Hypothesis Inj : fresh_pairs in1 in2 fresh2.
  Hypothesis Small : clockSize in1 + clockSize in2 <= 256.
  Hypothesis HZ : same_zero_flag in1 in2.
  Let out := intersectionSignalTA in1 in2 fresh2.
  Let L1 n1 p2 e1 := prod_edge (clockSize in1) (toI in1 in2 fresh2 n1 p2) e1 empty_edge.
  Let R2 p1 n2 e2 := prod_edge (clockSize in1) (toI in1 in2 fresh2 p1 n2) empty_edge e2.

  Lemma sout_states : forall q s, In (q, s) (states out) <->
    exists p1 s1 p2 s2, In (p1, s1) (states in1) /\ In (p2, s2) (states in2) /\ q = fresh2 p1 p2 /\ s = sig_state in1 in2 fresh2 p1 s1 p2 s2.
  Proof.
    intros q s. unfold out, intersectionSignalTA; cbn [states]. rewrite in_flat_map. split.
    - intros ([p1 s1] & H1 & H). apply in_flat_map in H as ([p2 s2] & H2 & H). simpl in H.
      destruct (Bool.eqb _ _) eqn:E; [|contradiction].
      destruct H as [H|[]]. inversion H; subst. exists p1, s1, p2, s2. auto.
    - intros (p1 & s1 & p2 & s2 & H1 & H2 & -> & ->). exists (p1, s1). split; auto.
      apply in_flat_map. exists (p2, s2). split; auto. simpl. rewrite (HZ _ _ _ _ H1 H2), eqb_reflx. left; auto.
  Qed.

  Definition keyed (A : ta) (p : ptr) (c : nat) : Prop := c = 0 \/ has_key A p c.

  Definition sig_edge (p1 p2 : ptr) (c : nat) (e : edge) : Prop :=
     (exists k e1 n1, c = 0 /\ is_edge in1 p1 k e1 /\ keyed in2 p2 k /\ etgt e1 = Some n1 /\ e = L1 n1 p2 e1) \/
     (exists k e2 n2, c = 0 /\ is_edge in2 p2 k e2 /\ keyed in1 p1 k /\ etgt e2 = Some n2 /\ e = R2 p1 n2 e2) \/
     (exists e1 n1 e2 n2, is_edge in1 p1 c e1 /\ etgt e1 = Some n1 /\ is_edge in2 p2 c e2 /\ etgt e2 = Some n2 /\
        e = prod_edge (clockSize in1) (toI in1 in2 fresh2 n1 n2) e1 e2).

  Lemma keyed_touch : forall A p s c, wf_ta A -> In (p, s) (states A) -> (keyed A p c <-> exists es, assoc c (next (touch0 s)) = Some es).
  Proof.
    intros A p s c W H. rewrite touch0_key. unfold keyed, has_key. split.
    - intros [->|(s' & es & H1 & H2)]; auto. right. assert (s' = s).
      { pose proof (In_assoc _ _ _ (wf_nodup _ W) H1). pose proof (In_assoc _ _ _ (wf_nodup _ W) H). congruence. }
      subst. eauto.
    - intros [->|(es & H1)]; auto. right. eauto.
  Qed.

  Lemma touch_assoc_edge : forall A p s c es e, wf_ta A -> In (p, s) (states A) -> assoc c (next (touch0 s)) = Some es -> In e es -> is_edge A p c e.
  Proof.
    intros A p s c es e W H E I. apply (is_edge_has A p c e W s H). apply touch0_has. exists es. split; auto using assoc_In.
  Qed.
  Lemma edge_touch_assoc : forall A p s c e, wf_ta A -> In (p, s) (states A) -> is_edge A p c e -> exists es, assoc c (next (touch0 s)) = Some es /\ In e es.
  Proof.
    intros A p s c e W H E. apply (is_edge_has A p c e W s H) in E. pose proof (wf_keys _ W _ _ H) as K. unfold touch0.
    destruct E as (es & E & I). exists es. split; auto. pose proof (In_assoc _ _ _ K E) as X.
    destruct (assoc 0 (next s)); auto. cbn. clear - X. induction (next s) as [|[k y] l IH]; cbn in *; [discriminate|].
    destruct (c =? k); auto.
  Qed.

  Lemma sig_pushes_in : forall p1 s1 p2 s2 c e, In (p1, s1) (states in1) -> In (p2, s2) (states in2) ->
    (In (c, e) (sig_pushes in1 in2 fresh2 p1 s1 p2 s2) <-> sig_edge p1 p2 c e).
  Proof.
    intros p1 s1 p2 s2 c e H1 H2.
    pose proof (wf_keys _ W1 _ _ H1) as K1. pose proof (wf_keys _ W2 _ _ H2) as K2.
    unfold sig_pushes, sig_edge. rewrite !in_app_iff, !in_flat_map. split.
    - intros [(e1 & He & H)|[(e2 & He & H)|([c' es1] & Hc & H)]].
      + left. destruct (etgt e1) as [n1|] eqn:ET; [|contradiction]. destruct H as [H|[]]. inversion H; subst.
        exists 0, e1, n1. repeat split; auto; [|left; auto]. apply (is_edge_has in1 p1 0 e1 W1 s1 H1). apply next_find_has; auto.
      + right. left. destruct (etgt e2) as [n2|] eqn:ET; [|contradiction]. destruct H as [H|[]]. inversion H; subst.
        exists 0, e2, n2. repeat split; auto; [|left; auto]. apply (is_edge_has in2 p2 0 e2 W2 s2 H2). apply next_find_has; auto.
      + cbn [fst snd] in H. apply in_app_iff in H as [H|H].
        * right. right. apply in_flat_map in H as (e1 & He1 & H).
          destruct (etgt e1) as [n1|] eqn:ET; [|contradiction]. apply in_flat_map in H as (e2 & He2 & H).
          destruct (etgt e2) as [n2|] eqn:ET2; [|contradiction]. destruct H as [H|[]]. inversion H; subst.
          exists e1, n1, e2, n2. repeat split; auto.
          -- apply (is_edge_has in1 p1 c e1 W1 s1 H1). apply touch0_has. exists es1. auto.
          -- apply (is_edge_has in2 p2 c e2 W2 s2 H2). apply next_find_has; auto.
        * destruct (assoc c' (next (touch0 s2))) as [es2|] eqn:EA; [|contradiction].
          apply in_app_iff in H as [H|H]; apply in_flat_map in H as (ex & He & H); destruct (etgt ex) as [nx|] eqn:ET; try contradiction;
            destruct H as [H|[]]; inversion H; subst.
          -- left. exists c', ex, nx. repeat split; auto.
             ++ apply (is_edge_has in1 p1 c' ex W1 s1 H1). apply touch0_has. exists es1. auto.
             ++ apply (keyed_touch in2 p2 s2 c' W2 H2). eauto.
          -- right. left. exists c', ex, nx. repeat split; auto.
             ++ eapply (touch_assoc_edge in2); eauto.
             ++ apply (keyed_touch in1 p1 s1 c' W1 H1). apply assoc_some. eauto.
    - intros [(k & e1 & n1 & -> & He & HK & ET & ->)|[(k & e2 & n2 & -> & He & HK & ET & ->)|(e1 & n1 & e2 & n2 & He1 & ET1 & He2 & ET2 & ->)]].
      + right. right. destruct (edge_touch_assoc in1 p1 s1 k e1 W1 H1 He) as (es & E & I). exists (k, es). split; [apply assoc_In; auto|].
        cbn [fst snd]. apply in_app_iff. right. apply (keyed_touch in2 p2 s2 k W2 H2) in HK as (es2 & ->). apply in_app_iff. left.
        apply in_flat_map. exists e1. rewrite ET. split; auto. left. auto.
      + right. right. destruct (edge_touch_assoc in2 p2 s2 k e2 W2 H2 He) as (es2 & E & I).
        apply (keyed_touch in1 p1 s1 k W1 H1) in HK as (es & E1). exists (k, es). split; [apply assoc_In; auto|].
        cbn [fst snd]. apply in_app_iff. right. rewrite E. apply in_app_iff. right. apply in_flat_map. exists e2. rewrite ET. split; auto. left. auto.
      + right. right. apply (is_edge_has in1 p1 c e1 W1 s1 H1) in He1. apply touch0_has in He1.
        destruct He1 as (es1 & A & B). exists (c, es1). split; auto. cbn [fst snd]. apply in_app_iff. left. apply in_flat_map. exists e1. split; auto.
        rewrite ET1. apply in_flat_map. exists e2.
        apply (is_edge_has in2 p2 c e2 W2 s2 H2) in He2. apply next_find_has in He2; auto. split; auto.
        rewrite ET2. left; auto.
  Qed.

  Lemma same_state : forall A p s s', wf_ta A -> In (p, s) (states A) -> In (p, s') (states A) -> s = s'.
  Proof. intros A p s s' W H H'. pose proof (In_assoc _ _ _ (wf_nodup _ W) H). pose proof (In_assoc _ _ _ (wf_nodup _ W) H'). congruence. Qed.

  Lemma sig_is_edge : forall p1 p2 c e, In p1 (map fst (states in1)) -> In p2 (map fst (states in2)) ->
    (is_edge out (fresh2 p1 p2) c e <-> sig_edge p1 p2 c e).
  Proof.
    intros p1 p2 c e HP1 HP2. destruct (in_fst_exists _ _ HP1) as (s1 & H1). destruct (in_fst_exists _ _ HP2) as (s2 & H2).
    rewrite <- (sig_pushes_in p1 s1 p2 s2 c e H1 H2). split.
    - intros (s & es & Hs & Hc & He). apply sout_states in Hs as (q1 & t1 & q2 & t2 & A & B & E & ->).
      apply Inj in E as [<- <-]; auto; [|apply (in_map fst _ _ A)|apply (in_map fst _ _ B)].
      rewrite (same_state in1 p1 t1 s1) in Hc by auto. rewrite (same_state in2 p2 t2 s2) in Hc by auto.
      assert (HE : has_edge (next (sig_state in1 in2 fresh2 p1 s1 p2 s2)) c e) by (exists es; auto).
      cbn [sig_state next] in HE. apply has_edge_fold in HE as [(x & [] & _)|HE]. auto.
    - intros H. assert (HE : has_edge (next (sig_state in1 in2 fresh2 p1 s1 p2 s2)) c e).
      { cbn [sig_state next]. apply has_edge_fold. auto. }
      destruct HE as (es & A & B). exists (sig_state in1 in2 fresh2 p1 s1 p2 s2), es. repeat split; auto.
      apply sout_states. exists p1, s1, p2, s2. repeat split; auto.
  Qed.

  Lemma sig_accepting : forall p1 p2, In p1 (map fst (states in1)) -> In p2 (map fst (states in2)) ->
    (accepting out (fresh2 p1 p2) <-> accepting in1 p1 /\ accepting in2 p2).
  Proof.
    intros p1 p2 HP1 HP2. split.
    - intros (s & Hs & HM). apply sout_states in Hs as (q1 & t1 & q2 & t2 & A & B & E & ->).
      apply Inj in E as [<- <-]; auto; [|apply (in_map fst _ _ A)|apply (in_map fst _ _ B)].
      cbn [sig_state isMatch] in HM. apply andb_true_iff in HM as [M1 M2]. split; [exists t1|exists t2]; auto.
    - intros [(t1 & A & M1) (t2 & B & M2)]. exists (sig_state in1 in2 fresh2 p1 t1 p2 t2). split.
      + apply sout_states. exists p1, t1, p2, t2. auto.
      + cbn [sig_state isMatch]. rewrite M1, M2. auto.
  Qed.

  Lemma sig_inits : forall q, In q (inits out) <-> exists p1 p2, In p1 (inits in1) /\ In p2 (inits in2) /\ q = fresh2 p1 p2.
  Proof.
    intros q. change (inits out) with (inits (intersectionTA in1 in2 fresh2)). rewrite (prod_inits_in in1 in2 fresh2 W1 W2). split.
    - intros (p1 & p2 & A & B & _ & C). eauto.
    - intros (p1 & p2 & A & B & C). exists p1, p2. repeat split; auto. apply same_zd; auto; [apply W1|apply W2]; auto.
  Qed.

  Lemma sig_wf : wf_ta out.
  Proof.
    assert (EC : clockSize out = clockSize in1 + clockSize in2) by (unfold out, clockSize, intersectionSignalTA; cbn [maxC]; apply app_length).
    assert (KO : map fst (states out) = map fst (states (intersectionTA in1 in2 fresh2))).
    { unfold out, intersectionSignalTA, intersectionTA. cbn [states]. rewrite !flat_map_concat_map, !concat_map, !map_map. f_equal.
      apply map_ext. intros ps1. rewrite !flat_map_concat_map, !concat_map, !map_map. f_equal. apply map_ext. intros ps2. destruct (Bool.eqb _ _); reflexivity. }
    pose proof (product_wf in1 in2 fresh2 W1 W2 Inj Small) as WP.
    constructor.
    - rewrite KO. apply WP.
    - intros p s H. apply sout_states in H as (p1 & s1 & p2 & s2 & _ & _ & _ & ->). cbn [sig_state next]. apply fold_push_keys. constructor.
    - intros p s c es e H H1 H2. apply sout_states in H as (p1 & s1 & p2 & s2 & A & B & -> & ->).
      assert (I1 : In p1 (map fst (states in1))) by apply (in_map fst _ _ A). assert (I2 : In p2 (map fst (states in2))) by apply (in_map fst _ _ B).
      assert (HE : has_edge (next (sig_state in1 in2 fresh2 p1 s1 p2 s2)) c e) by (exists es; auto).
      cbn [sig_state next] in HE. apply has_edge_fold in HE as [(x & [] & _)|HE]. apply sig_pushes_in in HE; auto.
      assert (G : forall t e1 e2, Forall (fun x => x < clockSize in1) (eresets e1) -> Forall (fun g => cx g < clockSize in1) (eguard e1) ->
          Forall (fun x => x < clockSize in2) (eresets e2) -> Forall (fun g => cx g < clockSize in2) (eguard e2) ->
          (forall q, t = Some q -> In q (map fst (states out))) -> wf_edge out (prod_edge (clockSize in1) t e1 e2)).
      { intros t e1 e2 F1 F2 F3 F4 FT. unfold wf_edge. rewrite EC. cbn [prod_edge etgt eresets eguard]. split; auto. split; apply Forall_app; split.
        - eapply Forall_impl; [|exact F1]. cbn. lia.
        - apply Forall_map. eapply Forall_impl; [|exact F3]. cbv beta. intros a Ha. rewrite (shift_small in1 in2) by auto. lia.
        - eapply Forall_impl; [|exact F2]. cbn. lia.
        - apply Forall_map. eapply Forall_impl; [|exact F4]. cbv beta. intros a Ha. cbn [shift_guard cx]. rewrite (shift_small in1 in2) by auto. lia. }
      assert (T : forall n1 n2 q, toI in1 in2 fresh2 n1 n2 = Some q -> In q (map fst (states out))).
      { intros n1 n2 q E. apply toI_iff in E as (J1 & J2 & JZ & ->). rewrite KO. apply prod_in_states; auto. }
      destruct (wf_empty_edge (clockSize in1)) as [Z1 Z2]. destruct (wf_empty_edge (clockSize in2)) as [Z3 Z4].
      destruct HE as [(k & e1 & n1 & -> & He & _ & ET & ->)|[(k & e2 & n2 & -> & He & _ & ET & ->)|(e1 & n1 & e2 & n2 & He1 & ET1 & He2 & ET2 & ->)]].
      + pose proof (wf_is_edge _ _ _ _ W1 He) as (Ta & Ra & Ga). apply G; auto. eauto.
      + pose proof (wf_is_edge _ _ _ _ W2 He) as (Ta & Ra & Ga). apply G; auto. eauto.
      + pose proof (wf_is_edge _ _ _ _ W1 He1) as (Ta & Ra & Ga). pose proof (wf_is_edge _ _ _ _ W2 He2) as (Tb & Rb & Gb). apply G; auto. eauto.
    - intros p H. apply sig_inits in H as (p1 & p2 & A & B & ->). rewrite KO. apply prod_in_states; auto; [apply W1|apply W2|apply same_zd]; auto; [apply W1|apply W2]; auto.
  Qed.

  (* One step of the product from steps of the factors. *)
  Lemma sig_step_left : forall p1 v1 T1 p2 v2 T2 v T t k e1 n1,
    In p1 (map fst (states in1)) -> In p2 (map fst (states in2)) -> vsync in1 in2 v T v1 T1 v2 T2 ->
    is_edge in1 p1 k e1 -> keyed in2 p2 k -> etgt e1 = Some n1 -> sat_guard (delay v1 (t - T1)) (eguard e1) ->
    exists e, is_edge out (fresh2 p1 p2) 0 e /\ etgt e = Some (fresh2 n1 p2) /\
      sat_guard (delay v (t - T)) (eguard e) /\ In n1 (map fst (states in1)) /\
      vsync in1 in2 (reset_set (delay v (t - T)) (eresets e)) t (reset_set (delay v1 (t - T1)) (eresets e1)) t v2 T2.
  Proof.
    intros p1 v1 T1 p2 v2 T2 v T t k e1 n1 HP1 HP2 HS He HK Ht Hg.
    pose proof (wf_is_edge _ _ _ _ W1 He) as (Ta & Ra & Ga). destruct (wf_empty_edge (clockSize in2)) as [R0 G0].
    pose proof (sync_delay _ _ _ _ _ _ _ _ t HS) as HD.
    exists (L1 n1 p2 e1). split; [|split; [|split; [|split]]].
    - apply sig_is_edge; auto. left. exists k, e1, n1. auto.
    - simpl. apply toI_iff. repeat split; auto. apply same_zd; auto.
    - eapply (split_guard in1 in2); eauto. split; auto. intros g [].
    - auto.
    - destruct (split_reset in1 in2 Small _ _ _ e1 empty_edge (toI in1 in2 fresh2 n1 p2) HD Ra R0) as [A B]. unfold L1. split; intros x Hx.
      + rewrite (A x Hx). ring.
      + rewrite (B x Hx). unfold reset_set; simpl. unfold delay. ring.
  Qed.
  Lemma sig_step_right : forall p1 v1 T1 p2 v2 T2 v T t k e2 n2,
    In p1 (map fst (states in1)) -> In p2 (map fst (states in2)) -> vsync in1 in2 v T v1 T1 v2 T2 ->
    is_edge in2 p2 k e2 -> keyed in1 p1 k -> etgt e2 = Some n2 -> sat_guard (delay v2 (t - T2)) (eguard e2) ->
    exists e, is_edge out (fresh2 p1 p2) 0 e /\ etgt e = Some (fresh2 p1 n2) /\
      sat_guard (delay v (t - T)) (eguard e) /\ In n2 (map fst (states in2)) /\
      vsync in1 in2 (reset_set (delay v (t - T)) (eresets e)) t v1 T1 (reset_set (delay v2 (t - T2)) (eresets e2)) t.
  Proof.
    intros p1 v1 T1 p2 v2 T2 v T t k e2 n2 HP1 HP2 HS He HK Ht Hg.
    pose proof (wf_is_edge _ _ _ _ W2 He) as (Ta & Ra & Ga). destruct (wf_empty_edge (clockSize in1)) as [R0 G0].
    pose proof (sync_delay _ _ _ _ _ _ _ _ t HS) as HD.
    exists (R2 p1 n2 e2). split; [|split; [|split; [|split]]].
    - apply sig_is_edge; auto. right. left. exists k, e2, n2. auto.
    - simpl. apply toI_iff. repeat split; auto. apply same_zd; auto.
    - eapply (split_guard in1 in2 Small _ _ _ empty_edge e2 None); eauto. split; auto. intros g [].
    - auto.
    - destruct (split_reset in1 in2 Small _ _ _ empty_edge e2 (toI in1 in2 fresh2 p1 n2) HD R0 Ra) as [A B]. unfold R2. split; intros x Hx.
      + rewrite (A x Hx). unfold reset_set; simpl. unfold delay. ring.
      + rewrite (B x Hx). ring.
  Qed.
  Lemma sig_step_both : forall p1 v1 T1 p2 v2 T2 v T t c e1 n1 e2 n2,
    In p1 (map fst (states in1)) -> In p2 (map fst (states in2)) -> vsync in1 in2 v T v1 T1 v2 T2 ->
    is_edge in1 p1 c e1 -> etgt e1 = Some n1 -> sat_guard (delay v1 (t - T1)) (eguard e1) ->
    is_edge in2 p2 c e2 -> etgt e2 = Some n2 -> sat_guard (delay v2 (t - T2)) (eguard e2) ->
    exists e, is_edge out (fresh2 p1 p2) c e /\ etgt e = Some (fresh2 n1 n2) /\
      sat_guard (delay v (t - T)) (eguard e) /\ In n1 (map fst (states in1)) /\ In n2 (map fst (states in2)) /\
      vsync in1 in2 (reset_set (delay v (t - T)) (eresets e)) t
            (reset_set (delay v1 (t - T1)) (eresets e1)) t (reset_set (delay v2 (t - T2)) (eresets e2)) t.
  Proof.
    intros p1 v1 T1 p2 v2 T2 v T t c e1 n1 e2 n2 HP1 HP2 HS He1 Ht1 Hg1 He2 Ht2 Hg2.
    pose proof (wf_is_edge _ _ _ _ W1 He1) as (Ta & Ra & Ga). pose proof (wf_is_edge _ _ _ _ W2 He2) as (Tb & Rb & Gb).
    pose proof (sync_delay _ _ _ _ _ _ _ _ t HS) as HD.
    exists (prod_edge (clockSize in1) (toI in1 in2 fresh2 n1 n2) e1 e2). split; [|split; [|split; [|split; [|split]]]]; auto.
    - apply sig_is_edge; auto. right. right. exists e1, n1, e2, n2. auto.
    - simpl. apply toI_iff. repeat split; auto. apply same_zd; auto.
    - eapply (split_guard in1 in2); eauto.
    - destruct (split_reset in1 in2 Small _ _ _ e1 e2 (toI in1 in2 fresh2 n1 n2) HD Ra Rb) as [A B]. split; intros x Hx.
      + rewrite (A x Hx). ring.
      + rewrite (B x Hx). ring.
  Qed.

  Lemma is_edge_key : forall A p c e, is_edge A p c e -> has_key A p c.
  Proof. intros A p c e (s & es & H1 & H2 & _). exists s, es. auto. Qed.
  Lemma shown_cons : forall c t w y, shown ((c, t) :: w) y = if Qle_bool y t then Some c else shown w y.
  Proof. intros. unfold shown. cbn [find snd]. destruct (Qle_bool y t); reflexivity. Qed.
  Lemma shown_hd : forall c t w y, (y <= t)%Q -> shown ((c, t) :: w) y = Some c.
  Proof. intros. rewrite shown_cons. rewrite (proj2 (Qle_bool_iff _ _)); auto. Qed.
  Lemma shown_tl : forall c t w y, (t < y)%Q -> shown ((c, t) :: w) y = shown w y.
  Proof. intros. rewrite shown_cons. destruct (Qle_bool y t) eqn:E; auto. apply Qle_bool_iff in E. lra. Qed.
  Lemma lasting_nd : forall w lo, lasting lo w -> nondecreasing lo w.
  Proof. induction w as [|[c t] w IH]; cbn; intros lo H; auto. destruct H as [A B]. split; [lra|auto]. Qed.
  Lemma lasting_up : forall w lo lo', lasting lo w -> match w with [] => True | (_, t) :: _ => (lo' < t)%Q end -> lasting lo' w.
  Proof. intros [|[c t] w] lo lo'; cbn; intros H X; auto. tauto. Qed.

  Hypothesis E1 : no_unobservable in1.
  Hypothesis E2 : no_unobservable in2.

  (* Two runs over the same signal make a run of the product. *)
  Lemma sig_merge : forall n w1 w2, length w1 + length w2 <= n ->
    forall p1 v1 T1 q1 u1 T1' p2 v2 T2 q2 u2 T2' v T,
    run in1 p1 v1 T1 w1 q1 u1 T1' -> run in2 p2 v2 T2 w2 q2 u2 T2' ->
    (forall y, (T < y)%Q -> shown w1 y = shown w2 y) -> lasting T w1 -> lasting T w2 ->
    In p1 (map fst (states in1)) -> In p2 (map fst (states in2)) -> vsync in1 in2 v T v1 T1 v2 T2 ->
    exists w u T', run out (fresh2 p1 p2) v T w (fresh2 q1 q2) u T' /\ nondecreasing T w /\ lasting T (observe w) /\
      (forall y, (T < y)%Q -> shown (observe w) y = shown w1 y) /\
      In q1 (map fst (states in1)) /\ In q2 (map fst (states in2)).
  Proof.
    induction n as [|n IH]; intros w1 w2 LEN p1 v1 T1 q1 u1 T1' p2 v2 T2 q2 u2 T2' v T RA RB ES N1 N2 HP1 HP2 HS.
    { destruct w1, w2; cbn in LEN; try lia. inversion RA; inversion RB; subst. exists [], v, T. repeat split; auto. constructor. }
    destruct w1 as [|[c1 t1] w1']; destruct w2 as [|[c2 t2] w2'].
    - inversion RA; inversion RB; subst. exists [], v, T. repeat split; auto. constructor.
    - exfalso. destruct N2 as [N2 _]. specialize (ES t2 N2). rewrite shown_hd in ES by lra. discriminate.
    - exfalso. destruct N1 as [N1 _]. specialize (ES t1 N1). rewrite shown_hd in ES by lra. discriminate.
    - destruct N1 as [N1 N1']. destruct N2 as [N2 N2'].
      assert (EC : c1 = c2).
      { destruct (Qlt_le_dec t1 t2) as [L|L].
        - specialize (ES t1 N1). rewrite !shown_hd in ES by lra. congruence.
        - specialize (ES t2 N2). rewrite !shown_hd in ES by lra. congruence. }
      subst c2.
      inversion RA as [|? ? ? ? ? e0 ? q0 ? ? ? He0 Ht0 Hg0 Rr0]; subst.
      inversion RB as [|? ? ? ? ? e0' ? q0' ? ? ? He0' Ht0' Hg0' Rr0']; subst.
      assert (NZ : c1 <> 0) by (intros ->; exact (E1 _ _ He0)).
      destruct (Q_dec t1 t2) as [[L|L]|EQ].
      + destruct (sig_step_left _ _ _ _ _ _ _ _ t1 _ _ _ HP1 HP2 HS He0 (or_intror (is_edge_key _ _ _ _ He0')) Ht0 Hg0) as (e & He & Ht & Hg & J & HS').
        assert (ES' : forall y, (t1 < y)%Q -> shown w1' y = shown ((c1, t2) :: w2') y) by (intros y Hy; rewrite <- ES by lra; rewrite shown_tl; auto).
        edestruct (IH w1' ((c1, t2) :: w2')) as (w & u & T' & Rw & Nw & Lw & Sw & J1 & J2);
          [cbn in *; lia|exact Rr0|exact RB|exact ES'|exact N1'|split; auto|exact J|exact HP2|exact HS'|].
        exists ((0, t1) :: w), u, T'. split; [econstructor; eauto|]. split; [split; [lra|exact Nw]|]. change (observe ((0, t1) :: w)) with (observe w).
        assert (Sh : forall y, (t1 < y)%Q -> shown (observe w) y = shown ((c1, t2) :: w2') y) by (intros y Hy; rewrite Sw, ES'; auto).
        destruct (observe w) as [|[c' t'] ow].
        { exfalso. specialize (Sh t2 L). rewrite shown_hd in Sh by lra. discriminate. }
        destruct Lw as [Lw Lw']. assert (EC : c' = c1).
        { destruct (Qlt_le_dec t' t2) as [L'|L'].
          - specialize (Sh t' Lw). rewrite !shown_hd in Sh by lra. congruence.
          - specialize (Sh t2 L). rewrite !shown_hd in Sh by lra. congruence. }
        subst c'. split; [split; [lra|auto]|]. split; auto. intros y Hy. destruct (Qlt_le_dec t1 y) as [G|G].
        * rewrite Sh by auto. symmetry. apply ES. auto.
        * rewrite !shown_hd by lra. auto.
      + destruct (sig_step_right _ _ _ _ _ _ _ _ t2 _ _ _ HP1 HP2 HS He0' (or_intror (is_edge_key _ _ _ _ He0)) Ht0' Hg0') as (e & He & Ht & Hg & J & HS').
        assert (ES' : forall y, (t2 < y)%Q -> shown ((c1, t1) :: w1') y = shown w2' y) by (intros y Hy; rewrite ES by lra; rewrite shown_tl; auto).
        edestruct (IH ((c1, t1) :: w1') w2') as (w & u & T' & Rw & Nw & Lw & Sw & J1 & J2);
          [cbn in *; lia|exact RA|exact Rr0'|exact ES'|split; auto|exact N2'|exact HP1|exact J|exact HS'|].
        exists ((0, t2) :: w), u, T'. split; [econstructor; eauto|]. split; [split; [lra|exact Nw]|]. change (observe ((0, t2) :: w)) with (observe w).
        destruct (observe w) as [|[c' t'] ow].
        { exfalso. specialize (Sw t1 L). rewrite shown_hd in Sw by lra. discriminate. }
        destruct Lw as [Lw Lw']. assert (EC : c' = c1).
        { destruct (Qlt_le_dec t' t1) as [L'|L'].
          - specialize (Sw t' Lw). rewrite !shown_hd in Sw by lra. congruence.
          - specialize (Sw t1 L). rewrite !shown_hd in Sw by lra. congruence. }
        subst c'. split; [split; [lra|auto]|]. split; auto. intros y Hy. destruct (Qlt_le_dec t2 y) as [G|G].
        * apply Sw. auto.
        * rewrite !shown_hd by lra. auto.
      + assert (Hg0'' : sat_guard (delay v2 (t1 - T2)) (eguard e0')).
        { intros g Hg. eapply holds_eq; [|apply Hg0'; exact Hg]. unfold delay. rewrite EQ. reflexivity. }
        destruct (sig_step_both _ _ _ _ _ _ _ _ t1 _ _ _ _ _ HP1 HP2 HS He0 Ht0 Hg0 He0' Ht0' Hg0'') as (e & He & Ht & Hg & I1 & I2 & HS').
        assert (HS'' : vsync in1 in2 (reset_set (delay v (t1 - T)) (eresets e)) t1 (reset_set (delay v1 (t1 - T1)) (eresets e0)) t1
                        (reset_set (delay v2 (t2 - T2)) (eresets e0')) t2).
        { destruct HS' as [A B]. split; [exact A|]. intros x Hx. rewrite (B x Hx). unfold reset_set, delay. destruct (in_dec Nat.eq_dec x (eresets e0')); rewrite EQ; ring. }
        edestruct (IH w1' w2') as (w & u & T' & Rw & Nw & Lw & Sw & J1 & J2);
          [cbn in *; lia|exact Rr0|exact Rr0'| |exact N1'| |exact I1|exact I2|exact HS''|].
        { intros y Hy. specialize (ES y ltac:(lra)). rewrite !shown_tl in ES by lra. exact ES. }
        { destruct w2' as [|[c2 d2] w2']; [exact Logic.I|]. destruct N2' as [X Y]. split; auto. lra. }
        exists ((c1, t1) :: w), u, T'. split; [econstructor; eauto|]. split; [split; [lra|exact Nw]|].
        replace (observe ((c1, t1) :: w)) with ((c1, t1) :: observe w) by (destruct c1; [congruence|reflexivity]).
        split; [split; [lra|auto]|]. split; auto. intros y Hy. rewrite !shown_cons. destruct (Qle_bool y t1) eqn:EB; auto.
        apply Sw. destruct (Qlt_le_dec t1 y); auto. exfalso. apply not_true_iff_false in EB. apply EB. apply Qle_bool_iff. auto.
  Qed.

  (* A run of the product makes two runs over the same signal. *)
  Lemma nd_observe : forall w T, nondecreasing T w -> nondecreasing T (observe w).
  Proof.
    assert (X : forall w T T', nondecreasing T w -> (T' <= T)%Q -> nondecreasing T' (observe w)).
    { induction w as [|[c t] w IH]; intros T T' N L; [exact Logic.I|]. destruct N as [N1 N2]. destruct c; cbn.
      - apply (IH t); auto. lra.
      - split; [lra|]. apply (IH t); auto. lra. }
    intros w T N. apply (X w T); auto. lra.
  Qed.

  Lemma sig_split : one_letter in1 -> one_letter in2 -> final_accepting in1 -> final_accepting in2 ->
    forall r v T w r' u T', run out r v T w r' u T' -> nondecreasing T w -> accepting out r' ->
    forall p1 p2 v1 T1 v2 T2, r = fresh2 p1 p2 -> In p1 (map fst (states in1)) -> In p2 (map fst (states in2)) -> vsync in1 in2 v T v1 T1 v2 T2 ->
    exists q1 q2 w1 w2 u1 u2 T1' T2', r' = fresh2 q1 q2 /\ run in1 p1 v1 T1 w1 q1 u1 T1' /\ run in2 p2 v2 T2 w2 q2 u2 T2' /\
      In q1 (map fst (states in1)) /\ In q2 (map fst (states in2)) /\ nondecreasing T w1 /\ nondecreasing T w2 /\
      (forall y, (T < y)%Q -> shown w1 y = shown (observe w) y /\ shown w2 y = shown (observe w) y) /\
      (w = [] \/ exists c t1 t2 t3 l1 l2 l3, c <> 0 /\ has_key in1 p1 c /\ has_key in2 p2 c /\ w1 = (c, t1) :: l1 /\ w2 = (c, t2) :: l2 /\ observe w = (c, t3) :: l3).
  Proof.
    intros O1 O2 F1 F2 r v T w r' u T' R. induction R as [p v T|p v T c t e w q q' v' T' He Ht Hg R IH]; intros N HA p1 p2 v1 T1 v2 T2 -> HP1 HP2 HS.
    - exists p1, p2, [], [], v1, v2, T1, T2. repeat split; auto; constructor; auto.
    - destruct N as [Nt N]. pose proof (sync_delay _ _ _ _ _ _ _ _ t HS) as HD. pose proof (nd_observe w t N) as NO.
      apply sig_is_edge in He; auto.
      destruct He as [(k & e1 & n1 & -> & He1 & HK & ET & ->)|[(k & e2 & n2 & -> & He2 & HK & ET & ->)|(e1 & n1 & e2 & n2 & He1 & ET1 & He2 & ET2 & ->)]].
      + assert (K0 : k <> 0) by (intros ->; exact (E1 _ _ He1)). destruct HK as [HK|HK]; [contradiction|].
        pose proof (wf_is_edge _ _ _ _ W1 He1) as (Ta & Ra & Ga). destruct (wf_empty_edge (clockSize in2)) as [R0 G0].
        cbn [L1 prod_edge etgt] in Ht. apply toI_iff in Ht as (J1 & _ & _ & ->).
        apply (split_guard in1 in2 Small _ _ _ e1 empty_edge _ HD) in Hg; auto. destruct Hg as [Hg _].
        destruct (IH N HA n1 p2 (reset_set (delay v1 (t - T1)) (eresets e1)) t v2 T2) as (q1 & q2 & w1 & w2 & u1 & u2 & T1' & T2' & -> & RA & RB & I1 & I2 & N1 & N2 & Sh & Hd); auto.
        { destruct (split_reset in1 in2 Small _ _ _ e1 empty_edge (toI in1 in2 fresh2 n1 p2) HD Ra R0) as [A B]. unfold L1. split; intros x Hx.
          - rewrite (A x Hx). ring.
          - rewrite (B x Hx). unfold reset_set; simpl. unfold delay. ring. }
        destruct Hd as [->|(c & t1 & t2 & t3 & l1 & l2 & l3 & C0 & K1 & K2 & Ew1 & Ew2 & Ew)].
        { exfalso. inversion R; subst. match goal with E : fresh2 _ _ = fresh2 _ _ |- _ => apply Inj in E as [<- <-]; auto end. apply sig_accepting in HA as [_ HA]; auto.
          apply K0. exact (F2 _ _ HA HK). }
        assert (EK : c = k) by (apply (O2 p2); auto). subst c.
        exists q1, q2, ((k, t) :: w1), w2, u1, u2, T1', T2'. split; auto. split; [econstructor; eauto|]. split; auto. split; auto. split; auto.
        split; [split; auto|]. split; [apply (nondecreasing_weaken _ t); auto|]. change (observe ((0, t) :: w)) with (observe w). split.
        * intros y Hy. destruct (Qlt_le_dec t y) as [G|G]; [rewrite shown_tl by auto; auto|].
          rewrite Ew2, Ew in *. destruct N2 as [N2 _]. destruct NO as [NO _]. rewrite !shown_hd by lra. auto.
        * right. exists k, t, t2, t3, w1, l2, l3. repeat split; auto. eapply is_edge_key; eauto.
      + assert (K0 : k <> 0) by (intros ->; exact (E2 _ _ He2)). destruct HK as [HK|HK]; [contradiction|].
        pose proof (wf_is_edge _ _ _ _ W2 He2) as (Ta & Ra & Ga). destruct (wf_empty_edge (clockSize in1)) as [R0 G0].
        cbn [R2 prod_edge etgt] in Ht. apply toI_iff in Ht as (_ & J1 & _ & ->).
        apply (split_guard in1 in2 Small _ _ _ empty_edge e2 _ HD) in Hg; auto. destruct Hg as [_ Hg].
        destruct (IH N HA p1 n2 v1 T1 (reset_set (delay v2 (t - T2)) (eresets e2)) t) as (q1 & q2 & w1 & w2 & u1 & u2 & T1' & T2' & -> & RA & RB & I1 & I2 & N1 & N2 & Sh & Hd); auto.
        { destruct (split_reset in1 in2 Small _ _ _ empty_edge e2 (toI in1 in2 fresh2 p1 n2) HD R0 Ra) as [A B]. unfold R2. split; intros x Hx.
          - rewrite (A x Hx). unfold reset_set; simpl. unfold delay. ring.
          - rewrite (B x Hx). ring. }
        destruct Hd as [->|(c & t1 & t2 & t3 & l1 & l2 & l3 & C0 & K1 & K2 & Ew1 & Ew2 & Ew)].
        { exfalso. inversion R; subst. match goal with E : fresh2 _ _ = fresh2 _ _ |- _ => apply Inj in E as [<- <-]; auto end. apply sig_accepting in HA as [HA _]; auto.
          apply K0. exact (F1 _ _ HA HK). }
        assert (EK : c = k) by (apply (O1 p1); auto). subst c.
        exists q1, q2, w1, ((k, t) :: w2), u1, u2, T1', T2'. split; auto. split; auto. split; [econstructor; eauto|]. split; auto. split; auto.
        split; [apply (nondecreasing_weaken _ t); auto|]. split; [split; auto|]. change (observe ((0, t) :: w)) with (observe w). split.
        * intros y Hy. destruct (Qlt_le_dec t y) as [G|G]; [rewrite (shown_tl k) by auto; auto|].
          rewrite Ew1, Ew in *. destruct N1 as [N1 _]. destruct NO as [NO _]. rewrite !shown_hd by lra. auto.
        * right. exists k, t1, t, t3, l1, w2, l3. repeat split; auto. eapply is_edge_key; eauto.
      + assert (K0 : c <> 0) by (intros ->; exact (E1 _ _ He1)).
        pose proof (wf_is_edge _ _ _ _ W1 He1) as (Ta & Ra & Ga). pose proof (wf_is_edge _ _ _ _ W2 He2) as (Tb & Rb & Gb).
        cbn [prod_edge etgt] in Ht. apply toI_iff in Ht as (J1 & J2 & _ & ->).
        apply (split_guard in1 in2 Small _ _ _ e1 e2 _ HD) in Hg; auto. destruct Hg as [Hg1 Hg2].
        destruct (IH N HA n1 n2 (reset_set (delay v1 (t - T1)) (eresets e1)) t (reset_set (delay v2 (t - T2)) (eresets e2)) t)
          as (q1 & q2 & w1 & w2 & u1 & u2 & T1' & T2' & -> & RA & RB & I1 & I2 & N1 & N2 & Sh & Hd); auto.
        { destruct (split_reset in1 in2 Small _ _ _ e1 e2 (toI in1 in2 fresh2 n1 n2) HD Ra Rb) as [A B]. split; intros x Hx.
          - rewrite (A x Hx). ring.
          - rewrite (B x Hx). ring. }
        exists q1, q2, ((c, t) :: w1), ((c, t) :: w2), u1, u2, T1', T2'. split; auto. split; [econstructor; eauto|]. split; [econstructor; eauto|]. split; auto. split; auto.
        split; [split; auto|]. split; [split; auto|]. replace (observe ((c, t) :: w)) with ((c, t) :: observe w) by (destruct c; [congruence|reflexivity]). split.
        * intros y Hy. rewrite !shown_cons. destruct (Qle_bool y t) eqn:EB; auto. apply Sh.
          destruct (Qlt_le_dec t y); auto. exfalso. apply not_true_iff_false in EB. apply EB. apply Qle_bool_iff. auto.
        * right. exists c, t, t, t, w1, w2, (observe w). repeat split; auto; eapply is_edge_key; eauto.
  Qed.
End Sig.

(* ================= C71 signal product ================= *)

(* A word of both is a word of the product, with or without unobservable
   transitions.  Missing: what C18 misses. *)
Theorem C71_common_words_partial : forall A B f, wf_ta A -> wf_ta B -> fresh_pairs A B f ->
  clockSize A + clockSize B <= 256 -> same_zero_flag A B ->
  forall u, lang A u -> lang B u -> lang (intersectionSignalTA A B f) u.
Proof.
  intros A B f WA WB Inj S Z u LA LB. destruct (proj2 (product_lang A B f WA WB Inj S Z u) (conj LA LB)) as (w & Ho & N & p & q & v & T & Hp & R & HA).
  exists w. split; auto. split; auto. exists p, q, v, T. split; [exact Hp|].
  assert (EE : forall p c e, is_edge (intersectionTA A B f) p c e -> is_edge (intersectionSignalTA A B f) p c e).
  { clear - WA WB Inj Z. intros p c e (s & es & Hs & Hc & He). pose proof Hs as Hs'. apply out_states_in in Hs' as (p1 & s1 & p2 & s2 & H1 & H2 & _ & -> & ->).
    assert (I1 : In p1 (map fst (states A))) by apply (in_map fst _ _ H1). assert (I2 : In p2 (map fst (states B))) by apply (in_map fst _ _ H2).
    apply (sig_is_edge A B f WA WB Inj Z); auto.
    assert (X : is_edge (intersectionTA A B f) (f p1 p2) c e) by (eexists; eexists; eauto).
    apply (prod_is_edge A B f WA WB Inj p1 p2 c e I1 I2 (same_zd A B WA WB Z _ _ I1 I2)) in X.
    destruct X as [(e1 & n1 & -> & He1 & ET & ->)|[(e2 & n2 & -> & He2 & ET & ->)|X]]; [left; exists 0, e1, n1|right; left; exists 0, e2, n2|right; right; exact X];
      repeat split; auto; left; auto. }
  split.
  - clear - R EE. induction R; [constructor|econstructor; eauto].
  - destruct HA as (s & Hs & M). apply out_states_in in Hs as (p1 & s1 & p2 & s2 & H1 & H2 & _ & -> & ->). cbn in M. apply andb_prop in M as [M1 M2].
    apply (sig_accepting A B f Inj Z); [apply (in_map fst _ _ H1)|apply (in_map fst _ _ H2)|]. split; [exists s1|exists s2]; auto.
Qed.

(* A signal of both is a signal of the product.  Missing: words with letters of
   length 0, unobservable transitions in the arguments, other flags, more than 256
   clocks (all refuted below). *)
Theorem C71_complete_partial : forall A B f, wf_ta A -> wf_ta B -> fresh_pairs A B f ->
  clockSize A + clockSize B <= 256 -> same_zero_flag A B -> no_unobservable A -> no_unobservable B ->
  forall w1 w2, accepts A w1 -> accepts B w2 -> lasting 0 w1 -> lasting 0 w2 -> same_shown w1 w2 ->
  exists u, lang (intersectionSignalTA A B f) u /\ same_shown u w1.
Proof.
  intros A B f WA WB Inj S Z EA EB w1 w2 (p1 & q1 & u1 & T1 & H1 & R1 & A1) (p2 & q2 & u2 & T2 & H2 & R2 & A2) N1 N2 SS.
  destruct (sig_merge A B f WA WB Inj S Z EA (length w1 + length w2) w1 w2 (le_n _) _ _ _ _ _ _ _ _ _ _ _ _ zeroval 0%Q R1 R2 SS N1 N2
     (wf_inits _ WA _ H1) (wf_inits _ WB _ H2)) as (w & u & T' & R & N & L & Sw & I1 & I2).
  { split; intros; unfold zeroval; ring. }
  exists (observe w). split; [|exact Sw]. exists w. split; auto. split; auto. exists (f p1 p2), (f q1 q2), u, T'. split; [|split; auto].
  - apply sig_inits; auto. eauto.
  - apply sig_accepting; auto.
Qed.

(* A signal of the product is one of both, when a state has one letter and
   accepting states have none. *)
Theorem C71_sound_partial : forall A B f, wf_ta A -> wf_ta B -> fresh_pairs A B f ->
  clockSize A + clockSize B <= 256 -> same_zero_flag A B -> no_unobservable A -> no_unobservable B ->
  one_letter A -> one_letter B -> final_accepting A -> final_accepting B ->
  forall u, lang (intersectionSignalTA A B f) u ->
  exists w1 w2, accepts A w1 /\ accepts B w2 /\ nondecreasing 0 w1 /\ nondecreasing 0 w2 /\ same_shown w1 u /\ same_shown w2 u.
Proof.
  intros A B f WA WB Inj S Z EA EB OA OB FA FB u (w & <- & N & p & q & v & T & Hp & R & HA).
  apply sig_inits in Hp as (p1 & p2 & H1 & H2 & ->); auto.
  destruct (sig_split A B f WA WB Inj S Z EA EB OA OB FA FB _ _ _ _ _ _ _ R N HA p1 p2 zeroval 0%Q zeroval 0%Q eq_refl (wf_inits _ WA _ H1) (wf_inits _ WB _ H2))
    as (q1 & q2 & w1 & w2 & u1 & u2 & T1' & T2' & -> & RA & RB & I1 & I2 & N1 & N2 & Sh & _).
  { split; intros; unfold zeroval; ring. }
  apply sig_accepting in HA as [HA1 HA2]; auto.
  exists w1, w2. split; [exists p1, q1, u1, T1'; auto|]. split; [exists p2, q2, u2, T2'; auto|]. split; auto. split; auto.
  split; intros y Hy; apply Sh; auto.
Qed.

(* exS1: c, c, then d; exS2: c for at least 2, then d.  A stutters where B does not. *)
Definition exS1 : ta := mkTA
  [(0, mkS false false [(99, [mkE (Some 1) [] []])]); (1, mkS false false [(99, [mkE (Some 2) [] []])]);
   (2, mkS false false [(100, [mkE (Some 3) [] []])]); (3, mkS true false [])] [0] [].
Definition exS2 : ta := mkTA
  [(0, mkS false false [(99, [mkE (Some 1) [0] [mkC 0 Ge 2]])]);
   (1, mkS false false [(100, [mkE (Some 2) [] [mkC 0 Le 1]])]); (2, mkS true false [])] [0] [2%Z].
Definition pair4 (p q : ptr) : ptr := 4 * q + p.

Ltac each := intros; cbn in *; repeat (match goal with
  | H : False |- _ => destruct H | H : exists _, _ |- _ => destruct H | H : _ /\ _ |- _ => destruct H
  | H : _ \/ _ |- _ => destruct H
  | H : (_, _) = (_, _) |- _ => injection H; clear H; intros; subst; cbn [next isMatch zeroDur In] in *
  end; try discriminate); try reflexivity; try congruence; try lia.

Lemma exS_zero : same_zero_flag exS1 exS2.
Proof. unfold same_zero_flag. each. Qed.
Lemma exS1_eps : no_unobservable exS1.
Proof. intros p e (s & es & H). each. Qed.
Lemma exS2_eps : no_unobservable exS2.
Proof. intros p e (s & es & H). each. Qed.
Lemma exS1_one : one_letter exS1.
Proof. intros p c c' _ _ (s & es & H) (s' & es' & H'). each. Qed.
Lemma exS2_one : one_letter exS2.
Proof. intros p c c' _ _ (s & es & H) (s' & es' & H'). each. Qed.
Lemma exS1_final : final_accepting exS1.
Proof. intros p c (s & H) (s' & es' & H'). each. Qed.
Lemma exS2_final : final_accepting exS2.
Proof. intros p c (s & H) (s' & es' & H'). each. Qed.

Example C71_case :
  wf_ta exS1 /\ wf_ta exS2 /\ fresh_pairs exS1 exS2 pair4 /\ clockSize exS1 + clockSize exS2 <= 256 /\ same_zero_flag exS1 exS2 /\
  no_unobservable exS1 /\ no_unobservable exS2 /\ one_letter exS1 /\ one_letter exS2 /\ final_accepting exS1 /\ final_accepting exS2 /\
  accepts exS1 [(99, 1%Q); (99, 2%Q); (100, 3%Q)] /\ accepts exS2 [(99, 2%Q); (100, 3%Q)] /\
  same_shown [(99, 1%Q); (99, 2%Q); (100, 3%Q)] [(99, 2%Q); (100, 3%Q)] /\
  lang (intersectionSignalTA exS1 exS2 pair4) [(99, 2%Q); (100, 3%Q)].
Proof.
  assert (X1 : wf_ta exS1) by (apply wf_tab_ok; vm_compute; reflexivity).
  assert (X2 : wf_ta exS2) by (apply wf_tab_ok; vm_compute; reflexivity).
  assert (XI : fresh_pairs exS1 exS2 pair4) by (unfold fresh_pairs, pair4, ptr; simpl; intros; lia).
  assert (XS : clockSize exS1 + clockSize exS2 <= 256) by (vm_compute; lia).
  repeat (split; [auto using exS_zero, exS1_eps, exS2_eps, exS1_one, exS2_one, exS1_final, exS2_final; fail|]).
  split; [apply isMember_correct; [auto|vm_compute; reflexivity]|].
  split; [apply isMember_correct; [auto|vm_compute; reflexivity]|]. split.
  - intros y Hy. unfold shown. cbn [find snd]. destruct (Qle_bool y 1) eqn:E1, (Qle_bool y 2) eqn:E2, (Qle_bool y 3) eqn:E3; try reflexivity;
      repeat match goal with H : Qle_bool _ _ = true |- _ => apply Qle_bool_iff in H | H : Qle_bool _ _ = false |- _ => apply not_true_iff_false in H; rewrite Qle_bool_iff in H end; lra.
  - exists [(0, 1%Q); (99, 2%Q); (100, 3%Q)]. split; [reflexivity|]. split; [cbn; lra|].
    apply isMember_correct; [apply sig_wf; auto using exS_zero|vm_compute; reflexivity].
Qed.

(* A state with two letters: A may take its c unseen while B waits in a state
   that also has c, and B then goes on with d. *)
Definition exS3 : ta := mkTA
  [(0, mkS false false [(99, [mkE (Some 1) [] [mkC 0 Gt 1]])]); (1, mkS false false [(100, [mkE (Some 2) [] []])]); (2, mkS true false [])] [0] [1%Z].
Definition exS4 : ta := mkTA
  [(0, mkS false false [(99, [mkE (Some 1) [] []]); (100, [mkE (Some 1) [] []])]); (1, mkS true false [])] [0] [].

Theorem C71_sound_refuted : exists A B f u, wf_ta A /\ wf_ta B /\ fresh_pairs A B f /\ clockSize A + clockSize B <= 256 /\ same_zero_flag A B /\
  no_unobservable A /\ no_unobservable B /\ final_accepting A /\ final_accepting B /\ one_letter A /\
  lang (intersectionSignalTA A B f) u /\ ~ exists w, accepts A w /\ nondecreasing 0 w /\ same_shown w u.
Proof.
  exists exS3, exS4, pair4, [(100, 2%Q)].
  assert (X1 : wf_ta exS3) by (apply wf_tab_ok; vm_compute; reflexivity).
  assert (X2 : wf_ta exS4) by (apply wf_tab_ok; vm_compute; reflexivity).
  assert (XI : fresh_pairs exS3 exS4 pair4) by (unfold fresh_pairs, pair4, ptr; simpl; intros; lia).
  assert (XS : clockSize exS3 + clockSize exS4 <= 256) by (vm_compute; lia).
  assert (XZ : same_zero_flag exS3 exS4) by (unfold same_zero_flag; each).
  split; auto. split; auto. split; auto. split; auto. split; auto.
  split. { intros p e (s & es & H). each. }
  split. { intros p e (s & es & H). each. }
  split. { intros p c (s & H) (s' & es' & H'). each. }
  split. { intros p c (s & H) (s' & es' & H'). each. }
  split. { intros p c c' _ _ (s & es & H) (s' & es' & H'). each. }
  split.
  - exists [(0, (3#2)%Q); (100, 2%Q)]. split; [reflexivity|]. split; [cbn; lra|].
    apply isMember_correct; [apply sig_wf; auto|vm_compute; reflexivity].
  - intros (w & (p & q & v & T & Hp & R & HA) & N & S). destruct Hp as [<-|[]]. inversion R as [|? ? ? c t e w' q1 ? ? ? He Ht Hg R']; subst.
    + destruct HA as (s & Hs & M). each.
    + specialize (S 1%Q ltac:(lra)). cbn in S. unfold shown in S. cbn [find snd] in S.
      destruct He as (s & es & H1 & H2 & H3). cbn in H1. destruct H1 as [H1|[H1|[H1|[]]]]; try discriminate. injection H1 as <-.
      cbn in H2. destruct H2 as [H2|[]]. injection H2 as <- <-. destruct H3 as [<-|[]]. specialize (Hg _ (or_introl eq_refl)).
      unfold delay, zeroval in Hg. cbn in Hg. unfold inject_Z in Hg. rewrite (proj2 (Qle_bool_iff 1 t)) in S by lra. discriminate.
Qed.

(* A set of states that transitions do not leave. *)
Definition closed (A : ta) (S : list ptr) : Prop := forall p c e q, In p S -> is_edge A p c e -> etgt e = Some q -> In q S.
Lemma closed_run : forall A S, closed A S -> forall p v T w q u T', run A p v T w q u T' -> In p S -> In q S.
Proof. intros A S C p v T w q u T' R. induction R; eauto. Qed.
Definition closedb (A : ta) (S : list ptr) : bool :=
  forallb (fun ps => negb (existsb (Nat.eqb (fst ps)) S) ||
    forallb (fun ce => forallb (fun e => match etgt e with Some q => existsb (Nat.eqb q) S | None => true end) (snd ce)) (next (snd ps))) (states A).
Lemma closedb_ok : forall A S, closedb A S = true -> closed A S.
Proof.
  intros A S H p c e q Hp (s & es & H1 & H2 & H3) Ht. unfold closedb in H. rewrite forallb_forall in H. specialize (H _ H1). cbn [fst snd] in H.
  apply orb_prop in H as [H|H].
  - exfalso. apply negb_true_iff in H. apply not_true_iff_false in H. apply H. apply existsb_exists. exists p. split; auto. apply Nat.eqb_refl.
  - rewrite forallb_forall in H. specialize (H _ H2). cbn [snd] in H. rewrite forallb_forall in H. specialize (H _ H3). rewrite Ht in H.
    apply existsb_exists in H as (x & Hx & E). apply Nat.eqb_eq in E. subst. auto.
Qed.

(* A letter of length 0 in between: c, d for no time, c is the signal c. *)
Definition exS5 : ta := mkTA
  [(0, mkS false false [(99, [mkE (Some 1) [] []])]); (1, mkS false false [(100, [mkE (Some 2) [] []])]);
   (2, mkS false false [(99, [mkE (Some 3) [] []])]); (3, mkS true false [])] [0] [].
Definition exS6 : ta := mkTA [(0, mkS false false [(99, [mkE (Some 1) [] []])]); (1, mkS true false [])] [0] [].

Theorem C71_complete_refuted : exists A B f w1 w2, wf_ta A /\ wf_ta B /\ fresh_pairs A B f /\ clockSize A + clockSize B <= 256 /\ same_zero_flag A B /\
  no_unobservable A /\ no_unobservable B /\ one_letter A /\ one_letter B /\ final_accepting A /\ final_accepting B /\
  accepts A w1 /\ accepts B w2 /\ nondecreasing 0 w1 /\ nondecreasing 0 w2 /\ same_shown w1 w2 /\
  forall u, ~ lang (intersectionSignalTA A B f) u.
Proof.
  exists exS5, exS6, pair4, [(99, 1%Q); (100, 1%Q); (99, 2%Q)], [(99, 2%Q)].
  assert (X1 : wf_ta exS5) by (apply wf_tab_ok; vm_compute; reflexivity).
  assert (X2 : wf_ta exS6) by (apply wf_tab_ok; vm_compute; reflexivity).
  assert (XI : fresh_pairs exS5 exS6 pair4) by (unfold fresh_pairs, pair4, ptr; simpl; intros; lia).
  assert (XS : clockSize exS5 + clockSize exS6 <= 256) by (vm_compute; lia).
  assert (XZ : same_zero_flag exS5 exS6) by (unfold same_zero_flag; each).
  split; auto. split; auto. split; auto. split; auto. split; auto.
  split. { intros p e (s & es & H). each. }
  split. { intros p e (s & es & H). each. }
  split. { intros p c c' _ _ (s & es & H) (s' & es' & H'). each. }
  split. { intros p c c' _ _ (s & es & H) (s' & es' & H'). each. }
  split. { intros p c (s & H) (s' & es' & H'). each. }
  split. { intros p c (s & H) (s' & es' & H'). each. }
  split; [apply isMember_correct; [auto|vm_compute; reflexivity]|].
  split; [apply isMember_correct; [auto|vm_compute; reflexivity]|].
  split; [cbn; lra|]. split; [cbn; lra|]. split.
  - intros y Hy. unfold shown. cbn [find snd]. destruct (Qle_bool y 1) eqn:E1, (Qle_bool y 2) eqn:E2; try reflexivity;
      repeat match goal with H : Qle_bool _ _ = true |- _ => apply Qle_bool_iff in H | H : Qle_bool _ _ = false |- _ => apply not_true_iff_false in H; rewrite Qle_bool_iff in H end; lra.
  - intros u (w & _ & _ & p & q & v & T & Hp & R & HA).
    assert (C : closed (intersectionSignalTA exS5 exS6 pair4) [0; 5; 1; 4]) by (apply closedb_ok; vm_compute; reflexivity).
    apply (closed_run _ _ C) in R.
    + destruct HA as (s & Hs & M). revert Hs M R. vm_compute. each.
    + revert Hp. vm_compute. tauto.
Qed.

(* States that differ in zeroDuration have no pair, so accepting states with
   different flags are lost (libmonaa/intersection.cc:179). *)
Theorem C71_flags_refuted : exists A B f w, wf_ta A /\ wf_ta B /\ fresh_pairs A B f /\ clockSize A + clockSize B <= 256 /\
  no_unobservable A /\ no_unobservable B /\ one_letter A /\ one_letter B /\ final_accepting A /\ final_accepting B /\
  accepts A w /\ accepts B w /\ lasting 0 w /\ forall u, ~ lang (intersectionSignalTA A B f) u.
Proof.
  set (A := mkTA [(0, mkS false false [(99, [mkE (Some 1) [] []])]); (1, mkS true true [])] [0] []).
  exists A, exS6, pair4, [(99, 2%Q)].
  assert (X1 : wf_ta A) by (apply wf_tab_ok; vm_compute; reflexivity).
  assert (X2 : wf_ta exS6) by (apply wf_tab_ok; vm_compute; reflexivity).
  split; auto. split; auto. split; [unfold fresh_pairs, pair4, ptr; simpl; intros; lia|]. split; [vm_compute; lia|].
  split. { intros p e (s & es & H). each. }
  split. { intros p e (s & es & H). each. }
  split. { intros p c c' _ _ (s & es & H) (s' & es' & H'). each. }
  split. { intros p c c' _ _ (s & es & H) (s' & es' & H'). each. }
  split. { intros p c (s & H) (s' & es' & H'). each. }
  split. { intros p c (s & H) (s' & es' & H'). each. }
  split; [apply isMember_correct; [auto|vm_compute; reflexivity]|].
  split; [apply isMember_correct; [auto|vm_compute; reflexivity]|].
  split; [cbn; lra|]. intros u (w & _ & _ & p & q & v & T & _ & _ & HA). destruct HA as (s & Hs & M). revert Hs M. vm_compute. each.
Qed.

(* Clock indices are uint8_t: they wrap around beyond 256 clocks. *)
Definition exS7 : ta := mkTA
  [(0, mkS false false [(99, [mkE (Some 1) [0] []])]); (1, mkS false false [(100, [mkE (Some 2) [] []])]); (2, mkS true false [])] [0] (repeat 0%Z 255).
Definition exS8 : ta := mkTA
  [(0, mkS false false [(99, [mkE (Some 1) [] []])]); (1, mkS false false [(100, [mkE (Some 2) [] [mkC 1 Gt 1]])]); (2, mkS true false [])] [0] (repeat 1%Z 2).
Definition prod78 : ta := intersectionSignalTA exS7 exS8 pair4.
Lemma dead78 : forall p v T w q u T', run prod78 p v T w q u T' -> ~ In p [pair4 0 0; pair4 1 1; pair4 2 2] -> ~ accepting prod78 q.
Proof.
  intros p v T w q u T' R N (s & Hs & M).
  assert (C : closed prod78 [pair4 0 1; pair4 1 0; pair4 0 2; pair4 2 0; pair4 1 2; pair4 2 1]) by (apply closedb_ok; vm_compute; reflexivity).
  assert (K : In p (map fst (states prod78)) -> In p [pair4 0 1; pair4 1 0; pair4 0 2; pair4 2 0; pair4 1 2; pair4 2 1]).
  { revert N. clear. cbn. tauto. }
  destruct (in_dec Nat.eq_dec p (map fst (states prod78))) as [I|I].
  - apply (closed_run _ _ C _ _ _ _ _ _ _ R) in K; auto. revert Hs M K. vm_compute. each.
  - inversion R; subst.
    + apply I. apply (in_map fst _ _ Hs).
    + match goal with H : is_edge _ _ _ _ |- _ => destruct H as (s' & es' & H' & _); apply I; apply (in_map fst _ _ H') end.
Qed.
Theorem C71_overflow_refuted : exists A B f w, wf_ta A /\ wf_ta B /\ fresh_pairs A B f /\ same_zero_flag A B /\
  no_unobservable A /\ no_unobservable B /\ one_letter A /\ one_letter B /\ final_accepting A /\ final_accepting B /\
  accepts A w /\ accepts B w /\ lasting 0 w /\ ~ exists u, lang (intersectionSignalTA A B f) u /\ same_shown u w.
Proof.
  exists exS7, exS8, pair4, [(99, 2%Q); (100, (5 # 2)%Q)].
  assert (X1 : wf_ta exS7) by (apply wf_tab_ok; vm_compute; reflexivity).
  assert (X2 : wf_ta exS8) by (apply wf_tab_ok; vm_compute; reflexivity).
  split; auto. split; auto. split; [unfold fresh_pairs, pair4, ptr; simpl; intros; lia|]. split; [unfold same_zero_flag; each|].
  split. { intros p e (s & es & H). each. }
  split. { intros p e (s & es & H). each. }
  split. { intros p c c' _ _ (s & es & H) (s' & es' & H'). each. }
  split. { intros p c c' _ _ (s & es & H) (s' & es' & H'). each. }
  split. { intros p c (s & H) (s' & es' & H'). each. }
  split. { intros p c (s & H) (s' & es' & H'). each. }
  split; [apply isMember_correct; [auto|vm_compute; reflexivity]|].
  split; [apply isMember_correct; [auto|vm_compute; reflexivity]|].
  split; [cbn; lra|]. intros (u & (w & <- & N & p & q & v & T & Hp & R & HA) & S).
  fold prod78 in Hp, R, HA.
  assert (P0 : p = 0) by (revert Hp; vm_compute; intuition). subst p. clear Hp.
  inversion R as [|? ? ? c1 t1 e1 w1 q1 ? ? ? He1 Ht1 Hg1 R1]; subst; [destruct HA as (s & Hs & M); revert Hs M; vm_compute; each|].
  assert (E1 : q1 = pair4 1 1 -> c1 = 99 /\ e1 = mkE (Some (pair4 1 1)) [0] []).
  { intros ->. revert He1 Ht1. clear. intros (s & es & H) Ht. revert H Ht. vm_compute. each; subst; cbn in *; first [discriminate|split; auto]. }
  destruct (Nat.eq_dec q1 (pair4 1 1)) as [Q1|Q1].
  2:{ apply (dead78 _ _ _ _ _ _ _ R1); auto. revert He1 Ht1 Q1. clear. intros (s & es & H) Ht. revert H Ht. vm_compute. each; subst; cbn in *; congruence || (match goal with E : Some _ = Some _ |- _ => injection E as <- end; intuition congruence). }
  destruct (E1 Q1) as (-> & ->). subst q1. clear E1 He1 Ht1.
  inversion R1 as [|? ? ? c2 t2 e2 w2 q2 ? ? ? He2 Ht2 Hg2 R2]; subst; [destruct HA as (s & Hs & M); revert Hs M; vm_compute; each|].
  assert (E2 : q2 = pair4 2 2 -> c2 = 100 /\ e2 = mkE (Some (pair4 2 2)) [] [mkC 0 Gt 1]).
  { intros ->. revert He2 Ht2. clear. intros (s & es & H) Ht. revert H Ht. vm_compute. each; subst; cbn in *; first [discriminate|split; auto]. }
  destruct (Nat.eq_dec q2 (pair4 2 2)) as [Q2|Q2].
  2:{ apply (dead78 _ _ _ _ _ _ _ R2); auto. revert He2 Ht2 Q2. clear. intros (s & es & H) Ht. revert H Ht. vm_compute. each; subst; cbn in *; congruence || (match goal with E : Some _ = Some _ |- _ => injection E as <- end; intuition congruence). }
  destruct (E2 Q2) as (-> & ->). subst q2. clear E2 He2 Ht2.
  specialize (Hg2 _ (or_introl eq_refl)). cbn in Hg2. unfold delay, reset_set, zeroval, inject_Z in Hg2. cbn in Hg2.
  pose proof (S 2%Q ltac:(lra)) as S2. pose proof (S 3%Q ltac:(lra)) as S3. unfold shown in S2, S3. cbn [observe filter fst snd find option_map negb Nat.eqb] in S2, S3.
  cbn in S2, S3.
  destruct (Qle_bool 2 t1) eqn:L1.
  - apply Qle_bool_iff in L1. rewrite (proj2 (Qle_bool_iff 3 t2)) in S3 by lra. destruct (Qle_bool 3 t1); discriminate.
  - destruct (Qle_bool 2 t2); [discriminate|]. inversion R2; subst; [discriminate|].
    match goal with H : is_edge _ _ _ _ |- _ => destruct H as (s' & es' & H'); revert H'; vm_compute; each end.
Qed.

(* Unobservable transitions in an argument: the first one may cut c at time 1 and
   the second one gets to a state with c only later. *)
Definition exS9 : ta := mkTA
  [(0, mkS false false [(99, [mkE (Some 1) [] [mkC 0 Le 1]])]); (1, mkS false false [(99, [mkE (Some 2) [] []])]); (2, mkS true false [])] [0] [1%Z].
Definition exS10 : ta := mkTA
  [(0, mkS false false [(0, [mkE (Some 1) [] [mkC 0 Gt 1]])]); (1, mkS false false [(99, [mkE (Some 2) [] []])]); (2, mkS true false [])] [0] [1%Z].
Definition prod90 : ta := intersectionSignalTA exS9 exS10 pair4.
Theorem C71_unobservable_refuted : exists A B f u1 u2, wf_ta A /\ wf_ta B /\ fresh_pairs A B f /\ clockSize A + clockSize B <= 256 /\ same_zero_flag A B /\
  no_unobservable A /\ one_letter A /\ one_letter B /\ final_accepting A /\ final_accepting B /\
  lang A u1 /\ lang B u2 /\ lasting 0 u1 /\ lasting 0 u2 /\ same_shown u1 u2 /\ forall u, ~ lang (intersectionSignalTA A B f) u.
Proof.
  exists exS9, exS10, pair4, [(99, 1%Q); (99, 2%Q)], [(99, 2%Q)].
  assert (X1 : wf_ta exS9) by (apply wf_tab_ok; vm_compute; reflexivity).
  assert (X2 : wf_ta exS10) by (apply wf_tab_ok; vm_compute; reflexivity).
  split; auto. split; auto. split; [unfold fresh_pairs, pair4, ptr; simpl; intros; lia|]. split; [vm_compute; lia|]. split; [unfold same_zero_flag; each|].
  split. { intros p e (s & es & H). each. }
  split. { intros p c c' _ _ (s & es & H) (s' & es' & H'). each. }
  split. { intros p c c' _ _ (s & es & H) (s' & es' & H'). each. }
  split. { intros p c (s & H) (s' & es' & H'). each. }
  split. { intros p c (s & H) (s' & es' & H'). each. }
  split. { exists [(99, 1%Q); (99, 2%Q)]. split; [reflexivity|]. split; [cbn; lra|]. apply isMember_correct; [auto|vm_compute; reflexivity]. }
  split. { exists [(0, (3 # 2)%Q); (99, 2%Q)]. split; [reflexivity|]. split; [cbn; lra|]. apply isMember_correct; [auto|vm_compute; reflexivity]. }
  split; [cbn; lra|]. split; [cbn; lra|]. split.
  - intros y Hy. unfold shown. cbn [find snd]. destruct (Qle_bool y 1) eqn:E1, (Qle_bool y 2) eqn:E2; try reflexivity;
      repeat match goal with H : Qle_bool _ _ = true |- _ => apply Qle_bool_iff in H | H : Qle_bool _ _ = false |- _ => apply not_true_iff_false in H; rewrite Qle_bool_iff in H end; lra.
  - intros u (w & _ & N & p & q & v & T & Hp & R & HA). fold prod90 in Hp, R, HA.
    assert (P0 : p = 0) by (revert Hp; vm_compute; intuition). subst p. clear Hp.
    inversion R as [|? ? ? c1 t1 e1 w1 q1 ? ? ? He1 Ht1 Hg1 R1]; subst; [destruct HA as (s & Hs & M); revert Hs M; vm_compute; each|].
    assert (E1 : q1 = pair4 0 1 /\ e1 = mkE (Some (pair4 0 1)) [] [mkC 1 Gt 1]).
    { revert He1 Ht1. clear. intros (s & es & H) Ht. revert H Ht. vm_compute. each; subst; cbn in *; first [discriminate|split; congruence]. }
    destruct E1 as (-> & ->). specialize (Hg1 _ (or_introl eq_refl)). cbn in Hg1. unfold delay, zeroval, inject_Z in Hg1.
    inversion R1 as [|? ? ? c2 t2 e2 w2 q2 ? ? ? He2 Ht2 Hg2 R2]; subst; [destruct HA as (s & Hs & M); revert Hs M; vm_compute; each|].
    destruct (Nat.eq_dec q2 (pair4 0 2)) as [->|Q2].
    + assert (C : closed prod90 [pair4 0 2]) by (apply closedb_ok; vm_compute; reflexivity).
      apply (closed_run _ _ C) in R2; [|left; reflexivity]. destruct HA as (s & Hs & M). revert Hs M R2. vm_compute. each.
    + assert (G : In (mkC 0 Le 1) (eguard e2)).
      { revert He2 Ht2 Q2. clear. intros (s & es & H) Ht. revert H Ht. vm_compute. each; subst; cbn in *; first [discriminate|congruence|left; reflexivity]. }
      specialize (Hg2 _ G). cbn in Hg2. unfold delay, reset_set, zeroval, inject_Z in Hg2. cbn in Hg2. cbn in N. lra.
Qed.

(* ================= C18 what the products do to their arguments ================= *)

(* Both products leave their arguments as automata with the same states, initial
   states, constants, transitions and words. *)
Theorem C18_inputs : forall A, wf_ta A -> wf_ta (touch A) /\ inits (touch A) = inits A /\ maxC (touch A) = maxC A /\
  (forall p, accepting (touch A) p <-> accepting A p) /\ (forall p c e, is_edge (touch A) p c e <-> is_edge A p c e) /\
  (forall w, accepts (touch A) w <-> accepts A w) /\ (forall u, lang (touch A) u <-> lang A u).
Proof.
  intros A W. assert (EA : forall p, accepting (touch A) p <-> accepting A p).
  { intros p. unfold accepting, touch. cbn [states]. split.
    - intros (s & H & M). apply in_map_iff in H as ([p0 s0] & E & H). cbn in E. injection E as -> <-. exists s0. split; auto. unfold touch0 in M. destruct (assoc 0 (next s0)); auto.
    - intros (s & H & M). exists (touch0 s). split; [apply in_map_iff; exists (p, s); auto|]. unfold touch0. destruct (assoc 0 (next s)); auto. }
  assert (EE := touch_edges A). assert (EK : map fst (states (touch A)) = map fst (states A)) by (unfold touch; cbn [states]; rewrite map_map; apply map_ext; auto).
  assert (ER : forall p v T w q v' T', run (touch A) p v T w q v' T' <-> run A p v T w q v' T') by (intros; split; intros R; induction R; econstructor; eauto; apply EE; auto).
  split; [|split; [reflexivity|split; [reflexivity|split; [exact EA|split; [exact EE|]]]]].
  - constructor.
    + rewrite EK. apply W.
    + intros p s H. unfold touch in H. cbn [states] in H. apply in_map_iff in H as ([p0 s0] & E & H). cbn in E. injection E as -> <-. pose proof (wf_keys _ W _ _ H) as K. unfold touch0.
      destruct (assoc 0 (next s0)) eqn:E0; auto. cbn [next]. rewrite map_app. cbn. apply (NoDup_Add (a := 0) (l := map fst (next s0))); [rewrite <- (app_nil_r (map fst (next s0))) at 1; apply Add_app|]. split; auto. intros I. apply in_map_iff in I as ([c es] & Ec & I). cbn in Ec. subst c.
      rewrite (In_assoc _ _ _ K I) in E0. discriminate.
    + intros p s c es e H1 H2 H3. assert (H : is_edge (touch A) p c e) by (exists s, es; auto). apply EE in H. destruct (wf_is_edge A _ _ _ W H) as (Q1 & Q2 & Q3).
      split; [intros t Et; rewrite EK; auto|]. split; auto.
    + intros p H. rewrite EK. apply W. exact H.
  - assert (EW : forall w, accepts (touch A) w <-> accepts A w).
    { intros w. unfold accepts. split; intros (p & q & v & T & Hp & R & Ha); exists p, q, v, T; (split; [exact Hp|split; [apply ER; exact R|apply EA; exact Ha]]). }
    split; [exact EW|]. intros u. unfold lang. split; intros (w & X & Y & Z); exists w; (split; [exact X|split; [exact Y|apply EW; exact Z]]).
Qed.
