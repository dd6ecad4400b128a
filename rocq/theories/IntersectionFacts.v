(* Facts about the product automaton. *)
From Coq Require Import QArith Lqa Bool List ZArith Arith Lia.
From Verif Require Import Num NumFacts Constraint Zone ZoneFacts TA Spec TAFacts Intersection.
Import ListNotations.
Open Scope nat_scope.

Lemma push_edge_in : forall l c e c' es', In (c', es') (push_edge l c e) ->
  (exists es, In (c', es) l /\ (es' = es \/ (c' = c /\ es' = es ++ [e]))) \/ (c' = c /\ es' = [e]).
Proof.
  induction l as [|[k es] l IH]; simpl; intros c e c' es' H.
  - destruct H as [H|[]]. inversion H; subst. auto.
  - destruct (Nat.eqb_spec c k).
    + subst. destruct H as [H|H].
      * inversion H; subst. left. exists es. auto.
      * left. exists es'. auto.
    + destruct H as [H|H].
      * inversion H; subst. left. exists es'. auto.
      * apply IH in H as [(es0 & H & H')|H]; auto. left. exists es0. auto.
Qed.

Definition has_edge (l : list (nat * list edge)) (c : nat) (e : edge) : Prop :=
  exists es, In (c, es) l /\ In e es.

Lemma has_edge_push : forall l c e c' e', has_edge (push_edge l c e) c' e' <-> has_edge l c' e' \/ (c' = c /\ e' = e).
Proof.
  intros l c e c' e'. unfold has_edge. split.
  - intros (es & H1 & H2). apply push_edge_in in H1 as [(es0 & H & [->|[-> ->]])|[-> ->]].
    + left. eauto.
    + apply in_app_or in H2 as [H2|[->|[]]]; eauto.
    + destruct H2 as [->|[]]. auto.
  - induction l as [|[k es] l IH]; simpl.
    + intros [(es & [] & _)|[-> ->]]. exists [e]. simpl. auto.
    + destruct (Nat.eqb_spec c k).
      * subst. intros [(es0 & [H|H] & H2)|[-> ->]].
        -- inversion H; subst. exists (es0 ++ [e]). split; [left; auto|]. apply in_or_app. auto.
        -- exists es0. split; [right; auto|auto].
        -- exists (es ++ [e]). split; [left; auto|]. apply in_or_app. simpl. auto.
      * intros [(es0 & [H|H] & H2)|H].
        -- inversion H; subst. exists es0. split; [left; auto|auto].
        -- destruct (IH (or_introl (ex_intro _ es0 (conj H H2)))) as (es1 & ? & ?). exists es1. simpl. auto.
        -- destruct (IH (or_intror H)) as (es1 & ? & ?). exists es1. simpl. auto.
Qed.

Lemma has_edge_fold : forall pushes l c e,
  has_edge (fold_left (fun l ce => push_edge l (fst ce) (snd ce)) pushes l) c e <->
  has_edge l c e \/ In (c, e) pushes.
Proof.
  induction pushes as [|[c0 e0] ps IH]; simpl; intros l c e.
  - tauto.
  - rewrite IH, has_edge_push. simpl. split.
    + intros [[H|[-> ->]]|H]; auto.
    + intros [H|[H|H]]; auto. inversion H; subst. auto.
Qed.

Lemma push_edge_keys : forall l c e, NoDup (map fst l) -> NoDup (map fst (push_edge l c e)) /\
   forall k, In k (map fst (push_edge l c e)) <-> In k (map fst l) \/ k = c.
Proof.
  induction l as [|[k es] l IH]; simpl; intros c e ND.
  - split; [repeat constructor; auto|]. intros; simpl; intuition.
  - inversion ND; subst. destruct (IH c e H2) as [N K]. destruct (Nat.eqb_spec c k); simpl.
    + subst. split; [constructor; auto|]. intros; intuition.
    + split.
      * constructor; auto. rewrite K. intuition.
      * intros k0. rewrite K. tauto.
Qed.

Lemma fold_push_keys : forall pushes l, NoDup (map fst l) ->
  NoDup (map fst (fold_left (fun l ce => push_edge l (fst ce) (snd ce)) pushes l)).
Proof.
  induction pushes as [|[c e] ps IH]; simpl; intros l ND; auto.
  apply IH. apply push_edge_keys. auto.
Qed.

(* next_find of a state with distinct keys *)
Lemma next_find_has : forall s c e, NoDup (map fst (next s)) -> (In e (next_find s c) <-> has_edge (next s) c e).
Proof.
  intros s c e ND. unfold next_find, has_edge. split.
  - destruct (assoc c (next s)) as [es|] eqn:E; [|contradiction]. intros H. exists es. split; auto using assoc_In.
  - intros (es & H1 & H2). rewrite (In_assoc _ _ es); auto.
Qed.

Lemma touch0_has : forall s c e, has_edge (next (touch0 s)) c e <-> has_edge (next s) c e.
Proof.
  intros s c e. unfold touch0. destruct (assoc 0 (next s)); [tauto|]. simpl. unfold has_edge. split.
  - intros (es & H1 & H2). apply in_app_or in H1 as [H1|[H1|[]]]; [eauto|]. inversion H1; subst. contradiction.
  - intros (es & H1 & H2). exists es. split; auto. apply in_or_app. auto.
Qed.

Lemma is_edge_has : forall A p c e, wf_ta A -> forall s, In (p, s) (states A) -> (is_edge A p c e <-> has_edge (next s) c e).
Proof.
  intros A p c e W s Hs. unfold is_edge, has_edge. split.
  - intros (s' & es & H1 & H2 & H3). assert (s' = s).
    { pose proof (In_assoc _ _ _ (wf_nodup _ W) H1). pose proof (In_assoc _ _ _ (wf_nodup _ W) Hs). congruence. }
    subst. eauto.
  - intros (es & H1 & H2). exists s, es. auto.
Qed.

Lemma touch_edges : forall A p c e, is_edge (touch A) p c e <-> is_edge A p c e.
Proof.
  intros A p c e. unfold is_edge, touch; cbn [states]. split.
  - intros (s & es & H1 & H2 & H3). apply in_map_iff in H1 as ([p' s'] & E & H1). inversion E; subst.
    destruct (proj1 (touch0_has s' c e)) as (es' & ? & ?); [exists es; auto|]. exists s', es'. auto.
  - intros (s & es & H1 & H2 & H3).
    destruct (proj2 (touch0_has s c e)) as (es' & ? & ?); [exists es; auto|].
    exists (touch0 s), es'. split; auto. apply in_map_iff. exists (p, s). auto.
Qed.

Section Product.
  Variables (in1 in2 : ta) (fresh2 : ptr -> ptr -> ptr).
  Hypothesis W1 : wf_ta in1.
  Hypothesis W2 : wf_ta in2.
  Hypothesis Inj : forall p1 p2 q1 q2,
    In p1 (map fst (states in1)) -> In q1 (map fst (states in1)) ->
    In p2 (map fst (states in2)) -> In q2 (map fst (states in2)) ->
    fresh2 p1 p2 = fresh2 q1 q2 -> p1 = q1 /\ p2 = q2.

  Let out := intersectionTA in1 in2 fresh2.

  Definition zd (A : ta) (p : ptr) : bool := match deref A p with Some s => zeroDur s | None => false end.

  Lemma toI_iff : forall n1 n2 q, toI in1 in2 fresh2 n1 n2 = Some q <->
    In n1 (map fst (states in1)) /\ In n2 (map fst (states in2)) /\ zd in1 n1 = zd in2 n2 /\ q = fresh2 n1 n2.
  Proof.
    intros n1 n2 q. unfold toI, zd, deref.
    destruct (assoc n1 (states in1)) as [s1|] eqn:E1; destruct (assoc n2 (states in2)) as [s2|] eqn:E2.
    - destruct (Bool.eqb (zeroDur s1) (zeroDur s2)) eqn:EZ.
      + apply eqb_prop in EZ. split.
        * intros H; inversion H; subst. apply assoc_In in E1. apply assoc_In in E2.
          repeat split; auto; [apply (in_map fst _ _ E1)|apply (in_map fst _ _ E2)].
        * intros (_ & _ & _ & ->). auto.
      + split; [discriminate|]. intros (_ & _ & H & _). rewrite H in EZ. rewrite eqb_reflx in EZ. discriminate.
    - apply assoc_None in E2. split; [discriminate|tauto].
    - apply assoc_None in E1. split; [discriminate|tauto].
    - apply assoc_None in E1. split; [discriminate|tauto].
  Qed.

  Lemma out_states_in : forall q s, In (q, s) (states out) <->
    exists p1 s1 p2 s2, In (p1, s1) (states in1) /\ In (p2, s2) (states in2) /\ zeroDur s1 = zeroDur s2 /\
      q = fresh2 p1 p2 /\ s = prod_state in1 in2 fresh2 p1 s1 p2 s2.
  Proof.
    intros q s. unfold out, intersectionTA; cbn [states]. rewrite in_flat_map. split.
    - intros ([p1 s1] & H1 & H). apply in_flat_map in H as ([p2 s2] & H2 & H). simpl in H.
      destruct (Bool.eqb _ _) eqn:E; [|contradiction]. apply eqb_prop in E.
      destruct H as [H|[]]. inversion H; subst. exists p1, s1, p2, s2. auto.
    - intros (p1 & s1 & p2 & s2 & H1 & H2 & E & -> & ->). exists (p1, s1). split; auto.
      apply in_flat_map. exists (p2, s2). split; auto. simpl. rewrite E, eqb_reflx. left; auto.
  Qed.

  Lemma prod_pushes_in : forall p1 s1 p2 s2 c e, In (p1, s1) (states in1) -> In (p2, s2) (states in2) ->
    (In (c, e) (prod_pushes in1 in2 fresh2 p1 s1 p2 s2) <->
     (exists e1 n1, c = 0 /\ is_edge in1 p1 0 e1 /\ etgt e1 = Some n1 /\
        e = prod_edge (clockSize in1) (toI in1 in2 fresh2 n1 p2) e1 empty_edge) \/
     (exists e2 n2, c = 0 /\ is_edge in2 p2 0 e2 /\ etgt e2 = Some n2 /\
        e = prod_edge (clockSize in1) (toI in1 in2 fresh2 p1 n2) empty_edge e2) \/
     (exists e1 n1 e2 n2, is_edge in1 p1 c e1 /\ etgt e1 = Some n1 /\ is_edge in2 p2 c e2 /\ etgt e2 = Some n2 /\
        e = prod_edge (clockSize in1) (toI in1 in2 fresh2 n1 n2) e1 e2)).
  Proof.
    intros p1 s1 p2 s2 c e H1 H2.
    pose proof (wf_keys _ W1 _ _ H1) as K1. pose proof (wf_keys _ W2 _ _ H2) as K2.
    unfold prod_pushes. rewrite !in_app_iff, !in_flat_map. split.
    - intros [(e1 & He & H)|[(e2 & He & H)|([c' es1] & Hc & H)]].
      + left. destruct (etgt e1) as [n1|] eqn:ET; [|contradiction]. destruct H as [H|[]]. inversion H; subst.
        exists e1, n1. repeat split; auto. apply (is_edge_has in1 p1 0 e1 W1 s1 H1). apply next_find_has; auto.
      + right. left. destruct (etgt e2) as [n2|] eqn:ET; [|contradiction]. destruct H as [H|[]]. inversion H; subst.
        exists e2, n2. repeat split; auto. apply (is_edge_has in2 p2 0 e2 W2 s2 H2). apply next_find_has; auto.
      + right. right. simpl in H. apply in_flat_map in H as (e1 & He1 & H).
        destruct (etgt e1) as [n1|] eqn:ET; [|contradiction]. apply in_flat_map in H as (e2 & He2 & H).
        destruct (etgt e2) as [n2|] eqn:ET2; [|contradiction]. destruct H as [H|[]]. inversion H; subst.
        exists e1, n1, e2, n2. repeat split; auto.
        * apply (is_edge_has in1 p1 c e1 W1 s1 H1). apply touch0_has. exists es1. auto.
        * apply (is_edge_has in2 p2 c e2 W2 s2 H2). apply next_find_has; auto.
    - intros [(e1 & n1 & -> & He & ET & ->)|[(e2 & n2 & -> & He & ET & ->)|(e1 & n1 & e2 & n2 & He1 & ET1 & He2 & ET2 & ->)]].
      + left. exists e1. apply (is_edge_has in1 p1 0 e1 W1 s1 H1) in He. apply next_find_has in He; auto.
        split; auto. rewrite ET. left; auto.
      + right. left. exists e2. apply (is_edge_has in2 p2 0 e2 W2 s2 H2) in He. apply next_find_has in He; auto.
        split; auto. rewrite ET. left; auto.
      + right. right. apply (is_edge_has in1 p1 c e1 W1 s1 H1) in He1. apply touch0_has in He1.
        destruct He1 as (es1 & A & B). exists (c, es1). split; auto. simpl. apply in_flat_map. exists e1. split; auto.
        rewrite ET1. apply in_flat_map. exists e2.
        apply (is_edge_has in2 p2 c e2 W2 s2 H2) in He2. apply next_find_has in He2; auto. split; auto.
        rewrite ET2. left; auto.
  Qed.

  Lemma state_of : forall A p, In p (map fst (states A)) -> exists s, In (p, s) (states A) /\ (NoDup (map fst (states A)) -> zd A p = zeroDur s).
  Proof.
    intros A p H. destruct (in_fst_exists _ _ H) as (s & Hs). exists s. split; auto.
    intros ND. unfold zd, deref. rewrite (In_assoc _ _ s); auto.
  Qed.

  (* The transitions of the product. *)
  Lemma prod_is_edge : forall p1 p2 c e,
    In p1 (map fst (states in1)) -> In p2 (map fst (states in2)) -> zd in1 p1 = zd in2 p2 ->
    (is_edge out (fresh2 p1 p2) c e <->
     (exists e1 n1, c = 0 /\ is_edge in1 p1 0 e1 /\ etgt e1 = Some n1 /\
        e = prod_edge (clockSize in1) (toI in1 in2 fresh2 n1 p2) e1 empty_edge) \/
     (exists e2 n2, c = 0 /\ is_edge in2 p2 0 e2 /\ etgt e2 = Some n2 /\
        e = prod_edge (clockSize in1) (toI in1 in2 fresh2 p1 n2) empty_edge e2) \/
     (exists e1 n1 e2 n2, is_edge in1 p1 c e1 /\ etgt e1 = Some n1 /\ is_edge in2 p2 c e2 /\ etgt e2 = Some n2 /\
        e = prod_edge (clockSize in1) (toI in1 in2 fresh2 n1 n2) e1 e2)).
  Proof.
    intros p1 p2 c e HP1 HP2 HZ.
    destruct (state_of _ _ HP1) as (s1 & H1 & Z1). destruct (state_of _ _ HP2) as (s2 & H2 & Z2).
    specialize (Z1 (wf_nodup _ W1)). specialize (Z2 (wf_nodup _ W2)).
    rewrite <- (prod_pushes_in p1 s1 p2 s2 c e H1 H2). split.
    - intros (s & es & Hs & Hc & He). apply out_states_in in Hs as (q1 & t1 & q2 & t2 & A & B & _ & E & ->).
      apply Inj in E as [<- <-]; auto; [|apply (in_map fst _ _ A)|apply (in_map fst _ _ B)].
      assert (t1 = s1) by (pose proof (In_assoc _ _ _ (wf_nodup _ W1) A); pose proof (In_assoc _ _ _ (wf_nodup _ W1) H1); congruence).
      assert (t2 = s2) by (pose proof (In_assoc _ _ _ (wf_nodup _ W2) B); pose proof (In_assoc _ _ _ (wf_nodup _ W2) H2); congruence).
      subst. assert (HE : has_edge (next (prod_state in1 in2 fresh2 p1 s1 p2 s2)) c e) by (exists es; auto).
      simpl in HE. apply has_edge_fold in HE as [(x & [] & _)|HE]. auto.
    - intros H. assert (HE : has_edge (next (prod_state in1 in2 fresh2 p1 s1 p2 s2)) c e).
      { simpl. apply has_edge_fold. auto. }
      destruct HE as (es & A & B). exists (prod_state in1 in2 fresh2 p1 s1 p2 s2), es. repeat split; auto.
      apply out_states_in. exists p1, s1, p2, s2. repeat split; auto. congruence.
  Qed.

  Lemma prod_in_states : forall p1 p2, In p1 (map fst (states in1)) -> In p2 (map fst (states in2)) -> zd in1 p1 = zd in2 p2 ->
    In (fresh2 p1 p2) (map fst (states out)).
  Proof.
    intros p1 p2 HP1 HP2 HZ.
    destruct (state_of _ _ HP1) as (s1 & H1 & Z1). destruct (state_of _ _ HP2) as (s2 & H2 & Z2).
    specialize (Z1 (wf_nodup _ W1)). specialize (Z2 (wf_nodup _ W2)).
    apply (in_map fst _ (fresh2 p1 p2, prod_state in1 in2 fresh2 p1 s1 p2 s2)).
    apply out_states_in. exists p1, s1, p2, s2. repeat split; auto. congruence.
  Qed.

  Lemma prod_accepting : forall p1 p2, In p1 (map fst (states in1)) -> In p2 (map fst (states in2)) -> zd in1 p1 = zd in2 p2 ->
    (accepting out (fresh2 p1 p2) <-> accepting in1 p1 /\ accepting in2 p2).
  Proof.
    intros p1 p2 HP1 HP2 HZ.
    destruct (state_of _ _ HP1) as (s1 & H1 & Z1). destruct (state_of _ _ HP2) as (s2 & H2 & Z2).
    specialize (Z1 (wf_nodup _ W1)). specialize (Z2 (wf_nodup _ W2)). split.
    - intros (s & Hs & HM). apply out_states_in in Hs as (q1 & t1 & q2 & t2 & A & B & _ & E & ->).
      apply Inj in E as [<- <-]; auto; [|apply (in_map fst _ _ A)|apply (in_map fst _ _ B)].
      simpl in HM. apply andb_true_iff in HM as [M1 M2]. split; [exists t1|exists t2]; auto.
    - intros [(t1 & A & M1) (t2 & B & M2)].
      assert (t1 = s1) by (pose proof (In_assoc _ _ _ (wf_nodup _ W1) A); pose proof (In_assoc _ _ _ (wf_nodup _ W1) H1); congruence).
      assert (t2 = s2) by (pose proof (In_assoc _ _ _ (wf_nodup _ W2) B); pose proof (In_assoc _ _ _ (wf_nodup _ W2) H2); congruence).
      subst. exists (prod_state in1 in2 fresh2 p1 s1 p2 s2). split.
      + apply out_states_in. exists p1, s1, p2, s2. repeat split; auto. congruence.
      + simpl. rewrite M1, M2. auto.
  Qed.

  Lemma prod_inits_in : forall q, In q (inits out) <->
    exists p1 p2, In p1 (inits in1) /\ In p2 (inits in2) /\ zd in1 p1 = zd in2 p2 /\ q = fresh2 p1 p2.
  Proof.
    intros q. unfold out, intersectionTA, prod_inits; cbn [inits]. rewrite in_flat_map. split.
    - intros (p1 & H1 & H). apply in_flat_map in H as (p2 & H2 & H).
      destruct (toI in1 in2 fresh2 p1 p2) eqn:E; [|contradiction]. destruct H as [<-|[]].
      apply toI_iff in E as (_ & _ & ? & ->). exists p1, p2. auto.
    - intros (p1 & p2 & H1 & H2 & Z & ->). exists p1. split; auto. apply in_flat_map. exists p2. split; auto.
      rewrite (proj2 (toI_iff p1 p2 (fresh2 p1 p2))); [left; auto|].
      repeat split; auto; [apply W1|apply W2]; auto.
  Qed.

  Hypothesis Small : clockSize in1 + clockSize in2 <= 256.

  Lemma clockSize_out : clockSize out = clockSize in1 + clockSize in2.
  Proof. unfold out, clockSize, intersectionTA; simpl. rewrite app_length. auto. Qed.

  Lemma shift_small : forall x, x < clockSize in2 -> shift_clock (clockSize in1) x = clockSize in1 + x.
  Proof. intros x Hx. unfold shift_clock. rewrite Nat.mod_small; lia. Qed.

  (* valuations of the product and of the factors *)
  Definition vleft (v : valuation) : valuation := v.
  Definition vright (v : valuation) : valuation := fun x => v (clockSize in1 + x).
  Definition vjoin (v1 v2 : valuation) : valuation :=
    fun x => if x <? clockSize in1 then v1 x else v2 (x - clockSize in1).

  (* v on the product clocks agrees with v1 and v2 *)
  Definition vsplit (v v1 v2 : valuation) : Prop :=
    (forall x, x < clockSize in1 -> (v x == v1 x)%Q) /\
    (forall x, x < clockSize in2 -> (v (clockSize in1 + x)%nat == v2 x)%Q).

  Lemma split_delay : forall v v1 v2 d, vsplit v v1 v2 -> vsplit (delay v d) (delay v1 d) (delay v2 d).
  Proof. intros v v1 v2 d [A B]. split; intros x Hx; unfold delay; [rewrite (A x Hx)|rewrite (B x Hx)]; reflexivity. Qed.

  Lemma split_guard : forall v v1 v2 e1 e2 t, vsplit v v1 v2 ->
    Forall (fun g => cx g < clockSize in1) (eguard e1) -> Forall (fun g => cx g < clockSize in2) (eguard e2) ->
    (sat_guard v (eguard (prod_edge (clockSize in1) t e1 e2)) <-> sat_guard v1 (eguard e1) /\ sat_guard v2 (eguard e2)).
  Proof.
    intros v v1 v2 e1 e2 t [A B] F1 F2. rewrite Forall_forall in F1, F2. simpl. split.
    - intros H. split; intros g Hg.
      + eapply holds_eq; [apply A; auto|]. apply H. apply in_or_app. auto.
      + pose proof (H (shift_guard (clockSize in1) g)) as HG.
        assert (K : holds (shift_guard (clockSize in1) g) (v (clockSize in1 + cx g))).
        { rewrite <- shift_small by auto. apply HG. apply in_or_app. right. apply in_map. auto. }
        eapply holds_eq; [apply B; auto|exact K].
    - intros [H1 H2] g Hg. apply in_app_or in Hg as [Hg|Hg].
      + eapply holds_eq; [symmetry; apply A; auto|]. auto.
      + apply in_map_iff in Hg as (g0 & <- & Hg). simpl. rewrite shift_small by auto.
        assert (K : holds g0 (v (clockSize in1 + cx g0))) by (eapply holds_eq; [symmetry; apply B; auto|auto]).
        exact K.
  Qed.

  Lemma split_reset : forall v v1 v2 e1 e2 t, vsplit v v1 v2 ->
    Forall (fun x => x < clockSize in1) (eresets e1) -> Forall (fun x => x < clockSize in2) (eresets e2) ->
    vsplit (reset_set v (eresets (prod_edge (clockSize in1) t e1 e2))) (reset_set v1 (eresets e1)) (reset_set v2 (eresets e2)).
  Proof.
    intros v v1 v2 e1 e2 t [A B] F1 F2. rewrite Forall_forall in F1, F2. simpl.
    assert (M : forall y, In y (map (shift_clock (clockSize in1)) (eresets e2)) <-> exists x, In x (eresets e2) /\ y = clockSize in1 + x).
    { intros y. rewrite in_map_iff. split.
      - intros (x & <- & Hx). exists x. split; auto. apply shift_small; auto.
      - intros (x & Hx & ->). exists x. split; auto. apply shift_small; auto. }
    split; intros x Hx; unfold reset_set.
    - destruct (in_dec Nat.eq_dec x (eresets e1 ++ _)) as [I|N]; destruct (in_dec Nat.eq_dec x (eresets e1)) as [I'|N'].
      + reflexivity.
      + exfalso. apply in_app_or in I as [I|I]; [contradiction|]. apply M in I as (y & _ & ?). lia.
      + exfalso. apply N. apply in_or_app. auto.
      + apply A. auto.
    - destruct (in_dec Nat.eq_dec (clockSize in1 + x) (eresets e1 ++ _)) as [I|N]; destruct (in_dec Nat.eq_dec x (eresets e2)) as [I'|N'].
      + reflexivity.
      + exfalso. apply in_app_or in I as [I|I]; [apply F1 in I; lia|]. apply M in I as (y & ? & ?).
        assert (y = x) by lia. subst. contradiction.
      + exfalso. apply N. apply in_or_app. right. apply M. eauto.
      + apply B. auto.
  Qed.

  Lemma split_join : forall v1 v2, vsplit (vjoin v1 v2) v1 v2.
  Proof.
    intros v1 v2. split; intros x Hx; unfold vjoin.
    - destruct (Nat.ltb_spec x (clockSize in1)); [reflexivity|lia].
    - destruct (Nat.ltb_spec (clockSize in1 + x) (clockSize in1)); [lia|].
      replace (clockSize in1 + x - clockSize in1) with x by lia. reflexivity.
  Qed.

  (* Same flags everywhere and no unobservable transitions. *)
  Definition same_zero_flag : Prop := forall p1 s1 p2 s2, In (p1, s1) (states in1) -> In (p2, s2) (states in2) -> zeroDur s1 = zeroDur s2.

  Lemma same_zd : same_zero_flag -> forall p1 p2, In p1 (map fst (states in1)) -> In p2 (map fst (states in2)) -> zd in1 p1 = zd in2 p2.
  Proof.
    intros HZ p1 p2 H1 H2. destruct (state_of _ _ H1) as (s1 & A & Z1). destruct (state_of _ _ H2) as (s2 & B & Z2).
    rewrite (Z1 (wf_nodup _ W1)), (Z2 (wf_nodup _ W2)). eapply HZ; eauto.
  Qed.

  Lemma prod_run_fwd : same_zero_flag -> forall w p1 v1 T q1 u1 T',
    run in1 p1 v1 T w q1 u1 T' ->
    forall p2 v2 q2 u2 T2 v, run in2 p2 v2 T w q2 u2 T2 ->
    In p1 (map fst (states in1)) -> In p2 (map fst (states in2)) -> vsplit v v1 v2 ->
    exists u, run out (fresh2 p1 p2) v T w (fresh2 q1 q2) u T' /\
      In q1 (map fst (states in1)) /\ In q2 (map fst (states in2)) /\ vsplit u u1 u2.
  Proof.
    intros HZ w p1 v1 T q1 u1 T' R1. induction R1; intros p2 v2 q2 u2 T2 v0 R2 HP1 HP2 HS.
    - inversion R2; subst. exists v0. repeat split; auto; try apply HS. constructor.
    - inversion R2 as [|? ? ? ? ? e0 ? q0 ? ? ? He0 Ht0 Hg0 Rr0]; subst.
      pose proof (wf_is_edge _ _ _ _ W1 H) as (T1a & R1a & G1a).
      pose proof (wf_is_edge _ _ _ _ W2 He0) as (T2a & R2a & G2a).
      pose proof (split_delay _ _ _ (t - T) HS) as HSd.
      edestruct IHR1 as (u & Ru & I1 & I2 & Su); [exact Rr0|apply T1a; eauto|apply T2a; eauto| |].
      { eapply split_reset; eauto. }
      exists u. repeat split; auto; try apply Su.
      eapply run_cons with (e := prod_edge (clockSize in1) (toI in1 in2 fresh2 q q0) e e0).
      + apply prod_is_edge; auto; [apply same_zd; auto|]. right. right. exists e, q, e0, q0. auto.
      + simpl. apply toI_iff. repeat split; auto. apply same_zd; auto.
      + eapply split_guard; eauto.
      + exact Ru.
  Qed.

  Lemma prod_run_bwd : same_zero_flag ->
    (forall p e, ~ is_edge in1 p 0 e) -> (forall p e, ~ is_edge in2 p 0 e) ->
    forall w r v T r' u T', run out r v T w r' u T' ->
    forall p1 p2 v1 v2, r = fresh2 p1 p2 -> In p1 (map fst (states in1)) -> In p2 (map fst (states in2)) -> vsplit v v1 v2 ->
    exists q1 q2 u1 u2, r' = fresh2 q1 q2 /\ run in1 p1 v1 T w q1 u1 T' /\ run in2 p2 v2 T w q2 u2 T' /\
      In q1 (map fst (states in1)) /\ In q2 (map fst (states in2)).
  Proof.
    intros HZ E1 E2 w r v T r' u T' R. induction R; intros p1 p2 v1 v2 -> HP1 HP2 HS.
    - exists p1, p2, v1, v2. repeat split; auto; constructor.
    - apply prod_is_edge in H; auto; [|apply same_zd; auto].
      destruct H as [(e1 & n1 & -> & He & _)|[(e2 & n2 & -> & He & _)|(e1 & n1 & e2 & n2 & He1 & ET1 & He2 & ET2 & ->)]];
        [exfalso; eapply E1; eauto|exfalso; eapply E2; eauto|].
      pose proof (wf_is_edge _ _ _ _ W1 He1) as (T1a & R1a & G1a).
      pose proof (wf_is_edge _ _ _ _ W2 He2) as (T2a & R2a & G2a).
      simpl in H0. apply toI_iff in H0 as (I1 & I2 & _ & ->).
      pose proof (split_delay _ _ _ (t - T) HS) as HSd.
      apply (split_guard _ _ _ e1 e2 _ HSd) in H1; auto. destruct H1 as [GA GB].
      destruct (IHR n1 n2 (reset_set (delay v1 (t - T)) (eresets e1)) (reset_set (delay v2 (t - T)) (eresets e2)))
        as (q1 & q2 & u1 & u2 & -> & RA & RB & J1 & J2); auto.
      { eapply split_reset; eauto. }
      exists q1, q2, u1, u2. repeat split; auto; econstructor; eauto.
  Qed.

  Lemma product_accepts : same_zero_flag ->
    (forall p e, ~ is_edge in1 p 0 e) -> (forall p e, ~ is_edge in2 p 0 e) ->
    forall w, accepts out w <-> accepts in1 w /\ accepts in2 w.
  Proof.
    intros HZ E1 E2 w. split.
    - intros (p & q & v & T & Hp & R & HA). apply prod_inits_in in Hp as (p1 & p2 & H1 & H2 & _ & ->).
      destruct (prod_run_bwd HZ E1 E2 _ _ _ _ _ _ _ R p1 p2 zeroval zeroval eq_refl (wf_inits _ W1 _ H1) (wf_inits _ W2 _ H2))
        as (q1 & q2 & u1 & u2 & -> & RA & RB & J1 & J2).
      { split; intros; reflexivity. }
      apply prod_accepting in HA; auto; [|apply same_zd; auto]. destruct HA as [A1 A2].
      split; [exists p1, q1, u1, T|exists p2, q2, u2, T]; auto.
    - intros [(p1 & q1 & u1 & T1 & H1 & R1 & A1) (p2 & q2 & u2 & T2 & H2 & R2 & A2)].
      edestruct (prod_run_fwd HZ) as (u & R & J1 & J2 & _); [exact R1|exact R2| | | |].
      + apply W1; auto.
      + apply W2; auto.
      + instantiate (1 := zeroval). split; intros; reflexivity.
      + exists (fresh2 p1 p2), (fresh2 q1 q2), u, T1. split; [|split; auto].
        * apply prod_inits_in. exists p1, p2. repeat split; auto. apply same_zd; auto; [apply W1|apply W2]; auto.
        * apply prod_accepting; auto. apply same_zd; auto.
  Qed.

  (* ---- with unobservable transitions ---- *)

  Definition vsync (v : valuation) (T : Q) (v1 : valuation) (T1 : Q) (v2 : valuation) (T2 : Q) : Prop :=
    (forall x, x < clockSize in1 -> (v x == v1 x + (T - T1))%Q) /\
    (forall x, x < clockSize in2 -> (v (clockSize in1 + x)%nat == v2 x + (T - T2))%Q).

  Lemma sync_delay : forall v T v1 T1 v2 T2 t, vsync v T v1 T1 v2 T2 ->
    vsplit (delay v (t - T)) (delay v1 (t - T1)) (delay v2 (t - T2)).
  Proof. intros v T v1 T1 v2 T2 t [A B]. split; intros x Hx; unfold delay; [rewrite (A x Hx)|rewrite (B x Hx)]; ring. Qed.

  Lemma wf_empty_edge : forall n, Forall (fun x => x < n) (eresets empty_edge) /\ Forall (fun g => cx g < n) (eguard empty_edge).
  Proof. intros n. split; constructor. Qed.

  Lemma step_left : same_zero_flag -> forall p1 v1 T1 p2 v2 T2 v T t e1 n1,
    In p1 (map fst (states in1)) -> In p2 (map fst (states in2)) -> vsync v T v1 T1 v2 T2 ->
    is_edge in1 p1 0 e1 -> etgt e1 = Some n1 -> sat_guard (delay v1 (t - T1)) (eguard e1) ->
    exists e, is_edge out (fresh2 p1 p2) 0 e /\ etgt e = Some (fresh2 n1 p2) /\
      sat_guard (delay v (t - T)) (eguard e) /\ In n1 (map fst (states in1)) /\
      vsync (reset_set (delay v (t - T)) (eresets e)) t (reset_set (delay v1 (t - T1)) (eresets e1)) t v2 T2.
  Proof.
    intros HZ p1 v1 T1 p2 v2 T2 v T t e1 n1 HP1 HP2 HS He Ht Hg.
    pose proof (wf_is_edge _ _ _ _ W1 He) as (Ta & Ra & Ga). destruct (wf_empty_edge (clockSize in2)) as [R0 G0].
    pose proof (sync_delay _ _ _ _ _ _ t HS) as HD.
    exists (prod_edge (clockSize in1) (toI in1 in2 fresh2 n1 p2) e1 empty_edge). split; [|split; [|split; [|split]]].
    - apply prod_is_edge; auto; [apply same_zd; auto|]. left. exists e1, n1. auto.
    - simpl. apply toI_iff. repeat split; auto. apply same_zd; auto.
    - eapply split_guard; eauto. split; auto. intros g [].
    - auto.
    - destruct (split_reset _ _ _ e1 empty_edge (toI in1 in2 fresh2 n1 p2) HD Ra R0) as [A B]. split; intros x Hx.
      + rewrite (A x Hx). ring.
      + rewrite (B x Hx). unfold reset_set; simpl. unfold delay. ring.
  Qed.

  Lemma step_right : same_zero_flag -> forall p1 v1 T1 p2 v2 T2 v T t e2 n2,
    In p1 (map fst (states in1)) -> In p2 (map fst (states in2)) -> vsync v T v1 T1 v2 T2 ->
    is_edge in2 p2 0 e2 -> etgt e2 = Some n2 -> sat_guard (delay v2 (t - T2)) (eguard e2) ->
    exists e, is_edge out (fresh2 p1 p2) 0 e /\ etgt e = Some (fresh2 p1 n2) /\
      sat_guard (delay v (t - T)) (eguard e) /\ In n2 (map fst (states in2)) /\
      vsync (reset_set (delay v (t - T)) (eresets e)) t v1 T1 (reset_set (delay v2 (t - T2)) (eresets e2)) t.
  Proof.
    intros HZ p1 v1 T1 p2 v2 T2 v T t e2 n2 HP1 HP2 HS He Ht Hg.
    pose proof (wf_is_edge _ _ _ _ W2 He) as (Ta & Ra & Ga). destruct (wf_empty_edge (clockSize in1)) as [R0 G0].
    pose proof (sync_delay _ _ _ _ _ _ t HS) as HD.
    exists (prod_edge (clockSize in1) (toI in1 in2 fresh2 p1 n2) empty_edge e2). split; [|split; [|split; [|split]]].
    - apply prod_is_edge; auto; [apply same_zd; auto|]. right. left. exists e2, n2. auto.
    - simpl. apply toI_iff. repeat split; auto. apply same_zd; auto.
    - eapply (split_guard _ _ _ empty_edge e2 None); eauto. split; auto. intros g [].
    - auto.
    - destruct (split_reset _ _ _ empty_edge e2 (toI in1 in2 fresh2 p1 n2) HD R0 Ra) as [A B]. split; intros x Hx.
      + rewrite (A x Hx). unfold reset_set; simpl. unfold delay. ring.
      + rewrite (B x Hx). ring.
  Qed.

  Lemma step_both : same_zero_flag -> forall p1 v1 T1 p2 v2 T2 v T t c e1 n1 e2 n2,
    In p1 (map fst (states in1)) -> In p2 (map fst (states in2)) -> vsync v T v1 T1 v2 T2 ->
    is_edge in1 p1 c e1 -> etgt e1 = Some n1 -> sat_guard (delay v1 (t - T1)) (eguard e1) ->
    is_edge in2 p2 c e2 -> etgt e2 = Some n2 -> sat_guard (delay v2 (t - T2)) (eguard e2) ->
    exists e, is_edge out (fresh2 p1 p2) c e /\ etgt e = Some (fresh2 n1 n2) /\
      sat_guard (delay v (t - T)) (eguard e) /\ In n1 (map fst (states in1)) /\ In n2 (map fst (states in2)) /\
      vsync (reset_set (delay v (t - T)) (eresets e)) t
            (reset_set (delay v1 (t - T1)) (eresets e1)) t (reset_set (delay v2 (t - T2)) (eresets e2)) t.
  Proof.
    intros HZ p1 v1 T1 p2 v2 T2 v T t c e1 n1 e2 n2 HP1 HP2 HS He1 Ht1 Hg1 He2 Ht2 Hg2.
    pose proof (wf_is_edge _ _ _ _ W1 He1) as (Ta & Ra & Ga). pose proof (wf_is_edge _ _ _ _ W2 He2) as (Tb & Rb & Gb).
    pose proof (sync_delay _ _ _ _ _ _ t HS) as HD.
    exists (prod_edge (clockSize in1) (toI in1 in2 fresh2 n1 n2) e1 e2). split; [|split; [|split; [|split; [|split]]]]; auto.
    - apply prod_is_edge; auto; [apply same_zd; auto|]. right. right. exists e1, n1, e2, n2. auto.
    - simpl. apply toI_iff. repeat split; auto. apply same_zd; auto.
    - eapply split_guard; eauto.
    - destruct (split_reset _ _ _ e1 e2 (toI in1 in2 fresh2 n1 n2) HD Ra Rb) as [A B]. split; intros x Hx.
      + rewrite (A x Hx). ring.
      + rewrite (B x Hx). ring.
  Qed.

  Lemma nondecreasing_In : forall w lo c t, nondecreasing lo w -> In (c, t) w -> (lo <= t)%Q.
  Proof.
    induction w as [|[c0 t0] w IH]; simpl; intros lo c t H I; [contradiction|].
    destruct H as [H1 H2]. destruct I as [I|I]; [inversion I; subst; auto|].
    specialize (IH _ _ _ H2 I). apply (Qle_trans _ t0); auto.
  Qed.

  Lemma nondecreasing_weaken : forall w lo lo', (lo' <= lo)%Q -> nondecreasing lo w -> nondecreasing lo' w.
  Proof. destruct w as [|[c t] w]; simpl; intros lo lo' H N; auto. destruct N. split; auto. apply (Qle_trans _ lo); auto. Qed.

  Lemma observe_In : forall w x, In x (observe w) -> In x w.
  Proof. intros w x H. apply filter_In in H. tauto. Qed.

  Lemma prod_merge : same_zero_flag -> forall n w1 w2, length w1 + length w2 <= n ->
    forall p1 v1 T1 q1 u1 T1' p2 v2 T2 q2 u2 T2' v T,
    run in1 p1 v1 T1 w1 q1 u1 T1' -> run in2 p2 v2 T2 w2 q2 u2 T2' ->
    observe w1 = observe w2 -> nondecreasing T w1 -> nondecreasing T w2 ->
    In p1 (map fst (states in1)) -> In p2 (map fst (states in2)) -> vsync v T v1 T1 v2 T2 ->
    exists w u T', run out (fresh2 p1 p2) v T w (fresh2 q1 q2) u T' /\ observe w = observe w1 /\ nondecreasing T w /\
      In q1 (map fst (states in1)) /\ In q2 (map fst (states in2)).
  Proof.
    intros HZ n. induction n as [|n IH]; intros w1 w2 LEN p1 v1 T1 q1 u1 T1' p2 v2 T2 q2 u2 T2' v T R1 R2 EO N1 N2 HP1 HP2 HS.
    { destruct w1, w2; simpl in LEN; try lia. inversion R1; inversion R2; subst.
      exists [], v, T. repeat split; auto. constructor. }
    (* one unobservable step on the left *)
    assert (Left : forall t w1', w1 = (0, t) :: w1' -> nondecreasing t w2 ->
       exists w u T', run out (fresh2 p1 p2) v T w (fresh2 q1 q2) u T' /\ observe w = observe w1 /\ nondecreasing T w /\
      In q1 (map fst (states in1)) /\ In q2 (map fst (states in2))).
    { intros t w1' -> N2'. destruct N1 as [Nt N1].
      inversion R1 as [|? ? ? ? ? e0 ? q0 ? ? ? He0 Ht0 Hg0 Rr0]; subst.
      destruct (step_left HZ _ _ _ _ _ _ _ _ _ _ _ HP1 HP2 HS He0 Ht0 Hg0) as (e & He & Ht & Hg & I1 & HS').
      destruct (IH w1' w2 ltac:(simpl in LEN; lia) _ _ _ _ _ _ _ _ _ _ _ _ _ _ Rr0 R2 EO N1 N2' I1 HP2 HS')
        as (w & u & T' & Rw & EOw & Nw & J1 & J2).
      exists ((0, t) :: w), u, T'. split; [econstructor; eauto|]. repeat split; auto. }
    assert (Right : forall t w2', w2 = (0, t) :: w2' -> nondecreasing t w1 ->
       exists w u T', run out (fresh2 p1 p2) v T w (fresh2 q1 q2) u T' /\ observe w = observe w1 /\ nondecreasing T w /\
      In q1 (map fst (states in1)) /\ In q2 (map fst (states in2))).
    { intros t w2' -> N1'. destruct N2 as [Nt N2].
      inversion R2 as [|? ? ? ? ? e0 ? q0 ? ? ? He0 Ht0 Hg0 Rr0]; subst.
      destruct (step_right HZ _ _ _ _ _ _ _ _ _ _ _ HP1 HP2 HS He0 Ht0 Hg0) as (e & He & Ht & Hg & I1 & HS').
      destruct (IH w1 w2' ltac:(simpl in LEN; lia) _ _ _ _ _ _ _ _ _ _ _ _ _ _ R1 Rr0 EO N1' N2 HP1 I1 HS')
        as (w & u & T' & Rw & EOw & Nw & J1 & J2).
      exists ((0, t) :: w), u, T'. split; [econstructor; eauto|]. repeat split; auto. }
    destruct w1 as [|[c1 t1] w1'].
    - destruct w2 as [|[c2 t2] w2'].
      + inversion R1; inversion R2; subst. exists [], v, T. repeat split; auto. constructor.
      + destruct c2; [|simpl in EO; discriminate]. apply (Right t2 w2'); simpl; auto.
    - destruct c1 as [|c1].
      + destruct w2 as [|[c2 t2] w2']; [apply (Left t1 w1'); simpl; auto|].
        destruct c2 as [|c2].
        * destruct (Qlt_le_dec t2 t1) as [L|L].
          -- apply (Right t2 w2'); auto. destruct N1 as [? N1]. split; [apply Qlt_le_weak; auto|auto].
          -- apply (Left t1 w1'); auto. destruct N2 as [? N2]. split; auto.
        * apply (Left t1 w1'); auto. destruct N1 as [? N1]. destruct N2 as [? N2]. split; auto.
          apply (nondecreasing_In w1' t1 (S c2)); auto. apply observe_In.
          change (observe ((0, t1) :: w1')) with (observe w1') in EO. rewrite EO. left; auto.
      + destruct w2 as [|[c2 t2] w2']; [simpl in EO; discriminate|]. destruct c2 as [|c2].
        * apply (Right t2 w2'); auto. destruct N1 as [? N1]. destruct N2 as [? N2]. split; auto.
          apply (nondecreasing_In w2' t2 (S c1)); auto. apply observe_In.
          change (observe ((0, t2) :: w2')) with (observe w2') in EO. rewrite <- EO. left; auto.
        * simpl in EO. inversion EO; subst.
          inversion R1 as [|? ? ? ? ? e0 ? q0 ? ? ? He0 Ht0 Hg0 Rr0]; subst.
          inversion R2 as [|? ? ? ? ? e0' ? q0' ? ? ? He0' Ht0' Hg0' Rr0']; subst.
          destruct (step_both HZ _ _ _ _ _ _ _ _ _ _ _ _ _ _ HP1 HP2 HS He0 Ht0 Hg0 He0' Ht0' Hg0') as (e & He & Ht & Hg & I1 & I2 & HS').
          destruct N1 as [? N1]. destruct N2 as [? N2].
          destruct (IH w1' w2' ltac:(simpl in LEN; lia) _ _ _ _ _ _ _ _ _ _ _ _ _ _ Rr0 Rr0' H2 N1 N2 I1 I2 HS')
            as (w & u & T' & Rw & EOw & Nw & J1 & J2).
          exists ((S c2, t2) :: w), u, T'. split; [econstructor; eauto|]. repeat split; auto. simpl. f_equal. auto.
  Qed.

  Lemma prod_unmerge : same_zero_flag -> forall w r v T r' u T', run out r v T w r' u T' -> nondecreasing T w ->
    forall p1 p2 v1 T1 v2 T2, r = fresh2 p1 p2 -> In p1 (map fst (states in1)) -> In p2 (map fst (states in2)) ->
    vsync v T v1 T1 v2 T2 ->
    exists q1 q2 w1 w2 u1 u2 T1' T2', r' = fresh2 q1 q2 /\ run in1 p1 v1 T1 w1 q1 u1 T1' /\ run in2 p2 v2 T2 w2 q2 u2 T2' /\
      observe w1 = observe w /\ observe w2 = observe w /\ nondecreasing T w1 /\ nondecreasing T w2 /\
      In q1 (map fst (states in1)) /\ In q2 (map fst (states in2)).
  Proof.
    intros HZ w r v T r' u T' R. induction R; intros N p1 p2 v1 T1 v2 T2 -> HP1 HP2 HS.
    - exists p1, p2, [], [], v1, v2, T1, T2. repeat split; auto; constructor.
    - destruct N as [Nt N]. pose proof (sync_delay _ _ _ _ _ _ t HS) as HD.
      apply prod_is_edge in H; auto; [|apply same_zd; auto].
      destruct H as [(e1 & n1 & -> & He1 & ET1 & ->)|[(e2 & n2 & -> & He2 & ET2 & ->)|(e1 & n1 & e2 & n2 & He1 & ET1 & He2 & ET2 & ->)]].
      + pose proof (wf_is_edge _ _ _ _ W1 He1) as (Ta & Ra & Ga). destruct (wf_empty_edge (clockSize in2)) as [R0 G0].
        simpl in H0. apply toI_iff in H0 as (I1 & I2 & _ & ->).
        apply (split_guard _ _ _ e1 empty_edge _ HD) in H1; auto. destruct H1 as [GA _].
        destruct (IHR N n1 p2 (reset_set (delay v1 (t - T1)) (eresets e1)) t v2 T2) as
          (q1 & q2 & w1 & w2 & u1 & u2 & T1' & T2' & -> & RA & RB & O1 & O2 & D1 & D2 & J1 & J2); auto.
        { destruct (split_reset _ _ _ e1 empty_edge (toI in1 in2 fresh2 n1 p2) HD Ra R0) as [A B]. split; intros x Hx.
          - rewrite (A x Hx). ring.
          - rewrite (B x Hx). unfold reset_set; simpl. unfold delay. ring. }
        exists q1, q2, ((0, t) :: w1), w2, u1, u2, T1', T2'. split; auto. split; [econstructor; eauto|]. repeat split; auto.
        apply (nondecreasing_weaken _ t); auto.
      + pose proof (wf_is_edge _ _ _ _ W2 He2) as (Ta & Ra & Ga). destruct (wf_empty_edge (clockSize in1)) as [R0 G0].
        simpl in H0. apply toI_iff in H0 as (I1 & I2 & _ & ->).
        apply (split_guard _ _ _ empty_edge e2 None HD) in H1; auto. destruct H1 as [_ GA].
        destruct (IHR N p1 n2 v1 T1 (reset_set (delay v2 (t - T2)) (eresets e2)) t) as
          (q1 & q2 & w1 & w2 & u1 & u2 & T1' & T2' & -> & RA & RB & O1 & O2 & D1 & D2 & J1 & J2); auto.
        { destruct (split_reset _ _ _ empty_edge e2 (toI in1 in2 fresh2 p1 n2) HD R0 Ra) as [A B]. split; intros x Hx.
          - rewrite (A x Hx). unfold reset_set; simpl. unfold delay. ring.
          - rewrite (B x Hx). ring. }
        exists q1, q2, w1, ((0, t) :: w2), u1, u2, T1', T2'. split; auto. split; auto. split; [econstructor; eauto|]. repeat split; auto.
        apply (nondecreasing_weaken _ t); auto.
      + pose proof (wf_is_edge _ _ _ _ W1 He1) as (Ta & Ra & Ga). pose proof (wf_is_edge _ _ _ _ W2 He2) as (Tb & Rb & Gb).
        simpl in H0. apply toI_iff in H0 as (I1 & I2 & _ & ->).
        apply (split_guard _ _ _ e1 e2 _ HD) in H1; auto. destruct H1 as [GA GB].
        destruct (IHR N n1 n2 (reset_set (delay v1 (t - T1)) (eresets e1)) t (reset_set (delay v2 (t - T2)) (eresets e2)) t) as
          (q1 & q2 & w1 & w2 & u1 & u2 & T1' & T2' & -> & RA & RB & O1 & O2 & D1 & D2 & J1 & J2); auto.
        { destruct (split_reset _ _ _ e1 e2 (toI in1 in2 fresh2 n1 n2) HD Ra Rb) as [A B]. split; intros x Hx.
          - rewrite (A x Hx). ring.
          - rewrite (B x Hx). ring. }
        exists q1, q2, ((c, t) :: w1), ((c, t) :: w2), u1, u2, T1', T2'. split; auto. split; [econstructor; eauto|].
        split; [econstructor; eauto|]. repeat split; auto; simpl; destruct c; simpl; auto; f_equal; auto.
  Qed.

  Lemma product_lang : same_zero_flag -> forall w, lang out w <-> lang in1 w /\ lang in2 w.
  Proof.
    intros HZ w. split.
    - intros (x & EO & N & p & q & v & T & Hp & R & HA). apply prod_inits_in in Hp as (p1 & p2 & H1 & H2 & _ & ->).
      destruct (prod_unmerge HZ _ _ _ _ _ _ _ R N p1 p2 zeroval 0%Q zeroval 0%Q eq_refl (wf_inits _ W1 _ H1) (wf_inits _ W2 _ H2))
        as (q1 & q2 & w1 & w2 & u1 & u2 & T1 & T2 & -> & RA & RB & O1 & O2 & D1 & D2 & J1 & J2).
      { split; intros; unfold zeroval; reflexivity. }
      apply prod_accepting in HA; auto; [|apply same_zd; auto]. destruct HA as [A1 A2].
      split; [exists w1|exists w2]; split; try congruence; split; auto;
        [exists p1, q1, u1, T1|exists p2, q2, u2, T2]; auto.
    - intros [(x1 & EO1 & N1 & p1 & q1 & u1 & T1 & H1 & R1 & A1) (x2 & EO2 & N2 & p2 & q2 & u2 & T2 & H2 & R2 & A2)].
      destruct (prod_merge HZ _ x1 x2 (Nat.le_refl _) p1 zeroval 0%Q q1 u1 T1 p2 zeroval 0%Q q2 u2 T2 zeroval 0%Q R1 R2)
        as (x & u & T & R & EO & N & J1 & J2); auto.
      + congruence.
      + apply W1; auto.
      + apply W2; auto.
      + split; intros; unfold zeroval; reflexivity.
      + exists x. split; [congruence|]. split; auto. exists (fresh2 p1 p2), (fresh2 q1 q2), u, T. split; [|split; auto].
        * apply prod_inits_in. exists p1, p2. repeat split; auto. apply same_zd; auto; [apply W1|apply W2]; auto.
        * apply prod_accepting; auto. apply same_zd; auto.
  Qed.
End Product.

(* ---------- the product is well formed ---------- *)

Lemma NoDup_app : forall {A} (l k : list A), NoDup l -> NoDup k -> (forall x, In x l -> ~ In x k) -> NoDup (l ++ k).
Proof.
  induction l as [|a l IH]; simpl; intros k N1 N2 D; auto.
  inversion N1; subst. constructor.
  - intros H. apply in_app_or in H as [H|H]; [contradiction|]. apply (D a); auto.
  - apply IH; auto.
Qed.

Lemma product_wf : forall in1 in2 fresh2, wf_ta in1 -> wf_ta in2 ->
  (forall p1 p2 q1 q2,
    In p1 (map fst (states in1)) -> In q1 (map fst (states in1)) ->
    In p2 (map fst (states in2)) -> In q2 (map fst (states in2)) ->
    fresh2 p1 p2 = fresh2 q1 q2 -> p1 = q1 /\ p2 = q2) ->
  clockSize in1 + clockSize in2 <= 256 -> wf_ta (intersectionTA in1 in2 fresh2).
Proof.
  intros in1 in2 fresh2 W1 W2 Inj Small. constructor.
  - (* addresses distinct *)
    assert (Loc : forall l1 l2, NoDup (map fst l1) -> NoDup (map fst l2) ->
      (forall x, In x l1 -> In x (states in1)) -> (forall x, In x l2 -> In x (states in2)) ->
      NoDup (map fst (flat_map (fun ps1 => flat_map (fun ps2 =>
           if Bool.eqb (zeroDur (snd ps1)) (zeroDur (snd ps2))
           then [(fresh2 (fst ps1) (fst ps2), prod_state in1 in2 fresh2 (fst ps1) (snd ps1) (fst ps2) (snd ps2))]
           else []) l2) l1))).
    { intros l1 l2 N1 N2 S1 S2. induction l1 as [|[p1 s1] l1 IH]; simpl; [constructor|].
      inversion N1; subst. rewrite map_app. apply NoDup_app; auto.
      - clear IH. assert (HP1 : In p1 (map fst (states in1))) by (apply (in_map fst _ (p1, s1)); apply S1; left; auto).
        clear S1 N1 H1 H2 l1. induction l2 as [|[p2 s2] l2 IH2]; simpl; [constructor|].
        inversion N2; subst. destruct (Bool.eqb _ _); simpl; [constructor|]; auto.
        + intros H. apply in_map_iff in H as ([q s] & E & H). apply in_flat_map in H as ([p3 s3] & H3 & H).
          simpl in H. destruct (Bool.eqb _ _); [|contradiction]. destruct H as [H|[]]. inversion H; subst. simpl in E.
          apply Inj in E as [_ <-]; auto.
          * apply H1. apply (in_map fst _ _ H3).
          * apply (in_map fst _ (p3, s3)). apply S2. right; auto.
          * apply (in_map fst _ (p2, s2)). apply S2. left; auto.
        + apply IH2; auto. intros; apply S2; right; auto.
        + apply IH2; auto. intros; apply S2; right; auto.
      - apply IH; auto. intros; apply S1; right; auto.
      - intros x Hx Hx'. apply in_map_iff in Hx as ([q s] & E & H). apply in_map_iff in Hx' as ([q' s'] & E' & H').
        simpl in E, E'. subst. apply in_flat_map in H as ([p2 s2] & HA & H). apply in_flat_map in H' as ([p3 s3] & HB & H').
        apply in_flat_map in H' as ([p4 s4] & HC & H'). simpl in *.
        destruct (Bool.eqb _ _); [|contradiction]. destruct (Bool.eqb (zeroDur s3) _); [|contradiction].
        destruct H as [H|[]]. destruct H' as [H'|[]]. inversion H; inversion H'; subst.
        apply Inj in H5 as [-> _].
        + apply H1. apply (in_map fst _ _ HB).
        + apply (in_map fst _ (p3, s3)). apply S1. right; auto.
        + apply (in_map fst _ (p1, s1)). apply S1. left; auto.
        + apply (in_map fst _ (p4, s4)). apply S2. auto.
        + apply (in_map fst _ (p2, s2)). apply S2. auto. }
    apply Loc; auto; [apply W1|apply W2].
  - intros p s Hp. apply out_states_in in Hp as (p1 & s1 & p2 & s2 & _ & _ & _ & _ & ->).
    simpl. apply fold_push_keys. constructor.
  - intros p s c es e Hp Hc He.
    assert (HE : is_edge (intersectionTA in1 in2 fresh2) p c e) by (exists s, es; auto).
    apply out_states_in in Hp as (p1 & s1 & p2 & s2 & H1 & H2 & Z & -> & ->).
    assert (P1 : In p1 (map fst (states in1))) by apply (in_map fst _ _ H1).
    assert (P2 : In p2 (map fst (states in2))) by apply (in_map fst _ _ H2).
    assert (ZD : zd in1 p1 = zd in2 p2).
    { unfold zd, deref. rewrite (In_assoc _ _ s1), (In_assoc _ _ s2); auto; [apply W2|apply W1]. }
    apply prod_is_edge in HE; auto.
    assert (TG : forall n1 n2 t, toI in1 in2 fresh2 n1 n2 = Some t -> In t (map fst (states (intersectionTA in1 in2 fresh2)))).
    { intros n1 n2 t E. apply toI_iff in E as (A & B & C & ->). apply prod_in_states; auto. }
    assert (SH : forall l n, Forall (fun x => x < clockSize in2) l -> n = clockSize in1 ->
       Forall (fun x => x < clockSize (intersectionTA in1 in2 fresh2)) (map (shift_clock n) l)).
    { intros l n F ->. rewrite Forall_forall in *. intros y Hy. apply in_map_iff in Hy as (x & <- & Hx).
      rewrite (shift_small in1 in2 Small) by auto. rewrite clockSize_out. specialize (F x Hx). lia. }
    assert (SG : forall l, Forall (fun g => cx g < clockSize in2) l ->
       Forall (fun g => cx g < clockSize (intersectionTA in1 in2 fresh2)) (map (shift_guard (clockSize in1)) l)).
    { intros l F. rewrite Forall_forall in *. intros y Hy. apply in_map_iff in Hy as (g & <- & Hg).
      simpl. rewrite (shift_small in1 in2 Small) by auto. rewrite clockSize_out. specialize (F g Hg). lia. }
    assert (UP1 : forall l, Forall (fun x => x < clockSize in1) l -> Forall (fun x => x < clockSize (intersectionTA in1 in2 fresh2)) l).
    { intros l F. eapply Forall_impl; [|exact F]. intros x Hx. cbv beta in Hx. rewrite clockSize_out. lia. }
    assert (UP2 : forall l, Forall (fun g => cx g < clockSize in1) l -> Forall (fun g => cx g < clockSize (intersectionTA in1 in2 fresh2)) l).
    { intros l F. eapply Forall_impl; [|exact F]. intros x Hx. cbv beta in Hx |- *. rewrite clockSize_out. lia. }
    destruct HE as [(e1 & n1 & -> & He1 & ET & ->)|[(e2 & n2 & -> & He2 & ET & ->)|(e1 & n1 & e2 & n2 & He1 & ET1 & He2 & ET2 & ->)]].
    + pose proof (wf_is_edge _ _ _ _ W1 He1) as (_ & R & G). split; [|split]; simpl.
      * intros t Ht. eapply TG; eauto.
      * rewrite app_nil_r. auto.
      * rewrite app_nil_r. auto.
    + pose proof (wf_is_edge _ _ _ _ W2 He2) as (_ & R & G). split; [|split]; simpl; auto.
      intros t Ht. eapply TG; eauto.
    + pose proof (wf_is_edge _ _ _ _ W1 He1) as (_ & R1 & G1). pose proof (wf_is_edge _ _ _ _ W2 He2) as (_ & R2 & G2).
      split; [|split]; simpl.
      * intros t Ht. eapply TG; eauto.
      * apply Forall_app; auto.
      * apply Forall_app; auto.
  - intros q Hq. apply prod_inits_in in Hq as (p1 & p2 & H1 & H2 & Z & ->); auto.
    apply prod_in_states; auto; [apply W1|apply W2]; auto.
Qed.

(* ---------- updateInitAccepting ---------- *)

(* [B] differs from [A] only in initial states and accepting flags. *)
Definition same_graph (A B : ta) : Prop :=
  Forall2 (fun a b => fst a = fst b /\ zeroDur (snd a) = zeroDur (snd b) /\ next (snd a) = next (snd b)) (states A) (states B) /\
  maxC A = maxC B.

Lemma same_graph_keys : forall A B, same_graph A B -> map fst (states A) = map fst (states B).
Proof. intros A B [F _]. induction F as [|a b l k (E & _) F IH]; simpl; congruence. Qed.

Lemma same_graph_deref : forall A B p, same_graph A B ->
  match deref A p, deref B p with
  | Some a, Some b => zeroDur a = zeroDur b /\ next a = next b
  | None, None => True
  | _, _ => False
  end.
Proof.
  intros A B p [F _]. unfold deref. induction F as [|[q a] [r b] l k (E & Z & N) F IH]; simpl; auto.
  simpl in E. subst. destruct (p =? r); auto.
Qed.

Lemma toI_same : forall A A' B B' f n1 n2, same_graph A A' -> same_graph B B' -> toI A B f n1 n2 = toI A' B' f n1 n2.
Proof.
  intros A A' B B' f n1 n2 SA SB. unfold toI.
  pose proof (same_graph_deref A A' n1 SA) as HA. pose proof (same_graph_deref B B' n2 SB) as HB.
  destruct (deref A n1), (deref A' n1); try contradiction; auto.
  destruct (deref B n2), (deref B' n2); try contradiction; auto.
  destruct HA as [-> _], HB as [-> _]. auto.
Qed.

Lemma prod_pushes_same : forall A A' B B' f p1 s1 s1' p2 s2 s2', same_graph A A' -> same_graph B B' ->
  zeroDur s1 = zeroDur s1' -> next s1 = next s1' -> zeroDur s2 = zeroDur s2' -> next s2 = next s2' ->
  prod_pushes A B f p1 s1 p2 s2 = prod_pushes A' B' f p1 s1' p2 s2'.
Proof.
  intros A A' B B' f p1 s1 s1' p2 s2 s2' SA SB Z1 N1 Z2 N2. unfold prod_pushes.
  assert (C : clockSize A = clockSize A') by (unfold clockSize; rewrite (proj2 SA); auto).
  assert (F1 : forall c, next_find s1 c = next_find s1' c) by (intros; unfold next_find; rewrite N1; auto).
  assert (F2 : forall c, next_find s2 c = next_find s2' c) by (intros; unfold next_find; rewrite N2; auto).
  assert (T : next (touch0 s1) = next (touch0 s1')).
  { unfold touch0. rewrite N1. destruct (assoc 0 (next s1')); simpl; congruence. }
  rewrite C, F1, F2, T. f_equal; [|f_equal].
  - apply flat_map_ext. intros e. destruct (etgt e); auto. rewrite (toI_same A A' B B') by auto. auto.
  - apply flat_map_ext. intros e. destruct (etgt e); auto. rewrite (toI_same A A' B B') by auto. auto.
  - apply flat_map_ext. intros [c es]. simpl. apply flat_map_ext. intros e. destruct (etgt e); auto.
    rewrite F2. apply flat_map_ext. intros e'. destruct (etgt e'); auto. rewrite (toI_same A A' B B') by auto. auto.
Qed.

Lemma fold_set_match : forall keys (b : ptr * ptr -> bool) (q : ptr * ptr -> ptr) l,
  fold_left (fun l k => set_match (b k) (q k) l) keys l =
  map (fun ps => fold_left (fun ps k => if fst ps =? q k then (fst ps, mkS (b k) (zeroDur (snd ps)) (next (snd ps))) else ps) keys ps) l.
Proof.
  induction keys as [|k keys IH]; intros b q l; simpl.
  - rewrite map_id. auto.
  - rewrite IH. unfold set_match. rewrite map_map. auto.
Qed.

Lemma fold_set_one : forall keys (b : ptr * ptr -> bool) (q : ptr * ptr -> ptr) a s k0,
  (forall k, In k keys -> q k = a -> k = k0) -> q k0 = a ->
  (In k0 keys \/ isMatch s = b k0) ->
  fold_left (fun ps k => if fst ps =? q k then (fst ps, mkS (b k) (zeroDur (snd ps)) (next (snd ps))) else ps) keys (a, s) =
  (a, mkS (b k0) (zeroDur s) (next s)).
Proof.
  induction keys as [|k keys IH]; intros b q a s k0 U E H; simpl.
  - destruct H as [[]|H]. rewrite <- H. destruct s; auto.
  - destruct (Nat.eqb_spec a (q k)).
    + assert (k = k0) by (apply U; [left; auto|congruence]). subst k.
      rewrite (IH b q a _ k0); [reflexivity| |exact E|right; reflexivity].
      intros k' Hk'. apply U. right. auto.
    + apply IH; [intros k' Hk'; apply U; right; auto|exact E|].
      destruct H as [[->|H]|H]; auto. congruence.
Qed.

Lemma update_is_product : forall A B A' B' f, wf_ta A -> wf_ta B -> same_graph A A' -> same_graph B B' ->
  (forall p1 p2 q1 q2,
    In p1 (map fst (states A)) -> In q1 (map fst (states A)) ->
    In p2 (map fst (states B)) -> In q2 (map fst (states B)) ->
    f p1 p2 = f q1 q2 -> p1 = q1 /\ p2 = q2) ->
  updateInitAccepting A' B' (intersectionTA A B f) (toIState_keys A B) f = intersectionTA A' B' f.
Proof.
  intros A B A' B' f WA WB SA SB Inj. unfold updateInitAccepting, intersectionTA at 3. f_equal.
  2: { unfold intersectionTA; simpl. rewrite (proj2 SA), (proj2 SB). auto. }
  rewrite (fold_set_match (toIState_keys A B) (fun k => match_at A' (fst k) && match_at B' (snd k)) (fun k => f (fst k) (snd k))).
  assert (Keys : forall p1 p2, In (p1, p2) (toIState_keys A B) -> In p1 (map fst (states A)) /\ In p2 (map fst (states B))).
  { intros p1 p2 H. unfold toIState_keys in H. apply in_flat_map in H as ([q1 s1] & H1 & H).
    apply in_flat_map in H as ([q2 s2] & H2 & H). simpl in H. destruct (Bool.eqb _ _); [|contradiction].
    destruct H as [H|[]]. inversion H; subst. split; [apply (in_map fst _ _ H1)|apply (in_map fst _ _ H2)]. }
  assert (MA : forall p s', In (p, s') (states A') -> match_at A' p = isMatch s').
  { intros p s' H. unfold match_at, deref. rewrite (In_assoc _ _ s'); auto.
    pose proof (wf_nodup _ WA) as ND. rewrite (same_graph_keys A A' SA) in ND. exact ND. }
  assert (MB : forall p s', In (p, s') (states B') -> match_at B' p = isMatch s').
  { intros p s' H. unfold match_at, deref. rewrite (In_assoc _ _ s'); auto.
    pose proof (wf_nodup _ WB) as ND. rewrite (same_graph_keys B B' SB) in ND. exact ND. }
  unfold intersectionTA at 1; cbn [states].
  (* element-wise *)
  assert (Elt : forall p1 s1 s1' p2 s2 s2', In (p1, s1) (states A) -> In (p1, s1') (states A') ->
     In (p2, s2) (states B) -> In (p2, s2') (states B') ->
     zeroDur s1 = zeroDur s1' -> next s1 = next s1' -> zeroDur s2 = zeroDur s2' -> next s2 = next s2' ->
     zeroDur s1 = zeroDur s2 ->
     fold_left (fun ps k => if fst ps =? f (fst k) (snd k) then (fst ps, mkS (match_at A' (fst k) && match_at B' (snd k)) (zeroDur (snd ps)) (next (snd ps))) else ps)
        (toIState_keys A B) (f p1 p2, prod_state A B f p1 s1 p2 s2) = (f p1 p2, prod_state A' B' f p1 s1' p2 s2')).
  { intros p1 s1 s1' p2 s2 s2' H1 H1' H2 H2' Z1 N1 Z2 N2 Z12.
    assert (P1 : In p1 (map fst (states A))) by apply (in_map fst _ _ H1).
    assert (P2 : In p2 (map fst (states B))) by apply (in_map fst _ _ H2).
    rewrite (fold_set_one (toIState_keys A B) (fun k => match_at A' (fst k) && match_at B' (snd k)) (fun k => f (fst k) (snd k)) (f p1 p2) _ (p1, p2)).
    - simpl. rewrite (MA p1 s1' H1'), (MB p2 s2' H2'). unfold prod_state; simpl.
      rewrite (prod_pushes_same A A' B B' f p1 s1 s1' p2 s2 s2'); auto. rewrite Z1. auto.
    - intros [k1 k2] Hk E. simpl in E. destruct (Keys k1 k2 Hk). apply Inj in E as [-> ->]; auto.
    - reflexivity.
    - left. unfold toIState_keys. apply in_flat_map. exists (p1, s1). split; auto. apply in_flat_map.
      exists (p2, s2). split; auto. simpl. rewrite Z12, eqb_reflx. left; auto. }
  destruct SA as [FA _], SB as [FB _].
  match goal with |- map ?g _ = _ => set (G := g) in * end.
  assert (Row : forall p1 s1 s1' l2 l2', In (p1, s1) (states A) -> In (p1, s1') (states A') ->
      zeroDur s1 = zeroDur s1' -> next s1 = next s1' ->
      (forall x, In x l2 -> In x (states B)) -> (forall x, In x l2' -> In x (states B')) ->
      Forall2 (fun a b => fst a = fst b /\ zeroDur (snd a) = zeroDur (snd b) /\ next (snd a) = next (snd b)) l2 l2' ->
      map G (flat_map (fun ps2 => if Bool.eqb (zeroDur s1) (zeroDur (snd ps2)) then [(f p1 (fst ps2), prod_state A B f p1 s1 (fst ps2) (snd ps2))] else []) l2) =
      flat_map (fun ps2 => if Bool.eqb (zeroDur s1') (zeroDur (snd ps2)) then [(f p1 (fst ps2), prod_state A' B' f p1 s1' (fst ps2) (snd ps2))] else []) l2').
  { intros p1 s1 s1' l2 l2' H1 H1' Z1 N1 I1 I2 F. induction F as [|[p2 s2] [p2' s2'] l k (E & Z & N) F IH]; [reflexivity|]. cbn [flat_map fst snd].
    simpl in E, Z, N. subst p2'. rewrite map_app.
    f_equal; [|apply IH; [intros; apply I1; right; auto|intros; apply I2; right; auto]]. rewrite <- Z, <- Z1. destruct (Bool.eqb (zeroDur s1) (zeroDur s2)) eqn:EB; auto.
    apply eqb_prop in EB. simpl. f_equal. apply (Elt p1 s1 s1' p2 s2 s2'); auto; [apply I1; left; auto|apply I2; left; auto]. }
  assert (All : forall l1 l1', (forall x, In x l1 -> In x (states A)) -> (forall x, In x l1' -> In x (states A')) ->
      Forall2 (fun a b => fst a = fst b /\ zeroDur (snd a) = zeroDur (snd b) /\ next (snd a) = next (snd b)) l1 l1' ->
      map G (flat_map (fun ps1 => flat_map (fun ps2 => if Bool.eqb (zeroDur (snd ps1)) (zeroDur (snd ps2)) then [(f (fst ps1) (fst ps2), prod_state A B f (fst ps1) (snd ps1) (fst ps2) (snd ps2))] else []) (states B)) l1) =
      flat_map (fun ps1 => flat_map (fun ps2 => if Bool.eqb (zeroDur (snd ps1)) (zeroDur (snd ps2)) then [(f (fst ps1) (fst ps2), prod_state A' B' f (fst ps1) (snd ps1) (fst ps2) (snd ps2))] else []) (states B')) l1').
  { intros l1 l1' I1 I2 F. induction F as [|[p1 s1] [p1' s1'] l k (E & Z & N) F IH]; [reflexivity|]. cbn [flat_map fst snd].
    simpl in E, Z, N. subst p1'. rewrite map_app.
    f_equal; [|apply IH; [intros; apply I1; right; auto|intros; apply I2; right; auto]].
    apply Row; auto; [apply I1; left; auto|apply I2; left; auto]. }
  apply All; auto.
Qed.
