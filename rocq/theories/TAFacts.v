(* Facts about automata: lookups, membership test, deep copy. *)
From Coq Require Import QArith Lqa Bool List ZArith Arith Lia.
From Verif Require Import Num NumFacts Constraint Zone ZoneFacts TA Spec.
Import ListNotations.
Open Scope nat_scope.

Lemma assoc_In : forall {B} (l : list (nat * B)) k b, assoc k l = Some b -> In (k, b) l.
Proof.
  induction l as [|[k' b'] l IH]; simpl; intros k b H; [discriminate|].
  destruct (Nat.eqb_spec k k').
  - inversion H; subst. auto.
  - right. auto.
Qed.

Lemma In_assoc : forall {B} (l : list (nat * B)) k b, NoDup (map fst l) -> In (k, b) l -> assoc k l = Some b.
Proof.
  induction l as [|[k' b'] l IH]; simpl; intros k b ND H; [contradiction|].
  inversion ND; subst. destruct H as [H|H].
  - inversion H; subst. rewrite Nat.eqb_refl. auto.
  - destruct (Nat.eqb_spec k k').
    + subst. exfalso. apply H2. apply (in_map fst) in H. auto.
    + auto.
Qed.

Lemma assoc_None : forall {B} (l : list (nat * B)) k, assoc k l = None <-> ~ In k (map fst l).
Proof.
  induction l as [|[k' b'] l IH]; simpl; intros k; split; intro H; auto.
  - destruct (Nat.eqb_spec k k'); [discriminate|]. rewrite IH in H. intros [?|?]; auto.
  - destruct (Nat.eqb_spec k k'); [subst; tauto|]. apply IH. tauto.
Qed.

Lemma in_fst_exists : forall {B} (l : list (nat * B)) k, In k (map fst l) -> exists b, In (k, b) l.
Proof. intros B l k H. apply in_map_iff in H as ([k' b] & <- & H). exists b. auto. Qed.

Lemma edges_at_spec : forall A p c e, wf_ta A -> (In e (edges_at A p c) <-> is_edge A p c e).
Proof.
  intros A p c e W. unfold edges_at, deref, next_find, is_edge. split.
  - destruct (assoc p (states A)) as [s|] eqn:E1; [|contradiction].
    destruct (assoc c (next s)) as [es|] eqn:E2; [|contradiction].
    intros H. exists s, es. repeat split; auto using assoc_In.
  - intros (s & es & H1 & H2 & H3).
    rewrite (In_assoc _ _ s) by (auto; apply W).
    rewrite (In_assoc _ _ es); auto. eapply wf_keys; eauto.
Qed.

Lemma match_at_spec : forall A p, NoDup (map fst (states A)) -> (match_at A p = true <-> accepting A p).
Proof.
  intros A p ND. unfold match_at, deref, accepting. split.
  - destruct (assoc p (states A)) as [s|] eqn:E; [|discriminate]. intros H. exists s. auto using assoc_In.
  - intros (s & H1 & H2). rewrite (In_assoc _ _ s); auto.
Qed.

Lemma satisfy_holds : forall g d, satisfy g d = true <-> holds g d.
Proof.
  intros g d. unfold satisfy, holds. destruct (codr g).
  - apply Qltb_true.
  - apply Qle_bool_iff.
  - apply Qle_bool_iff.
  - apply Qltb_true.
Qed.

Lemma holds_eq : forall g d e, d == e -> holds g d -> holds g e.
Proof. intros g d e E H. unfold holds in *. destruct (codr g); lra. Qed.

(* A list of clock values represents a valuation on the first n clocks. *)
Definition vrep (n : nat) (l : list Q) (v : valuation) : Prop :=
  length l = n /\ forall x, x < n -> (qnth l x == v x)%Q.

Lemma vrep_delay : forall n l v d, vrep n l v -> vrep n (map (fun q => (q + d)%Q) l) (delay v d).
Proof.
  intros n l v d [HL H]. split; [rewrite map_length; auto|].
  intros x Hx. unfold qnth in *. rewrite nth_map_in with (a := 0%Q) by lia. unfold delay.
  rewrite H by auto. reflexivity.
Qed.

Lemma lreset_spec : forall xs l, length (lreset l xs) = length l /\
  forall x, x < length l -> qnth (lreset l xs) x = if in_dec Nat.eq_dec x xs then 0%Q else qnth l x.
Proof.
  unfold lreset. induction xs as [|y xs IH]; simpl; intros l; auto.
  destruct (IH (set_nth l y 0%Q)) as [E1 E2]. rewrite set_nth_length in *. split; auto.
  intros x Hx. rewrite E2 by auto.
  destruct (in_dec Nat.eq_dec x xs), (Nat.eq_dec y x); auto.
  - subst. unfold qnth. rewrite nth_set_nth by auto. rewrite Nat.eqb_refl. auto.
  - unfold qnth. rewrite nth_set_nth_other; auto.
Qed.

Lemma vrep_reset : forall n l v xs, vrep n l v -> vrep n (lreset l xs) (reset_set v xs).
Proof.
  intros n l v xs [HL H]. destruct (lreset_spec xs l) as [E1 E2]. split; [lia|].
  intros x Hx. rewrite E2 by lia. unfold reset_set. destruct (in_dec Nat.eq_dec x xs); [reflexivity|auto].
Qed.

Lemma guard_rep : forall n l v gs, vrep n l v -> Forall (fun g => cx g < n) gs ->
  (forallb (fun g => satisfy g (qnth l (cx g))) gs = true <-> sat_guard v gs).
Proof.
  intros n l v gs [HL H] HF. rewrite forallb_forall, Forall_forall in *. unfold sat_guard. split.
  - intros HS g Hg. specialize (HS g Hg). apply satisfy_holds in HS.
    eapply holds_eq; [|exact HS]. apply H. auto.
  - intros HS g Hg. apply satisfy_holds. eapply holds_eq; [|apply HS; auto].
    symmetry. apply H. auto.
Qed.

Lemma wf_is_edge : forall A p c e, wf_ta A -> is_edge A p c e -> wf_edge A e.
Proof. intros A p c e W (s & es & H1 & H2 & H3). eapply wf_edges; eauto. Qed.

(* runs only depend on the values of the clocks (up to ==) *)
Definition veq (n : nat) (v u : valuation) : Prop := forall x, x < n -> (v x == u x)%Q.

Lemma veq_delay : forall n v u d, veq n v u -> veq n (delay v d) (delay u d).
Proof. intros n v u d H x Hx. unfold delay. rewrite (H x Hx). reflexivity. Qed.
Lemma veq_reset : forall n v u xs, veq n v u -> veq n (reset_set v xs) (reset_set u xs).
Proof. intros n v u xs H x Hx. unfold reset_set. destruct in_dec; [reflexivity|auto]. Qed.
Lemma veq_guard : forall n v u gs, veq n v u -> Forall (fun g => cx g < n) gs -> sat_guard v gs -> sat_guard u gs.
Proof.
  intros n v u gs H HF HS g Hg. rewrite Forall_forall in HF. eapply holds_eq; [|apply HS; auto]. auto.
Qed.
Lemma veq_sym : forall n v u, veq n v u -> veq n u v.
Proof. intros n v u H x Hx. symmetry. auto. Qed.

Lemma veq_delay_eq : forall n v u d d', veq n v u -> (d == d')%Q -> veq n (delay v d) (delay u d').
Proof. intros n v u d d' H E x Hx. unfold delay. rewrite (H x Hx), E. reflexivity. Qed.

Lemma run_veq : forall A w p v T q v' T' u, wf_ta A -> run A p v T w q v' T' -> veq (clockSize A) v u ->
  exists u', run A p u T w q u' T' /\ veq (clockSize A) v' u'.
Proof.
  intros A w p v T q v' T' u W H. revert u. induction H; intros u E.
  - exists u. split; [constructor|auto].
  - pose proof (wf_is_edge _ _ _ _ W H) as (_ & _ & WG).
    destruct (IHrun (reset_set (delay u (t - T)) (eresets e))) as (u' & R & E').
    + apply veq_reset, veq_delay; auto.
    + exists u'. split; auto. econstructor; eauto.
      eapply veq_guard; [apply veq_delay; eauto|auto|auto].
Qed.

(* ---------- isMember ---------- *)

Lemma member_step_sound : forall A c d conf q l v, wf_ta A -> vrep (clockSize A) (snd conf) v ->
  In (q, l) (member_step A c d conf) ->
  exists e, is_edge A (fst conf) c e /\ etgt e = Some q /\ sat_guard (delay v d) (eguard e) /\
            vrep (clockSize A) l (reset_set (delay v d) (eresets e)).
Proof.
  intros A c d conf q l v W R H. unfold member_step in H.
  apply in_flat_map in H as (e & He & H). apply edges_at_spec in He; auto.
  destruct (forallb _ _) eqn:G; [|contradiction].
  destruct (etgt e) as [t|] eqn:T; [|contradiction]. destruct H as [H|[]]. inversion H; subst.
  pose proof (vrep_delay _ _ _ d R) as R'.
  pose proof (wf_is_edge _ _ _ _ W He) as (_ & _ & WG).
  exists e. repeat split; auto.
  - eapply guard_rep; eauto.
  - apply (vrep_reset _ _ _ (eresets e) R').
  - apply (vrep_reset _ _ _ (eresets e) R').
Qed.

Lemma member_step_complete : forall A c d p l e q v, wf_ta A -> vrep (clockSize A) l v ->
  is_edge A p c e -> etgt e = Some q -> sat_guard (delay v d) (eguard e) ->
  In (q, lreset (map (fun x => (x + d)%Q) l) (eresets e)) (member_step A c d (p, l)).
Proof.
  intros A c d p l e q v W R He T G. unfold member_step. apply in_flat_map. exists e. simpl. split.
  - apply edges_at_spec; auto.
  - pose proof (wf_is_edge _ _ _ _ W He) as (_ & _ & WG).
    pose proof (vrep_delay _ _ _ d R) as R'.
    rewrite (proj2 (guard_rep _ _ _ _ R' WG) G). rewrite T. left. auto.
Qed.

Lemma member_loop_sound : forall A w last confs q l, wf_ta A ->
  In (q, l) (member_loop A last w confs) ->
  exists p l0, In (p, l0) confs /\
    forall v, vrep (clockSize A) l0 v -> exists v' T', run A p v last w q v' T' /\ vrep (clockSize A) l v'.
Proof.
  intros A w. induction w as [|[c t] w IH]; simpl; intros last confs q l W H.
  - exists q, l. split; auto. intros v R. exists v, last. split; [constructor|auto].
  - apply IH in H as (p1 & l1 & Hin & Hrun); auto.
    apply in_flat_map in Hin as ([p l0] & Hc & Hs). exists p, l0. split; auto.
    intros v R. destruct (member_step_sound A c (t - last) (p, l0) p1 l1 v W R Hs) as (e & He & HT & HG & HR).
    destruct (Hrun _ HR) as (v' & T' & Rn & Rp). exists v', T'. split; auto. econstructor; eauto.
Qed.

Lemma member_loop_complete : forall A w p v last q v' T', wf_ta A -> run A p v last w q v' T' ->
  forall l confs, vrep (clockSize A) l v -> In (p, l) confs ->
  exists l', In (q, l') (member_loop A last w confs).
Proof.
  intros A w p v last q v' T' W H. induction H; simpl; intros l confs R Hin.
  - exists l. auto.
  - pose proof (vrep_delay _ _ _ (t - T) R) as R'.
    apply (IHrun (lreset (map (fun x => (x + (t - T))%Q) l) (eresets e))).
    + apply vrep_reset; auto.
    + apply in_flat_map. exists (p, l). split; auto. eapply member_step_complete; eauto.
Qed.

Lemma vrep_zero : forall n, vrep n (repeat 0%Q n) zeroval.
Proof.
  intros n. split; [apply repeat_length|]. intros x Hx. unfold qnth.
  rewrite nth_repeat_in by auto. reflexivity.
Qed.

Theorem isMember_correct : forall A w, wf_ta A -> (isMember A w = true <-> accepts A w).
Proof.
  intros A w W. unfold isMember, accepts. rewrite existsb_exists. split.
  - intros ([q l] & Hin & Hm). simpl in Hm. apply match_at_spec in Hm; [|apply W].
    apply member_loop_sound in Hin as (p & l0 & Hc & Hr); auto.
    apply in_map_iff in Hc as (p' & E & Hp). inversion E; subst.
    destruct (Hr zeroval (vrep_zero _)) as (v' & T' & R & _).
    exists p, q, v', T'. auto.
  - intros (p & q & v & T & Hp & R & Ha).
    destruct (member_loop_complete A w p zeroval 0 q v T W R (repeat 0%Q (clockSize A))
       (map (fun p => (p, repeat 0%Q (clockSize A))) (inits A))) as (l' & Hin).
    + apply vrep_zero.
    + apply in_map_iff. exists p. auto.
    + exists (q, l'). split; auto. simpl. apply match_at_spec; auto. apply W.
Qed.

(* ---------- deepCopy ---------- *)

Lemma mem_In : forall x l, mem x l = true <-> In x l.
Proof.
  intros x l. unfold mem. rewrite existsb_exists. split.
  - intros (y & Hy & E). apply Nat.eqb_eq in E. subst. auto.
  - intros H. exists x. split; auto. apply Nat.eqb_refl.
Qed.

Lemma old2new_in : forall A fresh p, In p (map fst (states A)) -> old2new A fresh p = Some (fresh p).
Proof. intros A fresh p H. unfold old2new. rewrite (proj2 (mem_In _ _) H). auto. Qed.

Section Copy.
  Variables (A : ta) (fresh : ptr -> ptr).
  Hypothesis W : wf_ta A.
  Hypothesis Inj : forall p q, In p (map fst (states A)) -> In q (map fst (states A)) -> fresh p = fresh q -> p = q.

  Let B := deepCopy A fresh.

  Lemma copy_states_in : forall q s', In (q, s') (states B) <->
    exists p s, In (p, s) (states A) /\ q = fresh p /\ s' = copy_state A fresh s.
  Proof.
    intros q s'. unfold B, deepCopy; cbn [states]. rewrite in_map_iff. split.
    - intros ([p s] & E & H). inversion E; subst. eauto.
    - intros (p & s & H & -> & ->). exists (p, s). auto.
  Qed.

  Lemma copy_edge_iff : forall p c e', In p (map fst (states A)) ->
    (is_edge B (fresh p) c e' <-> exists e, is_edge A p c e /\ e' = copy_edge A fresh e).
  Proof.
    intros p c e' Hp. split.
    - intros (s' & es' & H1 & H2 & H3). apply copy_states_in in H1 as (q & s & Hq & E & ->).
      assert (p = q) by (apply Inj; auto; apply (in_map fst) in Hq; auto). subst q.
      simpl in H2. apply in_map_iff in H2 as ([c' es] & E2 & H2). inversion E2; subst.
      simpl in H3. apply in_map_iff in H3 as (e & <- & He). exists e. split; auto. exists s, es. auto.
    - intros (e & (s & es & H1 & H2 & H3) & ->).
      exists (copy_state A fresh s), (map (copy_edge A fresh) es). repeat split.
      + apply copy_states_in. eauto.
      + simpl. apply in_map_iff. exists (c, es). auto.
      + apply in_map. auto.
  Qed.

  Lemma copy_accepting : forall p, In p (map fst (states A)) -> (accepting B (fresh p) <-> accepting A p).
  Proof.
    intros p Hp. split.
    - intros (s' & H & M). apply copy_states_in in H as (q & s & Hq & E & ->).
      assert (p = q) by (apply Inj; auto; apply (in_map fst) in Hq; auto). subst q. exists s. auto.
    - intros (s & H & M). exists (copy_state A fresh s). split; auto. apply copy_states_in. eauto.
  Qed.

  Lemma copy_inits : forall q, In q (inits B) <-> exists p, In p (inits A) /\ q = fresh p.
  Proof.
    intros q. unfold B, deepCopy; cbn [inits]. rewrite in_flat_map. split.
    - intros (p & Hp & H). rewrite old2new_in in H by (apply W; auto). destruct H as [<-|[]]. eauto.
    - intros (p & Hp & ->). exists p. split; auto. rewrite old2new_in by (apply W; auto). left; auto.
  Qed.

  Lemma copy_run_fwd : forall p v T w p' v' T', run A p v T w p' v' T' -> In p (map fst (states A)) ->
    In p' (map fst (states A)) /\ run B (fresh p) v T w (fresh p') v' T'.
  Proof.
    induction 1; intros Hp.
    - split; auto. constructor.
    - pose proof (wf_is_edge _ _ _ _ W H) as (WT & _).
      destruct (IHrun (WT _ H0)) as [? R]. split; auto.
      econstructor; [apply copy_edge_iff; eauto| | |]; eauto.
      simpl. rewrite H0. apply old2new_in. auto.
  Qed.

  Lemma copy_run_bwd : forall r v T w r' v' T', run B r v T w r' v' T' ->
    forall p, r = fresh p -> In p (map fst (states A)) ->
    exists p', r' = fresh p' /\ In p' (map fst (states A)) /\ run A p v T w p' v' T'.
  Proof.
    induction 1; intros p0 -> Hp.
    - exists p0. repeat split; auto. constructor.
    - apply copy_edge_iff in H as (e0 & He & ->); auto.
      pose proof (wf_is_edge _ _ _ _ W He) as (WT & _).
      simpl in H0. destruct (etgt e0) as [t0|] eqn:Et; [|discriminate].
      rewrite old2new_in in H0 by auto. inversion H0; subst.
      destruct (IHrun t0 eq_refl (WT _ eq_refl)) as (p'0 & -> & Hin & R).
      exists p'0. repeat split; auto. econstructor; eauto.
  Qed.

  Lemma copy_accepts : forall w, accepts B w <-> accepts A w.
  Proof.
    intros w. split.
    - intros (p & q & v & T & Hp & R & HA). apply copy_inits in Hp as (p0 & Hp & ->).
      destruct (copy_run_bwd _ _ _ _ _ _ _ R p0 eq_refl (wf_inits _ W _ Hp)) as (q0 & -> & Hq & R').
      apply copy_accepting in HA; auto. exists p0, q0, v, T. auto.
    - intros (p & q & v & T & Hp & R & HA).
      destruct (copy_run_fwd _ _ _ _ _ _ _ R (wf_inits _ W _ Hp)) as [Hq R'].
      exists (fresh p), (fresh q), v, T. split; [apply copy_inits; eauto|]. split; auto.
      apply copy_accepting; auto.
  Qed.

  (* every pointer stored in the copy points to a state of the copy *)
  Lemma copy_targets : forall q c e t, is_edge B q c e -> etgt e = Some t -> In t (map fst (states B)).
  Proof.
    intros q c e t (s' & es' & H1 & H2 & H3) E. apply copy_states_in in H1 as (p & s & Hp & -> & ->).
    simpl in H2. apply in_map_iff in H2 as ([c' es] & E2 & H2). inversion E2; subst.
    simpl in H3. apply in_map_iff in H3 as (e0 & <- & He).
    assert (WE : is_edge A p c e0) by (exists s, es; auto).
    pose proof (wf_is_edge _ _ _ _ W WE) as (WT & _). simpl in E.
    destruct (etgt e0) as [t0|] eqn:Et; [|discriminate].
    rewrite old2new_in in E by auto. inversion E; subst.
    destruct (in_fst_exists _ _ (WT _ eq_refl)) as (s0 & Hs).
    apply (in_map fst (states B) (fresh t0, copy_state A fresh s0)). apply copy_states_in. eauto.
  Qed.

  Lemma copy_wf : wf_ta B.
  Proof.
    constructor.
    - unfold B, deepCopy; cbn [states]. rewrite map_map. simpl.
      pose proof (wf_nodup _ W) as ND.
      assert (Inj' : forall p q, In p (map fst (states A)) -> In q (map fst (states A)) -> fresh p = fresh q -> p = q) by exact Inj.
      clear -ND Inj'. induction (states A) as [|[p s] l IH]; simpl in *; constructor.
      + inversion ND; subst. intros HI. apply in_map_iff in HI as ([q s'] & E & Hq). simpl in E.
        apply H1. rewrite (Inj' p q); auto; [apply (in_map fst _ _ Hq)|right; apply (in_map fst _ _ Hq)].
      + inversion ND; subst. apply IH; auto.
    - intros q s' H. apply copy_states_in in H as (p & s & Hp & -> & ->). simpl. rewrite map_map. simpl.
      eapply wf_keys; eauto.
    - intros q s' c es' e' H1 H2 H3. assert (HE : is_edge B q c e') by (exists s', es'; auto).
      split; [intros t; eapply copy_targets; eauto|].
      apply copy_states_in in H1 as (p & s & Hp & -> & ->).
      simpl in H2. apply in_map_iff in H2 as ([c' es] & E2 & H2). inversion E2; subst.
      simpl in H3. apply in_map_iff in H3 as (e0 & <- & He).
      assert (WE : is_edge A p c e0) by (exists s, es; auto).
      pose proof (wf_is_edge _ _ _ _ W WE) as (_ & ? & ?). simpl. auto.
    - intros q Hq. apply copy_inits in Hq as (p & Hp & ->).
      destruct (in_fst_exists _ _ (wf_inits _ W _ Hp)) as (s & Hs).
      apply (in_map fst (states B) (fresh p, copy_state A fresh s)). apply copy_states_in. eauto.
  Qed.
End Copy.
