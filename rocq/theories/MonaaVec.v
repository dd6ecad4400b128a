(* Correctness of the matching loops on a word held in memory. *)
From Coq Require Import QArith Lqa Bool List ZArith Arith Lia.
From Verif Require Import Num NumFacts Outcome Constraint Zone ZoneFacts TA Spec TAFacts Word ZA Monaa MonaaFacts MonaaSim.
Import ListNotations.
Open Scope nat_scope.

Definition tm (w : tword) (n : nat) : Q := snd (nth n w (0, 0%Q)).
Definition slice (w : tword) (i j : nat) : tword := firstn (j - i) (skipn i w).

Lemma nondecreasing_nth : forall w lo, nondecreasing lo w ->
  (forall i, i < length w -> (lo <= tm w i)%Q) /\
  (forall i j, i <= j -> j < length w -> (tm w i <= tm w j)%Q).
Proof.
  induction w as [|[c t] w IH]; intros lo N; [split; cbn; intros; lia|].
  destruct N as [N1 N2]. destruct (IH _ N2) as [I1 I2]. split.
  - intros [|i] Hi; [exact N1|]. unfold tm in *. cbn in *. specialize (I1 i ltac:(lia)). lra.
  - intros [|i] [|j] L Hj; unfold tm in *; cbn in *; try lia; try lra.
    + apply I1. lia.
    + apply I2; lia.
Qed.

Lemma slice_snoc : forall w i j, i <= j -> j < length w -> slice w i (S j) = slice w i j ++ [nth j w (0, 0%Q)].
Proof.
  intros. unfold slice. replace (S j - i) with (S (j - i)) by lia.
  assert (forall (l : tword) k d, k < length l -> firstn (S k) l = firstn k l ++ [nth k l d]) as X.
  { induction l; cbn [length]; intros; [lia|]. destruct k; [reflexivity|]. cbn [firstn nth app].
    f_equal. apply IHl. lia. }
  rewrite (X _ _ (0, 0%Q)) by (rewrite skipn_length; lia). f_equal. f_equal.
  rewrite <- (firstn_skipn i w) at 2. rewrite app_nth2; rewrite firstn_length; [f_equal; lia|lia].
Qed.

Lemma slice_nil : forall w i, slice w i i = [].
Proof. intros. unfold slice. now rewrite Nat.sub_diag. Qed.

Lemma split3 : forall (w : tword) i j, i <= j -> w = firstn i w ++ slice w i j ++ skipn j w.
Proof.
  intros. unfold slice. rewrite <- (firstn_skipn i w) at 1. f_equal.
  rewrite <- (firstn_skipn (j - i) (skipn i w)) at 1. f_equal.
  rewrite WordFacts.skipn_skipn'. f_equal. lia.
Qed.

Lemma filter_none : forall {X} (P : X -> bool) l, (forall x, In x l -> P x = false) -> filter P l = [].
Proof. induction l; cbn; intros; auto. rewrite H by auto. auto. Qed.
Lemma filter_every : forall {X} (P : X -> bool) l, (forall x, In x l -> P x = true) -> filter P l = l.
Proof. induction l; cbn; intros; auto. rewrite H by auto. f_equal. auto. Qed.

Lemma in_firstn_nth : forall (w : tword) i e, In e (firstn i w) -> exists k, k < i /\ k < length w /\ e = nth k w (0, 0%Q).
Proof.
  intros w i e H. apply In_nth with (d := (0, 0%Q)) in H. destruct H as (k & L & E).
  rewrite firstn_length in L. exists k. split; [lia|]. split; [lia|]. subst e.
  rewrite <- (firstn_skipn i w) at 2. rewrite app_nth1; auto. rewrite firstn_length. lia.
Qed.

Lemma in_skipn_nth : forall (w : tword) i e, In e (skipn i w) -> exists k, i <= k /\ k < length w /\ e = nth k w (0, 0%Q).
Proof.
  intros w i e H. apply In_nth with (d := (0, 0%Q)) in H. destruct H as (k & L & E).
  rewrite skipn_length in L. exists (i + k). split; [lia|]. split; [lia|]. subst e.
  rewrite <- (firstn_skipn i w) at 2. rewrite app_nth2; rewrite firstn_length; [|lia]. f_equal. lia.
Qed.

Lemma in_slice_nth : forall (w : tword) i j e, In e (slice w i j) -> exists k, i <= k /\ k < j /\ k < length w /\ e = nth k w (0, 0%Q).
Proof.
  intros w i j e H. unfold slice in H. apply In_nth with (d := (0, 0%Q)) in H. destruct H as (k & L & E).
  rewrite firstn_length, skipn_length in L. exists (i + k). split; [lia|]. split; [lia|]. split; [lia|]. subst e.
  rewrite <- (firstn_skipn i w) at 2. rewrite app_nth2; rewrite firstn_length; [|lia].
  replace (i + k - Nat.min i (length w)) with k by lia.
  rewrite <- (firstn_skipn (j - i) (skipn i w)) at 2. rewrite app_nth1; auto. rewrite firstn_length, skipn_length. lia.
Qed.

Definition start_in (w : tword) (i : nat) (t : Q) : Prop :=
  (0 <= t)%Q /\ (0 < i -> (tm w (i - 1) <= t)%Q) /\ (t < tm w i)%Q.
Definition end_in (w : tword) (j : nat) (t' : Q) : Prop :=
  (0 < j -> (tm w (j - 1) < t')%Q) /\ (j < length w -> (t' <= tm w j)%Q).

Lemma between_slice : forall w i j t t', nondecreasing 0 w -> i <= j -> j <= length w -> i < length w ->
  start_in w i t -> end_in w j t' -> between w t t' = slice w i j.
Proof.
  intros w i j t t' N L1 L2 L3 (S1 & S2 & S3) (E1 & E2).
  destruct (nondecreasing_nth _ _ N) as [N1 N2].
  unfold between. rewrite (split3 w i j L1) at 1. rewrite !filter_app.
  rewrite filter_none, filter_every, filter_none; [now rewrite app_nil_r| | |].
  - intros e He. apply in_skipn_nth in He. destruct He as (k & K1 & K2 & ->).
    apply andb_false_iff. right. apply negb_false_iff, Qle_bool_iff.
    pose proof (N2 j k K1 K2). pose proof (E2 ltac:(lia)). unfold tm in *. lra.
  - intros e He. apply in_slice_nth in He. destruct He as (k & K1 & K2 & K3 & ->).
    pose proof (N2 i k K1 K3). pose proof (N2 k (j - 1) ltac:(lia) ltac:(lia)). pose proof (E1 ltac:(lia)).
    apply andb_true_iff. split; apply negb_true_iff, Qle_bool_false; unfold tm in *; lra.
  - intros e He. apply in_firstn_nth in He. destruct He as (k & K1 & K2 & ->).
    apply andb_false_iff. left. apply negb_false_iff, Qle_bool_iff.
    pose proof (N2 k (i - 1) ltac:(lia) ltac:(lia)). pose proof (S2 ltac:(lia)). unfold tm in *. lra.
Qed.

(* What a match is for each of the three functions. *)
Definition mmatch (M : mode) (A : ta) (w : tword) (t t' : Q) : Prop :=
  match M with
  | MDollar => matches A w t t'
  | MSignal => signal_matches A w t t'
  | MOptional => matches A w t t' \/ event_matches A w t t'
  end.

Section Vec.
  Variable M : mode.
  Variable A : ta.
  Hypothesis WF : wf_ta A.
  Variable w : tword.
  Hypothesis ND : nondecreasing 0 w.
  Notation n := (clockSize A).

  Lemma tm_nonneg : forall i, i < length w -> (0 <= tm w i)%Q.
  Proof. apply (nondecreasing_nth _ _ ND). Qed.
  Lemma tm_mono : forall i j, i <= j -> j < length w -> (tm w i <= tm w j)%Q.
  Proof. apply (nondecreasing_nth _ _ ND). Qed.

  (* What the configurations are after reading the events i .. j-1. *)
  Record cspec (i j : nat) (cs : list iconf) : Prop := mkCspec {
    csp_none : inits A = [] -> cs = [];
    csp_wf : forall cfg, In cfg cs -> wf_cfg n cfg;
    csp_state : forall cfg, In cfg cs -> In (ist cfg) (map fst (states A));
    csp_valid : forall cfg, In cfg cs -> (exists t, start_in w i t) ->
       exists t, below (iup cfg) t /\ below (ilo cfg) (- t);
    csp_up : forall cfg, In cfg cs -> ble (iup cfg) (bnd (tm w i) false);
    csp_lo : forall cfg, In cfg cs -> ble (if 0 <? j then bnd (- tm w (j - 1)) false else bzero) (ilo cfg);
    csp_sound : forall cfg t, In cfg cs -> below (iup cfg) t -> below (ilo cfg) (- t) ->
       start_in w i t /\
       exists p0 v T, In p0 (inits A) /\ run A p0 zeroval t (slice w i j) (ist cfg) v T /\ rep n cfg t T v;
    csp_complete : forall p0 t q v T, start_in w i t -> In p0 (inits A) ->
       run A p0 zeroval t (slice w i j) q v T -> exists cfg, In cfg cs /\ ist cfg = q /\ rep n cfg t T v
  }.

  Definition start_list (i : nat) : list iconf :=
    map (fun p => mkI p (repeat 0%Q n) (bnd (tm w i) false) (if 0 <? i then bnd (- tm w (i - 1)) true else bzero)) (inits A).

  Lemma start_confs_vec : forall i, i < length w -> start_confs vecC A w i = Ok (start_list i).
  Proof.
    intros. unfold start_confs. cbn [cat vecC]. unfold vec_at.
    rewrite (nth_error_nth' w (0, 0%Q) H). cbn [bind]. unfold start_list.
    destruct (0 <? i) eqn:E; cbn [bind]; auto. apply Nat.ltb_lt in E.
    rewrite (nth_error_nth' w (0, 0%Q)) by lia. reflexivity.
  Qed.

  Lemma start_spec : forall i, i < length w -> cspec i i (start_list i).
  Proof.
    intros i L. unfold start_list. split.
    - intros ->. reflexivity.
    - intros cfg H. apply in_map_iff in H. destruct H as (p & <- & _). split; [exact I|]. cbn [ilo irst].
      split; [destruct (0 <? i); exact I|apply repeat_length].
    - intros cfg H. apply in_map_iff in H. destruct H as (p & <- & Hp). now apply WF.
    - intros cfg H (t & S1 & S2 & S3). apply in_map_iff in H. destruct H as (p & <- & Hp). cbn [iup ilo].
      exists t. split; [exact S3|]. destruct (0 <? i) eqn:E; unfold below; cbn; [|lra].
      apply Nat.ltb_lt in E. pose proof (S2 E). lra.
    - intros cfg H. apply in_map_iff in H. destruct H as (p & <- & _). cbn [iup]. apply ble_refl; exact I.
    - intros cfg H. apply in_map_iff in H. destruct H as (p & <- & _). cbn [ilo].
      destruct (0 <? i); unfold ble, bnd; cbn; lra.
    - intros cfg t H. apply in_map_iff in H. destruct H as (p & <- & Hp). cbn [iup ilo ist]. intros B1 B2.
      assert (S : start_in w i t).
      { split; [|split; [|exact B1]].
        - destruct (0 <? i) eqn:E; unfold below in B2; cbn in B2; [|lra].
          apply Nat.ltb_lt in E. pose proof (tm_nonneg (i - 1) ltac:(lia)). lra.
        - intros Hi. apply Nat.ltb_lt in Hi. rewrite Hi in B2. unfold below in B2. cbn in B2. lra. }
      split; auto. exists p, zeroval, t. split; auto. rewrite slice_nil. split; [constructor|].
      split; [exact B1|split; [exact B2|]]. intros x Hx. cbn [irst]. unfold qnth. rewrite nth_repeat. cbn. unfold zeroval. lra.
    - intros p0 t q v T (S1 & S2 & S3) Hp R. rewrite slice_nil in R. inversion R; subst.
      eexists. split; [apply in_map_iff; exists q; split; [reflexivity|auto]|]. split; [reflexivity|].
      split; [exact S3|]. cbn [ilo irst]. split.
      + destruct (0 <? i) eqn:E; unfold below; cbn; [|lra]. apply Nat.ltb_lt in E. pose proof (S2 E). lra.
      + intros x Hx. unfold qnth. rewrite nth_repeat. cbn. unfold zeroval. lra.
  Qed.

  Lemma step_spec : forall i j cs, i <= j -> j < length w -> cspec i j cs ->
    cspec i (S j) (step_confs A (fst (nth j w (0, 0%Q))) (tm w j) cs).
  Proof.
    intros i j cs L1 L2 C.
    assert (IN : forall cfg', In cfg' (step_confs A (fst (nth j w (0, 0%Q))) (tm w j) cs) <->
      exists cfg e, In cfg cs /\ is_edge A (ist cfg) (fst (nth j w (0, 0%Q))) e /\ step_edge cfg (tm w j) e = Some cfg').
    { intros. unfold step_confs. rewrite in_flat_map. split.
      - intros (cfg & H1 & H2). apply in_flat_map in H2. destruct H2 as (e & H2 & H3).
        apply edges_at_spec in H2; auto. exists cfg, e. repeat split; auto.
        destruct (step_edge cfg (tm w j) e); cbn in H3; [|contradiction]. destruct H3; [congruence|contradiction].
      - intros (cfg & e & H1 & H2 & H3). exists cfg. split; auto. apply in_flat_map. exists e.
        split; [apply edges_at_spec; auto|]. rewrite H3. now left. }
    assert (PRE : forall cfg e cfg', In cfg cs -> is_edge A (ist cfg) (fst (nth j w (0, 0%Q))) e ->
       step_edge cfg (tm w j) e = Some cfg' -> exists q, etgt e = Some q /\ Forall (fun g => cx g < n) (eguard e)).
    { intros cfg e cfg' H1 H2 H3. unfold step_edge in H3. destruct (etgt e) eqn:Et; [|discriminate].
      exists p. split; auto. apply (wf_is_edge _ _ _ _ WF H2). }
    assert (NZ : forall t, start_in w i t -> ~ (tm w j == 0)%Q).
    { intros t (S1 & _ & S3) E. pose proof (tm_mono i j L1 L2). lra. }
    assert (VAL : forall cfg', In cfg' (step_confs A (fst (nth j w (0, 0%Q))) (tm w j) cs) ->
       wf_cfg n cfg' /\ ble bzero (badd (iup cfg') (ilo cfg')) /\ ble (iup cfg') (bnd (tm w i) false)).
    { intros cfg' H. apply IN in H. destruct H as (cfg & e & H1 & H2 & H3).
      destruct (PRE _ _ _ H1 H2 H3) as (q & Et & Fg).
      destruct (step_edge_spec n cfg (tm w j) e q (csp_wf _ _ _ C _ H1) Et Fg) as [SE _].
      destruct (SE _ H3) as (SE1 & SE2 & SE3 & SE4). split; auto. split; auto.
      pose proof (csp_up _ _ _ C _ H1) as U. pose proof (csp_wf _ _ _ C _ H1) as (GU & _ & _).
      (* the upper bound only gets tighter *)
      assert (ble (iup cfg') (iup cfg)).
      { unfold step_edge in H3. rewrite Et in H3.
        destruct (step_guard (irst cfg) (tm w j) (eguard e) (iup cfg) (ilo cfg)) as [[up lo]|] eqn:SG; [|discriminate].
        destruct (isValidConstraint up lo); [|discriminate]. injection H3 as <-. cbn [iup].
        clear - SG GU. revert SG GU. generalize (iup cfg) (ilo cfg).
        induction (eguard e) as [|g gs IH]; cbn [step_guard]; intros u l SG GU.
        - injection SG as <- <-. now apply ble_refl.
        - assert (GB : forall q f, good (bmin u (bnd q f))) by (intros; apply good_min; auto with bnd).
          assert (Gup : forall gs up lo u l, good u -> step_guard (irst cfg) (tm w j) gs u l = Some (up, lo) -> good up).
          { clear. induction gs; cbn [step_guard]; intros up lo u l GU SG; [congruence|].
            destruct (is_reset (irst cfg) (cx a)); [destruct (satisfy a (tm w j - qnth (irst cfg) (cx a))); [eauto|discriminate]|].
            destruct (codr a); (eapply IHgs; [|exact SG]); auto with bnd. }
          destruct (is_reset (irst cfg) (cx g)).
          + destruct (satisfy g (tm w j - qnth (irst cfg) (cx g))); [eauto|discriminate].
          + destruct (codr g); try (eapply IH; eauto; fail).
            all: eapply ble_trans; [eapply Gup; [|exact SG]; auto|apply (GB (tm w j - inject_Z (cc g))%Q)|exact GU|eapply IH; [exact SG|auto]|apply bmin_l; auto with bnd]. }
      eapply ble_trans; [apply SE1|exact GU|exact I|eassumption|exact U]. }
    split.
    - intros H. now rewrite (csp_none _ _ _ C H).
    - intros cfg' H. now apply VAL.
    - intros cfg' H. apply IN in H. destruct H as (cfg & e & H1 & H2 & H3).
      destruct (PRE _ _ _ H1 H2 H3) as (q & Et & Fg).
      destruct (step_edge_spec n cfg (tm w j) e q (csp_wf _ _ _ C _ H1) Et Fg) as [SE _].
      destruct (SE _ H3) as (_ & -> & _). now apply (wf_is_edge _ _ _ _ WF H2).
    - intros cfg' H _. destruct (VAL cfg' H) as ((G1 & G2 & _) & V & _).
      destruct (below_split (iup cfg') (ilo cfg') 0%Q G1 G2) as (x & y & B1 & B2 & E).
      + apply below_zero; auto with bnd.
      + exists x. split; auto. eapply below_eq; [|exact B2]. lra.
    - intros cfg' H. now apply VAL.
    - intros cfg' H. destruct (VAL cfg' H) as ((G1 & G2 & _) & V & U).
      replace (0 <? S j) with true by reflexivity. replace (S j - 1) with j by lia.
      (* 0 <= up + lo and up <= (w_i, strict) *)
      assert (B : ble bzero (badd (bnd (tm w i) false) (ilo cfg'))).
      { eapply ble_trans; [exact I| | |exact V|apply badd_mono_l; auto with bnd]; auto with bnd. }
      pose proof (tm_mono i j L1 L2) as Mo. revert G2 B Mo. generalize (tm w i) (tm w j). clear.
      destruct (ilo cfg') as [[| |x|] f]; unfold good, ble, badd, bnd, bzero; cbn; intros; auto; destruct f; cbn in *; lra.
    - intros cfg' t H B1 B2. apply IN in H. destruct H as (cfg & e & H1 & H2 & H3).
      destruct (PRE _ _ _ H1 H2 H3) as (q & Et & Fg).
      destruct (step_edge_spec n cfg (tm w j) e q (csp_wf _ _ _ C _ H1) Et Fg) as [SE _].
      destruct (SE _ H3) as (SE1 & SE2 & SE3 & SE4). destruct (SE4 t B1 B2) as (C1 & C2 & C3).
      destruct (csp_sound _ _ _ C cfg t H1 C1 C2) as (S & p0 & v & T & Hp & R & RP). split; auto.
      destruct (C3 T v (NZ t S) RP) as [SG RP'].
      exists p0, (reset_set (delay v (tm w j - T)) (eresets e)), (tm w j). split; auto. split; [|exact RP'].
      rewrite slice_snoc by auto. eapply run_app; eauto. rewrite SE2.
      destruct (nth j w (0, 0%Q)) as [cc0 tt] eqn:En. unfold tm in *. rewrite En in *. cbn [fst snd] in *.
      econstructor; eauto. constructor.
    - intros p0 t q v T S Hp R. rewrite slice_snoc in R by auto.
      apply run_app_inv in R. destruct R as (q1 & v1 & T1 & R1 & R2).
      destruct (csp_complete _ _ _ C _ _ _ _ _ S Hp R1) as (cfg & I1 & I2 & I3).
      destruct (nth j w (0, 0%Q)) as [cc0 tt] eqn:En.
      inversion R2 as [|? ? ? ? ? e0 ? q0 ? ? ? He0 Ht0 Hg0 Rr0]; subst. inversion Rr0; subst.
      pose proof (wf_is_edge _ _ _ _ WF He0) as (_ & _ & WG).
      destruct (step_edge_spec n cfg (tm w j) e0 q (csp_wf _ _ _ C _ I1) Ht0 WG) as [SE1 SE].
      assert (Et : tm w j = T) by (unfold tm; now rewrite En).
      destruct (SE t T1 v1 (NZ t S) I3) as (cfg' & E1 & E2); [rewrite Et; exact Hg0|].
      exists cfg'. split; [apply IN; exists cfg, e0; repeat split; auto|].
      split; [apply (SE1 _ E1)|]. rewrite Et in E2. exact E2.
  Qed.

  (* The zones for events that lead to accepting states. *)
  Definition hit_pairs (cfg : iconf) (j : nat) (t t' : Q) : Prop :=
    below (iup cfg) t /\ below (ilo cfg) (- t) /\ (t' <= tm w j)%Q /\ (- t' <= tm w j)%Q /\ (t <= t')%Q.

  Lemma hit_zone_some : forall i j cs cfg, i <= j -> j < length w -> cspec i (S j) cs -> In cfg cs ->
    ble bzero (badd (iup cfg) (ilo cfg)) ->
    exists z, hit_zone cfg (tm w j) = Some z /\ square 3 z /\ mgood 3 z /\
      forall t t', zin 3 z (pairv t t') <-> hit_pairs cfg j t t'.
  Proof.
    intros i j cs cfg L1 L2 C Hc V.
    destruct (csp_wf _ _ _ C _ Hc) as (Gu & Gl & _). pose proof (csp_up _ _ _ C _ Hc) as U.
    pose proof (tm_nonneg j L2) as N. pose proof (tm_mono i j L1 L2) as Mo.
    change (hit_zone cfg (tm w j)) with (acc_edge cfg (bnd (tm w j) true) (bnd (tm w j) true) (mkE None [] [])).
    pose proof (acc_edge_spec cfg (bnd (tm w j) true) (bnd (tm w j) true) (mkE None [] []) Gu Gl I I) as S.
    assert (E : forall t t', acc_pairs cfg (bnd (tm w j) true) (bnd (tm w j) true) (mkE None [] []) t t' <-> hit_pairs cfg j t t').
    { intros t t'. unfold acc_pairs, hit_pairs, below at 3 4. cbn. split; [tauto|]. intros (H1 & H2 & H3 & H4 & H5). repeat split; auto. contradiction. }
    destruct (acc_edge cfg (bnd (tm w j) true) (bnd (tm w j) true) (mkE None [] [])) as [z|].
    - exists z. destruct S as (S1 & S2 & S3 & _). split; auto. split; auto. split; auto. intros t t'. rewrite S3. apply E.
    - exfalso. destruct (below_split (iup cfg) (ilo cfg) 0%Q Gu Gl) as (x & y & B1 & B2 & EQ); [apply below_zero; auto with bnd|].
      apply (S x (tm w j)), E. split; [auto|]. split; [eapply below_eq; [|exact B2]; lra|]. split; [lra|]. split; [lra|].
      apply (below_ble _ _ _ Gu (good_bnd (tm w i) false) U) in B1. unfold below, bnd in B1. cbn in B1. lra.
  Qed.

  (* Every zone is valid, so no configuration is dropped. *)
  Lemma event_confs_step : forall i j cs, i <= j -> j < length w -> cspec i j cs ->
    event_confs M A (fst (nth j w (0, 0%Q))) (tm w j) cs = step_confs A (fst (nth j w (0, 0%Q))) (tm w j) cs.
  Proof.
    intros i j cs L1 L2 C. unfold event_confs. destruct M; auto.
    pose proof (step_spec i j cs L1 L2 C) as C'.
    assert (X : forall cfg e cfg', In cfg cs -> In e (edges_at A (ist cfg) (fst (nth j w (0, 0%Q)))) -> step_edge cfg (tm w j) e = Some cfg' ->
      exists o, opt_edge A cfg (tm w j) e = Some (cfg', o)).
    { intros cfg e cfg' Hc He E. unfold opt_edge. rewrite E. destruct (match_at A (ist cfg')); [|eauto].
      assert (I' : In cfg' (step_confs A (fst (nth j w (0, 0%Q))) (tm w j) cs)).
      { unfold step_confs. apply in_flat_map. exists cfg. split; auto. apply in_flat_map. exists e. split; auto. rewrite E. now left. }
      destruct (hit_zone_some i j _ cfg' L1 L2 C' I') as (z & -> & _); [|eauto].
      unfold step_edge in E. destruct (etgt e); [|discriminate]. destruct (step_guard _ _ _ _ _) as [[up lo]|] eqn:SG; [|discriminate].
      destruct (isValidConstraint up lo) eqn:V; [|discriminate]. injection E as <-. cbn [iup ilo].
      unfold isValidConstraint in V. destruct (csp_wf _ _ _ C' _ I') as (Gu & Gl & _). cbn [iup ilo] in Gu, Gl.
      apply bgeb_zero in V; auto with bnd. }
    unfold opt_edges, step_confs. clear C C'. induction cs as [|cfg cs IH]; cbn [flat_map map]; auto.
    rewrite map_app. f_equal; [|apply IH; intros; eapply X; eauto; now right].
    assert (Y : forall es, incl es (edges_at A (ist cfg) (fst (nth j w (0, 0%Q)))) ->
      map fst (flat_map (fun e => opt_list (opt_edge A cfg (tm w j) e)) es) = flat_map (fun e => opt_list (step_edge cfg (tm w j) e)) es).
    { induction es as [|e es IHe]; intros I'; cbn [flat_map]; auto. rewrite map_app. f_equal; [|apply IHe; intros x Hx; apply I'; now right].
      destruct (step_edge cfg (tm w j) e) as [cfg'|] eqn:E.
      - destruct (X cfg e cfg' ltac:(now left) ltac:(apply I'; now left) E) as (o & ->). reflexivity.
      - unfold opt_edge. rewrite E. reflexivity. }
    apply Y, incl_refl.
  Qed.

  Lemma event_spec : forall i j cs, i <= j -> j < length w -> cspec i j cs ->
    cspec i (S j) (event_confs M A (fst (nth j w (0, 0%Q))) (tm w j) cs).
  Proof. intros i j cs L1 L2 C. rewrite (event_confs_step i j) by auto. now apply step_spec. Qed.

  Definition ezones (j : nat) (cs : list iconf) : list mat := event_zones M A (fst (nth j w (0, 0%Q))) (tm w j) cs.

  Lemma in_ezones : forall i j cs z, i <= j -> j < length w -> cspec i j cs -> In z (ezones j cs) -> M = MOptional /\
    exists cfg, In cfg (event_confs M A (fst (nth j w (0, 0%Q))) (tm w j) cs) /\ accepting A (ist cfg) /\
      square 3 z /\ mgood 3 z /\ forall t t', zin 3 z (pairv t t') <-> hit_pairs cfg j t t'.
  Proof.
    intros i j cs z L1 L2 C H. pose proof (event_spec i j cs L1 L2 C) as C'.
    unfold ezones, event_zones, event_confs in *. destruct M; try contradiction. split; auto.
    apply in_flat_map in H as ((cfg' & o) & H1 & H2). cbn [snd] in H2. destruct o as [z'|]; [|contradiction]. destruct H2 as [<-|[]].
    assert (I' : In cfg' (map fst (opt_edges A (fst (nth j w (0, 0%Q))) (tm w j) cs))) by (apply in_map_iff; exists (cfg', Some z'); auto).
    exists cfg'. split; auto.
    unfold opt_edges in H1. apply in_flat_map in H1 as (cfg & Hc & H1). apply in_flat_map in H1 as (e & He & H1).
    unfold opt_edge in H1. destruct (step_edge cfg (tm w j) e) as [cf|] eqn:SE; [|contradiction].
    destruct (match_at A (ist cf)) eqn:Em; [|destruct H1 as [H1|[]]; discriminate].
    destruct (hit_zone cf (tm w j)) as [z|] eqn:HZ; [|contradiction]. destruct H1 as [H1|[]]. injection H1 as -> ->.
    split; [apply match_at_spec in Em; auto; apply WF|].
    destruct (hit_zone_some i j _ cfg' L1 L2 C' I') as (z & E & S).
    - unfold step_edge in SE. destruct (etgt e); [|discriminate]. destruct (step_guard _ _ _ _ _) as [[up lo]|] eqn:SG; [|discriminate].
      destruct (isValidConstraint up lo) eqn:V; [|discriminate]. injection SE as <-. cbn [iup ilo].
      unfold isValidConstraint in V. destruct (csp_wf _ _ _ C' _ I') as (Gu & Gl & _). cbn [iup ilo] in Gu, Gl.
      apply bgeb_zero in V; auto with bnd.
    - rewrite HZ in E. injection E as <-. exact S.
  Qed.

  Lemma ezones_in : forall i j cs cfg, M = MOptional -> i <= j -> j < length w -> cspec i j cs ->
    In cfg (event_confs M A (fst (nth j w (0, 0%Q))) (tm w j) cs) -> accepting A (ist cfg) ->
    exists z, In z (ezones j cs) /\ forall t t', zin 3 z (pairv t t') <-> hit_pairs cfg j t t'.
  Proof.
    intros i j cs cfg HM L1 L2 C I' Ac. pose proof (event_spec i j cs L1 L2 C) as C'.
    unfold ezones, event_zones, event_confs in *. rewrite HM in *.
    pose proof I' as I2. apply in_map_iff in I2 as ((cf & o) & E & I2). cbn [fst] in E. subst cf.
    pose proof I2 as I3. unfold opt_edges in I3. apply in_flat_map in I3 as (cfg0 & Hc & I3). apply in_flat_map in I3 as (e & He & I3).
    unfold opt_edge in I3. destruct (step_edge cfg0 (tm w j) e) as [cf|] eqn:SE; [|contradiction].
    assert (Ecf : cf = cfg). { destruct (match_at A (ist cf)); [destruct (hit_zone cf (tm w j))|]; try contradiction; destruct I3 as [I3|[]]; congruence. }
    subst cf. apply match_at_spec in Ac; [|apply WF]. rewrite Ac in I3.
    destruct (hit_zone cfg (tm w j)) as [z|] eqn:HZ; [|contradiction]. destruct I3 as [I3|[]]. injection I3 as <-.
    exists z. split; [apply in_flat_map; exists (cfg, Some z); split; auto; now left|].
    destruct (hit_zone_some i j _ cfg L1 L2 C' I') as (z' & E & S).
    - unfold step_edge in SE. destruct (etgt e); [|discriminate]. destruct (step_guard _ _ _ _ _) as [[up lo]|] eqn:SG; [|discriminate].
      destruct (isValidConstraint up lo) eqn:V; [|discriminate]. injection SE as <-. cbn [iup ilo].
      unfold isValidConstraint in V. destruct (csp_wf _ _ _ C' _ I') as (Gu & Gl & _). cbn [iup ilo] in Gu, Gl.
      apply bgeb_zero in V; auto with bnd.
    - rewrite HZ in E. injection E as <-. apply S.
  Qed.

  (* ---- accepting edges ---- *)
  Definition up_end (fin : bool) (j : nat) : bound := if fin then (PInf, true) else bnd (tm w j) true.
  Definition lo_end (j : nat) : bound := if 0 <? j then bnd (- tm w (j - 1)) false else bzero.

  Definition lab (fin : bool) (j : nat) : nat := if fin then dollar else acc_letter M (fst (nth j w (0, 0%Q))).

  Definition accs (fin : bool) (j : nat) (cs : list iconf) : list mat :=
    flat_map (fun cfg => flat_map (fun e =>
      if match etgt e with Some q => match_at A q | None => false end
      then opt_list (acc_edge cfg (up_end fin j) (lo_end j) e) else []) (edges_at A (ist cfg) (lab fin j))) cs.

  Lemma low_end_vec : forall j, j <= length w -> low_end vecC w j = Ok (lo_end j).
  Proof.
    intros. unfold low_end, lo_end. destruct (0 <? j) eqn:E; auto. apply Nat.ltb_lt in E.
    cbn [vecC cat]. unfold vec_at. rewrite (nth_error_nth' w (0, 0%Q)) by lia. reflexivity.
  Qed.

  Lemma acc_confs_vec : forall fin j cs ans, j <= length w -> (fin = false -> j < length w) ->
    acc_confs vecC A fin (lab fin j) w j cs ans = Ok (ans ++ accs fin j cs).
  Proof.
    intros fin j cs ans L1 L2. unfold acc_confs.
    assert (UE : (if fin then Ok (PInf, true) else do e <- cat vecC w j; Ok (bnd (snd e) true)) = Ok (up_end fin j)).
    { unfold up_end. destruct fin; auto. cbn [vecC cat]. unfold vec_at.
      rewrite (nth_error_nth' w (0, 0%Q)) by auto. reflexivity. }
    revert ans. induction cs as [|cfg cs IH]; intros ans; cbn [fold_out accs flat_map].
    - now rewrite app_nil_r.
    - assert (IN : forall es ans, fold_out (fun e ans =>
          if match etgt e with Some q => match_at A q | None => false end
          then do up <- (if fin then Ok (PInf, true) else do e0 <- cat vecC w j; Ok (bnd (snd e0) true));
               do lo <- low_end vecC w j; Ok (ans ++ opt_list (acc_edge cfg up lo e)) else Ok ans) es ans
        = Ok (ans ++ flat_map (fun e => if match etgt e with Some q => match_at A q | None => false end
               then opt_list (acc_edge cfg (up_end fin j) (lo_end j) e) else []) es)).
      { rewrite UE, low_end_vec by auto. cbn [bind].
        induction es as [|e es IHe]; intros a; cbn [fold_out flat_map]; [now rewrite app_nil_r|].
        destruct (match etgt e with Some q => match_at A q | None => false end) eqn:Et; cbn [bind].
        - rewrite IHe, <- app_assoc. reflexivity.
        - rewrite IHe. reflexivity. }
      rewrite IN. cbn [bind]. rewrite IH, <- app_assoc. reflexivity.
  Qed.

  Lemma in_accs : forall fin j cs z, In z (accs fin j cs) <->
    exists cfg e q, In cfg cs /\ is_edge A (ist cfg) (lab fin j) e /\ etgt e = Some q /\ accepting A q /\
                    acc_edge cfg (up_end fin j) (lo_end j) e = Some z.
  Proof.
    intros. unfold accs. rewrite in_flat_map. split.
    - intros (cfg & H1 & H2). apply in_flat_map in H2. destruct H2 as (e & H2 & H3).
      apply edges_at_spec in H2; auto. destruct (etgt e) as [q|] eqn:Et; [|contradiction].
      destruct (match_at A q) eqn:Em; [|contradiction]. apply match_at_spec in Em; [|apply WF].
      exists cfg, e, q. repeat split; auto.
      destruct (acc_edge cfg (up_end fin j) (lo_end j) e); cbn in H3; [|contradiction]. destruct H3; [congruence|contradiction].
    - intros (cfg & e & q & H1 & H2 & H3 & H4 & H5). exists cfg. split; auto. apply in_flat_map. exists e.
      split; [now apply edges_at_spec|]. rewrite H3. apply match_at_spec in H4; [|apply WF]. rewrite H4, H5. now left.
  Qed.

  (* A reported zone: what the user may rely on. *)
  Definition zone_correct (i : nat) (z : mat) : Prop :=
    square 3 z /\ mgood 3 z /\ canonical 3 z /\
    forall t t', zin 3 z (pairv t t') -> start_in w i t /\ mmatch M A w t t'.

  (* A zone reported for an event: only the end given by the event is a match, all
     ends before it are in the zone as well. *)
  Definition hit_ok (i : nat) (z : mat) : Prop :=
    M = MOptional /\ square 3 z /\ mgood 3 z /\
    exists j, i <= j /\ j < length w /\ (exists t, zin 3 z (pairv t (tm w j))) /\
      (forall t t', zin 3 z (pairv t t') ->
        start_in w i t /\ (t <= t')%Q /\ (t' <= tm w j)%Q /\ zin 3 z (pairv t (tm w j)) /\ event_matches A w t (tm w j)) /\
      forall t t', zin 3 z (pairv t (tm w j)) -> (t <= t')%Q -> (t' <= tm w j)%Q -> zin 3 z (pairv t t').

  Definition zone_ok (i : nat) (z : mat) : Prop := zone_correct i z \/ hit_ok i z.

  Lemma accs_sound : forall (fin : bool) i j cs z, i <= j -> j <= length w -> i < length w -> (fin = true -> M <> MSignal) ->
    (if fin then j = length w else j < length w) -> cspec i j cs -> In z (accs fin j cs) -> zone_correct i z.
  Proof.
    intros fin i j cs z L1 L2 L3 LM L4 C H. apply in_accs in H. destruct H as (cfg & e & q & H1 & H2 & H3 & H4 & H5).
    destruct (csp_wf _ _ _ C _ H1) as (G1 & G2 & G3).
    assert (Gu : good (up_end fin j)) by (unfold up_end; destruct fin; exact I).
    assert (Gl : good (lo_end j)) by (unfold lo_end; destruct (0 <? j); exact I).
    pose proof (acc_edge_spec cfg (up_end fin j) (lo_end j) e G1 G2 Gu Gl) as S. rewrite H5 in S.
    destruct S as (S1 & S2 & S3 & S4). split; auto. split; auto. split.
    - apply S4.
      + pose proof (csp_up _ _ _ C _ H1) as U. unfold up_end. destruct fin.
        * destruct (iup cfg) as [[] ?]; cbn in *; auto; contradiction.
        * eapply ble_trans; [exact G1| | |exact U|]; [exact I|exact I|].
          pose proof (tm_mono i j L1 L4). unfold ble, bnd. cbn. lra.
      + apply (csp_lo _ _ _ C _ H1).
    - intros t t' Z. apply S3 in Z. destruct Z as (Z1 & Z2 & Z3 & Z4 & Z5 & Z6).
      destruct (csp_sound _ _ _ C _ t H1 Z1 Z2) as (S & p0 & v & T & Hp & R & RP). split; auto.
      assert (EI : end_in w j t').
      { split.
        - intros Hj. unfold lo_end in Z4. apply Nat.ltb_lt in Hj. rewrite Hj in Z4. unfold below in Z4. cbn in Z4. lra.
        - intros Hj. destruct fin; [lia|]. exact Z3. }
      assert (SG : sat_guard (delay v (t' - T)) (eguard e)) by (eapply rep_guard; eauto; apply (wf_is_edge _ _ _ _ WF H2)).
      pose proof (between_slice w i j t t' ND L1 L2 L3 S EI) as EB.
      assert (D : lab fin j = dollar -> matches A w t t').
      { intros EL. rewrite EL in H2. split; [apply S|]. split; [exact Z5|]. exists p0, (ist cfg), v, T, e, q. rewrite EB. repeat split; auto. }
      unfold mmatch, lab, acc_letter in *. destruct M; [destruct fin; auto| |destruct fin; auto].
      destruct fin; [exfalso; apply LM; auto|]. split; [apply S|]. split; [exact Z5|].
      exists (firstn j w), (fst (nth j w (0, 0%Q))), (tm w j), (skipn (Datatypes.S j) w), p0, (ist cfg), v, T, e, q.
      split; [|split; [|split; [apply EI; auto|]]].
      + rewrite <- (firstn_skipn j w) at 1. f_equal. unfold tm. rewrite <- surjective_pairing.
        clear - L4. revert j L4. induction w as [|a l IH]; cbn [length]; intros [|j] L; try lia; [reflexivity|]. cbn [skipn nth]. rewrite IH by lia. reflexivity.
      + intros x Hx. apply in_firstn_nth in Hx as (k & K1 & K2 & ->). pose proof (tm_mono k (j - 1) ltac:(lia) ltac:(lia)).
        destruct EI as [EI _]. specialize (EI ltac:(lia)). unfold tm in *. lra.
      + rewrite EB. repeat split; auto.
  Qed.

  Lemma run_slice_time : forall i j p v t q u T, i <= j -> j < length w -> run A p v t (slice w i (S j)) q u T -> T = tm w j.
  Proof.
    intros i j p v t q u T L1 L2 R. apply run_time in R. rewrite R, slice_snoc by auto. rewrite map_app. cbn [map]. apply last_last.
  Qed.

  Lemma ezones_sound : forall i j cs z, i <= j -> j < length w -> cspec i j cs -> In z (ezones j cs) -> hit_ok i z.
  Proof.
    intros i j cs z L1 L2 C H. destruct (in_ezones i j cs z L1 L2 C H) as (HM & cfg & Hc & Ac & S1 & S2 & S3).
    split; auto. split; auto. split; auto. exists j. split; auto. split; auto.
    pose proof (event_spec i j cs L1 L2 C) as C'. pose proof (tm_nonneg j L2) as N.
    assert (U : forall t, below (iup cfg) t -> (t <= tm w j)%Q).
    { intros t B. pose proof (csp_up _ _ _ C' _ Hc) as U. pose proof (tm_mono i j L1 L2).
      apply (below_ble _ _ _ (proj1 (csp_wf _ _ _ C' _ Hc)) (good_bnd (tm w i) false) U) in B. unfold below, bnd in B. cbn in B. lra. }
    split; [|split].
    - assert (V : exists t, below (iup cfg) t /\ below (ilo cfg) (- t)).
      { rewrite (event_confs_step i j) in Hc by auto.
        unfold step_confs in Hc. apply in_flat_map in Hc as (cfg0 & I0 & Hc). apply in_flat_map in Hc as (e & He & Hc).
        destruct (step_edge cfg0 (tm w j) e) as [cf|] eqn:SE; [|contradiction]. destruct Hc as [->|[]].
        unfold step_edge in SE. destruct (etgt e) as [q|] eqn:Et; [|discriminate].
        pose proof (step_guard_spec (irst cfg0) (tm w j) 0%Q (eguard e) (iup cfg0) (ilo cfg0)) as SG.
        destruct (csp_wf _ _ _ C _ I0) as (G1 & G2 & _).
        destruct (step_guard _ _ _ _ _) as [[up lo]|]; [|discriminate]. destruct (SG G1 G2) as (Gu & Gl & _).
        destruct (isValidConstraint up lo) eqn:V; [|discriminate]. injection SE as <-. cbn [iup ilo].
        unfold isValidConstraint in V. apply bgeb_zero in V; auto with bnd.
        destruct (below_split up lo 0%Q Gu Gl) as (x & y & B1 & B2 & EQ); [apply below_zero; auto with bnd|].
        exists x. split; auto. eapply below_eq; [|exact B2]. lra. }
      destruct V as (t & V1 & V2). exists t. apply S3. split; [auto|]. split; [auto|]. split; [lra|]. split; [lra|]. auto.
    - intros t t' Z. apply S3 in Z. destruct Z as (Z1 & Z2 & Z3 & Z4 & Z5).
      destruct (csp_sound _ _ _ C' _ t Hc Z1 Z2) as (St & p0 & v & T & Hp & R & RP).
      pose proof (run_slice_time _ _ _ _ _ _ _ _ L1 L2 R) as ET. subst T.
      split; auto. split; auto. split; auto. split; [apply S3; split; [auto|]; split; [auto|]; split; [lra|]; split; [lra|auto]|].
      split; [apply St|]. exists (firstn i w), (slice w i (S j)), (skipn (S j) w), p0, (ist cfg), v, (tm w j).
      split; [apply split3; lia|]. destruct St as (St1 & St2 & St3). split; [|split; [|split; [|split; [auto|split; [auto|split; [auto|lra]]]]]].
      + intros x Hx. apply in_firstn_nth in Hx as (k & K1 & K2 & ->). pose proof (tm_mono k (i - 1) ltac:(lia) ltac:(lia)).
        specialize (St2 ltac:(lia)). unfold tm in *. lra.
      + intros x Hx. apply in_slice_nth in Hx as (k & K1 & K2 & K3 & ->). pose proof (tm_mono i k K1 K3). unfold tm in *. lra.
      + rewrite slice_snoc by auto. destruct (slice w i j); discriminate.
    - intros t t' Z Lt Lu. apply S3 in Z. destruct Z as (Z1 & Z2 & _). destruct (csp_sound _ _ _ C' _ t Hc Z1 Z2) as (St & _).
      apply S3. split; [auto|]. split; [auto|]. split; [auto|]. split; [|auto]. destruct St as (St & _). lra.
  Qed.

  Lemma accs_complete : forall (fin : bool) i j cs t t' p0 q v T e acc, i <= j ->
    (if fin then j = length w else j < length w) -> cspec i j cs ->
    start_in w i t -> end_in w j t' -> (t <= t')%Q -> In p0 (inits A) ->
    run A p0 zeroval t (slice w i j) q v T -> is_edge A q (lab fin j) e -> etgt e = Some acc -> accepting A acc ->
    sat_guard (delay v (t' - T)) (eguard e) ->
    exists z, In z (accs fin j cs) /\ zin 3 z (pairv t t').
  Proof.
    intros fin i j cs t t' p0 q v T e acc L1 L2 C S (E1 & E2) Ht Hp R He Et Ha Hg.
    destruct (csp_complete _ _ _ C _ _ _ _ _ S Hp R) as (cfg & I1 & I2 & I3). subst q.
    destruct (csp_wf _ _ _ C _ I1) as (G1 & G2 & G3).
    assert (Gu : good (up_end fin j)) by (unfold up_end; destruct fin; exact I).
    assert (Gl : good (lo_end j)) by (unfold lo_end; destruct (0 <? j); exact I).
    pose proof (acc_edge_spec cfg (up_end fin j) (lo_end j) e G1 G2 Gu Gl) as SP.
    assert (AP : acc_pairs cfg (up_end fin j) (lo_end j) e t t').
    { destruct I3 as (R1 & R2 & R3). split; [auto|split; [auto|split]].
      - unfold up_end. destruct fin; [exact I|]. unfold below. cbn. auto.
      - split; [|split; [auto|]].
        + unfold lo_end. destruct (0 <? j) eqn:Ej.
          * apply Nat.ltb_lt in Ej. pose proof (E1 Ej). unfold below. cbn. lra.
          * destruct S as (S1 & _). unfold below. cbn. lra.
        + eapply rep_guard; [split; [exact R1|split; [exact R2|exact R3]]|apply (wf_is_edge _ _ _ _ WF He)|exact Hg]. }
    destruct (acc_edge cfg (up_end fin j) (lo_end j) e) as [z|] eqn:Ez.
    - exists z. split; [apply in_accs; exists cfg, e, acc; repeat split; auto|]. now apply SP.
    - exfalso. eapply SP; eauto.
  Qed.

  (* ---- the matching loop ---- *)
  Lemma match_loop_vec : forall fuel i j cs ls ans, i <= j -> j <= length w -> i < length w -> cspec i j cs ->
    match match_loop vecC A M fuel w j cs ls ans with
    | Ok (w', j', cs', ls', ans') =>
        w' = w /\ j <= j' /\ j' <= length w /\ cspec i j' cs' /\ (cs' = [] \/ j' = length w) /\
        (j' = j /\ ls' = ls /\ cs' = cs \/ j < j' /\ cspec i (j' - 1) ls') /\
        exists zs, ans' = ans ++ zs /\
          (forall z, In z zs -> zone_ok i z) /\
          (forall k, j <= k -> k < j' -> exists csk, cspec i k csk /\ incl (accs false k csk ++ ezones k csk) zs)
    | OutOfFuel => fuel < length w - j
    | _ => False
    end.
  Proof.
    assert (STOP : forall i j cs (ls : list iconf) (ans : list mat), j <= length w -> cspec i j cs -> (cs = [] \/ j = length w) ->
        w = w /\ j <= j /\ j <= length w /\ cspec i j cs /\ (cs = [] \/ j = length w) /\
        (j = j /\ ls = ls /\ cs = cs \/ j < j /\ cspec i (j - 1) ls) /\
        exists zs, ans = ans ++ zs /\
          (forall z, In z zs -> zone_ok i z) /\
          (forall k, j <= k -> k < j -> exists csk, cspec i k csk /\ incl (accs false k csk ++ ezones k csk) zs)).
    { intros i j cs ls ans L2 C X. split; [auto|]. split; [lia|]. split; [auto|]. split; [auto|]. split; [auto|].
      split; [left; auto|]. exists []. rewrite app_nil_r. split; [auto|]. split; [intros z []|intros; lia]. }
    induction fuel; intros i j cs ls ans L1 L2 L3 C.
    - cbn [match_loop]. destruct cs as [|cf cs].
      + apply STOP; auto.
      + cbn [vecC cfetch]. destruct (j <? length w) eqn:E.
        * apply Nat.ltb_lt in E. lia.
        * apply Nat.ltb_ge in E. apply STOP; auto. right. lia.
    - cbn [match_loop]. destruct cs as [|cf cs].
      + apply STOP; auto.
      + cbn [vecC cfetch]. destruct (j <? length w) eqn:E.
        * apply Nat.ltb_lt in E. change (cat vecC w j) with (vec_at w j). unfold vec_at.
          rewrite (nth_error_nth' w (0, 0%Q) E). cbn [bind].
          change (acc_letter M (fst (nth j w (0, 0%Q)))) with (lab false j).
          rewrite (acc_confs_vec false j) by auto. cbn [bind].
          change (snd (nth j w (0, 0%Q))) with (tm w j).
          fold (ezones j (cf :: cs)).
          set (new := accs false j (cf :: cs) ++ ezones j (cf :: cs)).
          replace ((ans ++ accs false j (cf :: cs)) ++ ezones j (cf :: cs)) with (ans ++ new) by (unfold new; now rewrite app_assoc).
          pose proof (IHfuel i (S j) (event_confs M A (fst (nth j w (0, 0%Q))) (tm w j) (cf :: cs)) (cf :: cs)
                       (ans ++ new) ltac:(lia) ltac:(lia) L3 (event_spec i j (cf :: cs) L1 E C)) as IH.
          fold vecC.
          destruct (match_loop vecC A M fuel w (S j) (event_confs M A (fst (nth j w (0, 0%Q))) (tm w j) (cf :: cs)) (cf :: cs)
                       (ans ++ new)) as [[[[[w' j'] cs'] ls'] ans']| | | |]; try (auto; lia).
          destruct IH as (-> & J1 & J2 & C' & X & LS & zs & -> & Z1 & Z2).
          split; [auto|]. split; [lia|]. split; [auto|]. split; [auto|]. split; [auto|]. split.
          { right. split; [lia|]. destruct LS as [(-> & -> & _)|(? & ?)]; [|auto].
            replace (S j - 1) with j by lia. auto. }
          exists (new ++ zs). rewrite app_assoc. split; [auto|]. split.
          { intros z H. apply in_app_or in H. destruct H as [H|H]; [|auto]. apply in_app_or in H as [H|H].
            - left. eapply (accs_sound false i j (cf :: cs)); eauto. discriminate.
            - right. eapply (ezones_sound i j (cf :: cs)); eauto. }
          { intros k K1 K2. destruct (Nat.eq_dec k j) as [->|].
            - exists (cf :: cs). split; auto. apply incl_appl, incl_refl.
            - destruct (Z2 k ltac:(lia) K2) as (csk & Ck & Ik). exists csk. split; auto. now apply incl_appr. }
        * apply Nat.ltb_ge in E. apply STOP; auto. right. lia.
  Qed.

  (* ---- one round ---- *)
  Lemma find_end : forall i t t', i < length w -> start_in w i t -> (t < t')%Q ->
    exists j, i <= j /\ j <= length w /\ end_in w j t'.
  Proof.
    intros i t t' L (S1 & S2 & S3) Lt.
    assert (forall d i', i' + d = length w -> (0 < i' -> (tm w (i' - 1) < t')%Q) ->
              exists j, i' <= j /\ j <= length w /\ end_in w j t') as X.
    { induction d; intros i' Hd Hi.
      - exists i'. split; [lia|]. split; [lia|]. split; [auto|intros; lia].
      - destruct (Qlt_le_dec (tm w i') t') as [H|H].
        + destruct (IHd (S i') ltac:(lia)) as (j & J1 & J2 & J3).
          { intros _. replace (S i' - 1) with i' by lia. auto. }
          exists j. split; [lia|]. auto.
        + exists i'. split; [lia|]. split; [lia|]. split; auto. }
    destruct (X (length w - i) i ltac:(lia)) as (j & J); [|exists j; tauto].
    intros Hi. pose proof (S2 Hi). lra.
  Qed.

  Variable T : skips.

  Lemma greatest_spec : forall ls,
    match greatest T ls with
    | Ok k => 1 <= k /\ (k = 1 \/ exists cfg, In cfg ls /\ sk_beta T (ist cfg) = Some k)
    | Throw => exists cfg, In cfg ls /\ sk_beta T (ist cfg) = None
    | _ => False
    end.
  Proof.
    intros ls. unfold greatest.
    assert (forall ls k0, match fold_out (fun cfg k => match sk_beta T (ist cfg) with
                           | Some b => Ok (if b <? k then k else b) | None => Throw end) ls k0 with
      | Ok k => k0 <= k /\ (k = k0 \/ exists cfg, In cfg ls /\ sk_beta T (ist cfg) = Some k)
      | Throw => exists cfg, In cfg ls /\ sk_beta T (ist cfg) = None
      | _ => False end) as X.
    { clear. induction ls as [|cfg ls IH]; intros k0; cbn [fold_out]; [auto|].
      destruct (sk_beta T (ist cfg)) as [b|] eqn:Eb; cbn [bind].
      - specialize (IH (if b <? k0 then k0 else b)).
        destruct (fold_out _ ls _); try contradiction; auto.
        + destruct IH as [IH1 IH2]. destruct (Nat.ltb_spec b k0).
          * split; [lia|]. destruct IH2 as [->|(c & ? & ?)]; [auto|]. right. exists c. cbn. auto.
          * split; [lia|]. right. destruct IH2 as [->|(c & ? & ?)].
            -- exists cfg. cbn. auto.
            -- exists c. cbn. auto.
        + destruct IH as (c & ? & ?). exists c. cbn. auto.
      - exists cfg. cbn. auto. }
    apply X.
  Qed.

  (* A reported zone came from some start position. *)
  Definition reported_ok (zs : list mat) : Prop := forall z, In z zs -> exists i, i < length w /\ zone_ok i z.

  Hypothesis Tm : 1 <= sk_m T.
  Hypothesis Td : forall c d, sk_delta T c = Some d -> 1 <= d.

  (* Positions at which nothing starts; used for completeness. *)
  Variable P : nat -> Prop.
  Hypothesis Plen : forall k, length w < k + sk_m T -> P k.
  Hypothesis Pend : forall k, 1 < sk_m T -> k + sk_m T <= length w ->
    mem (fst (nth (k + sk_m T - 1) w (0, 0%Q))) (sk_end T) = false -> P k.
  Hypothesis Pdelta : forall i k d, 1 < sk_m T -> i + sk_m T < length w ->
    sk_delta T (fst (nth (i + sk_m T) w (0, 0%Q))) = Some d -> i < k -> k < i + d -> P k.
  Hypothesis Pbeta : forall i j cs cfg b k, i < length w -> i <= j -> j <= length w -> cspec i j cs ->
    In cfg cs -> sk_beta T (ist cfg) = Some b -> i < k -> k < i + b -> P k.

  Lemma vec_at_nth : forall k, k < length w -> cat vecC w k = Ok (nth k w (0, 0%Q)).
  Proof. intros. change (cat vecC w k) with (vec_at w k). unfold vec_at. now rewrite (nth_error_nth' w (0, 0%Q)). Qed.
  Lemma vec_fetch : forall k, cfetch vecC w k = (k <? length w, w).
  Proof. reflexivity. Qed.
  Lemma vec_front : forall k, csetFront vecC w k = Ok w.
  Proof. reflexivity. Qed.

  Lemma sunday_vec : forall fuel i, 1 < sk_m T -> i + sk_m T <= length w ->
    match sunday_loop vecC T fuel w i with
    | Ok (w', Some i') => w' = w /\ i <= i' /\ i' + sk_m T <= length w /\ forall k, i <= k -> k < i' -> P k
    | Ok (w', None) => w' = w /\ forall k, i <= k -> P k
    | UB => exists k, k < length w /\ sk_delta T (fst (nth k w (0, 0%Q))) = None
    | OutOfFuel => fuel < length w - i
    | _ => False
    end.
  Proof.
    induction fuel; intros i M1 L; cbn [sunday_loop]; rewrite vec_at_nth by lia; cbn [bind];
      (destruct (mem (fst (nth (i + sk_m T - 1) w (0, 0%Q))) (sk_end T)) eqn:Em;
       [repeat split; auto; intros; lia|]);
      rewrite vec_fetch; cbv beta iota;
      (destruct (i + sk_m T <? length w) eqn:E;
       [apply Nat.ltb_lt in E; rewrite vec_at_nth by lia; cbn [bind]|
        apply Nat.ltb_ge in E; split; auto; intros k K; destruct (Nat.eq_dec k i) as [->|]; [auto|]; apply Plen; lia]).
    - destruct (sk_delta T (fst (nth (i + sk_m T) w (0, 0%Q)))) eqn:Ed; [lia|eauto].
    - destruct (sk_delta T (fst (nth (i + sk_m T) w (0, 0%Q)))) as [d|] eqn:Ed; [|eauto].
      pose proof (Td _ _ Ed) as Hd. rewrite vec_front. cbn [bind]. rewrite vec_fetch. cbv beta iota.
      destruct (i + d + sk_m T - 1 <? length w) eqn:E2.
      + apply Nat.ltb_lt in E2. specialize (IHfuel (i + d) M1 ltac:(lia)).
        assert (PK : forall k, i <= k -> k < i + d -> P k).
        { intros k K1 K2. destruct (Nat.eq_dec k i) as [->|]; [auto|]. eapply Pdelta; eauto. lia. }
        destruct (sunday_loop vecC T fuel w (i + d)) as [[w' [i'|]]| | | |]; auto; try lia.
        * destruct IHfuel as (-> & I1 & I2 & I3). split; [auto|]. split; [lia|]. split; [auto|].
          intros k K1 K2. destruct (Nat.lt_ge_cases k (i + d)); auto.
        * destruct IHfuel as (-> & I3). split; [auto|].
          intros k K1. destruct (Nat.lt_ge_cases k (i + d)); auto.
      + apply Nat.ltb_ge in E2. split; auto. intros k K. destruct (Nat.eq_dec k i) as [->|]; [auto|].
        destruct (Nat.lt_ge_cases k (i + d)); [eapply Pdelta; eauto; lia|]. apply Plen. lia.
  Qed.

  (* The start positions of the rounds cover all positions that are not in P. *)
  Definition covered_from (i : nat) (zs : list mat) : Prop :=
    forall k t t', i <= k -> k < length w -> start_in w k t -> (t < t')%Q -> mmatch M A w t t' ->
      P k \/ exists z, In z zs /\ zin 3 z (pairv t t').

  Lemma slice_split : forall i j k, i <= j -> j <= k -> slice w i k = slice w i j ++ slice w j k.
  Proof.
    intros. unfold slice. replace (k - i) with ((j - i) + (k - j)) by lia.
    assert (X : forall (l : tword) a b, firstn (a + b) l = firstn a l ++ firstn b (skipn a l)).
    { induction l; intros [|a0] b; cbn; auto; [now rewrite firstn_nil|]. now rewrite IHl. }
    rewrite X, WordFacts.skipn_skipn'. f_equal. f_equal. f_equal. lia.
  Qed.

  Lemma start_unique : forall i t w1 w2 w3, start_in w i t -> i < length w -> w = w1 ++ w2 ++ w3 -> w2 <> [] ->
    (forall x, In x w1 -> (snd x <= t)%Q) -> (forall x, In x w2 -> (t < snd x)%Q) ->
    w2 = slice w i (i + length w2) /\ i + length w2 <= length w.
  Proof.
    intros i t w1 w2 w3 (S1 & S2 & S3) L E NE H1 H2.
    assert (LW : length w = length w1 + (length w2 + length w3)) by (rewrite E, !app_length; lia).
    assert (L2 : 0 < length w2) by (destruct w2; [congruence|cbn; lia]).
    assert (Ei : length w1 = i).
    { destruct (Nat.lt_trichotomy (length w1) i) as [K|[K|K]]; auto; exfalso.
      - assert (X : In (nth (length w1) w (0, 0%Q)) w2).
        { rewrite E, app_nth2, Nat.sub_diag, app_nth1 by lia. apply nth_In. auto. }
        apply H2 in X. pose proof (tm_mono (length w1) (i - 1) ltac:(lia) ltac:(lia)). specialize (S2 ltac:(lia)). unfold tm in *. lra.
      - assert (X : In (nth i w (0, 0%Q)) w1) by (rewrite E, app_nth1 by lia; apply nth_In; auto).
        apply H1 in X. unfold tm in *. lra. }
    split; [|lia]. unfold slice. replace (i + length w2 - i) with (length w2) by lia. rewrite E, skipn_app, <- Ei, skipn_all, Nat.sub_diag.
    cbn [app skipn]. rewrite firstn_app, firstn_all, Nat.sub_diag. cbn [firstn]. now rewrite app_nil_r.
  Qed.

  (* All the matches beginning at position i are reported by the round of i. *)
  Lemma round_complete : forall i j cs zs t t', i < length w -> i <= j -> j <= length w ->
    cspec i j cs -> (cs = [] \/ j = length w) ->
    (forall k, i <= k -> k < j -> exists csk, cspec i k csk /\ incl (accs false k csk ++ ezones k csk) zs) ->
    (j = length w -> M <> MSignal -> incl (accs true j cs) zs) ->
    start_in w i t -> (t < t')%Q -> mmatch M A w t t' -> exists z, In z zs /\ zin 3 z (pairv t t').
  Proof.
    intros i j cs zs t t' L L1 L2 C X Z1 Z2 S Lt MM.
    (* a run that goes on after position j *)
    assert (EARLY : forall p j0 q v T', In p (inits A) -> j <= j0 -> run A p zeroval t (slice w i j0) q v T' -> cs = [] -> False).
    { intros p j0 q v T' Hp Hj R ->.
      rewrite (slice_split i j j0 L1 Hj) in R. apply run_app_inv in R. destruct R as (q1 & v1 & T1 & R1 & _).
      destruct (csp_complete _ _ _ C _ _ _ _ _ S Hp R1) as (cfg & [] & _). }
    assert (DOLLAR : M <> MSignal -> matches A w t t' -> exists z, In z zs /\ zin 3 z (pairv t t')).
    { intros NS (M1 & M2 & p & q & v & T' & e & acc & Hp & R & He & Et & Ha & Hg).
      destruct (find_end i t t' L S Lt) as (j0 & J1 & J2 & J3).
      rewrite (between_slice w i j0 t t' ND J1 J2 L S J3) in R.
      assert (EL : lab false j0 = dollar) by (unfold lab, acc_letter; destruct M; auto; congruence).
      destruct (Nat.lt_ge_cases j0 j) as [Hj|Hj].
      - destruct (Z1 j0 J1 Hj) as (csk & Ck & Ik). rewrite <- EL in He.
        destruct (accs_complete false i j0 csk t t' p q v T' e acc J1 (Nat.lt_le_trans _ _ _ Hj L2) Ck S J3 M2 Hp R He Et Ha Hg) as (z & Iz & Zz).
        exists z. split; auto. apply Ik, in_or_app. auto.
      - destruct (Nat.eq_dec j (length w)) as [Ej|Ej].
        + assert (j0 = j) by lia. subst j0.
          destruct (accs_complete true i j cs t t' p q v T' e acc J1 Ej C S J3 M2 Hp R He Et Ha Hg) as (z & Iz & Zz).
          exists z. split; auto. now apply Z2.
        + destruct X as [X|X]; [|contradiction]. exfalso. eapply EARLY; eauto. }
    unfold mmatch in MM. destruct M eqn:EM; [apply DOLLAR; [discriminate|auto]| |destruct MM as [MM|MM]; [apply DOLLAR; [discriminate|auto]|]].
    - (* monaa() *)
      destruct MM as (M1 & M2 & pre & c & tau & post & p & q & v & T' & e & acc & Ew & Hpre & Htau & Hp & R & He & Et & Ha & Hg).
      set (j0 := length pre).
      assert (LW : length w = j0 + Datatypes.S (length post)) by (rewrite Ew, app_length; reflexivity).
      assert (En : nth j0 w (0, 0%Q) = (c, tau)) by (unfold j0; rewrite Ew, app_nth2, Nat.sub_diag by lia; reflexivity).
      assert (J1 : i <= j0).
      { destruct (Nat.lt_ge_cases j0 i) as [K|K]; auto. exfalso. pose proof (tm_mono j0 (i - 1) ltac:(lia) ltac:(lia)) as Mo.
        destruct S as (_ & S2 & _). specialize (S2 ltac:(lia)). unfold tm in Mo at 1. rewrite En in Mo. cbn in Mo. lra. }
      assert (J3 : end_in w j0 t').
      { split.
        - intros K. assert (I1 : In (nth (j0 - 1) w (0, 0%Q)) pre).
          { rewrite Ew, app_nth1 by (fold j0; lia). apply nth_In. fold j0. lia. }
          apply Hpre in I1. unfold tm. lra.
        - intros _. unfold tm. rewrite En. exact Htau. }
      rewrite (between_slice w i j0 t t' ND J1 ltac:(lia) L S J3) in R.
      destruct (Nat.lt_ge_cases j0 j) as [Hj|Hj].
      + destruct (Z1 j0 J1 Hj) as (csk & Ck & Ik).
        assert (EL : c = lab false j0) by (unfold lab, acc_letter; rewrite EM, En; reflexivity). rewrite EL in He.
        destruct (accs_complete false i j0 csk t t' p q v T' e acc J1 (Nat.lt_le_trans _ _ _ Hj L2) Ck S J3 M2 Hp R He Et Ha Hg) as (z & Iz & Zz).
        exists z. split; auto. apply Ik, in_or_app. auto.
      + destruct X as [X|X]; [|lia]. exfalso. eapply EARLY; eauto.
    - (* an accepting state reached by an event *)
      destruct MM as (M1 & w1 & w2 & w3 & p & q & v & T' & Ew & H1 & H2 & NE & Hp & R & Ha & Et).
      destruct (start_unique i t w1 w2 w3 S L Ew NE H1 H2) as (E2 & L4).
      assert (L5 : 0 < length w2) by (destruct w2; [congruence|cbn; lia]).
      destruct (length w2) as [|n] eqn:EN; [lia|]. replace (i + Datatypes.S n) with (Datatypes.S (i + n)) in * by lia.
      assert (R' : run A p zeroval t (slice w i (Datatypes.S (i + n))) q v T') by (rewrite <- E2; exact R).
      pose proof (run_slice_time i (i + n) _ _ _ _ _ _ ltac:(lia) ltac:(lia) R') as ET. subst T'.
      destruct (Nat.lt_ge_cases (i + n) j) as [Hj|Hj].
      + destruct (Z1 (i + n) ltac:(lia) Hj) as (csk & Ck & Ik).
        pose proof (event_spec i (i + n) csk ltac:(lia) ltac:(lia) Ck) as Ce. rewrite EM in Ce.
        destruct (csp_complete _ _ _ Ce _ _ _ _ _ S Hp R') as (cfg & I1 & <- & RP).
        destruct (ezones_in i (i + n) csk cfg EM ltac:(lia) ltac:(lia) Ck) as (z & Iz & Zz); [rewrite EM; auto|auto|].
        exists z. split; [apply Ik, in_or_app; auto|]. apply Zz. pose proof (tm_nonneg (i + n) ltac:(lia)).
        destruct RP as (B1 & B2 & _). split; [exact B1|]. split; [exact B2|]. split; [lra|]. split; lra.
      + destruct X as [X|X]; [|lia]. exfalso. apply (EARLY p (Datatypes.S (i + n)) q v (tm w (i + n)) Hp); auto.
  Qed.

  Theorem outer_vec : forall fuel i ls ans, (inits A = [] -> ls = []) ->
    (forall cfg, In cfg ls -> In (ist cfg) (map fst (states A))) ->
    match outer_loop vecC A T M fuel w i ls ans with
    | Ok zs => exists new, zs = ans ++ new /\ reported_ok new /\ covered_from i new
    | UB => exists k, k < length w /\ sk_delta T (fst (nth k w (0, 0%Q))) = None
    | Throw => exists p, sk_beta T p = None /\ In p (map fst (states A))
    | OutOfFuel => fuel < length w - i
    | Exit _ => False
    end.
  Proof.
    assert (DONE : forall i ans, (forall k, i <= k -> P k) -> exists new, ans = ans ++ new /\ reported_ok new /\ covered_from i new).
    { intros i ans H. exists []. rewrite app_nil_r. split; auto. split; [intros z []|].
      intros k t t' K1 K2 K3 K4 K5. left. auto. }
    induction fuel; intros i ls ans HL HS; cbn [outer_loop]; rewrite vec_fetch; cbv beta iota;
      (destruct (i + sk_m T - 1 <? length w) eqn:E;
       [apply Nat.ltb_lt in E|apply Nat.ltb_ge in E; apply DONE; intros k K; apply Plen; lia]); [cbv iota; lia|].
    (* Sunday shift *)
    assert (SS : match sunday_shift vecC T (S fuel) w i with
      | Ok (w', Some i') => w' = w /\ i <= i' /\ i' + sk_m T <= length w /\ forall k, i <= k -> k < i' -> P k
      | Ok (w', None) => w' = w /\ forall k, i <= k -> P k
      | UB => exists k, k < length w /\ sk_delta T (fst (nth k w (0, 0%Q))) = None
      | OutOfFuel => S fuel < length w - i
      | _ => False end).
    { unfold sunday_shift. destruct (1 <? sk_m T) eqn:Em.
      - apply Nat.ltb_lt in Em. rewrite vec_fetch. cbv beta iota. apply Nat.ltb_lt in E as E'. rewrite E'.
        apply sunday_vec; auto. lia.
      - repeat split; auto; [lia|intros; lia]. }
    destruct (sunday_shift vecC T (S fuel) w i) as [[w' [i'|]]| | | |]; cbn [bind fst snd]; auto.
    2: { destruct SS as (_ & SS). now apply DONE. }
    destruct SS as (-> & I1 & I2 & I3). rewrite vec_fetch. cbv beta iota.
    assert (Li : i' < length w) by lia. apply Nat.ltb_lt in Li as Li'. rewrite Li'.
    rewrite start_confs_vec by auto. cbn [bind].
    pose proof (match_loop_vec (S fuel) i' i' (start_list i') ls ans ltac:(lia) ltac:(lia) Li (start_spec i' Li)) as ML.
    destruct (match_loop vecC A M (S fuel) w i' (start_list i') ls ans) as [[[[[w' j] cs] ls'] ans']| | | |]; cbn [bind]; auto; try lia.
    destruct ML as (-> & J1 & J2 & C & X & LS & zs & -> & Z1 & Z2).
    rewrite vec_fetch. cbv beta iota.
    (* LastStates and the answers after the round *)
    assert (LA : exists last zs', (if j <? length w then Ok (ls', ans ++ zs)
              else match M with
                   | MSignal => Ok (cs, ans ++ zs)
                   | _ => do ans' <- acc_confs vecC A true dollar w j cs (ans ++ zs); Ok (cs, ans')
                   end) = Ok (last, ans ++ zs') /\
        (forall z, In z zs' -> zone_ok i' z) /\
        (forall t t', start_in w i' t -> (t < t')%Q -> mmatch M A w t t' -> exists z, In z zs' /\ zin 3 z (pairv t t')) /\
        (last = [] \/ exists j', i' <= j' /\ j' <= length w /\ cspec i' j' last)).
    { destruct (Nat.ltb_spec j (length w)) as [Hj|Hj].
      - exists ls', zs. split; [auto|]. split; [auto|]. split.
        + intros t t' St Lt Mt. eapply (round_complete i' j cs zs); eauto. intros; lia.
        + destruct LS as [(-> & -> & ->)|(K1 & K2)].
          * left. apply HL. destruct X as [X|X]; [|lia]. unfold start_list in X.
            destruct (inits A); [auto|discriminate].
          * right. exists (j - 1). split; [lia|]. split; [lia|auto].
      - assert (j = length w) by lia. exists cs, (zs ++ match M with MSignal => [] | _ => accs true j cs end).
        split; [|split; [|split]].
        + destruct M; [|now rewrite app_nil_r|]; change dollar with (lab true j);
            rewrite acc_confs_vec by (auto; discriminate); cbn [bind]; rewrite app_assoc; auto.
        + intros z Hz. apply in_app_or in Hz. destruct Hz as [Hz|Hz]; auto.
          left. eapply (accs_sound true i' j cs); eauto; [destruct M; [|contradiction|]; congruence|].
          destruct M; [auto|contradiction|auto].
        + intros t t' St Lt Mt. eapply (round_complete i' j cs (zs ++ match M with MSignal => [] | _ => accs true j cs end)); eauto.
          * intros k K1 K2. destruct (Z2 k K1 K2) as (csk & Ck & Ik). exists csk. split; auto. now apply incl_appl.
          * intros _ NS. apply incl_appr. destruct M; [apply incl_refl|congruence|apply incl_refl].
        + right. exists j. auto. }
    destruct LA as (last & zs' & -> & R1 & R2 & R3). cbn [bind fst snd].
    pose proof (greatest_spec last) as G.
    destruct (greatest T last) as [k| | | |]; cbn [bind]; try contradiction.
    2: { destruct G as (cfg & G1 & G2). exists (ist cfg). split; auto. destruct R3 as [->|(j' & _ & _ & C')]; [contradiction|].
         eapply csp_state; eauto. }
    destruct G as [G1 G2]. rewrite vec_front. cbn [bind].
    assert (H1 : inits A = [] -> last = []).
    { intros Hi. destruct R3 as [->|(j' & K1 & K2 & C')]; auto. now apply (csp_none _ _ _ C'). }
    assert (H2 : forall cfg, In cfg last -> In (ist cfg) (map fst (states A))).
    { intros cfg Hc. destruct R3 as [->|(j' & K1 & K2 & C')]; [contradiction|]. eapply csp_state; eauto. }
    specialize (IHfuel (i' + k) last (ans ++ zs') H1 H2).
    destruct (outer_loop vecC A T M fuel w (i' + k) last (ans ++ zs')); auto; try lia.
    2: contradiction.
    destruct IHfuel as (new & -> & N1 & N2). exists (zs' ++ new). rewrite app_assoc. split; [auto|]. split.
    - intros z Hz. apply in_app_or in Hz. destruct Hz as [Hz|Hz]; [exists i'; auto|auto].
    - intros k0 t t' K1 K2 St Lt Mt. destruct (Nat.lt_trichotomy k0 i') as [K|[->|K]].
      + left. apply I3; auto.
      + right. destruct (R2 t t' St Lt Mt) as (z & Z3 & Z4). exists z. split; auto. apply in_or_app; auto.
      + destruct (Nat.lt_ge_cases k0 (i' + k)) as [K'|K'].
        * left. destruct G2 as [->|(cfg & G2 & G3)]; [lia|].
          destruct R3 as [->|(j' & K3 & K4 & C')]; [contradiction|].
          eapply (Pbeta i' j' last cfg); eauto.
        * destruct (N2 k0 t t' K' K2 St Lt Mt) as [|(z & Z3 & Z4)]; [auto|]. right. exists z. split; auto. apply in_or_app; auto.
  Qed.
End Vec.
