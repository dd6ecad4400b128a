(* toEventTA: time restriction, conjunction, and the language of the result. *)
From Coq Require Import QArith Lqa Bool List ZArith Arith Lia Permutation.
From Verif Require Import Num NumFacts Outcome Interval IntervalFacts Constraint Zone TA Spec TAFacts Intersection IntersectionFacts Tre TreRun TreFacts TreBuild.
Import ListNotations.
Open Scope nat_scope.

(* ---------------- time restriction ---------------- *)

Lemma oseq_map : forall {X Y} (f : X -> outcome Y) (g : X -> Y) l, (forall x, In x l -> f x = Ok (g x)) -> oseq f l = Ok (map g l).
Proof.
  intros X Y f g. induction l as [|x l IH]; intros H; cbn; auto. rewrite (H x (or_introl eq_refl)). cbn.
  rewrite IH; auto. intros y Hy. apply H. right. auto.
Qed.

(* Integer bounds, as the parser builds them. *)
Definition int_bounds (Iv : interval) : Prop :=
  exists lo up, fst (lob Iv) = Fin (inject_Z lo) /\ fst (upb Iv) = Fin (inject_Z up).

Lemma int_of_inject : forall z, num_to_int (Fin (inject_Z z)) = Some z.
Proof. intros z. cbn. rewrite Z.quot_1_r. reflexivity. Qed.

Lemma within_guard_iin : forall x Iv lo up d, fst (lob Iv) = Fin (inject_Z lo) -> fst (upb Iv) = Fin (inject_Z up) ->
  (iin Iv d <-> sat_val (within_guard x Iv lo up) d).
Proof.
  intros x [[lb lc] [ub uc]] lo up d E1 E2. cbn in E1, E2. subst. unfold iin, above, below, sat_val, within_guard; cbn.
  split.
  - intros [H1 H2] g [<-|[<-|[]]]; cbn; [destruct uc|destruct lc]; cbn; auto.
  - intros H. split.
    + specialize (H _ (or_intror (or_introl eq_refl))). destruct lc; cbn in H; auto.
    + specialize (H _ (or_introl eq_refl)). destruct uc; cbn in H; auto.
Qed.

Lemma iin_eq : forall Iv d d', (d == d')%Q -> iin Iv d -> iin Iv d'.
Proof.
  intros [[lb lc] [ub uc]] d d' E [H1 H2]. split; unfold above, below in *; cbn [fst snd lob upb] in *;
    [destruct lb; auto; destruct lc|destruct ub; auto; destruct uc]; lra.
Qed.

Section WithinTA.
  Variables (al : nat -> ptr) (n0 n1 : nat) (A : ta) (Iv : interval) (lo up : Z).
  Hypothesis T : tinv al n0 n1 A.
  Hypothesis Elo : fst (lob Iv) = Fin (inject_Z lo).
  Hypothesis Eup : fst (upb Iv) = Fin (inject_Z up).
  Hypothesis Small : clockSize A < 256.
  Let W := ti_wf _ _ _ _ T.
  Let N := wf_nodup _ W.
  Let gs := within_guard (clockSize A) Iv lo up.

  Definition wedge (e : edge) : edge := if acc_tgt A e then mkE (etgt e) (eresets e) (eguard e ++ gs) else e.
  Definition wstate (s : tastate) : tastate := mkS (isMatch s) false (map_next (map wedge) (next s)).
  Definition wTA : ta :=
    mkTA (map (fun ps => (fst ps, wstate (snd ps))) (states A)) (filter (fun p => negb (zero_at A p)) (inits A)) (maxC A ++ [up]).

  Lemma within_edge_ok : forall p c e, is_edge A p c e -> within_edge A gs e = Ok (wedge e).
  Proof.
    intros p c e H. unfold within_edge, wedge. destruct (acc_tgt A e) eqn:E; auto.
    destruct (ti_tgt _ _ _ _ T _ _ _ H) as (q & Eq). destruct (proj1 (acc_tgt_spec A e q N Eq) E) as (s & Hs & M).
    rewrite Eq. unfold deref. rewrite (In_assoc _ _ _ N Hs), (ti_acc _ _ _ _ T _ _ Hs M). cbn. auto.
  Qed.

  Lemma withinTA_ok : withinTA A Iv = Ok wTA.
  Proof.
    unfold withinTA. rewrite Eup, Elo, !int_of_inject. rewrite Nat.mod_small by exact Small. fold gs.
    rewrite (oseq_map _ (fun ps => (fst ps, wstate (snd ps)))).
    - reflexivity.
    - intros [p s] H. cbn [fst snd].
      rewrite (oseq_map _ (fun ce => (fst ce, map wedge (snd ce)))).
      + cbn. unfold wstate. do 3 f_equal. destruct (is_nil (next s)) eqn:E; auto.
        destruct (isMatch s) eqn:M; auto. rewrite (ti_acc _ _ _ _ T _ _ H M) in E. discriminate.
      + intros [c es] Hc. cbn [fst snd]. rewrite (oseq_map _ wedge); auto.
        intros e He. apply (within_edge_ok p c). exists s, es. auto.
  Qed.

  Lemma w_state : forall p s', In (p, s') (states wTA) <-> exists s, In (p, s) (states A) /\ s' = wstate s.
  Proof.
    intros p s'. cbn. rewrite in_map_iff. split.
    - intros ([p0 s] & E & H). cbn in E. injection E as -> <-. eauto.
    - intros (s & H & ->). exists (p, s). auto.
  Qed.

  Lemma w_keys : map fst (states wTA) = map fst (states A).
  Proof. cbn. apply (map_fst_keep (fun ps => wstate (snd ps))). Qed.

  Lemma w_accepting : forall p, accepting wTA p <-> accepting A p.
  Proof.
    intros p. split.
    - intros (s' & H & M). apply w_state in H as (s & H & ->). exists s. auto.
    - intros (s & H & M). exists (wstate s). split; auto. apply w_state. eauto.
  Qed.

  Lemma w_edge : forall p c e', is_edge wTA p c e' <->
    exists e q, is_edge A p c e /\ etgt e = Some q /\ e' = mkE (Some q) (eresets e) (if match_at A q then eguard e ++ gs else eguard e).
  Proof.
    intros p c e'. rewrite (is_edge_mapped A wTA wstate (map wedge) eq_refl) by reflexivity.
    assert (WD : forall e q, etgt e = Some q -> wedge e = mkE (Some q) (eresets e) (if match_at A q then eguard e ++ gs else eguard e)).
    { intros e q Eq. unfold wedge, acc_tgt. rewrite Eq. destruct (match_at A q); auto. destruct e; cbn in *; congruence. }
    split.
    - intros (s & es & H & Hc & He). apply in_map_iff in He as (e & <- & He).
      assert (X : is_edge A p c e) by (exists s, es; auto). destruct (ti_tgt _ _ _ _ T _ _ _ X) as (q & Eq). exists e, q. auto.
    - intros (e & q & (s & es & H & Hc & He) & Eq & ->). exists s, es. repeat split; auto. rewrite <- (WD e q Eq). apply in_map. auto.
  Qed.

  Lemma w_clocks : clockSize wTA = S (clockSize A).
  Proof. unfold clockSize; cbn. rewrite app_length. cbn. lia. Qed.

  Lemma w_tinv : tinv al n0 (S n1) wTA.
  Proof.
    constructor.
    - constructor.
      + rewrite w_keys. exact N.
      + intros p s' H. apply w_state in H as (s & H & ->). cbn. rewrite map_next_keys. apply (wf_keys _ W p s); auto.
      + intros p s c es e H1 H2 H3. assert (H : is_edge wTA p c e) by (exists s, es; auto).
        apply w_edge in H as (e0 & q & H & Eq & ->). destruct (wf_is_edge A _ _ _ W H) as (Q1 & Q2 & Q3).
        unfold wf_edge. rewrite w_keys, w_clocks. cbn [etgt eresets eguard]. split; [|split].
        * intros t Et. injection Et as <-. auto.
        * eapply Forall_impl; [|exact Q2]. cbn; intros; lia.
        * assert (Q4 : Forall (fun g => cx g < S (clockSize A)) (eguard e0)) by (eapply Forall_impl; [|exact Q3]; cbn; intros; lia).
          destruct (match_at A q); auto. apply Forall_app. split; auto. unfold gs, within_guard. repeat constructor.
      + intros p H. cbn in H. apply filter_In in H as [H _]. rewrite w_keys. apply W; auto.
    - rewrite w_keys. intros p H. destruct (ti_rng _ _ _ _ T _ H) as (k & Hk & ->). exists k. split; auto. lia.
    - intros p c e H. apply w_edge in H as (e0 & q & H & Eq & ->). cbn. eauto.
    - intros p s' H M. apply w_state in H as (s & H & ->). cbn in *. apply map_next_nil. eapply ti_acc; eauto.
    - intros p c e H. apply w_edge in H as (e0 & q & H & Eq & ->). eapply ti_obs; eauto.
    - intros p s' H M. apply w_state in H as (s & H & ->). discriminate.
    - intros p s' c es H Hc. apply w_state in H as (s & H & ->). cbn [wstate next] in Hc. apply in_map_next in Hc as (es0 & Hc & ->).
      intros X. apply map_eq_nil in X. subst. eapply ti_full; eauto.
  Qed.

  Lemma w_flg : flg NoFlag wTA.
  Proof. intros p s' H M Z. apply w_state in H as (s & H & ->). discriminate. Qed.

  Lemma w_jump : has_jump A -> has_jump wTA.
  Proof.
    intros (p & c & e & q & H & Eq & Ha).
    exists p, c, (mkE (Some q) (eresets e) (if match_at A q then eguard e ++ gs else eguard e)), q.
    split; [apply w_edge; eauto|]. split; auto. apply w_accepting; auto.
  Qed.

  (* The language before the initial states with the flag are dropped. *)
  Lemma w_lang_from : forall (I : ptr -> Prop) u, (alang (is_edge A) I (accepting A) [] -> iin Iv 0) ->
    (alang (is_edge wTA) I (accepting wTA) u <-> alang (is_edge A) I (accepting A) u /\ iin Iv (duration u)).
  Proof.
    intros I u H0. rewrite (alang_ext _ (is_edge wTA) I I _ (accepting A)); [|reflexivity|reflexivity|apply w_accepting].
    apply restrict_alang with (n := clockSize A) (gs := gs) (Fb := match_at A); auto.
    - intros p c e H. apply (wf_is_edge A p c e W H).
    - intros p c e (s & H & M) (s2 & es & H2 & H3 & _). rewrite <- (NoDup_fst_inj _ _ _ _ N H H2) in H3.
      rewrite (ti_acc _ _ _ _ T _ _ H M) in H3. destruct H3.
    - unfold gs, within_guard. repeat constructor.
    - intros p. apply match_at_spec. exact N.
    - apply w_edge.
    - intros d. apply within_guard_iin; auto.
    - intros d d'. apply iin_eq.
  Qed.

  Lemma w_lang_noflag : flg NoFlag A -> stuck_free A -> (lang_of A [] -> iin Iv 0) ->
    forall u, lang_of wTA u <-> lang_of A u /\ iin Iv (duration u).
  Proof.
    intros F SF H0 u. unfold lang_of at 1 2.
    rewrite (alang_ext _ (is_edge wTA) _ (fun p => In p (inits A)) _ (accepting wTA)); [apply w_lang_from; exact H0|reflexivity| |reflexivity].
    intros p. cbn. rewrite filter_In. split; [tauto|]. intros H. split; auto.
    pose proof (wf_inits _ W _ H) as K. apply in_fst_exists in K as (s & K).
    rewrite (zero_at_state A p s N K), (noflag_all _ _ _ _ T F SF p s K). auto.
  Qed.

  (* With flags, words that are not empty. *)
  Lemma w_lang_nonempty : forall u, u <> [] -> (lang_of wTA u <-> lang_of A u /\ iin Iv (duration u)).
  Proof.
    intros u Hu. unfold lang_of.
    assert (X : forall I : ptr -> Prop, (forall p, I p -> In p (map fst (states A))) ->
      (alang (is_edge A) I (accepting A) u <-> alang (is_edge A) (fun p => I p /\ ~ accepting A p) (accepting A) u)).
    { intros I HI. split; intros (p & q & v & Hi & R & F); exists p, q, v; repeat split; auto; try tauto.
      inversion R as [|p0 v0 c d e u' q' p' v' He Et Sg R']; subst; [congruence|].
      intros (s & H & M). destruct He as (s2 & es & H2 & H3 & _). rewrite <- (NoDup_fst_inj _ _ _ _ N H H2) in H3.
      rewrite (ti_acc _ _ _ _ T _ _ H M) in H3. destruct H3. }
    rewrite (X (fun p => In p (inits A))) by (apply W).
    rewrite <- w_lang_from.
    - split; intros (p & q & v & Hi & R & F); exists p, q, v; (split; [|split; auto]).
      + cbn in Hi. apply filter_In in Hi as [Hi _]. split; auto. intros (s & H & M).
        inversion R as [|p0 v0 c d e u' q' p' v' He Et Sg R']; subst; [congruence|].
        apply w_edge in He as (e0 & q0 & (s2 & es & H2 & H3 & _) & _). rewrite <- (NoDup_fst_inj _ _ _ _ N H H2) in H3.
        rewrite (ti_acc _ _ _ _ T _ _ H M) in H3. destruct H3.
      + destruct Hi as [Hi Hn]. cbn. apply filter_In. split; auto.
        pose proof (wf_inits _ W _ Hi) as K. apply in_fst_exists in K as (s & K). rewrite (zero_at_state A p s N K).
        destruct (zeroDur s) eqn:Z; auto. exfalso.
        inversion R as [|p0 v0 c d e u' q' p' v' He Et Sg R']; subst; [congruence|].
        apply w_edge in He as (e0 & q0 & (s2 & es & H2 & H3 & _) & _). rewrite <- (NoDup_fst_inj _ _ _ _ N K H2) in H3.
        rewrite (ti_zero _ _ _ _ T _ _ K Z) in H3. destruct H3.
    - intros (p & q & v & [Hi Hn] & R & F). inversion R; subst. contradiction.
  Qed.
End WithinTA.

(* ---------------- conjunction ---------------- *)

Lemma pos_lt : forall p l, In p l -> pos p l < length l.
Proof. intros p. induction l as [|q l IH]; intros []; cbn; destruct (Nat.eqb_spec p q); subst; try congruence; try lia. specialize (IH H). lia. Qed.
Lemma pos_inj : forall p q l, In p l -> In q l -> pos p l = pos q l -> p = q.
Proof.
  intros p q. induction l as [|x l IH]; intros Hp Hq E; [destruct Hp|]. cbn in E.
  destruct (Nat.eqb_spec p x), (Nat.eqb_spec q x); subst; auto; try discriminate. injection E as E.
  destruct Hp as [Hp|Hp]; [congruence|]. destruct Hq as [Hq|Hq]; [congruence|]. auto.
Qed.

Lemma mixed_radix : forall a b c d n, b < n -> d < n -> a * n + b = c * n + d -> a = c /\ b = d.
Proof.
  intros a b c d n Hb Hd E.
  assert (a = c).
  { destruct (Nat.lt_trichotomy a c) as [H|[H|H]]; auto; exfalso; nia. }
  subst. split; auto. lia.
Qed.

Lemma fold_push_full : forall pushes l, (forall c es, In (c, es) l -> es <> []) ->
  forall c es, In (c, es) (fold_left (fun l ce => push_edge l (fst ce) (snd ce)) pushes l) -> es <> [].
Proof.
  induction pushes as [|[c0 e0] ps IH]; intros l F c es H; [eapply F; eauto|]. cbn in H. eapply IH; [|exact H].
  intros c1 es1 H1. apply push_edge_in in H1 as [(es2 & H2 & [->|[_ ->]])|[_ ->]]; [eapply F; eauto|destruct es2; discriminate|discriminate].
Qed.

Section AndTA.
  Variables (al : nat -> ptr) (n0 n1 n2 : nat) (A B : ta).
  Hypothesis Inj : injective al.
  Hypothesis T1 : tinv al n0 n1 A.
  Hypothesis T2 : tinv al n1 n2 B.
  Hypothesis Le1 : n0 <= n1.
  Hypothesis Le2 : n1 <= n2.
  Hypothesis F1 : flg NoFlag A.
  Hypothesis F2 : flg NoFlag B.
  Hypothesis S1 : stuck_free A.
  Hypothesis S2 : stuck_free B.
  Hypothesis Small : clockSize A + clockSize B <= 256.
  Let W1 := ti_wf _ _ _ _ T1.
  Let W2 := ti_wf _ _ _ _ T2.

  Definition fr (p q : ptr) : ptr :=
    al (n2 + (pos p (map fst (states A)) * length (map fst (states B)) + pos q (map fst (states B)))).
  Definition andTA : ta := intersectionTA A B fr.

  Lemma fr_inj : forall p1 p2 q1 q2,
    In p1 (map fst (states A)) -> In q1 (map fst (states A)) -> In p2 (map fst (states B)) -> In q2 (map fst (states B)) ->
    fr p1 p2 = fr q1 q2 -> p1 = q1 /\ p2 = q2.
  Proof.
    intros p1 p2 q1 q2 H1 H2 H3 H4 E. apply Inj in E.
    destruct (mixed_radix (pos p1 (map fst (states A))) (pos p2 (map fst (states B))) (pos q1 (map fst (states A))) (pos q2 (map fst (states B)))
      (length (map fst (states B)))) as [E1 E2]; try (apply pos_lt; auto); [lia|].
    split; eapply pos_inj; eauto.
  Qed.

  Lemma zf : same_zero_flag A B.
  Proof. intros p1 s1 p2 s2 H1 H2. rewrite (noflag_all _ _ _ _ T1 F1 S1 _ _ H1), (noflag_all _ _ _ _ T2 F2 S2 _ _ H2). auto. Qed.

  Lemma zdAB : forall p1 p2, In p1 (map fst (states A)) -> In p2 (map fst (states B)) -> zd A p1 = zd B p2.
  Proof. apply same_zd; [apply W1|apply W2|apply zf]. Qed.

  Lemma and_key : forall q, In q (map fst (states andTA)) -> exists p1 p2, In p1 (map fst (states A)) /\ In p2 (map fst (states B)) /\ q = fr p1 p2.
  Proof.
    intros q H. apply in_fst_exists in H as (s & H). apply out_states_in in H as (p1 & s1 & p2 & s2 & H1 & H2 & _ & -> & _).
    exists p1, p2. split; [apply (in_map fst _ _ H1)|]. split; auto. apply (in_map fst _ _ H2).
  Qed.

  Lemma and_edge : forall q c e, is_edge andTA q c e ->
    exists p1 p2 e1 t1 e2 t2, q = fr p1 p2 /\ is_edge A p1 c e1 /\ etgt e1 = Some t1 /\ is_edge B p2 c e2 /\ etgt e2 = Some t2 /\
      etgt e = Some (fr t1 t2).
  Proof.
    intros q c e H. destruct (and_key q (edge_source _ _ _ _ H)) as (p1 & p2 & H1 & H2 & ->).
    apply (prod_is_edge A B fr W1 W2 fr_inj) in H; auto; [|apply zdAB; auto].
    destruct H as [(e1 & t1 & -> & H & _)|[(e2 & t2 & -> & H & _)|(e1 & t1 & e2 & t2 & E1 & Et1 & E2 & Et2 & ->)]].
    - exfalso. eapply (ti_obs _ _ _ _ T1); eauto.
    - exfalso. eapply (ti_obs _ _ _ _ T2); eauto.
    - exists p1, p2, e1, t1, e2, t2. repeat split; auto. cbn [prod_edge etgt]. apply toI_iff; auto.
      pose proof (edge_target A _ _ _ _ W1 E1 Et1) as K1. pose proof (edge_target B _ _ _ _ W2 E2 Et2) as K2.
      repeat split; auto. apply zdAB; auto.
  Qed.

  Lemma and_wf : wf_ta andTA.
  Proof. apply product_wf; auto. apply fr_inj. Qed.

  Lemma and_acc_fr : forall p1 p2, In p1 (map fst (states A)) -> In p2 (map fst (states B)) ->
    (accepting andTA (fr p1 p2) <-> accepting A p1 /\ accepting B p2).
  Proof. intros p1 p2 H1 H2. apply (prod_accepting A B fr W1 W2 fr_inj); auto. apply zdAB; auto. Qed.

  Lemma and_tinv : tinv al n0 (n2 + length (states A) * length (states B)) andTA.
  Proof.
    assert (K : full andTA).
    { intros q s c es H Hc. apply out_states_in in H as (p1 & s1 & p2 & s2 & H1 & H2 & _ & -> & ->).
      cbn [prod_state next] in Hc. eapply fold_push_full; [|exact Hc]. intros ? ? []. }
    constructor.
    - apply and_wf.
    - intros q H. apply and_key in H as (p1 & p2 & H1 & H2 & ->). eexists. split; [|reflexivity].
      pose proof (pos_lt _ _ H1) as L1. pose proof (pos_lt _ _ H2) as L2. rewrite !map_length in *. nia.
    - intros q c e H. apply and_edge in H as (p1 & p2 & e1 & t1 & e2 & t2 & _ & _ & _ & _ & _ & E). eauto.
    - intros q s H M. apply (no_edges_nil andTA q s K (wf_nodup _ and_wf) H). intros c e E.
      apply and_edge in E as (p1 & p2 & e1 & t1 & e2 & t2 & -> & E1 & _ & E2 & _).
      pose proof (edge_source _ _ _ _ E1) as K1. pose proof (edge_source _ _ _ _ E2) as K2.
      assert (Ac : accepting andTA (fr p1 p2)) by (exists s; auto). apply and_acc_fr in Ac as [(sa & Ha & Ma) _]; auto.
      destruct E1 as (sb & es & Hb & Hc & _). rewrite <- (NoDup_fst_inj _ _ _ _ (wf_nodup _ W1) Ha Hb) in Hc.
      rewrite (ti_acc _ _ _ _ T1 _ _ Ha Ma) in Hc. destruct Hc.
    - intros q c e H. apply and_edge in H as (p1 & p2 & e1 & t1 & e2 & t2 & _ & E1 & _). eapply (ti_obs _ _ _ _ T1); eauto.
    - intros q s H Z. apply out_states_in in H as (p1 & s1 & p2 & s2 & H1 & H2 & _ & -> & ->).
      cbn [prod_state zeroDur] in Z. rewrite (noflag_all _ _ _ _ T1 F1 S1 _ _ H1) in Z. discriminate.
    - exact K.
  Qed.

  Lemma and_flg : flg NoFlag andTA.
  Proof.
    intros q s H M Z. apply out_states_in in H as (p1 & s1 & p2 & s2 & H1 & H2 & _ & -> & ->).
    cbn [prod_state zeroDur] in Z. rewrite (noflag_all _ _ _ _ T1 F1 S1 _ _ H1) in Z. discriminate.
  Qed.

  Lemma and_clocks : clockSize andTA = clockSize A + clockSize B.
  Proof. apply clockSize_out. Qed.

  Lemma and_lang : forall u, lang_of andTA u <-> lang_of A u /\ lang_of B u.
  Proof.
    intros u. unfold lang_of. rewrite <- !accepts_stamps. apply product_accepts; auto.
    - apply fr_inj.
    - apply zf.
    - intros p e H. eapply (ti_obs _ _ _ _ T1); eauto.
    - intros p e H. eapply (ti_obs _ _ _ _ T2); eauto.
  Qed.
End AndTA.

(* ---------------- the expressions that are translated correctly ---------------- *)

Fixpoint nullable (r : tre) : bool :=
  match r with
  | Atom _ => false
  | Eps => true
  | Plus r1 => nullable r1
  | Cat r1 r2 => nullable r1 && nullable r2
  | Alt r1 r2 => nullable r1 || nullable r2
  | And r1 r2 => nullable r1 && nullable r2
  | Within r1 Iv => nullable r1 && contain Iv 0
  end.

(* The automaton surely has a transition into an accepting state. *)
Fixpoint simple (r : tre) : bool :=
  match r with
  | Atom _ => true
  | Eps => false
  | Plus r1 => simple r1
  | Cat r1 r2 => simple r2 || (simple r1 && nullable r2)
  | Alt r1 r2 => simple r1 || simple r2
  | And _ _ => false
  | Within r1 _ => simple r1
  end.

(* Which accepting states may have zeroDuration. *)
Fixpoint flag (r : tre) : zflag :=
  match r with
  | Atom _ => NoFlag
  | Eps => InitFlag
  | Plus r1 => flag r1
  | Cat r1 r2 =>
      match flag r2 with
      | NoFlag => NoFlag
      | InitFlag => if simple r1 then NoFlag else if nullable r1 then InitFlag else AnyFlag
      | AnyFlag => AnyFlag
      end
  | Alt r1 r2 => flag_max (flag r1) (flag r2)
  | And _ _ => NoFlag
  | Within _ _ => NoFlag
  end.

(* Expressions whose language is closed under concatenation, syntactically. *)
Definition plus_closed (r : tre) : Prop :=
  match r with
  | Eps | Plus _ | Alt Eps (Plus _) | Alt (Plus _) Eps => True
  | _ => False
  end.

Fixpoint ok (r : tre) : Prop :=
  match r with
  | Atom c => c <> 0
  | Eps => True
  | Plus r1 => ok r1 /\ (flag r1 = NoFlag \/ plus_closed r1)
  | Cat r1 r2 => ok r1 /\ ok r2
  | Alt r1 r2 => ok r1 /\ ok r2
  | And r1 r2 => ok r1 /\ ok r2 /\ flag r1 = NoFlag /\ flag r2 = NoFlag
  | Within r1 Iv => ok r1 /\ flag r1 = NoFlag /\ (nullable r1 = true -> contain Iv 0 = true) /\ int_bounds Iv
  end.

(* Number of clocks. *)
Fixpoint nclocks (r : tre) : nat :=
  match r with
  | Atom _ | Eps => 0
  | Plus r1 => nclocks r1
  | Cat r1 r2 | Alt r1 r2 => Nat.max (nclocks r1) (nclocks r2)
  | And r1 r2 => nclocks r1 + nclocks r2
  | Within r1 _ => S (nclocks r1)
  end.

Lemma nullable_lang : forall r, nullable r = true <-> tre_lang r [].
Proof.
  induction r as [c| |r IH|r1 IH1 r2 IH2|r1 IH1 r2 IH2|r1 IH1 r2 IH2|r IH Iv]; cbn [nullable tre_lang].
  - split; [discriminate|]. intros (d & H). discriminate.
  - tauto.
  - rewrite IH. split.
    + intros H. exists [[]]. split; [discriminate|]. split; [constructor; auto|reflexivity].
    + intros (us & Hn & HF & E). destruct us as [|x us]; [congruence|]. inversion HF; subst. cbn in E. symmetry in E.
      apply app_eq_nil in E as [-> _]. auto.
  - rewrite andb_true_iff, IH1, IH2. split.
    + intros [H1 H2]. exists [], []. auto.
    + intros (u1 & u2 & E & H1 & H2). symmetry in E. apply app_eq_nil in E as [-> ->]. auto.
  - rewrite orb_true_iff, IH1, IH2. tauto.
  - rewrite andb_true_iff, IH1, IH2. tauto.
  - rewrite andb_true_iff, IH, contain_iin. unfold duration. cbn. tauto.
Qed.

Lemma plus_closed_lang : forall r us, plus_closed r -> us <> [] -> Forall (tre_lang r) us -> tre_lang r (concat us).
Proof.
  assert (E : forall us, Forall (tre_lang Eps) us -> concat us = []).
  { induction us as [|x us IH]; intros H; auto. inversion H; subst. cbn in *. subst. auto. }
  assert (P : forall r us, us <> [] -> Forall (fun u => u = [] \/ tre_lang (Plus r) u) us -> concat us = [] \/ tre_lang (Plus r) (concat us)).
  { intros r us _ H. induction H as [|x us Hx H IH]; [left; auto|]. cbn [concat].
    destruct Hx as [->|(xs & Nx & Fx & ->)]; [auto|]. right. destruct IH as [->|(ys & Ny & Fy & ->)].
    - rewrite app_nil_r. exists xs. auto.
    - exists (xs ++ ys). split; [destruct xs; [congruence|discriminate]|]. split; [apply Forall_app; auto|]. rewrite concat_app. auto. }
  intros r us C N F. destruct r as [c| |r|r1 r2|r1 r2|r1 r2|r Iv]; cbn in C; try contradiction.
  - apply E. auto.
  - induction F as [|x us (xs & Nx & Fx & ->) F IH]; [congruence|]. cbn [concat]. destruct us as [|y us].
    + cbn. rewrite app_nil_r. exists xs. auto.
    + destruct IH as (ys & Ny & Fy & ->); [discriminate|]. exists (xs ++ ys).
      split; [destruct xs; [congruence|discriminate]|]. split; [apply Forall_app; auto|]. rewrite concat_app. auto.
  - destruct r1; try contradiction.
    + destruct r2; try contradiction. cbn [tre_lang]. apply (P r2 us N). eapply Forall_impl; [|exact F]. cbn. auto.
    + destruct r2; try contradiction. cbn [tre_lang]. apply or_comm. apply (P r1 us N). eapply Forall_impl; [|exact F]. cbn. tauto.
Qed.

Record built (al : nat -> ptr) (r : tre) (n0 n1 : nat) (A : ta) : Prop := mkB {
  bu_le : n0 <= n1;
  bu_inv : tinv al n0 n1 A;
  bu_free : stuck_free A;
  bu_flg : flg (flag r) A;
  bu_jump : simple r = true -> has_jump A;
  bu_clocks : clockSize A = nclocks r;
  bu_one : forall p q, accepting A p -> accepting A q -> p = q;
  bu_lang : forall u, lang_of A u <-> tre_lang r u
}.

(* From the automaton before merging to the result. *)
Lemma built_post : forall al r n0 n1 A, n0 <= n1 -> tinv al n0 n1 A -> flg (flag r) A -> (simple r = true -> has_jump A) ->
  clockSize A = nclocks r -> (forall u, lang_of A u <-> tre_lang r u) ->
  exists B, reduceStates (merge A) = Ok B /\ built al r n0 n1 B.
Proof.
  intros al r n0 n1 A Le T F J C L. destruct (post_ok al n0 n1 A T) as (B & EB & P). exists B. split; auto. destruct P. constructor; auto.
  - congruence.
  - intros u. rewrite po_lang. apply L.
Qed.

Lemma init_accepting : forall al r n0 n1 A, built al r n0 n1 A -> nullable r = true -> exists i, In i (inits A) /\ accepting A i.
Proof. intros al r n0 n1 A B H. apply lang_nil. apply (bu_lang _ _ _ _ _ B). apply nullable_lang. auto. Qed.

Lemma Forall_iff : forall {X} (P Q : X -> Prop) l, (forall x, P x <-> Q x) -> (Forall P l <-> Forall Q l).
Proof. intros X P Q l H. split; apply Forall_impl; apply H. Qed.

Lemma toEventTA_built : forall al r, injective al -> ok r -> nclocks r <= 256 ->
  forall n, exists A n1, toEventTA al r n = Ok (A, n1) /\ built al r n n1 A.
Proof.
  intros al r Inj. induction r as [c| |r IH|r1 IH1 r2 IH2|r1 IH1 r2 IH2|r1 IH1 r2 IH2|r IH Iv]; intros O K n; cbn [ok nclocks] in O, K.
  - destruct (built_post al (Atom c) n (S (S n)) (atomTA al c n)) as (B & E & Bu).
    + lia.
    + apply atom_tinv; auto.
    + intros p s H M Z. cbn in H. destruct H as [H|[H|[]]]; injection H as <- <-; discriminate.
    + intros _. apply atom_jump; auto.
    + reflexivity.
    + apply atom_lang; auto.
    + exists B, (S (S n)). split; auto. cbn [toEventTA bind fst snd]. unfold atomTA in E. rewrite E. reflexivity.
  - destruct (built_post al Eps n (S n) (epsTA al n)) as (B & E & Bu).
    + lia.
    + apply eps_tinv; auto.
    + intros p s [H|[]] M Z. injection H as <- <-. left. auto.
    + discriminate.
    + reflexivity.
    + apply eps_lang; auto.
    + exists B, (S n). split; auto. cbn [toEventTA bind fst snd]. unfold epsTA in E. rewrite E. reflexivity.
  - destruct O as [O OF]. destruct (IH O K n) as (A & n1 & EA & BA). destruct BA as [Le T SF F J C One L].
    assert (Sm : clockSize A <= 256) by lia.
    destruct (built_post al (Plus r) n n1 (plusTA A)) as (B & E & Bu); auto.
    + apply plus_tinv; auto.
    + apply plus_flg; auto.
    + intros H. eapply plus_jump; eauto.
    + intros u. cbn [tre_lang].
      assert (LP : (exists us, us <> [] /\ Forall (lang_of A) us /\ u = concat us) <-> (exists us, us <> [] /\ Forall (tre_lang r) us /\ u = concat us)).
      { split; intros (us & X & Y & Z); exists us; (split; [auto|split; auto]); revert Y; apply Forall_iff; intros; [symmetry|]; apply L. }
      assert (C1 : flg NoFlag A -> (lang_of (plusTA A) u <-> (exists us, us <> [] /\ Forall (tre_lang r) us /\ u = concat us))).
      { intros F0. rewrite <- LP. eapply plus_lang_noflag; eauto. }
      destruct OF as [OF|OF]; [rewrite OF in F; auto|].
      destruct (existsb (fun ps => isMatch (snd ps) && zeroDur (snd ps)) (states A)) eqn:X.
      * apply existsb_exists in X as ([p s] & H & X). cbn in X. apply andb_true_iff in X as [M Z].
        rewrite (plus_lang_flag al n n1 A T).
        { rewrite L. split.
          - intros H1. exists [u]. split; [discriminate|]. split; [constructor; auto|]. cbn. rewrite app_nil_r. auto.
          - intros (us & Nu & Fu & ->). apply plus_closed_lang; auto. }
        intros p' s' H' M'. assert (Ep : p' = p) by (apply One; [exists s'|exists s]; auto). subst p'.
        rewrite (NoDup_fst_inj _ _ _ _ (wf_nodup _ (ti_wf _ _ _ _ T)) H' H). auto.
      * apply C1. intros p s H M Z. rewrite <- not_true_iff_false in X. apply X. apply existsb_exists. exists (p, s). split; auto. cbn.
        rewrite M, Z. auto.
    + exists B, n1. split; auto. cbn [toEventTA]. rewrite EA. cbn [bind fst snd]. rewrite E. reflexivity.
  - destruct O as [O1 O2]. destruct (IH1 O1 ltac:(lia) n) as (A & n1 & EA & BA). destruct (IH2 O2 ltac:(lia) n1) as (B & n2 & EB & BB).
    pose proof (init_accepting _ _ _ _ _ BA) as NA. pose proof (init_accepting _ _ _ _ _ BB) as NB.
    destruct BA as [Le1 T1 SF1 F1 J1 C1 One1 L1]. destruct BB as [Le2 T2 SF2 F2 J2 C2 One2 L2].
    assert (Sm : clockSize B <= 256) by lia.
    destruct (built_post al (Cat r1 r2) n n2 (concat2 A B)) as (D & E & Bu).
    + lia.
    + eapply cat_tinv; eauto.
    + cbn [flag]. destruct (cat_flg al n n1 A B T1 (flag r2) F2) as (X1 & X2 & X3).
      destruct (flag r2) eqn:EF; auto. destruct (simple r1) eqn:ES; auto. destruct (nullable r1) eqn:EN; auto.
    + intros H. cbn [simple] in H. eapply cat_jump; eauto. apply orb_true_iff in H as [H|H]; auto. apply andb_true_iff in H as [Ha Hb]. auto.
    + rewrite cat_clocks, C1, C2. reflexivity.
    + intros u. rewrite (cat_lang al n n1 n2 A B Inj T1 T2 Sm). cbn [tre_lang].
      split; intros (u1 & u2 & X & Y & Z); exists u1, u2; (split; [auto|]); split; try apply L1; try apply L2; auto.
    + exists D, n2. split; auto. cbn [toEventTA]. rewrite EA. cbn [bind fst snd]. rewrite EB. cbn [bind fst snd]. rewrite E. reflexivity.
  - destruct O as [O1 O2]. destruct (IH1 O1 ltac:(lia) n) as (A & n1 & EA & BA). destruct (IH2 O2 ltac:(lia) n1) as (B & n2 & EB & BB).
    destruct BA as [Le1 T1 SF1 F1 J1 C1 One1 L1]. destruct BB as [Le2 T2 SF2 F2 J2 C2 One2 L2].
    destruct (built_post al (Alt r1 r2) n n2 (altTA A B)) as (D & E & Bu).
    + lia.
    + eapply alt_tinv; eauto.
    + apply alt_flg; auto.
    + intros H. cbn [simple] in H. apply alt_jump. apply orb_true_iff in H as [H|H]; auto.
    + rewrite alt_clocks, C1, C2. reflexivity.
    + intros u. rewrite (alt_lang al n n1 n2 A B Inj T1 T2). cbn [tre_lang]. rewrite L1, L2. reflexivity.
    + exists D, n2. split; auto. cbn [toEventTA]. rewrite EA. cbn [bind fst snd]. rewrite EB. cbn [bind fst snd]. rewrite E. reflexivity.
  - destruct O as (O1 & O2 & OF1 & OF2). destruct (IH1 O1 ltac:(lia) n) as (A & n1 & EA & BA). destruct (IH2 O2 ltac:(lia) n1) as (B & n2 & EB & BB).
    destruct BA as [Le1 T1 SF1 F1 J1 C1 One1 L1]. destruct BB as [Le2 T2 SF2 F2 J2 C2 One2 L2].
    rewrite OF1 in F1. rewrite OF2 in F2. assert (Sm : clockSize A + clockSize B <= 256) by lia.
    destruct (built_post al (And r1 r2) n (n2 + length (states A) * length (states B)) (andTA al n2 A B)) as (D & E & Bu).
    + lia.
    + eapply and_tinv; eauto.
    + eapply and_flg; eauto.
    + discriminate.
    + rewrite and_clocks, C1, C2. reflexivity.
    + intros u. assert (AL : lang_of (andTA al n2 A B) u <-> lang_of A u /\ lang_of B u) by (eapply and_lang; eauto). rewrite AL. cbn [tre_lang]. rewrite L1, L2. reflexivity.
    + exists D, (n2 + length (states A) * length (states B)). split; auto. cbn [toEventTA]. rewrite EA. cbn [bind fst snd]. rewrite EB. cbn [bind fst snd].
      unfold andTA, fr in E. rewrite E. cbn. rewrite !map_length. reflexivity.
  - destruct O as (O & OF & ON & lo & up & Elo & Eup). destruct (IH O ltac:(lia) n) as (A & n1 & EA & BA).
    destruct BA as [Le T SF F J C One L]. rewrite OF in F. assert (Sm : clockSize A < 256) by lia.
    destruct (built_post al (Within r Iv) n (S n1) (wTA A Iv lo up)) as (D & E & Bu).
    + lia.
    + eapply w_tinv; eauto.
    + apply w_flg.
    + intros H. eapply w_jump; eauto.
    + unfold wTA, clockSize; cbn [maxC]. rewrite app_length. fold (clockSize A). rewrite C. cbn. lia.
    + intros u. assert (AL : lang_of (wTA A Iv lo up) u <-> lang_of A u /\ iin Iv (duration u)); [|rewrite AL; cbn [tre_lang]; rewrite L; reflexivity].
      eapply w_lang_noflag; eauto. intros H. apply contain_iin. apply ON. apply nullable_lang. apply L. auto.
    + exists D, (S n1). split; auto. cbn [toEventTA]. rewrite EA. cbn [bind fst snd]. rewrite (withinTA_ok al n n1 A Iv lo up T Elo Eup Sm).
      cbn [bind fst snd]. rewrite E. reflexivity.
Qed.
