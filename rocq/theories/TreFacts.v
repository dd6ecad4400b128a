(* The automata of toEventTA: transitions, invariants, languages. *)
From Coq Require Import QArith Lqa Bool List ZArith Arith Lia Permutation.
From Verif Require Import Num NumFacts Outcome Interval IntervalFacts Constraint Zone TA Spec TAFacts Intersection IntersectionFacts Tre TreRun.
Import ListNotations.
Open Scope nat_scope.

Lemma Ok_inj' : forall {T} (x y : T), Ok x = Ok y -> x = y.
Proof. intros T x y H. injection H. auto. Qed.
Lemma bind_Ok' : forall {T U} (o : outcome T) (f : T -> outcome U) r, bind o f = Ok r -> exists t, o = Ok t /\ f t = Ok r.
Proof. intros T U [t| | | |] f r H; cbn in H; try discriminate. eauto. Qed.

Lemma is_nil_true : forall {X} (l : list X), is_nil l = true <-> l = [].
Proof. intros X [|x l]; cbn; split; congruence. Qed.

(* ---------------- keys and lookups ---------------- *)

Lemma NoDup_fst_inj : forall {B} (l : list (nat * B)) k b b', NoDup (map fst l) -> In (k, b) l -> In (k, b') l -> b = b'.
Proof.
  intros B l k b b' N H H'. apply (In_assoc l k b N) in H. apply (In_assoc l k b' N) in H'. congruence.
Qed.

Lemma map_fst_keep : forall {B C} (f : nat * B -> C) (l : list (nat * B)), map fst (map (fun ps => (fst ps, f ps)) l) = map fst l.
Proof. intros. rewrite map_map. apply map_ext. auto. Qed.

Lemma map_next_keys : forall g nx, map fst (map_next g nx) = map fst nx.
Proof. intros. unfold map_next. rewrite map_map. apply map_ext. auto. Qed.

Lemma in_map_next : forall g nx c es, In (c, es) (map_next g nx) <-> exists es0, In (c, es0) nx /\ es = g es0.
Proof.
  intros g nx c es. unfold map_next. rewrite in_map_iff. split.
  - intros ([c0 es0] & E & H). cbn in E. injection E as <- <-. eauto.
  - intros (es0 & H & ->). exists (c, es0). auto.
Qed.

Lemma map_next_nil : forall g nx, map_next g nx = [] <-> nx = [].
Proof. intros g [|x nx]; cbn; split; congruence. Qed.

Lemma NoDup_filter_fst : forall {B} (f : nat * B -> bool) (l : list (nat * B)), NoDup (map fst l) -> NoDup (map fst (filter f l)).
Proof.
  intros B f l. induction l as [|[k b] l IH]; cbn; intros N; [constructor|]. inversion N; subst.
  destruct (f (k, b)); auto. cbn. constructor; auto. intros H. apply H1.
  apply in_map_iff in H as (x & Ex & Hx). apply filter_In in Hx as [Hx _]. rewrite <- Ex. apply in_map. auto.
Qed.

(* Transitions when each state's transitions are replaced key by key. *)
Lemma is_edge_mapped : forall A B (f : tastate -> tastate) g,
  states B = map (fun ps => (fst ps, f (snd ps))) (states A) ->
  (forall p s, In (p, s) (states A) -> next (f s) = map_next g (next s)) ->
  forall p c e, is_edge B p c e <-> exists s es, In (p, s) (states A) /\ In (c, es) (next s) /\ In e (g es).
Proof.
  intros A B f g ES EN p c e. unfold is_edge. rewrite ES. split.
  - intros (s & es & H1 & H2 & H3). apply in_map_iff in H1 as ([p0 s0] & E & H1). cbn in E. injection E as <- <-.
    rewrite (EN p0 s0 H1) in H2. apply in_map_next in H2 as (es0 & H2 & ->). exists s0, es0. auto.
  - intros (s & es & H1 & H2 & H3). exists (f s), (g es). split; [apply in_map_iff; exists (p, s); auto|].
    split; auto. rewrite (EN p s H1). apply in_map_next. eauto.
Qed.

Lemma accepting_state : forall A p s, NoDup (map fst (states A)) -> In (p, s) (states A) -> (accepting A p <-> isMatch s = true).
Proof.
  intros A p s N H. split.
  - intros (s' & H' & M). rewrite (NoDup_fst_inj _ _ _ _ N H H'). auto.
  - intros M. exists s. auto.
Qed.

Lemma acc_tgt_spec : forall A e q, NoDup (map fst (states A)) -> etgt e = Some q -> (acc_tgt A e = true <-> accepting A q).
Proof. intros A e q N E. unfold acc_tgt. rewrite E. apply match_at_spec; auto. Qed.

(* ---------------- the invariant ---------------- *)

Record tinv (al : nat -> ptr) (n0 n1 : nat) (A : ta) : Prop := mkTI {
  ti_wf : wf_ta A;
  ti_rng : forall p, In p (map fst (states A)) -> exists k, n0 <= k < n1 /\ p = al k;
  ti_tgt : forall p c e, is_edge A p c e -> exists q, etgt e = Some q;
  ti_acc : forall p s, In (p, s) (states A) -> isMatch s = true -> next s = [];
  ti_obs : forall p c e, is_edge A p c e -> c <> 0;
  ti_zero : forall p s, In (p, s) (states A) -> zeroDur s = true -> next s = [];
  ti_full : forall p s c es, In (p, s) (states A) -> In (c, es) (next s) -> es <> []
}.

Definition lang_of (A : ta) : dword -> Prop := alang (is_edge A) (fun p => In p (inits A)) (accepting A).

Definition has_jump (A : ta) : Prop := exists p c e q, is_edge A p c e /\ etgt e = Some q /\ accepting A q.

(* zeroDuration flags of accepting states: none, only on initial states, any. *)
Inductive zflag : Type := NoFlag | InitFlag | AnyFlag.
Definition flg (k : zflag) (A : ta) : Prop :=
  forall p s, In (p, s) (states A) -> isMatch s = true -> zeroDur s = true ->
    match k with NoFlag => False | InitFlag => In p (inits A) | AnyFlag => True end.

Definition stuck_free (A : ta) : Prop := forall p s, In (p, s) (states A) -> next s = [] -> isMatch s = true.

Lemma noflag_all : forall al n0 n1 A, tinv al n0 n1 A -> flg NoFlag A -> stuck_free A ->
  forall p s, In (p, s) (states A) -> zeroDur s = false.
Proof.
  intros al n0 n1 A T F S p s H. destruct (zeroDur s) eqn:Z; auto. exfalso.
  pose proof (ti_zero _ _ _ _ T _ _ H Z) as N. apply (F p s H); auto. eapply S; eauto.
Qed.

Lemma edge_source : forall A p c e, is_edge A p c e -> In p (map fst (states A)).
Proof. intros A p c e (s & es & H & _). apply (in_map fst _ _ H). Qed.
Lemma edge_target : forall A p c e q, wf_ta A -> is_edge A p c e -> etgt e = Some q -> In q (map fst (states A)).
Proof. intros A p c e q W H E. apply wf_is_edge in H as (H & _); auto. Qed.
Lemma accepting_in : forall A p, accepting A p -> In p (map fst (states A)).
Proof. intros A p (s & H & _). apply (in_map fst _ _ H). Qed.

Lemma wf_guards_below : forall A, wf_ta A -> guards_below (clockSize A) (is_edge A).
Proof. intros A W p c e H. apply wf_is_edge in H as (_ & _ & H); auto. Qed.

(* ---------------- removeStuckStates and reduceStates ---------------- *)

Lemma stuck_in : forall A p, In p (stuck A) <-> exists s, In (p, s) (states A) /\ isMatch s = false /\ next s = [].
Proof.
  intros A p. unfold stuck. rewrite in_map_iff. split.
  - intros ([p0 s] & E & H). cbn in E. subst p0. apply filter_In in H as [H1 H2]. cbn in H2. apply andb_true_iff in H2 as [H2 H3].
    exists s. apply is_nil_true in H3. apply negb_true_iff in H2. auto.
  - intros (s & H & M & N). exists (p, s). split; auto. apply filter_In. split; auto. cbn. rewrite M, N. reflexivity.
Qed.

Lemma tgt_in_spec : forall l e q, etgt e = Some q -> (tgt_in l e = true <-> In q l).
Proof. intros l e q E. unfold tgt_in. rewrite E. apply mem_In. Qed.

Lemma negb_mem : forall p l, negb (mem p l) = true <-> ~ In p l.
Proof. intros p l. rewrite negb_true_iff. rewrite <- not_true_iff_false, mem_In. reflexivity. Qed.

Definition cut_next (st : list ptr) (nx : list (nat * list edge)) : list (nat * list edge) :=
  filter (fun ce => negb (is_nil (snd ce))) (map_next (filter (fun e => negb (tgt_in st e))) nx).

Lemma cut_states : forall A p s', In (p, s') (states (removeStuckStates A)) <->
  exists s, In (p, s) (states A) /\ ~ In p (stuck A) /\ s' = mkS (isMatch s) (zeroDur s) (cut_next (stuck A) (next s)).
Proof.
  intros A p s'. unfold removeStuckStates; cbn [states]. rewrite filter_In. cbn [fst]. rewrite negb_mem, in_map_iff. split.
  - intros [([p0 s] & E & H) N]. cbn in E. injection E as -> <-. exists s. auto.
  - intros (s & H & N & ->). split; auto. exists (p, s). auto.
Qed.

Lemma cut_next_in : forall st nx c e,
  (exists es, In (c, es) (cut_next st nx) /\ In e es) <-> (exists es, In (c, es) nx /\ In e es) /\ tgt_in st e = false.
Proof.
  intros st nx c e. unfold cut_next. split.
  - intros (es & H & He). apply filter_In in H as [H _]. apply in_map_next in H as (es0 & H & ->).
    apply filter_In in He as [He N]. apply negb_true_iff in N. eauto.
  - intros [(es & H & He) N]. exists (filter (fun e => negb (tgt_in st e)) es).
    assert (Hi : In e (filter (fun e => negb (tgt_in st e)) es)) by (apply filter_In; rewrite N; auto).
    split; auto. apply filter_In. split; [apply in_map_next; eauto|]. cbn. destruct (filter _ es); [destruct Hi|reflexivity].
Qed.

Lemma cut_edge : forall A p c e, is_edge (removeStuckStates A) p c e <->
  is_edge A p c e /\ ~ In p (stuck A) /\ tgt_in (stuck A) e = false.
Proof.
  intros A p c e. unfold is_edge. split.
  - intros (s' & es & H & He & Hi). apply cut_states in H as (s & H & N & ->). cbn [next] in He.
    destruct (proj1 (cut_next_in (stuck A) (next s) c e)) as [(es0 & H0 & H1) H2]; [eauto|]. split; eauto.
  - intros ((s & es & H & He & Hi) & N & T).
    destruct (proj2 (cut_next_in (stuck A) (next s) c e)) as (es0 & H0 & H1); [eauto|].
    exists (mkS (isMatch s) (zeroDur s) (cut_next (stuck A) (next s))), es0. split; auto. apply cut_states. eauto.
Qed.

Lemma cut_accepting : forall A p, NoDup (map fst (states A)) -> (accepting (removeStuckStates A) p <-> accepting A p).
Proof.
  intros A p N. split.
  - intros (s' & H & M). apply cut_states in H as (s & H & _ & ->). exists s. auto.
  - intros (s & H & M). exists (mkS (isMatch s) (zeroDur s) (cut_next (stuck A) (next s))). split; auto.
    apply cut_states. exists s. split; auto. split; auto. intros X. apply stuck_in in X as (s2 & H2 & M2 & _).
    rewrite (NoDup_fst_inj _ _ _ _ N H H2) in M. congruence.
Qed.

Lemma cut_inits : forall A p, In p (inits (removeStuckStates A)) <-> In p (inits A) /\ ~ In p (stuck A).
Proof. intros A p. unfold removeStuckStates; cbn [inits]. rewrite filter_In, negb_mem. reflexivity. Qed.

Lemma cut_keys : forall A, NoDup (map fst (states A)) -> NoDup (map fst (states (removeStuckStates A))).
Proof.
  intros A N. unfold removeStuckStates; cbn [states]. apply NoDup_filter_fst.
  rewrite (map_fst_keep (fun ps => mkS (isMatch (snd ps)) (zeroDur (snd ps)) (cut_next (stuck A) (next (snd ps))))). auto.
Qed.

Lemma cut_key_in : forall A p, In p (map fst (states (removeStuckStates A))) <-> In p (map fst (states A)) /\ ~ In p (stuck A).
Proof.
  intros A p. split.
  - intros H. apply in_fst_exists in H as (s' & H). apply cut_states in H as (s & H & N & _). split; auto. apply (in_map fst _ _ H).
  - intros [H N]. apply in_fst_exists in H as (s & H).
    apply (in_map fst) with (x := (p, mkS (isMatch s) (zeroDur s) (cut_next (stuck A) (next s)))). apply cut_states. eauto.
Qed.

Lemma cut_lang : forall A u, NoDup (map fst (states A)) -> (lang_of (removeStuckStates A) u <-> lang_of A u).
Proof.
  intros A u N. apply remove_alang with (K := fun p => In p (stuck A)).
  - intros p H. apply stuck_in in H as (s & H & M & Nx). split.
    + intros X. apply (accepting_state A p s N H) in X. congruence.
    + intros c e (s2 & es & H2 & H3 & _). rewrite <- (NoDup_fst_inj _ _ _ _ N H H2) in H3. rewrite Nx in H3. destruct H3.
  - intros p c e. rewrite cut_edge. split; intros (H1 & H2 & H3); repeat split; auto.
    + intros q Eq X. apply (tgt_in_spec _ _ _ Eq) in X. congruence.
    + unfold tgt_in. destruct (etgt e) as [q|] eqn:Eq; auto. apply not_true_iff_false. rewrite mem_In. auto.
  - intros p. apply cut_inits.
  - intros p. rewrite (cut_accepting A p N). split; [|tauto]. intros X. split; auto. intros Y. apply stuck_in in Y as (s & H & M & _).
    apply (accepting_state A p s N H) in X. congruence.
Qed.

Lemma cut_wf : forall A, wf_ta A -> wf_ta (removeStuckStates A).
Proof.
  intros A W. constructor.
  - apply cut_keys, W.
  - intros p s' H. apply cut_states in H as (s & H & _ & ->). cbn [next]. unfold cut_next. apply NoDup_filter_fst.
    rewrite map_next_keys. eapply wf_keys; eauto.
  - intros p s' c es e H1 H2 H3.
    assert (H : is_edge (removeStuckStates A) p c e) by (exists s', es; auto).
    apply cut_edge in H as (H & Np & Ht). destruct (wf_is_edge A p c e W H) as (Q1 & Q2 & Q3). split; [|split]; auto.
    intros t Et. apply cut_key_in. split; auto. intros X. apply (tgt_in_spec _ _ _ Et) in X. congruence.
  - intros p H. apply cut_inits in H as [H N]. apply cut_key_in. split; auto. apply W; auto.
Qed.

Lemma filter_length_le : forall {X} (f : X -> bool) l, length (filter f l) <= length l.
Proof. induction l as [|x l IH]; cbn; auto. destruct (f x); cbn; lia. Qed.
Lemma filter_length_all : forall {X} (f : X -> bool) l, length (filter f l) = length l -> forall x, In x l -> f x = true.
Proof.
  induction l as [|x l IH]; cbn; intros H y []; destruct (f x) eqn:E; cbn in H; subst; auto; try (pose proof (filter_length_le f l); lia).
Qed.

Lemma cut_length : forall A, length (states (removeStuckStates A)) <= length (states A).
Proof. intros A. unfold removeStuckStates; cbn [states]. etransitivity; [apply filter_length_le|]. rewrite map_length. auto. Qed.

Lemma cut_same : forall A, length (states A) = length (states (removeStuckStates A)) -> stuck A = [].
Proof.
  intros A H. unfold removeStuckStates in H; cbn [states] in H.
  assert (F : forall p, ~ In p (stuck A)).
  { intros p X. pose proof X as Y. apply stuck_in in Y as (s & Hs & _).
    assert (B : negb (mem p (stuck A)) = true).
    { apply (filter_length_all (fun ps : ptr * tastate => negb (mem (fst ps) (stuck A)))) with
        (l := map (fun ps => (fst ps, mkS (isMatch (snd ps)) (zeroDur (snd ps)) (cut_next (stuck A) (next (snd ps))))) (states A))
        (x := (p, mkS (isMatch s) (zeroDur s) (cut_next (stuck A) (next s)))).
      - rewrite map_length. symmetry. exact H.
      - apply in_map_iff. exists (p, s). auto. }
    apply negb_mem in B. auto. }
  destruct (stuck A) as [|p l]; auto. exfalso. apply (F p). left. auto.
Qed.

(* Everything removeStuckStates keeps. *)
Record reduced (A B : ta) : Prop := mkRd {
  rd_lang : forall u, lang_of B u <-> lang_of A u;
  rd_wf : wf_ta B;
  rd_key : forall p, In p (map fst (states B)) -> In p (map fst (states A));
  rd_edge : forall p c e, is_edge B p c e -> is_edge A p c e;
  rd_state : forall p s, In (p, s) (states B) -> exists s0, In (p, s0) (states A) /\ isMatch s0 = isMatch s /\ zeroDur s0 = zeroDur s /\
               (next s0 = [] -> next s = []);
  rd_init : forall p, accepting A p -> In p (inits A) -> In p (inits B);
  rd_acc : forall p, accepting B p <-> accepting A p;
  rd_jump : has_jump A -> has_jump B;
  rd_max : maxC B = maxC A
}.

Lemma cut_next_nil : forall st, cut_next st [] = [].
Proof. reflexivity. Qed.

Lemma cut_reduced : forall A, wf_ta A -> reduced A (removeStuckStates A).
Proof.
  intros A W. pose proof (wf_nodup _ W) as N. constructor.
  - intros u. apply cut_lang; auto.
  - apply cut_wf; auto.
  - intros p H. apply cut_key_in in H. tauto.
  - intros p c e H. apply cut_edge in H. tauto.
  - intros p s' H. apply cut_states in H as (s & H & _ & ->). exists s. repeat split; auto. cbn. intros ->. reflexivity.
  - intros p Ha Hi. apply cut_inits. split; auto. intros X. apply stuck_in in X as (s & Hs & M & _).
    apply (accepting_state A p s N Hs) in Ha. congruence.
  - intros p. apply cut_accepting; auto.
  - intros (p & c & e & q & He & Et & Ha). exists p, c, e, q. split; [|split; [auto|apply cut_accepting; auto]].
    apply cut_edge. split; auto. split.
    + intros X. apply stuck_in in X as (s & Hs & _ & Nx). destruct He as (s2 & es & H2 & H3 & _).
      rewrite <- (NoDup_fst_inj _ _ _ _ N Hs H2) in H3. rewrite Nx in H3. destruct H3.
    + apply not_true_iff_false. rewrite (tgt_in_spec _ _ _ Et). intros X. apply stuck_in in X as (s & Hs & M & _).
      apply (accepting_state A q s N Hs) in Ha. congruence.
  - reflexivity.
Qed.

Lemma reduced_trans : forall A B C, reduced A B -> reduced B C -> reduced A C.
Proof.
  intros A B C R1 R2. constructor.
  - intros u. rewrite (rd_lang _ _ R2), (rd_lang _ _ R1). reflexivity.
  - apply (rd_wf _ _ R2).
  - intros p H. apply (rd_key _ _ R1), (rd_key _ _ R2), H.
  - intros p c e H. apply (rd_edge _ _ R1), (rd_edge _ _ R2), H.
  - intros p s H. apply (rd_state _ _ R2) in H as (s1 & H & M1 & Z1 & N1). apply (rd_state _ _ R1) in H as (s0 & H & M0 & Z0 & N0).
    exists s0. repeat split; auto; congruence.
  - intros p Ha Hi. apply (rd_init _ _ R2); [apply (rd_acc _ _ R1); auto|apply (rd_init _ _ R1); auto].
  - intros p. rewrite (rd_acc _ _ R2), (rd_acc _ _ R1). reflexivity.
  - intros J. apply (rd_jump _ _ R2), (rd_jump _ _ R1), J.
  - rewrite (rd_max _ _ R2), (rd_max _ _ R1). reflexivity.
Qed.

Definition full (A : ta) : Prop := forall p s c es, In (p, s) (states A) -> In (c, es) (next s) -> es <> [].

Lemma cut_full : forall A, full (removeStuckStates A).
Proof.
  intros A p s' c es H Hc. apply cut_states in H as (s & H & _ & ->). cbn [next] in Hc. unfold cut_next in Hc.
  apply filter_In in Hc as [_ Hc]. cbn in Hc. destruct es; [discriminate|congruence].
Qed.

Lemma filter_true : forall {X} (f : X -> bool) l, (forall x, In x l -> f x = true) -> filter f l = l.
Proof. induction l as [|x l IH]; cbn; intros H; auto. rewrite (H x (or_introl eq_refl)), IH; auto. Qed.

Lemma cut_next_id : forall nx, (forall c es, In (c, es) nx -> es <> []) -> cut_next [] nx = nx.
Proof.
  intros nx F. unfold cut_next.
  assert (E : map_next (filter (fun e => negb (tgt_in [] e))) nx = nx).
  { unfold map_next. rewrite <- (map_id nx) at 2. apply map_ext_in. intros [c es] _. cbn. f_equal. apply filter_true.
    intros e _. unfold tgt_in. destruct (etgt e); auto. }
  rewrite E. apply filter_true. intros [c es] H. cbn. destruct es; auto. exfalso. eapply F; eauto.
Qed.

Lemma reduce_loop_ok : forall fuel A, wf_ta A -> length (states A) < fuel ->
  exists B, reduce_loop fuel A = Ok B /\ reduced A B /\ full B /\ (full A -> stuck_free B).
Proof.
  induction fuel as [|f IH]; intros A W L; [lia|]. cbn [reduce_loop].
  pose proof (cut_reduced A W) as R. pose proof (cut_length A) as LE.
  destruct (length (states A) =? length (states (removeStuckStates A))) eqn:E.
  - apply Nat.eqb_eq in E. apply cut_same in E. exists (removeStuckStates A). split; auto. split; auto. split; [apply cut_full|].
    intros F p s' H Nx. apply cut_states in H as (s & H & Np & ->). cbn [next isMatch] in *. rewrite E in Nx.
    rewrite cut_next_id in Nx by (intros; eapply F; eauto).
    destruct (isMatch s) eqn:M; auto. exfalso. apply Np. apply stuck_in. exists s. auto.
  - apply Nat.eqb_neq in E. destruct (IH (removeStuckStates A)) as (B & EB & RB & FB & SB); [apply cut_wf; auto|lia|].
    exists B. split; auto. split; [eapply reduced_trans; eauto|]. split; auto. intros _. apply SB, cut_full.
Qed.

Lemma reduceStates_ok : forall A, wf_ta A -> exists B, reduceStates A = Ok B /\ reduced A B /\ full B /\ (full A -> stuck_free B).
Proof. intros A W. apply reduce_loop_ok; auto. Qed.

Lemma reduced_tinv : forall al n0 n1 A B, tinv al n0 n1 A -> reduced A B -> full B -> tinv al n0 n1 B.
Proof.
  intros al n0 n1 A B T R F. constructor.
  - apply (rd_wf _ _ R).
  - intros p H. apply (ti_rng _ _ _ _ T), (rd_key _ _ R), H.
  - intros p c e H. eapply (ti_tgt _ _ _ _ T), (rd_edge _ _ R), H.
  - intros p s H M. apply (rd_state _ _ R) in H as (s0 & H & M0 & _ & N). apply N. rewrite <- M0 in M. eapply ti_acc; eauto.
  - intros p c e H. eapply (ti_obs _ _ _ _ T), (rd_edge _ _ R), H.
  - intros p s H Z. apply (rd_state _ _ R) in H as (s0 & H & _ & Z0 & N). apply N. rewrite <- Z0 in Z. eapply ti_zero; eauto.
  - exact F.
Qed.

Lemma reduced_flg : forall k A B, reduced A B -> flg k A -> flg k B.
Proof.
  intros k A B R F p s H M Z. destruct (rd_state _ _ R _ _ H) as (s0 & H0 & M0 & Z0 & _).
  rewrite <- M0 in M. rewrite <- Z0 in Z. specialize (F p s0 H0 M Z). destruct k; auto.
  apply (rd_init _ _ R); auto. exists s0. auto.
Qed.

(* ---------------- merging accepting states ---------------- *)

Lemma pinsert_perm : forall x l, Permutation (pinsert x l) (x :: l).
Proof.
  intros x. induction l as [|y l IH]; cbn [pinsert]; auto. destruct (y <? x); auto.
  etransitivity; [apply perm_skip, IH|apply perm_swap].
Qed.
Lemma psort_perm : forall l, Permutation (psort l) l.
Proof. induction l as [|x l IH]; cbn; auto. etransitivity; [apply pinsert_perm|]. constructor. auto. Qed.
Lemma psort_in : forall p l, In p (psort l) <-> In p l.
Proof. intros p l. split; apply Permutation_in; [|apply Permutation_sym]; apply psort_perm. Qed.

Lemma terminals_in : forall A p, In p (terminals A) <-> exists s, In (p, s) (states A) /\ isMatch s = true /\ next s = [].
Proof.
  intros A p. unfold terminals. rewrite psort_in, in_map_iff. split.
  - intros ([p0 s] & E & H). cbn in E. subst p0. apply filter_In in H as [H1 H2]. cbn in H2. apply andb_true_iff in H2 as [H2 H3].
    apply is_nil_true in H3. eauto.
  - intros (s & H & M & N). exists (p, s). split; auto. apply filter_In. split; auto. cbn. rewrite M, N. reflexivity.
Qed.

Lemma terminals_nodup : forall A, NoDup (map fst (states A)) -> NoDup (terminals A).
Proof.
  intros A N. unfold terminals. eapply Permutation_NoDup; [apply Permutation_sym, psort_perm|]. apply NoDup_filter_fst. auto.
Qed.

Section MergeTA.
  Variables (al : nat -> ptr) (n0 n1 : nat) (A : ta) (f : ptr) (rest : list ptr).
  Hypothesis T : tinv al n0 n1 A.
  Hypothesis ET : terminals A = f :: rest.

  Let W := ti_wf _ _ _ _ T.
  Let N := wf_nodup _ W.
  Definition tb (p : ptr) : bool := mem p (f :: rest).
  Definition merged_state (s : tastate) : tastate :=
    mkS (isMatch s) (zeroDur s) (map_next (map (redirect (f :: rest) f)) (next s)).

  Lemma f_notin_rest : ~ In f rest.
  Proof. pose proof (terminals_nodup A N) as H. rewrite ET in H. inversion H. auto. Qed.

  Lemma tb_spec : forall p, tb p = true <-> accepting A p.
  Proof.
    intros p. unfold tb. rewrite mem_In, <- ET, terminals_in. split.
    - intros (s & H & M & _). exists s. auto.
    - intros (s & H & M). exists s. repeat split; auto. eapply ti_acc; eauto.
  Qed.

  Lemma merge_states : forall p s', In (p, s') (states (merge A)) <->
    exists s, In (p, s) (states A) /\ ~ In p rest /\ s' = merged_state s.
  Proof.
    intros p s'. unfold merge, merged_state. rewrite ET.
    generalize rest as r0. intros [|t rest']; cbn [states]; rewrite ?filter_In, in_map_iff; cbn [fst].
    - split.
      + intros ([p0 s] & E & H). cbn [fst snd] in E. injection E as -> <-. exists s. cbn. auto.
      + intros (s & H & _ & ->). exists (p, s). auto.
    - rewrite negb_mem. split.
      + intros [([p0 s] & E & H) X]. cbn [fst snd] in E. injection E as -> <-. exists s. auto.
      + intros (s & H & X & ->). split; auto. exists (p, s). auto.
  Qed.

  Lemma rest_accepting : forall p, In p rest -> accepting A p.
  Proof. intros p H. apply tb_spec. unfold tb. apply mem_In. right. auto. Qed.

  Lemma accepting_no_edge : forall p c e, accepting A p -> ~ is_edge A p c e.
  Proof.
    intros p c e (s & H & M) (s2 & es & H2 & H3 & _). rewrite <- (NoDup_fst_inj _ _ _ _ N H H2) in H3.
    rewrite (ti_acc _ _ _ _ T _ _ H M) in H3. destruct H3.
  Qed.

  Lemma redirect_some : forall e q, etgt e = Some q -> redirect (f :: rest) f e = mkE (Some (rho tb f q)) (eresets e) (eguard e).
  Proof.
    intros e q E. unfold redirect, tgt_in, rho, tb. rewrite E. destruct (mem q (f :: rest)); auto. destruct e; cbn in *; congruence.
  Qed.

  Lemma merge_edge : forall p c e', is_edge (merge A) p c e' <->
    exists e q, is_edge A p c e /\ etgt e = Some q /\ e' = mkE (Some (rho tb f q)) (eresets e) (eguard e).
  Proof.
    intros p c e'. split.
    - intros (s' & es & H & Hc & He). apply merge_states in H as (s & H & _ & ->). cbn [merged_state next] in Hc.
      apply in_map_next in Hc as (es0 & Hc & ->). apply in_map_iff in He as (e & <- & He).
      assert (E : is_edge A p c e) by (exists s, es0; auto). destruct (ti_tgt _ _ _ _ T _ _ _ E) as (q & Eq).
      exists e, q. split; auto. split; auto. apply redirect_some; auto.
    - intros (e & q & E & Eq & ->). pose proof E as (s & es & H & Hc & He).
      exists (merged_state s), (map (redirect (f :: rest) f) es). split; [|split].
      + apply merge_states. exists s. split; auto. split; auto. intros X. apply rest_accepting in X. eapply accepting_no_edge; eauto.
      + apply in_map_next. eauto.
      + apply in_map_iff. exists e. split; auto. apply redirect_some; auto.
  Qed.

  Lemma rho_not_rest : forall q, ~ In (rho tb f q) rest.
  Proof.
    intros q. unfold rho. destruct (tb q) eqn:E; [apply f_notin_rest|]. intros X. apply rest_accepting, tb_spec in X. congruence.
  Qed.

  Lemma merge_inits : forall p, In p (inits (merge A)) <-> exists q, In q (inits A) /\ p = rho tb f q.
  Proof.
    pose proof rho_not_rest as RNR. intros p. unfold merge. rewrite ET. remember rest as r0 eqn:ER in |- *. destruct r0 as [|t rest']; cbn [inits].
    - assert (R : forall q, rho tb f q = q).
      { intros q. unfold rho. destruct (tb q) eqn:E; auto. unfold tb in E. rewrite <- ER in E. apply mem_In in E as [E|[]]. auto. }
      split; [intros H; exists p; rewrite R; auto|intros (q & H & ->); rewrite R; auto].
    - rewrite ER. rewrite filter_In, negb_mem.
      assert (TB : forall q, tb q = true <-> q = f \/ In q rest).
      { intros q. unfold tb. rewrite mem_In. cbn. intuition. }
      set (ex := existsb (fun p => mem p rest) (psort (inits A))).
      assert (EX : ex = true <-> exists q, In q (inits A) /\ In q rest).
      { unfold ex. rewrite existsb_exists. split; intros (q & H1 & H2); exists q; rewrite mem_In, psort_in in *; auto. }
      assert (MF : mem f (psort (inits A)) = true <-> In f (inits A)) by (rewrite mem_In, psort_in; reflexivity).
      split.
      + intros [H X].
        assert (C : In p (inits A) \/ (p = f /\ ex = true)).
        { destruct (negb (mem f (psort (inits A))) && ex) eqn:B.
          - apply andb_true_iff in B as [_ B]. apply in_app_or in H as [H|[H|[]]]; auto. left. apply psort_in; auto.
          - left. apply psort_in; auto. }
        destruct C as [C|[-> C]].
        * exists p. split; auto. unfold rho. destruct (tb p) eqn:B; auto. apply TB in B as [B|B]; auto. contradiction.
        * apply EX in C as (q & H1 & H2). exists q. split; auto. unfold rho. rewrite (proj2 (TB q)); auto.
      + intros (q & H & ->). split; [|apply RNR]. unfold rho. destruct (tb q) eqn:B.
        * apply TB in B as [->|B].
          { destruct (negb (mem f (psort (inits A))) && ex); [apply in_or_app; left|]; apply psort_in; auto. }
          destruct (mem f (psort (inits A))) eqn:MB.
          { cbn. apply psort_in, MF. auto. }
          cbn. rewrite (proj2 EX); [apply in_or_app; right; left; auto|eauto].
        * destruct (negb (mem f (psort (inits A))) && ex); [apply in_or_app; left|]; apply psort_in; auto.
  Qed.

  Lemma merge_accepting : forall p, accepting (merge A) p <-> accepting A p /\ p = rho tb f p.
  Proof.
    intros p. split.
    - intros (s' & H & M). apply merge_states in H as (s & H & X & ->). assert (P : accepting A p) by (exists s; auto).
      split; auto. unfold rho. destruct (tb p) eqn:B; auto. unfold tb in B. apply mem_In in B as [B|B]; [auto|contradiction].
    - intros ((s & H & M) & E). exists (merged_state s). split; auto. apply merge_states. exists s. split; auto. split; auto.
      rewrite E. apply rho_not_rest.
  Qed.

  Lemma merge_lang1 : forall u, lang_of (merge A) u <-> lang_of A u.
  Proof.
    intros u. apply merge_alang with (t := tb) (f := f).
    - intros p H. apply tb_spec in H. split; auto. intros c e. apply accepting_no_edge; auto.
    - unfold tb. apply mem_In. left. auto.
    - intros p c e'. symmetry. apply merge_edge.
    - intros p. apply merge_inits.
    - intros p. apply merge_accepting.
  Qed.

  Lemma merge_key : forall p, In p (map fst (states (merge A))) <-> In p (map fst (states A)) /\ ~ In p rest.
  Proof.
    intros p. split.
    - intros H. apply in_fst_exists in H as (s' & H). apply merge_states in H as (s & H & X & _). split; auto. apply (in_map fst _ _ H).
    - intros [H X]. apply in_fst_exists in H as (s & H). apply (in_map fst) with (x := (p, merged_state s)). apply merge_states. eauto.
  Qed.

  Lemma f_key : In f (map fst (states A)).
  Proof. assert (H : In f (terminals A)) by (rewrite ET; left; auto). apply terminals_in in H as (s & H & _). apply (in_map fst _ _ H). Qed.

  Lemma merge_clocks1 : clockSize (merge A) = clockSize A.
  Proof. unfold merge. rewrite ET. destruct rest; reflexivity. Qed.

  Lemma merge_nodup : NoDup (map fst (states (merge A))).
  Proof.
    unfold merge. rewrite ET. destruct rest; cbn [states]; [|apply NoDup_filter_fst];
      rewrite (map_fst_keep (fun ps => mkS _ _ _)); exact N.
  Qed.

  Lemma merge_tinv1 : tinv al n0 n1 (merge A).
  Proof.
    assert (WE : forall p c e, is_edge (merge A) p c e -> wf_edge (merge A) e).
    { intros p c e' H. apply merge_edge in H as (e & q & H & Eq & ->). destruct (wf_is_edge A p c e W H) as (Q1 & Q2 & Q3).
      split; [|split]; cbn; rewrite ?merge_clocks1; auto. intros t Et. injection Et as <-. apply merge_key. split; [|apply rho_not_rest].
      unfold rho. destruct (tb q); [apply f_key|auto]. }
    constructor.
    - constructor.
      + apply merge_nodup.
      + intros p s' H. apply merge_states in H as (s & H & _ & ->). cbn. rewrite map_next_keys. eapply wf_keys; eauto.
      + intros p s c es e H1 H2 H3. apply (WE p c e). exists s, es. auto.
      + intros p H. apply merge_inits in H as (q & H & ->). apply merge_key. split; [|apply rho_not_rest].
        unfold rho. destruct (tb q); [apply f_key|]. apply W. auto.
    - intros p H. apply merge_key in H as [H _]. apply (ti_rng _ _ _ _ T _ H).
    - intros p c e' H. apply merge_edge in H as (e & q & _ & _ & ->). cbn. eauto.
    - intros p s' H M. apply merge_states in H as (s & H & _ & ->). cbn in *. apply map_next_nil. eapply ti_acc; eauto.
    - intros p c e' H. apply merge_edge in H as (e & q & H & _ & ->). eapply ti_obs; eauto.
    - intros p s' H Z. apply merge_states in H as (s & H & _ & ->). cbn in *. apply map_next_nil. eapply ti_zero; eauto.
    - intros p s' c es H Hc. apply merge_states in H as (s & H & _ & ->). cbn in *. apply in_map_next in Hc as (es0 & Hc & ->).
      intros X. apply map_eq_nil in X. subst. eapply ti_full; eauto.
  Qed.

  Lemma merge_flg1 : forall k, flg k A -> flg k (merge A).
  Proof.
    intros k F p s' H M Z. apply merge_states in H as (s & H & X & ->). cbn in *. specialize (F p s H M Z). destruct k; auto.
    apply merge_inits. exists p. split; auto. unfold rho. destruct (tb p) eqn:B; auto. apply mem_In in B as [B|B]; auto. contradiction.
  Qed.

  Lemma merge_jump1 : has_jump A -> has_jump (merge A).
  Proof.
    intros (p & c & e & q & He & Eq & Ha). exists p, c, (mkE (Some (rho tb f q)) (eresets e) (eguard e)), (rho tb f q).
    split; [apply merge_edge; eauto|]. split; auto. apply merge_accepting. unfold rho at 1. rewrite (proj2 (tb_spec q) Ha). split.
    - apply tb_spec. apply mem_In. left. auto.
    - symmetry. apply rho_idem. apply mem_In. left. auto.
  Qed.

  (* only one accepting state is left *)
  Lemma merge_one : forall p, accepting (merge A) p -> p = f.
  Proof. intros p H. apply merge_accepting in H as [H E]. unfold rho in E. rewrite (proj2 (tb_spec p) H) in E. auto. Qed.
End MergeTA.

(* After construction: merging and reducing. *)
Record post (al : nat -> ptr) (n0 n1 : nat) (A B : ta) : Prop := mkPost {
  po_inv : tinv al n0 n1 B;
  po_lang : forall u, lang_of B u <-> lang_of A u;
  po_free : stuck_free B;
  po_flg : forall k, flg k A -> flg k B;
  po_jump : has_jump A -> has_jump B;
  po_clocks : clockSize B = clockSize A;
  po_one : forall p q, accepting B p -> accepting B q -> p = q;
  po_acc : forall p, accepting B p -> accepting A p
}.

Lemma post_ok : forall al n0 n1 A, tinv al n0 n1 A -> exists B, reduceStates (merge A) = Ok B /\ post al n0 n1 A B.
Proof.
  intros al n0 n1 A T.
  assert (M : tinv al n0 n1 (merge A) /\ (forall u, lang_of (merge A) u <-> lang_of A u) /\ (forall k, flg k A -> flg k (merge A)) /\
    (has_jump A -> has_jump (merge A)) /\ clockSize (merge A) = clockSize A /\
    (forall p q, accepting (merge A) p -> accepting (merge A) q -> p = q) /\ (forall p, accepting (merge A) p -> accepting A p)).
  { destruct (terminals A) as [|f rest] eqn:ET.
    - assert (E : merge A = A) by (unfold merge; rewrite ET; auto). rewrite E. split; auto. split; [tauto|]. split; auto. split; auto. split; auto. split; auto.
      intros p q (s & H & Mt) _. exfalso. assert (X : In p (terminals A)); [|rewrite ET in X; destruct X].
      apply terminals_in. exists s. repeat split; auto. eapply ti_acc; eauto.
    - split; [eapply merge_tinv1; eauto|]. split; [intros; eapply merge_lang1; eauto|]. split; [intros; eapply merge_flg1; eauto|].
      split; [intros; eapply merge_jump1; eauto|]. split; [eapply merge_clocks1; eauto|]. split.
      + intros p q Hp Hq. rewrite (merge_one _ _ _ _ _ _ T ET p Hp), (merge_one _ _ _ _ _ _ T ET q Hq). auto.
      + intros p Hp. eapply merge_accepting in Hp; eauto. tauto. }
  destruct M as (T' & L & F & J & C & O & Ac).
  destruct (reduceStates_ok (merge A) (ti_wf _ _ _ _ T')) as (B & EB & R & FB & SB). exists B. split; auto. constructor.
  - eapply reduced_tinv; eauto.
  - intros u. rewrite (rd_lang _ _ R). apply L.
  - apply SB. exact (ti_full _ _ _ _ T').
  - intros k H. eapply reduced_flg; eauto.
  - intros H. apply (rd_jump _ _ R). auto.
  - unfold clockSize. rewrite (rd_max _ _ R). exact C.
  - intros p q Hp Hq. apply O; apply (rd_acc _ _ R); auto.
  - intros p Hp. apply Ac, (rd_acc _ _ R); auto.
Qed.
