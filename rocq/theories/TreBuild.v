(* The constructions of toEventTA keep the invariant and have the right language. *)
From Coq Require Import QArith Lqa Bool List ZArith Arith Lia Permutation.
From Verif Require Import Num NumFacts Outcome Interval IntervalFacts Constraint Zone TA Spec TAFacts Intersection IntersectionFacts Tre TreRun TreFacts.
Import ListNotations.
Open Scope nat_scope.

Lemma zip_with_len : forall (f : Z -> Z -> Z) a b, length a = length b -> length (zip_with f a b) = length a.
Proof. induction a as [|x a IH]; intros [|y b] H; cbn in *; auto; try discriminate. f_equal. apply IH. lia. Qed.
Lemma resize_len : forall n l, length l <= n -> length (resize n l) = n.
Proof. intros n l H. unfold resize. rewrite app_length, repeat_length, firstn_length. lia. Qed.
Lemma max_merge_len : forall l r, length (max_merge l r) = Nat.max (length l) (length r).
Proof. intros l r. unfold max_merge. rewrite zip_with_len; rewrite !resize_len; lia. Qed.

Lemma lang_nil : forall A, lang_of A [] <-> exists p, In p (inits A) /\ accepting A p.
Proof.
  intros A. split.
  - intros (p & q & v & Hi & R & F). inversion R; subst. eauto.
  - intros (p & Hi & F). exists p, p, zeroval. split; auto. split; auto. constructor.
Qed.

Lemma no_edges_nil : forall A p s, full A -> NoDup (map fst (states A)) -> In (p, s) (states A) ->
  (forall c e, ~ is_edge A p c e) -> next s = [].
Proof.
  intros A p s F N H E. destruct (next s) as [|[c es] nx] eqn:X; auto. exfalso.
  assert (Hc : In (c, es) (next s)) by (rewrite X; left; auto).
  destruct es as [|e es]; [eapply F; eauto|]. apply (E c e). exists s, (e :: es). repeat split; auto. left. auto.
Qed.

(* ---------------- atoms and epsilon ---------------- *)

Definition atomTA (al : nat -> ptr) (c n : nat) : ta :=
  mkTA [(al n, mkS false false [(c, [mkE (Some (al (S n))) [] []])]); (al (S n), mkS true false [])] [al n] [].
Definition epsTA (al : nat -> ptr) (n : nat) : ta := mkTA [(al n, mkS true true [])] [al n] [].

Definition injective (al : nat -> ptr) : Prop := forall i j, al i = al j -> i = j.

Section Basic.
  Variables (al : nat -> ptr) (n : nat).
  Hypothesis Inj : injective al.

  Lemma atom_edge : forall c p c' e, is_edge (atomTA al c n) p c' e <-> p = al n /\ c' = c /\ e = mkE (Some (al (S n))) [] [].
  Proof.
    intros c p c' e. split.
    - intros (s & es & H & Hc & He). cbn in H. destruct H as [H|[H|[]]]; injection H as <- <-; cbn in Hc; [|destruct Hc].
      destruct Hc as [Hc|[]]. injection Hc as <- <-. destruct He as [He|[]]. auto.
    - intros (-> & -> & ->). exists (mkS false false [(c, [mkE (Some (al (S n))) [] []])]), [mkE (Some (al (S n))) [] []].
      split; [left; reflexivity|]. split; cbn; auto.
  Qed.

  Lemma atom_accepting : forall c p, accepting (atomTA al c n) p <-> p = al (S n).
  Proof.
    intros c p. split.
    - intros (s & H & M). cbn in H. destruct H as [H|[H|[]]]; injection H as <- <-; cbn in M; [discriminate|auto].
    - intros ->. eexists. split; [right; left; reflexivity|reflexivity].
  Qed.

  Lemma atom_tinv : forall c, c <> 0 -> tinv al n (S (S n)) (atomTA al c n).
  Proof.
    intros c Hc. assert (D : al n <> al (S n)) by (intros E; apply Inj in E; lia). constructor.
    - constructor.
      + cbn. constructor; [intros [H|[]]; congruence|]. constructor; [intros []|constructor].
      + intros p s H. cbn in H. destruct H as [H|[H|[]]]; injection H as <- <-; cbn; constructor; [intros []|constructor].
      + intros p s c' es e H1 H2 H3. assert (E : is_edge (atomTA al c n) p c' e) by (exists s, es; auto).
        apply atom_edge in E as (_ & _ & ->). split; [|split]; cbn; auto. intros t Et. injection Et as <-. auto.
      + intros p [H|[]]. left. auto.
    - intros p [H|[H|[]]]; cbn in H; subst; [exists n|exists (S n)]; split; auto; lia.
    - intros p c' e H. apply atom_edge in H as (_ & _ & ->). cbn. eauto.
    - intros p s H M. cbn in H. destruct H as [H|[H|[]]]; injection H as <- <-; cbn in M; [discriminate|auto].
    - intros p c' e H. apply atom_edge in H as (_ & -> & _). auto.
    - intros p s H M. cbn in H. destruct H as [H|[H|[]]]; injection H as <- <-; cbn in M; discriminate.
    - intros p s c' es H M. cbn in H. destruct H as [H|[H|[]]]; injection H as <- <-; cbn in M; [|destruct M].
      destruct M as [M|[]]. injection M as <- <-. discriminate.
  Qed.

  Lemma atom_lang : forall c u, lang_of (atomTA al c n) u <-> exists d, u = [(c, d)].
  Proof.
    intros c u. assert (D : al n <> al (S n)) by (intros E; apply Inj in E; lia). split.
    - intros (p & q & v & Hi & R & F). destruct Hi as [<-|[]]. apply atom_accepting in F. subst q.
      inversion R as [|p0 v0 c0 d e u' q p' v' He Et Sg R']; subst; [congruence|].
      apply atom_edge in He as (_ & -> & ->). injection Et as <-.
      inversion R' as [|p0 v0 c1 d1 e1 u1 q1 p1 v1 He1 Et1 Sg1 R1]; subst; [eauto|]. apply atom_edge in He1 as (He1 & _). congruence.
    - intros (d & ->). exists (al n), (al (S n)). eexists. split; [left; reflexivity|]. split; [|apply atom_accepting; auto].
      eapply dr_cons; [apply atom_edge; repeat split|reflexivity|intros g []|constructor].
  Qed.

  Lemma atom_jump : forall c, has_jump (atomTA al c n).
  Proof. intros c. exists (al n), c, (mkE (Some (al (S n))) [] []), (al (S n)). rewrite atom_edge, atom_accepting. auto. Qed.

  Lemma eps_edge : forall p c e, ~ is_edge (epsTA al n) p c e.
  Proof. intros p c e (s & es & H & Hc & _). destruct H as [H|[]]. injection H as <- <-. destruct Hc. Qed.

  Lemma eps_tinv : tinv al n (S n) (epsTA al n).
  Proof.
    constructor.
    - constructor.
      + cbn. constructor; [intros []|constructor].
      + intros p s [H|[]]. injection H as <- <-. constructor.
      + intros p s c es e [H|[]] H2. injection H as <- <-. destruct H2.
      + intros p [H|[]]. left. auto.
    - intros p [H|[]]. cbn in H. subst. exists n. split; auto; lia.
    - intros p c e H. destruct (eps_edge _ _ _ H).
    - intros p s [H|[]]. injection H as <- <-. auto.
    - intros p c e H. destruct (eps_edge _ _ _ H).
    - intros p s [H|[]]. injection H as <- <-. auto.
    - intros p s c es [H|[]] H2. injection H as <- <-. destruct H2.
  Qed.

  Lemma eps_lang : forall u, lang_of (epsTA al n) u <-> u = [].
  Proof.
    intros u. split.
    - intros (p & q & v & Hi & R & F). inversion R as [|? ? ? ? ? ? ? ? ? He]; subst; auto. destruct (eps_edge _ _ _ He).
    - intros ->. apply lang_nil. exists (al n). split; [left; auto|]. eexists. split; [left; reflexivity|reflexivity].
  Qed.
End Basic.

(* ---------------- Kleene plus ---------------- *)

Lemma zero_at_state : forall A p s, NoDup (map fst (states A)) -> In (p, s) (states A) -> zero_at A p = zeroDur s.
Proof. intros A p s N H. unfold zero_at, deref. rewrite (In_assoc _ _ _ N H). auto. Qed.

Lemma iota_below : forall n, n <= 256 -> Forall (fun x => x < n) (iota n).
Proof. intros n H. rewrite (iota_id n H). apply Forall_forall. intros x Hx. apply in_seq in Hx. lia. Qed.

Section PlusTA.
  Variables (al : nat -> ptr) (n0 n1 : nat) (A : ta).
  Hypothesis T : tinv al n0 n1 A.
  Let W := ti_wf _ _ _ _ T.
  Let N := wf_nodup _ W.

  Lemma plus_edge_in : forall es e, (forall e1, In e1 es -> exists q, etgt e1 = Some q) ->
    (In e (plus_edges A es) <-> In e es \/ exists e1 q i, In e1 es /\ etgt e1 = Some q /\ accepting A q /\ zero_at A q = false /\
       In i (inits A) /\ zero_at A i = false /\ e = mkE (Some i) (eresets e1 ++ iota (clockSize A)) (eguard e1)).
  Proof.
    intros es e TG. unfold plus_edges. rewrite in_app_iff, in_flat_map. split; intros [H|H]; auto.
    - right. destruct H as (e1 & H1 & H). destruct (TG e1 H1) as (q & Eq).
      destruct (acc_tgt A e1 && negb (zero_tgt A e1)) eqn:B; [|destruct H]. apply andb_true_iff in B as [B1 B2].
      apply (acc_tgt_spec A e1 q N Eq) in B1. unfold zero_tgt in B2. rewrite Eq in B2. apply negb_true_iff in B2.
      apply in_map_iff in H as (i & <- & H). apply filter_In in H as [H H3]. apply negb_true_iff in H3.
      exists e1, q, i. repeat split; auto.
    - right. destruct H as (e1 & q & i & H1 & Eq & Ha & Hz & Hi & Hiz & ->). exists e1. split; auto.
      rewrite (proj2 (acc_tgt_spec A e1 q N Eq) Ha). unfold zero_tgt. rewrite Eq, Hz. cbn. apply in_map_iff. exists i. split; auto.
      apply filter_In. rewrite Hiz. auto.
  Qed.

  Lemma plus_edge : forall p c e, is_edge (plusTA A) p c e <->
    is_edge A p c e \/ exists e1 q i, is_edge A p c e1 /\ etgt e1 = Some q /\ accepting A q /\ zero_at A q = false /\
       In i (inits A) /\ zero_at A i = false /\ e = mkE (Some i) (eresets e1 ++ iota (clockSize A)) (eguard e1).
  Proof.
    intros p c e.
    rewrite (is_edge_mapped A (plusTA A) (fun s => mkS (isMatch s) (zeroDur s) (map_next (plus_edges A) (next s))) (plus_edges A) eq_refl)
      by reflexivity.
    split.
    - intros (s & es & H & Hc & He). apply plus_edge_in in He as [He|(e1 & q & i & H1 & R)].
      + left. exists s, es. auto.
      + right. exists e1, q, i. split; auto. exists s, es. auto.
      + intros e1 H1. apply (ti_tgt _ _ _ _ T p c). exists s, es. auto.
    - intros [H|(e1 & q & i & (s & es & H & Hc & H1) & R)].
      + destruct H as (s & es & H & Hc & He). exists s, es. repeat split; auto. apply plus_edge_in; auto.
        intros e1 H1. apply (ti_tgt _ _ _ _ T p c). exists s, es. auto.
      + exists s, es. repeat split; auto. apply plus_edge_in.
        * intros e2 H2. apply (ti_tgt _ _ _ _ T p c). exists s, es. auto.
        * right. exists e1, q, i. auto.
  Qed.

  Lemma plus_state : forall p s', In (p, s') (states (plusTA A)) <->
    exists s, In (p, s) (states A) /\ s' = mkS (isMatch s) (zeroDur s) (map_next (plus_edges A) (next s)).
  Proof.
    intros p s'. unfold plusTA; cbn [states]. rewrite in_map_iff. split.
    - intros ([p0 s] & E & H). cbn in E. injection E as -> <-. eauto.
    - intros (s & H & ->). exists (p, s). auto.
  Qed.

  Lemma plus_accepting : forall p, accepting (plusTA A) p <-> accepting A p.
  Proof.
    intros p. split.
    - intros (s' & H & M). apply plus_state in H as (s & H & ->). exists s. auto.
    - intros (s & H & M). exists (mkS (isMatch s) (zeroDur s) (map_next (plus_edges A) (next s))). split; auto. apply plus_state. eauto.
  Qed.

  Lemma plus_keys : map fst (states (plusTA A)) = map fst (states A).
  Proof. unfold plusTA; cbn [states]. apply (map_fst_keep (fun ps => mkS _ _ _)). Qed.

  Hypothesis Small : clockSize A <= 256.

  Lemma plus_tinv : tinv al n0 n1 (plusTA A).
  Proof.
    assert (WE : forall p c e, is_edge (plusTA A) p c e -> wf_edge (plusTA A) e).
    { intros p c e H. unfold wf_edge. rewrite plus_keys. change (clockSize (plusTA A)) with (clockSize A).
      apply plus_edge in H as [H|(e1 & q & i & H & _ & _ & _ & Hi & _ & ->)]; destruct (wf_is_edge A _ _ _ W H) as (Q1 & Q2 & Q3);
        split; [|split| |split]; auto; cbn.
      - intros t Et. injection Et as <-. apply W; auto.
      - apply Forall_app. split; auto. apply iota_below; auto. }
    constructor.
    - constructor.
      + rewrite plus_keys. exact N.
      + intros p s' H. apply plus_state in H as (s & H & ->). cbn. rewrite map_next_keys. eapply wf_keys; eauto.
      + intros p s c es e H1 H2 H3. apply (WE p c e). exists s, es. auto.
      + intros p H. rewrite plus_keys. apply W; auto.
    - rewrite plus_keys. apply (ti_rng _ _ _ _ T).
    - intros p c e H. apply plus_edge in H as [H|(e1 & q & i & H & _ & _ & _ & Hi & _ & ->)]; [eapply ti_tgt; eauto|cbn; eauto].
    - intros p s' H M. apply plus_state in H as (s & H & ->). cbn in *. apply map_next_nil. eapply ti_acc; eauto.
    - intros p c e H. apply plus_edge in H as [H|(e1 & q & i & H & _)]; eapply ti_obs; eauto.
    - intros p s' H Z. apply plus_state in H as (s & H & ->). cbn in *. apply map_next_nil. eapply ti_zero; eauto.
    - intros p s' c es H Hc. apply plus_state in H as (s & H & ->). cbn [next] in Hc. apply in_map_next in Hc as (es0 & Hc & ->).
      unfold plus_edges. intros X. apply app_eq_nil in X as [X _]. subst. eapply ti_full; eauto.
  Qed.

  (* no accepting state has the flag *)
  Lemma plus_lang_noflag : flg NoFlag A -> stuck_free A ->
    forall u, lang_of (plusTA A) u <-> exists us, us <> [] /\ Forall (lang_of A) us /\ u = concat us.
  Proof.
    intros F SF u.
    assert (Z : forall p, In p (map fst (states A)) -> zero_at A p = false).
    { intros p H. apply in_fst_exists in H as (s & H). rewrite (zero_at_state A p s N H). eapply noflag_all; eauto. }
    unfold lang_of. rewrite (alang_ext _ (is_edge (plusTA A)) _ (fun p => In p (inits A)) _ (accepting A));
      [|reflexivity|reflexivity|apply plus_accepting].
    apply plus_alang with (n := clockSize A); auto; [apply wf_guards_below; auto|].
    intros p c e. rewrite plus_edge. unfold pjump. split; intros [H|H]; auto; right.
    - destruct H as (e1 & q & i & H1 & H2 & H3 & _ & H4 & _ & H5). exists e1, q, i. repeat split; auto.
    - destruct H as (e1 & q & i & H1 & H2 & H3 & H4 & H5). exists e1, q, i. repeat split; auto.
      + apply Z. eapply edge_target; eauto.
      + apply Z. apply W. auto.
  Qed.

  (* every accepting state has the flag: nothing is added *)
  Lemma plus_lang_flag : (forall p s, In (p, s) (states A) -> isMatch s = true -> zeroDur s = true) ->
    forall u, lang_of (plusTA A) u <-> lang_of A u.
  Proof.
    intros F u. apply alang_ext; [|reflexivity|apply plus_accepting].
    intros p c e. rewrite plus_edge. split; auto. intros [H|H]; auto.
    destruct H as (e1 & q & i & _ & _ & (s & H & M) & Hz & _). rewrite (zero_at_state A q s N H), (F q s H M) in Hz. discriminate.
  Qed.

  Lemma plus_flg : forall k, flg k A -> flg k (plusTA A).
  Proof. intros k F p s' H M Z. apply plus_state in H as (s & H & ->). cbn in *. specialize (F p s H M Z). destruct k; auto. Qed.

  Lemma plus_jump : has_jump A -> has_jump (plusTA A).
  Proof.
    intros (p & c & e & q & H & Et & Ha). exists p, c, e, q. split; [apply plus_edge; auto|]. split; auto. apply plus_accepting; auto.
  Qed.
End PlusTA.

(* ---------------- two automata with different addresses ---------------- *)

Lemma ranges_disjoint : forall al n0 n1 n2 A B p, injective al -> tinv al n0 n1 A -> tinv al n1 n2 B ->
  In p (map fst (states A)) -> In p (map fst (states B)) -> False.
Proof.
  intros al n0 n1 n2 A B p Inj TA TB HA HB. destruct (ti_rng _ _ _ _ TA _ HA) as (k & Hk & ->).
  destruct (ti_rng _ _ _ _ TB _ HB) as (k' & Hk' & E). apply Inj in E. lia.
Qed.

Section AltTA.
  Variables (al : nat -> ptr) (n0 n1 n2 : nat) (A B : ta).
  Hypothesis Inj : injective al.
  Hypothesis T1 : tinv al n0 n1 A.
  Hypothesis T2 : tinv al n1 n2 B.
  Hypothesis Le1 : n0 <= n1.
  Hypothesis Le2 : n1 <= n2.

  Lemma alt_edge : forall p c e, is_edge (altTA A B) p c e <-> is_edge A p c e \/ is_edge B p c e.
  Proof.
    intros p c e. unfold is_edge, altTA; cbn [states]. split.
    - intros (s & es & H & R). apply in_app_or in H as [H|H]; [left|right]; exists s, es; auto.
    - intros [(s & es & H & R)|(s & es & H & R)]; exists s, es; split; auto; apply in_or_app; auto.
  Qed.
  Lemma alt_accepting : forall p, accepting (altTA A B) p <-> accepting A p \/ accepting B p.
  Proof.
    intros p. unfold accepting, altTA; cbn [states]. split.
    - intros (s & H & R). apply in_app_or in H as [H|H]; [left|right]; exists s; auto.
    - intros [(s & H & R)|(s & H & R)]; exists s; split; auto; apply in_or_app; auto.
  Qed.
  Lemma alt_clocks : clockSize (altTA A B) = Nat.max (clockSize A) (clockSize B).
  Proof. unfold clockSize, altTA; cbn [maxC]. apply max_merge_len. Qed.

  Lemma alt_tinv : tinv al n0 n2 (altTA A B).
  Proof.
    pose proof (ti_wf _ _ _ _ T1) as W1. pose proof (ti_wf _ _ _ _ T2) as W2.
    assert (K : map fst (states (altTA A B)) = map fst (states A) ++ map fst (states B)) by (unfold altTA; cbn [states]; apply map_app).
    constructor.
    - constructor.
      + rewrite K. apply NoDup_app; [apply W1|apply W2|]. intros x H1 H2. eapply ranges_disjoint; [apply Inj|apply T1|apply T2| |]; eauto.
      + intros p s H. cbn in H. apply in_app_or in H as [H|H]; [eapply (wf_keys _ W1)|eapply (wf_keys _ W2)]; eauto.
      + intros p s c es e H1 H2 H3. assert (H : is_edge (altTA A B) p c e) by (exists s, es; auto).
        unfold wf_edge. rewrite K, alt_clocks.
        apply alt_edge in H as [H|H]; [destruct (wf_is_edge A _ _ _ W1 H) as (Q1 & Q2 & Q3)|destruct (wf_is_edge B _ _ _ W2 H) as (Q1 & Q2 & Q3)];
          (split; [intros t Et; apply in_or_app; auto|split; (eapply Forall_impl; [|eassumption]); cbn; intros; lia]).
      + intros p H. cbn in H. rewrite K. apply in_or_app. apply in_app_or in H as [H|H]; [left; apply W1|right; apply W2]; auto.
    - intros p H. rewrite K in H. apply in_app_or in H as [H|H];
        [destruct (ti_rng _ _ _ _ T1 _ H) as (k & Hk & ->)|destruct (ti_rng _ _ _ _ T2 _ H) as (k & Hk & ->)]; exists k; split; auto; lia.
    - intros p c e H. apply alt_edge in H as [H|H]; [eapply (ti_tgt _ _ _ _ T1)|eapply (ti_tgt _ _ _ _ T2)]; eauto.
    - intros p s H M. cbn in H. apply in_app_or in H as [H|H]; [eapply (ti_acc _ _ _ _ T1)|eapply (ti_acc _ _ _ _ T2)]; eauto.
    - intros p c e H. apply alt_edge in H as [H|H]; [eapply (ti_obs _ _ _ _ T1)|eapply (ti_obs _ _ _ _ T2)]; eauto.
    - intros p s H M. cbn in H. apply in_app_or in H as [H|H]; [eapply (ti_zero _ _ _ _ T1)|eapply (ti_zero _ _ _ _ T2)]; eauto.
    - intros p s c es H M. cbn in H. apply in_app_or in H as [H|H]; [eapply (ti_full _ _ _ _ T1)|eapply (ti_full _ _ _ _ T2)]; eauto.
  Qed.

  Lemma alt_lang : forall u, lang_of (altTA A B) u <-> lang_of A u \/ lang_of B u.
  Proof.
    pose proof (ti_wf _ _ _ _ T1) as W1. pose proof (ti_wf _ _ _ _ T2) as W2.
    intros u. apply alt_alang with (S1 := fun p => In p (map fst (states A))) (S2 := fun p => In p (map fst (states B))).
    - intros p c e H. split; [eapply edge_source; eauto|intros; eapply edge_target; eauto].
    - intros p c e H. split; [eapply edge_source; eauto|intros; eapply edge_target; eauto].
    - intros p H1 H2. eapply ranges_disjoint; [apply Inj|apply T1|apply T2| |]; eauto.
    - apply W1.
    - apply W2.
    - apply accepting_in.
    - apply accepting_in.
    - apply alt_edge.
    - intros p. cbn. apply in_app_iff.
    - apply alt_accepting.
  Qed.

  Definition flag_max (a b : zflag) : zflag :=
    match a, b with NoFlag, x => x | x, NoFlag => x | InitFlag, InitFlag => InitFlag | _, _ => AnyFlag end.

  Lemma alt_flg : forall a b, flg a A -> flg b B -> flg (flag_max a b) (altTA A B).
  Proof.
    intros a b FA FB p s H M Z. cbn in H. apply in_app_or in H as [H|H]; [specialize (FA p s H M Z)|specialize (FB p s H M Z)];
      destruct a, b; cbn in *; try contradiction; auto; apply in_or_app; auto.
  Qed.

  Lemma alt_jump : has_jump A \/ has_jump B -> has_jump (altTA A B).
  Proof.
    intros [(p & c & e & q & H & Et & Ha)|(p & c & e & q & H & Et & Ha)]; exists p, c, e, q;
      (split; [apply alt_edge; auto|split; auto; apply alt_accepting; auto]).
  Qed.
End AltTA.

Section CatTA.
  Variables (al : nat -> ptr) (n0 n1 n2 : nat) (L R : ta).
  Hypothesis Inj : injective al.
  Hypothesis T1 : tinv al n0 n1 L.
  Hypothesis T2 : tinv al n1 n2 R.
  Hypothesis Le1 : n0 <= n1.
  Hypothesis Le2 : n1 <= n2.
  Let W1 := ti_wf _ _ _ _ T1.
  Let W2 := ti_wf _ _ _ _ T2.

  Definition left_state (s : tastate) : tastate := mkS false (zeroDur s) (map_next (cat_edges L R) (next s)).
  Definition right_state (p : ptr) (s : tastate) : tastate :=
    if cat_jumps L && mem p (inits R) then mkS (isMatch s) false (next s) else s.

  Lemma cat_right_map : cat_right L R = map (fun ps => (fst ps, right_state (fst ps) (snd ps))) (states R).
  Proof.
    unfold cat_right, right_state. destruct (cat_jumps L); cbn [andb]; [reflexivity|].
    rewrite <- (map_id (states R)) at 1. apply map_ext. intros [p s]. reflexivity.
  Qed.

  Lemma right_state_same : forall p s, isMatch (right_state p s) = isMatch s /\ next (right_state p s) = next s /\
    (zeroDur (right_state p s) = true -> zeroDur s = true).
  Proof. intros p s. unfold right_state. destruct (cat_jumps L && mem p (inits R)); cbn; repeat split; auto. discriminate. Qed.

  Lemma cat_state : forall p s', In (p, s') (states (concat2 L R)) <->
    (exists s, In (p, s) (states L) /\ s' = left_state s) \/ (exists s, In (p, s) (states R) /\ s' = right_state p s).
  Proof.
    intros p s'. unfold concat2; cbn [states]. rewrite cat_right_map, in_app_iff, !in_map_iff. split.
    - intros [([p0 s] & E & H)|([p0 s] & E & H)]; cbn in E; injection E as -> <-; eauto.
    - intros [(s & H & ->)|(s & H & ->)]; [left|right]; exists (p, s); auto.
  Qed.

  Lemma cat_keys : map fst (states (concat2 L R)) = map fst (states L) ++ map fst (states R).
  Proof.
    unfold concat2; cbn [states]. rewrite cat_right_map, map_app.
    rewrite (map_fst_keep (fun ps => right_state (fst ps) (snd ps))), (map_fst_keep (fun ps => mkS _ _ _)). reflexivity.
  Qed.

  Lemma cat_clocks : clockSize (concat2 L R) = Nat.max (clockSize L) (clockSize R).
  Proof. unfold clockSize, concat2; cbn [maxC]. apply max_merge_len. Qed.

  Lemma cat_accepting : forall p, accepting (concat2 L R) p <-> accepting R p.
  Proof.
    intros p. split.
    - intros (s' & H & M). apply cat_state in H as [(s & H & ->)|(s & H & ->)]; [discriminate|].
      exists s. destruct (right_state_same p s) as (E & _). rewrite E in M. auto.
    - intros (s & H & M). exists (right_state p s). split; [apply cat_state; eauto|]. destruct (right_state_same p s) as (E & _). congruence.
  Qed.

  Lemma cat_edge_in : forall es e, (forall e1, In e1 es -> exists q, etgt e1 = Some q) ->
    (In e (cat_edges L R es) <-> In e es \/ exists e1 q i, In e1 es /\ etgt e1 = Some q /\ accepting L q /\ In i (inits R) /\
       e = mkE (Some i) (iota (clockSize R)) (eguard e1)).
  Proof.
    intros es e TG. unfold cat_edges. rewrite in_app_iff, in_flat_map. split; intros [H|H]; auto; right.
    - destruct H as (e1 & H1 & H). destruct (TG e1 H1) as (q & Eq). destruct (acc_tgt L e1) eqn:B; [|destruct H].
      apply (acc_tgt_spec L e1 q (wf_nodup _ W1) Eq) in B. apply in_map_iff in H as (i & <- & H). exists e1, q, i. auto.
    - destruct H as (e1 & q & i & H1 & Eq & Ha & Hi & ->). exists e1. split; auto.
      rewrite (proj2 (acc_tgt_spec L e1 q (wf_nodup _ W1) Eq) Ha). apply in_map_iff. exists i. auto.
  Qed.

  Lemma cat_edge : forall p c e, is_edge (concat2 L R) p c e <->
    is_edge L p c e \/ is_edge R p c e \/
    cjump (is_edge L) (fun p => In p (inits R)) (accepting L) (clockSize R) p c e.
  Proof.
    intros p c e. split.
    - intros (s' & es & H & Hc & He). apply cat_state in H as [(s & H & ->)|(s & H & ->)].
      + cbn [left_state next] in Hc. apply in_map_next in Hc as (es0 & Hc & ->).
        apply cat_edge_in in He; [|intros e1 H1; apply (ti_tgt _ _ _ _ T1 p c); exists s, es0; auto].
        destruct He as [He|(e1 & q & i & H1 & Rr)]; [left; exists s, es0; auto|]. right. right. exists e1, q, i. split; [exists s, es0; auto|exact Rr].
      + right. left. destruct (right_state_same p s) as (_ & E & _). rewrite E in Hc. exists s, es. auto.
    - intros [H|[H|H]].
      + destruct H as (s & es & H & Hc & He). exists (left_state s), (cat_edges L R es). split; [apply cat_state; eauto|].
        split; [apply in_map_next; eauto|]. unfold cat_edges. apply in_or_app. auto.
      + destruct H as (s & es & H & Hc & He). exists (right_state p s), es. split; [apply cat_state; eauto|]. split; auto.
        destruct (right_state_same p s) as (_ & E & _). rewrite E. auto.
      + destruct H as (e1 & q & i & H & Rr). destruct H as (s & es & H & Hc & He).
        exists (left_state s), (cat_edges L R es). split; [apply cat_state; eauto|]. split; [apply in_map_next; eauto|].
        apply cat_edge_in; [intros e2 H2; apply (ti_tgt _ _ _ _ T1 p c); exists s, es; auto|]. right. exists e1, q, i. auto.
  Qed.

  Lemma existsb_acc : existsb (match_at L) (inits L) = true <-> exists i, In i (inits L) /\ accepting L i.
  Proof.
    rewrite existsb_exists. split; intros (i & H & M); exists i; (split; [auto|]);
      [apply match_at_spec in M|apply match_at_spec]; auto; apply W1.
  Qed.

  Lemma cat_inits : forall p, In p (inits (concat2 L R)) <-> In p (inits L) \/ ((exists i, In i (inits L) /\ accepting L i) /\ In p (inits R)).
  Proof.
    intros p. unfold concat2; cbn [inits]. rewrite in_app_iff. destruct (existsb (match_at L) (inits L)) eqn:E.
    - apply existsb_acc in E. tauto.
    - split; [intros [H|[]]; auto|]. intros [H|[H _]]; auto. apply existsb_acc in H. congruence.
  Qed.

  Hypothesis Small : clockSize R <= 256.

  Lemma cat_tinv : tinv al n0 n2 (concat2 L R).
  Proof.
    constructor.
    - constructor.
      + rewrite cat_keys. apply NoDup_app; [apply W1|apply W2|]. intros x H1 H2.
        eapply ranges_disjoint; [apply Inj|apply T1|apply T2| |]; eauto.
      + intros p s' H. apply cat_state in H as [(s & H & ->)|(s & H & ->)].
        * cbn. rewrite map_next_keys. apply (wf_keys _ W1 p s). auto.
        * destruct (right_state_same p s) as (_ & E & _). rewrite E. apply (wf_keys _ W2 p s). auto.
      + intros p s c es e H1 H2 H3. assert (H : is_edge (concat2 L R) p c e) by (exists s, es; auto).
        unfold wf_edge. rewrite cat_keys, cat_clocks.
        apply cat_edge in H as [H|[H|(e1 & q & i & H & _ & _ & Hi & ->)]];
          [destruct (wf_is_edge L _ _ _ W1 H) as (Q1 & Q2 & Q3)|destruct (wf_is_edge R _ _ _ W2 H) as (Q1 & Q2 & Q3)
          |destruct (wf_is_edge L _ _ _ W1 H) as (Q1 & Q2 & Q3)]; cbn [etgt eresets eguard];
          (split; [|split]).
        * intros t Et. apply in_or_app. auto.
        * eapply Forall_impl; [|exact Q2]. cbn; intros; lia.
        * eapply Forall_impl; [|exact Q3]. cbn; intros; lia.
        * intros t Et. apply in_or_app. auto.
        * eapply Forall_impl; [|exact Q2]. cbn; intros; lia.
        * eapply Forall_impl; [|exact Q3]. cbn; intros; lia.
        * intros t Et. apply in_or_app. injection Et as <-. right. apply W2. auto.
        * eapply Forall_impl; [|apply iota_below; auto]. cbn; intros; lia.
        * eapply Forall_impl; [|exact Q3]. cbn; intros; lia.
      + intros p H. rewrite cat_keys. apply in_or_app. apply cat_inits in H as [H|[_ H]]; [left; apply W1|right; apply W2]; auto.
    - intros p H. rewrite cat_keys in H. apply in_app_or in H as [H|H];
        [destruct (ti_rng _ _ _ _ T1 _ H) as (k & Hk & ->)|destruct (ti_rng _ _ _ _ T2 _ H) as (k & Hk & ->)]; exists k; split; auto; lia.
    - intros p c e H. apply cat_edge in H as [H|[H|(e1 & q & i & H & _ & _ & Hi & ->)]]; [eapply ti_tgt; [apply T1|]|eapply ti_tgt; [apply T2|]|cbn]; eauto.
    - intros p s' H M. apply cat_state in H as [(s & H & ->)|(s & H & ->)]; [discriminate|].
      destruct (right_state_same p s) as (E1 & E2 & _). rewrite E2. rewrite E1 in M. apply (ti_acc _ _ _ _ T2 p s); auto.
    - intros p c e H. apply cat_edge in H as [H|[H|(e1 & q & i & H & _)]]; [eapply (ti_obs _ _ _ _ T1)|eapply (ti_obs _ _ _ _ T2)|eapply (ti_obs _ _ _ _ T1)]; eauto.
    - intros p s' H Z. apply cat_state in H as [(s & H & ->)|(s & H & ->)].
      + cbn in *. apply map_next_nil. eapply (ti_zero _ _ _ _ T1); eauto.
      + destruct (right_state_same p s) as (_ & E2 & E3). rewrite E2. eapply (ti_zero _ _ _ _ T2); eauto.
    - intros p s' c es H Hc. apply cat_state in H as [(s & H & ->)|(s & H & ->)].
      + cbn [left_state next] in Hc. apply in_map_next in Hc as (es0 & Hc & ->). unfold cat_edges.
        intros X. apply app_eq_nil in X as [X _]. subst. eapply (ti_full _ _ _ _ T1); eauto.
      + destruct (right_state_same p s) as (_ & E & _). rewrite E in Hc. eapply (ti_full _ _ _ _ T2); eauto.
  Qed.

  Lemma cat_lang : forall u, lang_of (concat2 L R) u <-> exists u1 u2, u = u1 ++ u2 /\ lang_of L u1 /\ lang_of R u2.
  Proof.
    intros u. unfold lang_of at 1. rewrite (alang_ext _ (is_edge (concat2 L R)) _ (fun p => In p (inits (concat2 L R))) _ (accepting R));
      [|reflexivity|reflexivity|apply cat_accepting].
    apply concat_alang with (S1 := fun p => In p (map fst (states L))) (S2 := fun p => In p (map fst (states R))) (n2 := clockSize R).
    - intros p c e H. split; [eapply edge_source; eauto|intros; eapply edge_target; eauto].
    - intros p c e H. split; [eapply edge_source; eauto|intros; eapply edge_target; eauto].
    - intros p H1 H2. eapply ranges_disjoint; [apply Inj|apply T1|apply T2| |]; eauto.
    - apply W1.
    - apply W2.
    - apply accepting_in.
    - apply wf_guards_below. auto.
    - auto.
    - apply cat_edge.
    - apply cat_inits.
  Qed.

  Lemma cat_jumps_spec : cat_jumps L = true <-> has_jump L.
  Proof.
    unfold cat_jumps. rewrite existsb_exists. split.
    - intros ([p s] & H & X). apply existsb_exists in X as ([c es] & Hc & X). apply existsb_exists in X as (e & He & X). cbn in *.
      assert (E : is_edge L p c e) by (exists s, es; auto). destruct (ti_tgt _ _ _ _ T1 _ _ _ E) as (q & Eq).
      exists p, c, e, q. split; auto. split; auto. apply (acc_tgt_spec L e q (wf_nodup _ W1) Eq). auto.
    - intros (p & c & e & q & (s & es & H & Hc & He) & Eq & Ha). exists (p, s). split; auto.
      apply existsb_exists. exists (c, es). split; auto. apply existsb_exists. exists e. split; auto.
      apply (acc_tgt_spec L e q (wf_nodup _ W1) Eq). auto.
  Qed.

  Lemma cat_flg : forall k, flg k R ->
    flg (match k with NoFlag => NoFlag | _ => AnyFlag end) (concat2 L R) /\
    (k = InitFlag -> has_jump L -> flg NoFlag (concat2 L R)) /\
    (k = InitFlag -> (exists i, In i (inits L) /\ accepting L i) -> flg InitFlag (concat2 L R)).
  Proof.
    intros k F.
    assert (C : forall p s', In (p, s') (states (concat2 L R)) -> isMatch s' = true -> zeroDur s' = true ->
      exists s, In (p, s) (states R) /\ s' = right_state p s /\ isMatch s = true /\ zeroDur s = true).
    { intros p s' H M Z. apply cat_state in H as [(s & H & ->)|(s & H & ->)]; [discriminate|].
      destruct (right_state_same p s) as (E1 & _ & E3). exists s. repeat split; auto. congruence. }
    split; [|split].
    - intros p s' H M Z. destruct (C p s' H M Z) as (s & H1 & _ & M1 & Z1). specialize (F p s H1 M1 Z1). destruct k; auto.
    - intros -> J p s' H M Z. destruct (C p s' H M Z) as (s & H1 & -> & M1 & Z1). specialize (F p s H1 M1 Z1). cbn in F.
      unfold right_state in Z. rewrite (proj2 cat_jumps_spec J), (proj2 (mem_In _ _) F) in Z. discriminate.
    - intros -> I p s' H M Z. destruct (C p s' H M Z) as (s & H1 & -> & M1 & Z1). specialize (F p s H1 M1 Z1). cbn in F.
      apply cat_inits. auto.
  Qed.

  Lemma cat_jump : has_jump R \/ (has_jump L /\ exists i, In i (inits R) /\ accepting R i) -> has_jump (concat2 L R).
  Proof.
    intros [(p & c & e & q & H & Et & Ha)|((p & c & e & q & H & Et & Ha) & i & Hi & Hia)].
    - exists p, c, e, q. split; [apply cat_edge; auto|]. split; auto. apply cat_accepting; auto.
    - exists p, c, (mkE (Some i) (iota (clockSize R)) (eguard e)), i. split; [|split; [auto|apply cat_accepting; auto]].
      apply cat_edge. right. right. exists e, q, i. auto.
  Qed.
End CatTA.
