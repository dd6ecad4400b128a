(* Property C74: renameToEpsilonTransitions. *)
From Coq Require Import QArith Lqa Bool List ZArith Arith Lia.
From Verif Require Import Num NumFacts Outcome Interval Constraint Zone TA Spec TAFacts WfDec Tre TreFacts Signal SignalSpec SignalAut PropBase Intersection.
Import ListNotations.
Open Scope nat_scope.

(* ---------------- what the function should do ---------------- *)

(* The character is one that the state reads next: the signal keeps its value. *)
Definition repeats (A : ta) (c : nat) (q : ptr) : Prop := c <> 0 /\ keyed A q c.

(* A run on the first word; the second word has 0 for the transitions that
   repeat. *)
Inductive hidden (A : ta) : ptr -> valuation -> Q -> tword -> tword -> ptr -> Prop :=
| hid_nil : forall p v T, hidden A p v T [] [] p
| hid_cons : forall p v T c d t e w w' q r, is_edge A p c e -> etgt e = Some q -> sat_guard (delay v (t - T)) (eguard e) ->
    (repeats A c q /\ d = 0 \/ ~ repeats A c q /\ d = c) ->
    hidden A q (reset_set (delay v (t - T)) (eresets e)) t w w' r ->
    hidden A p v T ((c, t) :: w) ((d, t) :: w') r.
(* The same, where the last transition repeats and yet is not hidden. *)
Inductive hidden_but_last (A : ta) : ptr -> valuation -> Q -> tword -> tword -> ptr -> Prop :=
| hbl_one : forall p v T c t e q, is_edge A p c e -> etgt e = Some q -> sat_guard (delay v (t - T)) (eguard e) -> repeats A c q ->
    hidden_but_last A p v T [(c, t)] [(c, t)] q
| hbl_cons : forall p v T c d t e w w' q r, is_edge A p c e -> etgt e = Some q -> sat_guard (delay v (t - T)) (eguard e) ->
    (repeats A c q /\ d = 0 \/ ~ repeats A c q /\ d = c) ->
    hidden_but_last A q (reset_set (delay v (t - T)) (eresets e)) t w w' r ->
    hidden_but_last A p v T ((c, t) :: w) ((d, t) :: w') r.
(* Some transition into the state repeats. *)
Definition entered_again (A : ta) (q : ptr) : Prop := exists p c e, is_edge A p c e /\ etgt e = Some q /\ repeats A c q.

(* ---------------- the transitions of the result ---------------- *)

Lemma key_push_in : forall k xs nx c e, (exists es, In (c, es) (key_push k xs nx) /\ In e es) <-> (exists es, In (c, es) nx /\ In e es) \/ (c = k /\ In e xs).
Proof.
  intros k xs nx c e. induction nx as [|[c' es'] nx IH]; cbn [key_push].
  - split; [intros (es & [E|[]] & H); injection E as <- <-; auto|]. intros [(es & [] & _)|[-> H]]. exists xs. split; auto. left. auto.
  - destruct (Nat.eqb_spec k c') as [->|N].
    + split.
      * intros (es & [E|Hin] & H); [injection E as <- <-; apply in_app_or in H as [H|H]; auto|]; left; [exists es'|exists es]; split; auto; [left|right]; auto.
      * intros [(es & [E|Hin] & H)|[-> H]]; [injection E as <- <-| |]; [exists (es' ++ xs)|exists es|exists (es' ++ xs)]; (split; [|auto using in_or_app]); [left|right|left]; auto.
    + split.
      * intros (es & [E|Hin] & H); [injection E as <- <-; left; exists es'; split; auto; left; auto|].
        assert (X : exists es, In (c, es) (key_push k xs nx) /\ In e es) by eauto. apply IH in X as [(es2 & H2 & H3)|X]; auto. left. exists es2. split; auto. right. auto.
      * intros [(es & [E|Hin] & H)|X].
        { exists es. split; auto. left. auto. }
        { assert (Y : exists es, In (c, es) (key_push k xs nx) /\ In e es) by (apply IH; left; eauto). destruct Y as (es2 & H2 & H3). exists es2. split; auto. right. auto. }
        { assert (Y : exists es, In (c, es) (key_push k xs nx) /\ In e es) by (apply IH; right; auto). destruct Y as (es2 & H2 & H3). exists es2. split; auto. right. auto. }
Qed.

Lemma nodup_keep_in : forall l p, In p (nodup_keep l) <-> In p l.
Proof.
  induction l as [|q l IH]; intros p; cbn [nodup_keep In]; [tauto|]. rewrite filter_In, IH, negb_true_iff, Nat.eqb_neq.
  destruct (Nat.eq_dec p q) as [->|N]; [tauto|]. split; [intros [->|[H _]]; auto|intros [->|H]; auto].
Qed.

Lemma has_key_spec : forall A q c, NoDup (map fst (states A)) -> (has_key A q c = true <-> keyed A q c).
Proof.
  intros A q c ND. unfold has_key, keyed, deref. split.
  - destruct (assoc q (states A)) as [s|] eqn:E; [|discriminate]. rewrite existsb_exists. intros ([c' es] & H1 & H2). cbn in H2. apply Nat.eqb_eq in H2 as ->.
    exists s, es. split; auto using assoc_In.
  - intros (s & es & H1 & H2). rewrite (In_assoc _ _ s) by auto. rewrite existsb_exists. exists (c, es). split; auto. cbn. apply Nat.eqb_refl.
Qed.

Section Rename.
  Variables (al : nat -> ptr) (A : ta) (n : nat).
  Hypothesis W : wf_ta A.
  Hypothesis Fr : forall k, n <= k -> ~ In (al k) (map fst (states A)).

  Let ch := changed_accepting A.
  Let acc q := al (n + pos q ch).
  Let A' := fst (renameTA al A n).

  Lemma to_change_spec : forall c e q, etgt e = Some q -> (to_change A c e = true <-> repeats A c q).
  Proof.
    intros c e q E. unfold to_change, repeats. rewrite E, andb_true_iff, negb_true_iff, Nat.eqb_neq, has_key_spec by apply (wf_nodup _ W). tauto.
  Qed.
  Lemma to_change_tgt : forall c e, to_change A c e = true -> exists q, etgt e = Some q /\ repeats A c q.
  Proof. intros c e H. destruct (etgt e) as [q|] eqn:E; [|unfold to_change in H; rewrite E in H; discriminate]. exists q. split; auto. apply (to_change_spec c e q E); auto. Qed.
  Lemma not_change : forall c e q, etgt e = Some q -> (to_change A c e = false <-> ~ repeats A c q).
  Proof. intros c e q E. rewrite <- (to_change_spec c e q E). destruct (to_change A c e); split; intros; congruence. Qed.

  Lemma ch_spec : forall q, In q ch <-> accepting A q /\ entered_again A q.
  Proof.
    intros q. unfold ch, changed_accepting. rewrite nodup_keep_in, in_flat_map. split.
    - intros ([p s] & Hs & H). apply in_flat_map in H as ([c es] & Hc & H). apply in_flat_map in H as (e & He & H). cbn [fst snd] in *.
      destruct (to_change A c e && acc_tgt A e) eqn:E; [|destruct H]. apply andb_true_iff in E as [E1 E2].
      destruct (to_change_tgt c e E1) as (q' & Eq & R). rewrite Eq in H. destruct H as [<-|[]]. unfold acc_tgt in E2. rewrite Eq in E2. split.
      + apply match_at_spec; auto. apply (wf_nodup _ W).
      + exists p, c, e. split; auto. exists s, es. auto.
    - intros [Ac (p & c & e & (s & es & Hs & Hc & He) & Eq & R)]. exists (p, s). split; auto. apply in_flat_map. exists (c, es). split; auto.
      apply in_flat_map. exists e. split; auto. cbn [fst]. rewrite (proj2 (to_change_spec c e q Eq) R). unfold acc_tgt. rewrite Eq.
      rewrite (proj2 (match_at_spec A q (wf_nodup _ W)) Ac). left. reflexivity.
  Qed.

  Lemma acc_fresh : forall q, ~ In (acc q) (map fst (states A)).
  Proof. intros q. apply Fr. lia. Qed.

  Lemma rename_edge : forall p c e', In p (map fst (states A)) ->
    (is_edge A' p c e' <->
     (is_edge A p c e' /\ exists q, etgt e' = Some q /\ ~ repeats A c q) \/
     (c = 0 /\ exists c0 q, is_edge A p c0 e' /\ etgt e' = Some q /\ repeats A c0 q) \/
     (exists e q, is_edge A p c e /\ etgt e = Some q /\ repeats A c q /\ accepting A q /\ e' = mkE (Some (acc q)) (eresets e) (eguard e))).
  Proof.
    intros p c e' Hp. apply in_map_iff in Hp as ([p0 s] & E & Hs). cbn in E. subst p0.
    assert (Un : forall s', In (p, s') (states A) -> s' = s) by (intros s' H'; apply (NoDup_fst_inj _ _ _ _ (wf_nodup _ W) H' Hs)).
    assert (ED : forall c es e, In (c, es) (next s) -> In e es -> is_edge A p c e) by (intros c0 es e H1 H2; exists s, es; auto).
    assert (IN : is_edge A' p c e' <-> exists es, In (c, es) (next (rename_state A acc s)) /\ In e' es).
    { unfold is_edge, A', renameTA. cbn [fst states]. fold ch. fold acc. split.
      - intros (s' & es & H1 & H2 & H3). apply in_app_or in H1 as [H1|H1].
        + apply in_map_iff in H1 as ([p1 s1] & E & H1). cbn [fst snd] in E. injection E as -> <-. apply Un in H1 as ->. exists es. split; auto.
          destruct (mem p ch); exact H2.
        + apply in_map_iff in H1 as (q & E & _). injection E as E <-. destruct H2.
      - intros (es & H2 & H3). eexists. exists es. split; [apply in_or_app; left; apply in_map_iff; exists (p, s); split; [reflexivity|auto]|].
        cbn [fst snd]. split; auto. destruct (mem p ch); exact H2. }
    rewrite IN. clear IN. unfold rename_state. cbn [next].
    set (kept := map (fun ce => (fst ce, rename_edges A acc (fst ce) (snd ce))) (next s)).
    set (eps := flat_map (fun ce => filter (to_change A (fst ce)) (snd ce)) (next s)).
    assert (K : (exists es, In (c, es) kept /\ In e' es) <->
      (is_edge A p c e' /\ exists q, etgt e' = Some q /\ ~ repeats A c q) \/
      (exists e q, is_edge A p c e /\ etgt e = Some q /\ repeats A c q /\ accepting A q /\ e' = mkE (Some (acc q)) (eresets e) (eguard e))).
    { unfold kept. split.
      - intros (es & H1 & H2). apply in_map_iff in H1 as ([c0 es0] & E & H1). cbn [fst snd] in E. injection E as -> <-.
        unfold rename_edges in H2. apply in_flat_map in H2 as (e & He & H2). destruct (etgt e) as [q|] eqn:Eq; [|destruct H2].
        destruct (to_change A c e) eqn:Tc.
        + destruct (match_at A q) eqn:M; [|destruct H2]. destruct H2 as [<-|[]]. right. exists e, q. split; [eauto|]. split; auto. split; [apply (to_change_spec c e q Eq); auto|].
          split; auto. apply match_at_spec; auto. apply (wf_nodup _ W).
        + destruct H2 as [<-|[]]. left. split; [eauto|]. exists q. split; auto. apply (not_change c e q Eq); auto.
      - intros [((s0 & es & H1 & H2 & H3) & q & Eq & NR)|(e & q & (s0 & es & H1 & H2 & H3) & Eq & R & Ac & ->)]; apply Un in H1 as ->;
          (exists (rename_edges A acc c es); split; [apply in_map_iff; exists (c, es); auto|]); unfold rename_edges; apply in_flat_map.
        + exists e'. split; auto. rewrite Eq, (proj2 (not_change c e' q Eq) NR). left. auto.
        + exists e. split; auto. rewrite Eq, (proj2 (to_change_spec c e q Eq) R), (proj2 (match_at_spec A q (wf_nodup _ W)) Ac). left. auto. }
    assert (P : In e' eps <-> exists c0 q, is_edge A p c0 e' /\ etgt e' = Some q /\ repeats A c0 q).
    { unfold eps. rewrite in_flat_map. split.
      - intros ([c0 es] & H1 & H2). cbn [fst snd] in H2. apply filter_In in H2 as [H2 H3]. destruct (to_change_tgt c0 e' H3) as (q & Eq & R). eauto 6.
      - intros (c0 & q & (s0 & es & H1 & H2 & H3) & Eq & R). apply Un in H1 as ->. exists (c0, es). split; auto. cbn [fst snd]. apply filter_In. split; auto.
        apply (to_change_spec c0 e' q Eq); auto. }
    destruct eps as [|x l].
    - rewrite K. split; [tauto|]. intros [H|[(_ & H)|H]]; auto. apply P in H. destruct H.
    - rewrite key_push_in, K, P. tauto.
  Qed.

  Lemma rename_end : forall q c e, In q ch -> ~ is_edge A' (acc q) c e.
  Proof.
    intros q c e Hq (s & es & H1 & H2 & H3). unfold A', renameTA in H1. cbn [fst states] in H1. fold ch in H1. fold acc in H1. apply in_app_or in H1 as [H1|H1].
    - apply in_map_iff in H1 as ([p1 s1] & E & H1). injection E as E _. apply (acc_fresh q). assert (X : In p1 (map fst (states A))) by apply (in_map fst _ _ H1). rewrite E in X. exact X.
    - apply in_map_iff in H1 as (q' & E & _). injection E as _ <-. destruct H2.
  Qed.

  Lemma rename_accepting : forall p, accepting A' p <-> (accepting A p /\ ~ entered_again A p) \/ exists q, In q ch /\ p = acc q.
  Proof.
    intros p. unfold accepting at 1, A', renameTA. cbn [fst states]. fold ch. fold acc. split.
    - intros (s & H1 & M). apply in_app_or in H1 as [H1|H1].
      + apply in_map_iff in H1 as ([p1 s1] & E & H1). cbn [fst snd] in E. injection E as -> <-. left. destruct (mem p ch) eqn:Em; [discriminate|].
        cbn in M. assert (Ac : accepting A p) by (exists s1; auto). split; auto. intros En. assert (In p ch) by (apply ch_spec; auto). apply mem_In in H. congruence.
      + apply in_map_iff in H1 as (q & E & Hq). injection E as <- <-. right. exists q. auto.
    - intros [[(s & Hs & M) NE]|(q & Hq & ->)].
      + eexists. split; [apply in_or_app; left; apply in_map_iff; exists (p, s); split; [reflexivity|auto]|]. cbn [fst snd].
        destruct (mem p ch) eqn:Em; [|exact M]. apply mem_In, ch_spec in Em. tauto.
      + exists (mkS true false []). split; auto. apply in_or_app. right. apply in_map_iff. exists q. auto.
  Qed.

  Lemma src_in : forall p c e, is_edge A p c e -> In p (map fst (states A)).
  Proof. intros p c e (s & es & H & _). apply (in_map fst _ _ H). Qed.
  Lemma tgt_in_states : forall p c e q, is_edge A p c e -> etgt e = Some q -> In q (map fst (states A)).
  Proof. intros p c e q He Eq. apply (proj1 (wf_is_edge _ _ _ _ W He)). auto. Qed.

  Lemma run_of_hidden : forall p v T w w' q, hidden A p v T w w' q -> exists v' T', run A' p v T w' q v' T'.
  Proof.
    induction 1 as [|p v T c d t e w w' q r He Eq SG HD H IH]; [do 2 eexists; constructor|]. destruct IH as (v' & T' & R). exists v', T'.
    econstructor; eauto. apply rename_edge; [eapply src_in; eauto|]. destruct HD as [[Re ->]|[NR ->]]; [right; left; eauto 6|left; eauto].
  Qed.
  Lemma run_of_last : forall p v T w w' q, hidden_but_last A p v T w w' q -> accepting A q -> exists v' T', run A' p v T w' (acc q) v' T'.
  Proof.
    intros p v T w w' q H Ac. induction H as [p v T c t e q He Eq SG Re|p v T c d t e w w' q r He Eq SG HD H IH].
    - do 2 eexists. econstructor; [apply rename_edge; [eapply src_in; eauto|]; right; right; exists e, q; eauto 6|reflexivity|exact SG|constructor].
    - destruct (IH Ac) as (v' & T' & R). exists v', T'.
      econstructor; eauto. apply rename_edge; [eapply src_in; eauto|]. destruct HD as [[Re ->]|[NR ->]]; [right; left; eauto 6|left; eauto].
  Qed.
  Lemma hidden_of_run : forall p v T w' r v' T', run A' p v T w' r v' T' -> In p (map fst (states A)) ->
    (exists w, hidden A p v T w w' r) \/ (exists w q, hidden_but_last A p v T w w' q /\ accepting A q /\ r = acc q).
  Proof.
    intros p v T w' r v' T' R. induction R as [p v T|p v T d t e w' q r v' T' He Eq SG R IH]; intros Hp; [left; exists []; constructor|].
    apply rename_edge in He as [(He & q' & Eq' & NR)|[(-> & c & q' & He & Eq' & Re)|(e0 & q' & He & Eq' & Re & Ac & ->)]]; auto.
    - rewrite Eq in Eq'. injection Eq' as <-. destruct IH as [(w & H)|(w & q2 & H & Ac & Er)]; [eapply tgt_in_states; eauto| |].
      + left. exists ((d, t) :: w). econstructor; eauto.
      + right. exists ((d, t) :: w), q2. split; auto. econstructor; eauto.
    - rewrite Eq in Eq'. injection Eq' as <-. destruct IH as [(w & H)|(w & q2 & H & Ac & Er)]; [eapply tgt_in_states; eauto| |].
      + left. exists ((c, t) :: w). econstructor; eauto.
      + right. exists ((c, t) :: w), q2. split; auto. econstructor; eauto.
    - cbn in Eq. injection Eq as <-. cbn [eresets eguard] in *.
      assert (Hq : In q' ch) by (apply ch_spec; split; auto; exists p, d, e0; auto).
      inversion R as [|? ? ? ? ? e1 ? ? ? ? ? He1]; subst; [|exfalso; eapply (rename_end q' _ _ Hq); eauto].
      right. do 2 eexists. split; [eapply hbl_one; eauto|auto].
  Qed.

  Lemma rename_words : forall w', accepts A' w' <-> exists p w q, In p (inits A) /\ accepting A q /\
    ((hidden A p zeroval 0 w w' q /\ ~ entered_again A q) \/ hidden_but_last A p zeroval 0 w w' q).
  Proof.
    intros w'. split.
    - intros (p & r & v & T & Hp & R & Ac). change (inits A') with (inits A) in Hp. pose proof (wf_inits _ W p Hp) as Sp.
      assert (St : forall p v T w w' q, hidden A p v T w w' q -> In p (map fst (states A)) -> In q (map fst (states A))).
      { induction 1; auto. intros _. apply IHhidden. eapply tgt_in_states; eauto. }
      destruct (hidden_of_run _ _ _ _ _ _ _ R Sp) as [(w & H)|(w & q & H & Aq & ->)].
      + apply rename_accepting in Ac as [[Ac NE]|(q & _ & ->)]; [exists p, w, r; auto|]. exfalso. apply (acc_fresh q). eapply St; eauto.
      + exists p, w, q. auto.
    - intros (p & w & q & Hp & Aq & [[H NE]|H]).
      + destruct (run_of_hidden _ _ _ _ _ _ H) as (v & T & R). exists p, q, v, T. split; auto. split; auto. apply rename_accepting. auto.
      + destruct (run_of_last _ _ _ _ _ _ H Aq) as (v & T & R). exists p, (acc q), v, T. split; auto. split; auto. apply rename_accepting. right. exists q. split; auto.
        apply ch_spec. split; auto. clear -H. induction H; auto. exists p, c, e. auto.
  Qed.
End Rename.

(* ================= C74 ================= *)

(* Exactly which words the result accepts. *)
Theorem C74_words : forall al A n w', wf_ta A -> (forall k, n <= k -> ~ In (al k) (map fst (states A))) ->
  (accepts (fst (renameTA al A n)) w' <-> exists p w q, In p (inits A) /\ accepting A q /\
    ((hidden A p zeroval 0 w w' q /\ ~ entered_again A q) \/ hidden_but_last A p zeroval 0 w w' q)).
Proof. intros al A n w' W Fr. apply rename_words; auto. Qed.

Lemma hidden_run : forall A p v T w w' q, hidden A p v T w w' q -> exists v' T', run A p v T w q v' T'.
Proof. induction 1 as [|? ? ? ? ? ? ? ? ? ? ? ? ? ? ? ? (v' & T' & R)]; [do 2 eexists; constructor|]. do 2 eexists. econstructor; eauto. Qed.
Lemma run_hidden : forall A p v T w q v' T', wf_ta A -> run A p v T w q v' T' -> exists w', hidden A p v T w w' q.
Proof.
  intros A p v T w q v' T' W R. induction R as [|p v T c t e w q r v' T' He Eq SG R (w' & IH)]; [exists []; constructor|].
  assert (D : repeats A c q \/ ~ repeats A c q).
  { unfold repeats. destruct (Nat.eq_dec c 0); [right; tauto|]. destruct (has_key A q c) eqn:E.
    - left. split; auto. apply has_key_spec; auto. apply (wf_nodup _ W).
    - right. intros [_ K]. apply has_key_spec in K; [congruence|apply (wf_nodup _ W)]. }
  destruct D; [exists ((0, t) :: w')|exists ((c, t) :: w')]; econstructor; eauto.
Qed.

(* When accepting states have no transitions, the words are those of the
   automaton with the repeating transitions hidden; none is lost. *)
Definition ends_final (A : ta) : Prop := forall q c, accepting A q -> ~ keyed A q c.

Theorem C74_final : forall al A n w', wf_ta A -> (forall k, n <= k -> ~ In (al k) (map fst (states A))) -> ends_final A ->
  (accepts (fst (renameTA al A n)) w' <-> exists p w q, In p (inits A) /\ accepting A q /\ hidden A p zeroval 0 w w' q).
Proof.
  intros al A n w' W Fr EF. rewrite C74_words by auto. split.
  - intros (p & w & q & Hp & Aq & [[H _]|H]); [eauto 6|]. exfalso.
    assert (X : entered_again A q) by (clear -H; induction H; auto; exists p, c, e; auto).
    destruct X as (p1 & c & e & _ & _ & _ & K). exact (EF q c Aq K).
  - intros (p & w & q & Hp & Aq & H). exists p, w, q. split; auto. split; auto. left. split; auto. intros (p1 & c & e & _ & _ & _ & K). exact (EF q c Aq K).
Qed.
Theorem C74_none_lost : forall al A n w, wf_ta A -> (forall k, n <= k -> ~ In (al k) (map fst (states A))) -> ends_final A -> accepts A w ->
  exists w', accepts (fst (renameTA al A n)) w' /\ Forall2 (fun a b => snd a = snd b /\ (fst b = fst a \/ fst b = 0)) w w'.
Proof.
  intros al A n w W Fr EF (p & q & v & T & Hp & R & Ac). destruct (run_hidden _ _ _ _ _ _ _ _ W R) as (w' & H). exists w'.
  split; [apply C74_final; eauto 6|]. clear -H. induction H; constructor; auto. cbn. destruct H2 as [[_ ->]|[_ ->]]; auto.
Qed.

(* An accepting state that is entered by a repeating transition and by another
   one is no longer accepting when entered by the other one. *)
Definition exLost : ta := mkTA
  [(1, mkS false false [(97, [mkE (Some 2) [] []]); (98, [mkE (Some 2) [] []])]); (2, mkS true false [(97, [mkE (Some 2) [] []])])] [1] [].
Theorem C74_none_lost_refuted : wf_ta exLost /\ accepts exLost [(98, 1%Q)] /\
  forall c, ~ accepts (fst (renameTA (fun k => 3 + k) exLost 0)) [(c, 1%Q)] \/ c = 97.
Proof.
  split; [apply wf_tab_ok; reflexivity|]. split.
  { exists 1, 2, (reset_set (delay zeroval (1 - 0)) []), 1%Q. split; [left; reflexivity|]. split; [|eexists; split; [right; left; reflexivity|reflexivity]].
    econstructor; [eexists; exists [mkE (Some 2) [] []]; split; [left; reflexivity|]; split; [right; left; reflexivity|left; reflexivity]|reflexivity|intros g []|constructor]. }
  intros c. destruct (Nat.eq_dec c 97) as [->|N]; auto. left. intros (p & q & v & T & [<-|[]] & R & (s & Hs & M)). vm_compute in Hs.
  inversion R as [|? ? ? ? ? e ? q1 ? ? ? (s1 & es & I1 & I2 & I3) Et SG R1]; subst. inversion R1; subst. vm_compute in I1.
  assert (Q : q = 3). { destruct Hs as [E|[E|[E|[]]]]; injection E as <- <-; try discriminate; reflexivity. } subst q.
  destruct I1 as [E|[E|[E|[]]]]; try discriminate. injection E as <-. cbn in I2.
  destruct I2 as [E|[E|[E|[]]]]; injection E as E1 <-; try congruence; repeat (destruct I3 as [<-|I3]; [discriminate|]); destruct I3.
Qed.

(* a and then a again, then b: the first a is hidden. *)
Definition exSame : ta := mkTA
  [(1, mkS false false [(97, [mkE (Some 2) [0] [mkC 0 Lt 5]])]); (2, mkS false false [(97, [mkE (Some 3) [] [mkC 0 Gt 1]])]);
   (3, mkS false false [(98, [mkE (Some 4) [] []])]); (4, mkS true false [])] [1] [5%Z].
Example C74_case : wf_ta exSame /\ ends_final exSame /\ (forall k, 0 <= k -> ~ In (5 + k) (map fst (states exSame))) /\
  states (fst (renameTA (fun k => 5 + k) exSame 0)) =
    [(1, mkS false false [(97, []); (0, [mkE (Some 2) [0] [mkC 0 Lt 5]])]); (2, mkS false false [(97, [mkE (Some 3) [] [mkC 0 Gt 1]])]);
     (3, mkS false false [(98, [mkE (Some 4) [] []])]); (4, mkS true false [])].
Proof.
  split; [apply wf_tab_ok; reflexivity|]. split.
  - intros q c (s & Hs & M) (s' & es & Hs' & Hc). cbn in Hs, Hs'.
    repeat (destruct Hs as [Hs|Hs]; [injection Hs as <- <-; try discriminate|]); try contradiction.
    repeat (destruct Hs' as [Hs'|Hs']; [try discriminate; injection Hs' as <-|]); try contradiction.
  - split; [|reflexivity]. intros k _. cbn. intros H. repeat (destruct H as [H|H]; [lia|]). exact H.
Qed.
