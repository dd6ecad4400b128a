(* Property C62: restrictions of sequences in signal mode. *)
From Coq Require Import QArith Lqa Bool List ZArith Arith Lia.
From Verif Require Import Num NumFacts Outcome Interval IntervalFacts Constraint Zone TA Spec TAFacts Tre TreRun TreFacts TreBuild TreLang PropTre MonaaFacts Signal PropRename SkipFacts PropStatic SignalTerm PropBase WfDec Word PropMonaa PropTA.
Import ListNotations.
Open Scope nat_scope.

Section SigWithin.
  Variables (al : nat -> ptr) (A B : ta) (Iv : interval) (n m : nat) (lo up : Z).
  Hypothesis WA : wf_ta A.
  Hypothesis Elo : fst (lob Iv) = Fin (inject_Z lo).
  Hypothesis Eup : fst (upb Iv) = Fin (inject_Z up).
  Hypothesis Small : clockSize A < 256.
  Hypothesis N1 : ~ In (al n) (map fst (states A)).
  Hypothesis N2 : ~ In (al (S n)) (map fst (states A)).
  Hypothesis N3 : al n <> al (S n).
  Hypothesis E : sigWithinTA al A Iv n = Ok (B, m).
  Let x := clockSize A.
  Let gs := within_guard x Iv lo up.
  Let N := wf_nodup _ WA.

  Definition into (e : edge) : edge := mkE (Some (al (S n))) (eresets e) (eguard e ++ gs).
  Lemma sw_in : forall es l, sw_edges A (al (S n)) gs es = Ok l -> forall e', In e' l <-> exists e, In e es /\ acc_tgt A e = true /\ e' = into e.
  Proof.
    induction es as [|e es IH]; intros l H e'; cbn [sw_edges] in H.
    - apply Ok_inj in H. subst l. split; [intros []|intros (e & [] & _)].
    - destruct (acc_tgt A e) eqn:Ea.
      + destruct es; [|discriminate]. apply Ok_inj in H. subst l. split.
        * intros [<-|[]]. exists e. split; [left; auto|]. auto.
        * intros (e0 & [<-|[]] & _ & ->). left. auto.
      + rewrite (IH l H). split.
        * intros (e0 & H0 & H1). exists e0. split; [right; auto|auto].
        * intros (e0 & [<-|H0] & H1 & H2); [congruence|]. eauto.
  Qed.

  Definition dummy : list (nat * list edge) :=
    fold_left (fun nx p => match deref A p with
                           | Some s => fold_left (fun nx ce => key_push (fst ce) (map (fun e => mkE (etgt e) (eresets e ++ [x]) (eguard e)) (snd ce)) nx) (next s) nx
                           | None => nx
                           end) (inits A) [].
  Lemma push_all : forall (f : edge -> edge) l nx c e, (exists es, In (c, es) (fold_left (fun nx ce => key_push (fst ce) (map f (snd ce)) nx) l nx) /\ In e es) <->
    (exists es, In (c, es) nx /\ In e es) \/ exists es e0, In (c, es) l /\ In e0 es /\ e = f e0.
  Proof.
    intros f. induction l as [|[k xs] l IH]; intros nx c e; cbn [fold_left fst snd].
    - split; auto. intros [H|(es & e0 & [] & _)]; auto.
    - rewrite IH, key_push_in. split.
      + intros [[H|(-> & H)]|(es & e0 & H1 & H2 & H3)]; auto.
        * apply in_map_iff in H as (e0 & <- & H). right. exists xs, e0. split; [left; auto|auto].
        * right. exists es, e0. split; [right; auto|auto].
      + intros [H|(es & e0 & [H1|H1] & H2 & ->)]; auto.
        * injection H1 as -> ->. left. right. split; auto. apply in_map. auto.
        * right. eauto.
  Qed.
  Lemma dummy_in : forall c e, (exists es, In (c, es) dummy /\ In e es) <-> exists p e0, In p (inits A) /\ is_edge A p c e0 /\ e = mkE (etgt e0) (eresets e0 ++ [x]) (eguard e0).
  Proof.
    intros c e. unfold dummy. set (F := fun nx p => _).
    assert (X : forall l nx, (forall p, In p l -> In p (map fst (states A))) -> (exists es, In (c, es) (fold_left F l nx) /\ In e es) <->
      (exists es, In (c, es) nx /\ In e es) \/ exists p e0, In p l /\ is_edge A p c e0 /\ e = mkE (etgt e0) (eresets e0 ++ [x]) (eguard e0)).
    { induction l as [|p l IH]; intros nx Hl; cbn [fold_left].
      - split; auto. intros [H|(p & e0 & [] & _)]; auto.
      - rewrite IH by (intros q Hq; apply Hl; right; auto). unfold F at 1. destruct (proj1 (in_map_iff _ _ _) (Hl p (or_introl eq_refl))) as ([p' s] & Ep & Hs). cbn in Ep. subst p'.
        unfold deref. rewrite (In_assoc _ _ _ N Hs), push_all. split.
        + intros [[H|(es & e0 & H1 & H2 & ->)]|(q & e0 & H1 & H2)]; auto.
          * right. exists p, e0. split; [left; auto|]. split; auto. exists s, es. auto.
          * right. exists q, e0. split; [right; auto|auto].
        + intros [H|(q & e0 & [<-|H1] & H2 & ->)]; auto.
          * destruct H2 as (s' & es & H2 & H3 & H4). rewrite (NoDup_fst_inj _ _ _ _ N H2 Hs) in H3. left. right. exists es, e0. auto.
          * right. exists q, e0. auto. }
    rewrite X; [|apply WA]. split; [intros [(es & [] & _)|H]; auto|auto].
  Qed.

  Lemma shape : exists sts, B = mkTA (sts ++ [(al n, mkS false false dummy); (al (S n), mkS true false [])]) [al n] (maxC A ++ [up]) /\
    map fst sts = map fst (states A) /\
    (forall p s', In (p, s') sts -> isMatch s' = false /\ exists s, In (p, s) (states A) /\ forall c e, (exists es, In (c, es) (next s') /\ In e es) <->
       (exists es, In (c, es) (next s) /\ (In e es \/ exists e0, In e0 es /\ acc_tgt A e0 = true /\ e = into e0))).
  Proof.
    unfold sigWithinTA in E. rewrite Eup, Elo, !int_of_inject in E. rewrite Nat.mod_small in E by exact Small. fold x in E. fold gs in E. fold dummy in E.
    apply bind_Ok in E as (sts & Es & H). apply Ok_inj in H. injection H as <- _. exists sts. split; [reflexivity|]. split.
    - clear - Es. revert sts Es. induction (states A) as [|[p s] l IH]; intros sts Es; cbn [oseq] in Es; [apply Ok_inj in Es; subst; reflexivity|].
      apply bind_Ok in Es as (y & E1 & Es). apply bind_Ok in Es as (ys & E2 & Es). apply Ok_inj in Es. subst sts. cbn [map]. rewrite (IH ys E2).
      apply bind_Ok in E1 as (nx & _ & E1). apply Ok_inj in E1. subst y. reflexivity.
    - intros p s' H. destruct (PropStatic.oseq_in _ _ _ Es _ H) as ([p0 s] & Hs & E1). cbn [fst snd] in E1. apply bind_Ok in E1 as (nx & E1 & E2). apply Ok_inj in E2. injection E2 as -> <-.
      split; [reflexivity|]. exists s. split; auto. intros c e. cbn [next]. split.
      + intros (es & H1 & H2). destruct (PropStatic.oseq_in _ _ _ E1 _ H1) as ([c0 es0] & H3 & E2). cbn [fst snd] in E2. apply bind_Ok in E2 as (es1 & E2 & E3). apply Ok_inj in E3. injection E3 as -> <-.
        exists es0. split; auto. apply in_app_iff in H2 as [H2|H2]; auto. right. apply (sw_in _ _ E2). auto.
      + intros (es & H1 & H2). clear - H1 H2 E1. revert nx E1. induction (next s) as [|[c0 es0] l IH]; intros nx E1; [destruct H1|]. cbn [oseq fst snd] in E1.
        apply bind_Ok in E1 as (y & E2 & E1). apply bind_Ok in E1 as (ys & E3 & E1). apply Ok_inj in E1. subst nx. apply bind_Ok in E2 as (es1 & E2 & E4). apply Ok_inj in E4. subst y.
        destruct H1 as [H1|H1].
        * injection H1 as -> ->. exists (es ++ es1). split; [left; auto|]. apply in_app_iff. destruct H2 as [H2|H2]; auto. right. apply (sw_in _ _ E2). auto.
        * destruct (IH H1 ys E3) as (es2 & H3 & H4). exists es2. split; [right; auto|auto].
  Qed.
  Lemma b_inner : forall p c e, In p (map fst (states A)) -> (is_edge B p c e <-> is_edge A p c e \/ exists e0, is_edge A p c e0 /\ acc_tgt A e0 = true /\ e = into e0).
  Proof.
    intros p c e Hp. destruct shape as (sts & EB & EK & H). rewrite EB. split.
    - intros (s' & es & Hs & Hc & He). cbn [states] in Hs. apply in_app_iff in Hs as [Hs|[Hs|[Hs|[]]]]; try (injection Hs as <- _; contradiction).
      destruct (H _ _ Hs) as (_ & s & H1 & H2). destruct (proj1 (H2 c e)) as (es0 & H3 & [H4|(e0 & H4 & H5 & ->)]); [eauto| |].
      + left. exists s, es0. auto.
      + right. exists e0. split; [exists s, es0; auto|auto].
    - intros X. rewrite <- EK in Hp. apply in_map_iff in Hp as ([p' s'] & Ep & Hs). cbn in Ep. subst p'. destruct (H _ _ Hs) as (_ & s & H1 & H2).
      destruct (proj2 (H2 c e)) as (es & H3 & H4).
      + destruct X as [(s0 & es & X1 & X2 & X3)|(e0 & (s0 & es & X1 & X2 & X3) & X4 & X5)]; rewrite (NoDup_fst_inj _ _ _ _ N X1 H1) in X2; exists es; split; auto. right. eauto.
      + exists s', es. split; auto. cbn [states]. apply in_app_iff. auto.
  Qed.
  Lemma b_dummy : forall c e, is_edge B (al n) c e <-> exists p e0, In p (inits A) /\ is_edge A p c e0 /\ e = mkE (etgt e0) (eresets e0 ++ [x]) (eguard e0).
  Proof.
    intros c e. destruct shape as (sts & EB & EK & H). rewrite EB, <- dummy_in. split.
    - intros (s' & es & Hs & Hc & He). cbn [states] in Hs. apply in_app_iff in Hs as [Hs|[Hs|[Hs|[]]]].
      + exfalso. apply N1. rewrite <- EK. apply (in_map fst) in Hs. exact Hs.
      + injection Hs as <-. eauto.
      + injection Hs as Hs _. congruence.
    - intros (es & H1 & H2). exists (mkS false false dummy), es. split; [|auto]. cbn [states]. apply in_app_iff. right. left. auto.
  Qed.
  Lemma b_accepting : forall p, accepting B p <-> p = al (S n).
  Proof.
    intros p. destruct shape as (sts & EB & EK & H). rewrite EB. split.
    - intros (s' & Hs & M). cbn [states] in Hs. apply in_app_iff in Hs as [Hs|[Hs|[Hs|[]]]].
      + rewrite (proj1 (H _ _ Hs)) in M. discriminate.
      + injection Hs as _ <-. discriminate.
      + injection Hs as <- _. auto.
    - intros ->. exists (mkS true false []). split; auto. cbn [states]. apply in_app_iff. right. right. left. auto.
  Qed.
  Lemma b_acc : forall c e, ~ is_edge B (al (S n)) c e.
  Proof.
    intros c e (s' & es & Hs & Hc & He). destruct shape as (sts & EB & EK & H). rewrite EB in Hs. cbn [states] in Hs. apply in_app_iff in Hs as [Hs|[Hs|[Hs|[]]]].
    - apply N2. rewrite <- EK. apply (in_map fst) in Hs. exact Hs.
    - injection Hs as Hs _. congruence.
    - injection Hs as <-. destruct Hc.
  Qed.

  Definition agree (v va : valuation) : Prop := forall y, y < x -> v y = va y.
  Lemma agree_sat : forall v va d g, agree v va -> Forall (fun g => cx g < x) g -> (sat_guard (delay v d) g <-> sat_guard (delay va d) g).
  Proof. intros v va d g H F. rewrite Forall_forall in F. unfold sat_guard, delay. split; intros S c Hc; specialize (S c Hc); specialize (F c Hc); [rewrite <- H|rewrite H]; auto. Qed.
  Lemma agree_reset : forall v va d rs, agree v va -> agree (reset_set (delay v d) rs) (reset_set (delay va d) rs).
  Proof. intros v va d rs H y Hy. unfold reset_set, delay. destruct (in_dec _ y rs); auto. rewrite H; auto. Qed.
  Lemma keep_x : forall v d rs, Forall (fun y => y < x) rs -> reset_set (delay v d) rs x = (v x + d)%Q.
  Proof. intros v d rs F. unfold reset_set, delay. destruct (in_dec Nat.eq_dec x rs) as [I|]; auto. rewrite Forall_forall in F. specialize (F x I). lia. Qed.
  Lemma guard_x : forall v, sat_guard v gs <-> iin Iv (v x).
  Proof.
    intros v. rewrite (within_guard_iin x Iv lo up (v x) Elo Eup). fold gs. unfold sat_guard, sat_val. split; intros H g Hg; specialize (H g Hg);
      assert (Cg : cx g = x) by (unfold gs, within_guard in Hg; destruct Hg as [<-|[<-|[]]]; reflexivity); rewrite ?Cg in *; auto.
  Qed.

  Lemma inner1 : forall w p v T q v' T', run B p v T w q v' T' -> In p (map fst (states A)) -> accepting B q -> forall va, agree v va ->
    exists q0 v0, run A p va T w q0 v0 T' /\ accepting A q0 /\ w <> [] /\ iin Iv (v x + (T' - T)).
  Proof.
    intros w p v T q v' T' R. induction R as [p v T|p v T c t e w q0 p' v' T' He Et Sg R IH]; intros Hp Hq va Ag.
    - apply b_accepting in Hq. subst p. contradiction.
    - apply (b_inner p c e Hp) in He as [He|(e0 & He & Ha & ->)].
      + destruct (wf_is_edge A p c e WA He) as (W1 & W2 & W3). destruct (IH (W1 _ Et) Hq (reset_set (delay va (t - T)) (eresets e)) (agree_reset _ _ _ _ Ag)) as (q1 & v1 & R1 & A1 & _ & I1).
        exists q1, v1. split; [econstructor; eauto; apply (agree_sat v); auto|]. split; auto. split; [discriminate|]. rewrite keep_x in I1 by auto. eapply iin_eq; [|exact I1]. lra.
      + cbn [etgt into] in Et. injection Et as <-. inversion R; subst; [|exfalso; eapply b_acc; eauto]. destruct (wf_is_edge A p c e0 WA He) as (W1 & W2 & W3).
        cbn [eguard eresets into] in *. assert (S1 : sat_guard (delay v (T' - T)) (eguard e0)) by (intros g Hg; apply Sg; apply in_app_iff; auto).
        assert (S2 : sat_guard (delay v (T' - T)) gs) by (intros g Hg; apply Sg; apply in_app_iff; auto). apply guard_x in S2.
        unfold acc_tgt in Ha. destruct (etgt e0) as [q1|] eqn:Eq; [|discriminate]. apply (match_at_spec A q1 N) in Ha.
        exists q1, (reset_set (delay va (T' - T)) (eresets e0)). split; [econstructor; eauto; [apply (agree_sat v); auto|constructor]|]. split; auto. split; [discriminate|]. exact S2.
  Qed.
  Lemma inner2 : forall w p va T q0 v0 T', run A p va T w q0 v0 T' -> In p (map fst (states A)) -> accepting A q0 -> w <> [] -> forall v, agree v va -> iin Iv (v x + (T' - T)) ->
    exists v', run B p v T w (al (S n)) v' T'.
  Proof.
    intros w p va T q0 v0 T' R. induction R as [p va T|p va T c t e w q p' v' T' He Et Sg R IH]; intros Hp Hq NE v Ag I; [congruence|].
    destruct (wf_is_edge A p c e WA He) as (W1 & W2 & W3). destruct w as [|a w].
    - inversion R; subst. exists (reset_set (delay v (T' - T)) (eresets e)). apply (run_cons B p v T c T' (into e) [] (al (S n))); [|reflexivity| |constructor].
      + apply b_inner; auto. right. exists e. split; auto. split; auto. unfold acc_tgt. rewrite Et. apply (match_at_spec A p' N). auto.
      + intros g Hg. cbn [eguard into] in Hg. apply in_app_iff in Hg as [Hg|Hg]; [apply (proj2 (agree_sat v va (T' - T) (eguard e) Ag W3) Sg g Hg)|].
        apply (proj2 (guard_x (delay v (T' - T))) I g Hg).
    - destruct (IH (W1 _ Et) Hq ltac:(discriminate) (reset_set (delay v (t - T)) (eresets e)) (agree_reset _ _ _ _ Ag)) as (v2 & R2).
      + rewrite keep_x by auto. eapply iin_eq; [|exact I]. lra.
      + exists v2. econstructor; eauto; [apply b_inner; auto|apply (agree_sat v va); auto].
  Qed.

  Lemma within_lang : forall w, accepts B w <-> accepts A w /\ exists c t u c' t', w = (c, t) :: u ++ [(c', t')] /\ iin Iv (t' - t).
  Proof.
    assert (EI : inits B = [al n]) by (destruct shape as (sts & EB & _); rewrite EB; reflexivity).
    assert (X0 : forall (v : valuation) d rs, agree (reset_set (delay v d) (rs ++ [x])) (reset_set (delay v d) rs)).
    { intros v d rs y Hy. unfold reset_set. destruct (in_dec Nat.eq_dec y (rs ++ [x])) as [I|I], (in_dec Nat.eq_dec y rs) as [J|J]; auto.
      - apply in_app_iff in I as [I|[I|[]]]; [contradiction|lia].
      - exfalso. apply I. apply in_app_iff. auto. }
    assert (X1 : forall (v : valuation) d rs, reset_set (delay v d) (rs ++ [x]) x = 0%Q).
    { intros v d rs. unfold reset_set. destruct (in_dec Nat.eq_dec x (rs ++ [x])) as [I|I]; auto. exfalso. apply I. apply in_app_iff. right. left. auto. }
    intros w. split.
    - intros (p & q & v & T & Hp & R & Hq). rewrite EI in Hp. destruct Hp as [<-|[]]. inversion R as [|? ? ? c t e u q1 ? ? ? He Et Sg R1]; subst.
      + apply b_accepting in Hq. congruence.
      + apply b_dummy in He as (p & e0 & Hp & He & ->). cbn [etgt eresets eguard] in *. destruct (wf_is_edge A p c e0 WA He) as (W1 & W2 & W3).
        destruct (inner1 _ _ _ _ _ _ _ R1 (W1 _ Et) Hq _ (X0 zeroval (t - 0)%Q (eresets e0))) as (q0 & v0 & R2 & A2 & NE & I). rewrite X1 in I. split.
        * exists p, q0, v0, T. split; auto. split; auto. econstructor; eauto.
        * destruct (exists_last NE) as (u0 & [c' t'] & ->). exists c, t, u0, c', t'. split; auto. eapply iin_eq; [|exact I].
          pose proof (run_end _ _ _ _ _ _ _ _ R1) as ET. rewrite map_app in ET. cbn [map snd] in ET. rewrite last_last in ET. rewrite ET. lra.
    - intros ((p & q & v & T & Hp & R & Hq) & c & t & u & c' & t' & -> & I). inversion R as [|? ? ? ? ? e ? q1 ? ? ? He Et Sg R1]; subst.
      destruct (wf_is_edge A p c e WA He) as (W1 & W2 & W3). pose proof (run_end _ _ _ _ _ _ _ _ R1) as ET. rewrite map_app in ET. cbn [map snd] in ET. rewrite last_last in ET. subst T.
      destruct (inner2 _ _ _ _ _ _ _ R1 (W1 _ Et) Hq) with (v := reset_set (delay zeroval (t - 0)) (eresets e ++ [x])) as (v2 & R2); [intros X; destruct u; discriminate|apply X0| |].
      + rewrite X1. eapply iin_eq; [|exact I]. lra.
      + exists (al n), (al (S n)), v2, t'. split; [rewrite EI; left; auto|]. split; [|apply b_accepting; auto].
        econstructor; [apply b_dummy; exists p, e; split; [exact Hp|split; [exact He|reflexivity]]|exact Et|exact Sg|exact R2].
  Qed.
End SigWithin.

(* ================= C62 the language ================= *)

(* The restriction of a sequence measures the time from the end of the first
   letter, not from its beginning; a single letter is not accepted. *)
Theorem C62_restriction : forall al A B Iv n m, injective al -> wf_ta A -> int_bounds Iv -> clockSize A < 256 ->
  ~ In (al n) (map fst (states A)) -> ~ In (al (S n)) (map fst (states A)) -> sigWithinTA al A Iv n = Ok (B, m) ->
  forall w, accepts B w <-> accepts A w /\ exists c t u c' t', w = (c, t) :: u ++ [(c', t')] /\ iin Iv (t' - t).
Proof.
  intros al A B Iv n m Inj WA (lo & up & El & Eu) S N1 N2 E. apply (within_lang al A B Iv n m lo up); auto. intros X. apply Inj in X. lia.
Qed.

(* (ab)%(1,2): the automaton of ab, and a word that is accepted although it takes
   longer than the restriction allows. *)
Definition abA : ta := Eval vm_compute in
  fst (PropMonaa.get (mkTA [] [] [], 0) (toSignalTA (fun _ _ => UB) (fun _ _ => UB) 50 (fun k => k) (Cat (Atom 97) (Atom 98)) 0)).
Definition abB : ta := Eval vm_compute in fst (PropMonaa.get (mkTA [] [] [], 0) (sigWithinTA (fun k => k) abA (interval_open 1 2) 10)).
Example C62_restriction_case : injective (fun k => k) /\ wf_ta abA /\ int_bounds (interval_open 1 2) /\ clockSize abA < 256 /\
  ~ In 10 (map fst (states abA)) /\ ~ In 11 (map fst (states abA)) /\ sigWithinTA (fun k => k) abA (interval_open 1 2) 10 = Ok (abB, 12) /\
  accepts abA [(97, 5%Q); (98, 6.5%Q)] /\ iin (interval_open 1 2) (6.5 - 5) /\ accepts abB [(97, 5%Q); (98, 6.5%Q)] /\ ~ accepts abB [(97, 0.2%Q); (98, 1.1%Q)].
Proof.
  assert (H : injective (fun k => k) /\ wf_ta abA /\ int_bounds (interval_open 1 2) /\ clockSize abA < 256 /\
    ~ In 10 (map fst (states abA)) /\ ~ In 11 (map fst (states abA)) /\ sigWithinTA (fun k => k) abA (interval_open 1 2) 10 = Ok (abB, 12)).
  { split; [intros i j X; exact X|]. split; [apply wf_tab_ok; reflexivity|]. split; [exists 1%Z, 2%Z; split; reflexivity|]. split; [cbn; lia|].
    split; [cbn; lia|]. split; [cbn; lia|]. vm_compute. reflexivity. }
  destruct H as (H1 & H2 & H3 & H4 & H5 & H6 & H7). repeat (split; [assumption|]).
  assert (Ac : accepts abA [(97, 5%Q); (98, 6.5%Q)]) by (apply isMember_correct; [exact H2|vm_compute; reflexivity]).
  split; [exact Ac|]. assert (Ii : iin (interval_open 1 2) (6.5 - 5)) by (split; unfold above, below, Qlt; cbn; lia). split; [exact Ii|].
  pose proof (C62_restriction _ _ _ _ _ _ H1 H2 H3 H4 H5 H6 H7) as L. split.
  - apply L. split; auto. exists 97, 5%Q, [], 98, 6.5%Q. auto.
  - intros X. apply L in X as (_ & c & t & u & c' & t' & E & I). destruct u as [|a [|]]; cbn in E; [|discriminate|discriminate]. injection E as <- <- <- <-.
    destruct I as (I & _). unfold above, Qlt in I. cbn in I. lia.
Qed.
