(* Patterns on which the KMP table is never finished. *)
From Coq Require Import QArith Lqa Bool List ZArith Arith Lia.
From Verif Require Import Num NumFacts Outcome Constraint Zone ZoneFacts ZoneOps TA Spec TAFacts PropBase Word ZA ZASpec ZAFacts ZAGraph PropZA ZADiv
  Intersection IntersectionFacts Monaa MonaaFacts Skip SkipFacts Sunday Kmp KmpRun KmpSafe KmpUB.
Import ListNotations.
Open Scope nat_scope.

Lemma run_same : forall A A', same_graph A A' -> forall p v T w q v' T', run A p v T w q v' T' -> run A' p v T w q v' T'.
Proof. intros A A' SG p v T w q v' T' R. induction R; [constructor|]. econstructor; eauto. eapply same_graph_edge; eauto. Qed.

Lemma last_cons_any : forall (a d : Q) l, last (a :: l) d = last l a.
Proof. intros a d l. revert a d. induction l as [|b l IH]; intros a d; auto. change (last (a :: b :: l) d) with (last (b :: l) d). rewrite !IH. reflexivity. Qed.

Section Hang.
  Variables (al : alloc) (B : ta) (m : nat) (A0 : ta).
  Hypothesis WB : wf_ta B.
  Hypothesis AO : alloc_ok al B m.
  Hypothesis KB : 2 * clockSize B <= 255.
  Hypothesis CB : chars_ok B.
  Hypothesis ZB : forall p s, In (p, s) (states B) -> zeroDur s = false.
  Hypothesis H0 : kmp_A0 al B m = Ok A0.
  Hypothesis M1 : 1 <= m.

  (* a cycle at p that waits for x and resets x, and a run to p *)
  Variables (p0 p x : nat) (es : list (nat * edge)) (w : tword) (v : valuation) (T : Q).
  Hypothesis Hp0 : In p0 (inits B).
  Hypothesis R : run B p0 zeroval 0 w p v T.
  Hypothesis NE : w <> [].
  Hypothesis Inc : increasing 0 w.
  Hypothesis Lw : Forall letter w.
  Hypothesis Hx : x < clockSize B.
  Hypothesis Vx : (v x == 0)%Q.
  Hypothesis Pc : paced 0 x es = true.
  Hypothesis Le : forall c e, In (c, e) es -> 1 <= c.
  Hypothesis Again : forall v, (v x == 0)%Q -> exists v', turn B p v es p v' /\ (v' x == 0)%Q.
  Hypothesis Mx : exists k, In k (maxC B) /\ (1 <= k)%Z.

  Let S0 := kmp_As al B.
  Let KB' : clockSize B <= 256. Proof. lia. Qed.
  Let W0 : wf_ta A0 := A0_wf al B m A0 WB AO KB' H0.
  Let WS : wf_ta S0 := As_wf al B m WB AO.
  Let Inj2 : forall p1 p2 q1 q2, In p1 (map fst (states A0)) -> In q1 (map fst (states A0)) ->
    In p2 (map fst (states S0)) -> In q2 (map fst (states S0)) -> a_2 al p1 p2 = a_2 al q1 q2 -> p1 = q1 /\ p2 = q2.
  Proof. intros p1 p2 q1 q2. unfold S0. rewrite (A0_keys al B m A0 H0), (As_keys al B). apply (ao_2 _ _ _ AO). Qed.
  Let Small : clockSize A0 + clockSize S0 <= 256.
  Proof. rewrite (A0_clocks al B m A0 H0). unfold S0. rewrite As_clocks. lia. Qed.
  Let HZ : same_zero_flag A0 S0.
  Proof. intros p1 s1 p2 s2 I1 I2. rewrite (A0_zero al B m A0 ZB H0 _ _ I1). symmetry. apply (As_zero al B ZB _ _ I2). Qed.
  Let Ip0 : In p0 (map fst (states B)) := wf_inits _ WB _ Hp0.
  Let Ip : In p (map fst (states B)) := run_end_in B WB _ _ _ _ _ _ _ R Ip0.

  Lemma ext0_run : forall v0, veq (clockSize B) v0 zeroval -> exists v' T', run A0 (a_ext al 0) v0 0 w (a_0 al p) v' T' /\ (v' x == 0)%Q.
  Proof.
    intros v0 V0.
    assert (X : exists T', run A0 (a_ext al 0) zeroval 0 w (a_0 al p) v T').
    { destruct w as [|[c1 t1] y]; [congruence|]. inversion R as [|? ? ? ? ? e1 ? n1 ? ? ? He1 Ht1 Hg1 Rr1]; subst.
      exists T. eapply run_cons.
      - exact (A0_edge_ext0 al B m A0 WB AO H0 p0 c1 e1 n1 Hp0 He1 Ht1).
      - reflexivity.
      - cbn. apply widen_sat. exact Hg1.
      - cbn [eresets]. apply (copy_run0 al B m A0 WB AO H0). exact Rr1. }
    destruct X as (T' & X). destruct (run_veq A0 _ _ _ _ _ _ _ v0 W0 X) as (u & Ru & Eu).
    - rewrite (A0_clocks al B m A0 H0). apply veq_sym. exact V0.
    - exists u, T'. split; auto. rewrite (A0_clocks al B m A0 H0) in Eu. rewrite <- (Eu x Hx). exact Vx.
  Qed.

  Let w2 : tword := (0, (-1)%Q) :: (1, 0%Q) :: w.

  Lemma to_loop : exists u Tu, run (intersectionTA A0 S0 (a_2 al)) (a_2 al (a_ext al 1) (a_S al p0)) zeroval (-2) w2 (a_2 al (a_0 al p) (a_dum al p0)) u Tu /\ (u x == 0)%Q.
  Proof.
    assert (L1 : letter (1, 0%Q)) by (split; unfold char_max; cbn; lia).
    assert (J0 : In (a_ext al 1) (map fst (states A0))) by (rewrite (A0_keys al B m A0 H0); apply in0_ext; [exact KB'|lia]).
    assert (JS : In (a_S al p0) (map fst (states S0))) by (unfold S0; rewrite As_keys; apply inS_copy; auto).
    assert (VS : vsync A0 S0 zeroval (-2) zeroval (-2) zeroval (-2)) by (split; intros k Hk; unfold zeroval; ring).
    destruct (eps_right_run A0 S0 (a_2 al) W0 WS Inj2 Small HZ _ _ _ _ _ _ _ _ (-1) (mkE (Some (a_dum al p0)) [] []) (a_dum al p0) J0 JS VS
                (As_edge_eps al B p0 Ip0) eq_refl ltac:(intros g [])) as (u1 & R1 & K1 & VS1).
    destruct (ext_run al B m A0 KB H0 [(1, 0%Q)] 1 zeroval (-2) eq_refl M1 (Forall_cons _ L1 (Forall_nil letter))) as (v1 & RE & ZE).
    cbn [map snd last] in RE. destruct (ext0_run v1 (ZE (or_introl (le_n 1)))) as (v2 & T2 & RW & V2).
    pose proof (run_app _ _ _ _ _ _ _ _ _ _ _ _ RE RW) as RA. cbn [app] in RA.
    assert (FL : Forall letter ((1, 0%Q) :: w)) by (constructor; [exact L1|exact Lw]).
    destruct (loop_run S0 (a_dum al p0) (fun c => As_edge_dum al B p0 c Ip0) ((1, 0%Q) :: w) FL
                (reset_set (delay zeroval (-1 - -2)) []) (-1)%Q) as (v5 & T5 & R5).
    destruct (sync_run A0 S0 (a_2 al) W0 WS Inj2 Small HZ ((1, 0%Q) :: w) _ _ _ _ _ _ _ _ _ _ _ _ u1 (-1) RA R5 J0 K1 VS1) as (u6 & T6 & R6 & _ & _ & [V6 _]).
    exists u6, T6. split.
    - unfold w2. change ((0, (-1)%Q) :: (1, 0%Q) :: w) with ([(0, (-1)%Q)] ++ (1, 0%Q) :: w). eapply run_app; [exact R1|exact R6].
    - pose proof (run_time _ _ _ _ _ _ _ _ RA) as E1. pose proof (run_time _ _ _ _ _ _ _ _ R6) as E2. cbn [map snd] in E1, E2.
      assert (T6 = T2) by (rewrite E1, E2; rewrite !last_cons_any; reflexivity).
      rewrite (V6 x) by (rewrite (A0_clocks al B m A0 H0); exact Hx). rewrite H. lra.
  Qed.

  Let keys := toIState_keys A0 S0.

  Lemma first_hangs : forall fuel l S' Z1, same_graph S0 S' -> wf_ta S' -> inits S' = inits S0 ->
    let A2 := set_inits (intersectionTA A0 S0 (a_2 al)) l in
    let A2' := updateInitAccepting (set_inits A0 [a_ext al 1]) S' A2 keys (a_2 al) in
    let A2'' := set_inits A2' (sort_nat (inits A2')) in
    SInv al B A0 A2 zempty -> ta2za fuel A2'' zempty [] <> Ok Z1.
  Proof.
    intros fuel l S' Z1 SS WS' EI A2 A2' A2'' HI.
    destruct (step_facts al B m A0 WB AO KB CB H0 A2 zempty 1 S' HI M1 SS WS') as (WA2 & K2 & _ & _ & SG & _).
    fold S0 in WA2, K2, SG. fold keys in WA2, K2, SG. fold A2' in WA2, K2, SG. fold A2'' in WA2, K2, SG.
    assert (EM : maxC A2'' = maxC B ++ maxC B).
    { rewrite <- (proj2 SG). unfold intersectionTA. cbn [maxC]. destruct (A0_struct al B m A0 H0) as (sts & _ & _ & E & _). rewrite E. reflexivity. }
    assert (EC : clockSize A2'' = clockSize B + clockSize B) by (unfold clockSize; rewrite EM, app_length; reflexivity).
    destruct Mx as (k & Hk & K1). destruct (max_const_ge A2'' k) as (z & Ez & Lz); [rewrite EM; apply in_or_app; auto|].
    assert (J2 : In (a_dum al p0) (map fst (states S0))) by (unfold S0; rewrite As_keys; apply inS_dum; auto).
    destruct to_loop as (u & Tu & RR & Ux).
    set (es2 := map (fun ce => (fst ce, mkE (option_map (fun q => a_2 al (a_0 al q) (a_dum al p0)) (etgt (snd ce))) (eresets (snd ce)) (eguard (snd ce)))) es).
    assert (Step : forall q v1 k0 q' v1', turn B q v1 k0 q' v1' -> (forall c e, In (c, e) k0 -> 1 <= c) -> In q (map fst (states B)) ->
      turn A2'' (a_2 al (a_0 al q) (a_dum al p0)) v1
        (map (fun ce => (fst ce, mkE (option_map (fun q => a_2 al (a_0 al q) (a_dum al p0)) (etgt (snd ce))) (eresets (snd ce)) (eguard (snd ce)))) k0)
        (a_2 al (a_0 al q') (a_dum al p0)) v1').
    { intros q v1 k0 q' v1' Tn. induction Tn as [q v1|q v1 c e q1 d k0 q' v1' He Et D1 D2 Tn IH]; intros Ll Iq; [constructor|]. cbn [map fst snd].
      assert (Iq1 : In q1 (map fst (states B))) by (apply (wf_is_edge _ _ _ _ WB He); exact Et).
      destruct (A0_edge_copy al B m A0 WB AO H0 q c e q1 He Et) as [E1 _].
      assert (C2 : c < char_max) by (eapply CB; eauto).
      pose proof (As_edge_dum al B p0 c Ip0 (Ll c e (or_introl eq_refl)) C2) as E2.
      assert (J1 : In (a_0 al q) (map fst (states A0))) by (rewrite (A0_keys al B m A0 H0); apply in0_copy; auto).
      assert (J3 : In (a_0 al q1) (map fst (states A0))) by (rewrite (A0_keys al B m A0 H0); apply in0_copy; auto).
      assert (JZ : zd A0 (a_0 al q) = zd S0 (a_dum al p0)) by (apply same_zd; auto).
      assert (JZ3 : zd A0 (a_0 al q1) = zd S0 (a_dum al p0)) by (apply same_zd; auto).
      econstructor; [| | | |apply IH; auto; intros c' e' I'; apply (Ll c' e'); right; auto].
      - apply (same_graph_edge _ _ SG). apply (prod_is_edge A0 S0 (a_2 al) W0 WS Inj2 _ _ _ _ J1 J2 JZ). right. right.
        exists (mkE (Some (a_0 al q1)) (eresets e) (eguard e)), (a_0 al q1), (mkE (Some (a_dum al p0)) [] []), (a_dum al p0). split; [exact E1|]. split; [reflexivity|].
        split; [exact E2|]. split; [reflexivity|]. rewrite Et. cbn [option_map]. unfold prod_edge. cbn [map eresets eguard]. rewrite !app_nil_r. f_equal.
        symmetry. apply toI_iff; auto.
      - rewrite Et. reflexivity.
      - exact D1.
      - exact D2. }
    assert (Wes : forall c e, In (c, e) es -> wf_edge B e).
    { destruct (Again v Vx) as (v' & Tn & _). clear - Tn WB. induction Tn as [|q v1 c e q1 d l q' v1' He Et D1 D2 Tn IH]; [intros c e []|].
      intros c' e' [X|X]; [injection X as <- <-; eapply wf_is_edge; eauto|eauto]. }
    apply (diverges A2'' z x (clockSize B) (a_2 al (a_0 al p) (a_dum al p0)) es2 WA2 K2 Ez ltac:(lia)) with
      (p0 := a_2 al (a_ext al 1) (a_S al p0)) (T0 := (-2)%Q) (w := w2) (v := u) (T := Tu).
    - rewrite EC. lia.
    - rewrite EC. lia.
    - lia.
    - unfold es2. clear - Pc. revert Pc. generalize 0 as st. induction es as [|[c e] l IH]; intros st Pc; cbn [map fst snd paced] in *; auto.
      destruct st as [|[|st]]; cbn [waits eguard eresets] in *.
      + unfold waits in *. cbn [eguard]. destruct (existsb _ _); [apply IH; auto|]. apply andb_prop in Pc as [P1 P2]. rewrite P1. cbn [andb]. auto.
      + apply IH; auto.
      + apply andb_prop in Pc as [P1 P2]. rewrite P1. cbn [andb]. auto.
    - intros c e X. unfold es2 in X. apply in_map_iff in X as ([c' e'] & E & X). cbn [fst snd] in E. injection E as <- <-. cbn [eresets].
      destruct (Wes _ _ X) as (_ & WR & _). intros Y. rewrite Forall_forall in WR. apply WR in Y. lia.
    - intros v1 Hv1. destruct (Again v1 Hv1) as (v2 & Tn & Hv2). exists v2. split; [exact (Step p v1 es p v2 Tn Le Ip)|exact Hv2].
    - unfold A2''. cbn [inits set_inits]. apply in_sort_nat. unfold A2'. cbn [inits updateInitAccepting].
      change (In (a_2 al (a_ext al 1) (a_S al p0)) (inits (intersectionTA (set_inits A0 [a_ext al 1]) S' (a_2 al)))).
      assert (SGn : same_graph A0 (set_inits A0 [a_ext al 1])) by apply set_inits_same.
      assert (In_n : In (a_ext al 1) (map fst (states A0))) by (rewrite (A0_keys al B m A0 H0); apply in0_ext; [exact KB'|auto]).
      assert (IS : In (a_S al p0) (inits S')) by (rewrite EI; apply As_inits; auto).
      apply prod_inits_in; [apply (same_graph_wf A0); auto; intros q [<-|[]]; exact In_n|exact WS'|]. exists (a_ext al 1), (a_S al p0). split; [left; auto|]. split; auto. split; auto. apply same_zd.
      + apply (same_graph_wf A0); auto. intros q [<-|[]]. exact In_n.
      + exact WS'.
      + intros p1 s1 p2 s2 I1 I2. destruct (Forall2_in_l _ _ _ _ (proj1 (same_graph_sym _ _ SS)) I2) as ([x' y'] & J & X1 & X2 & _).
        cbn in X1, X2. subst x'. rewrite X2. eapply HZ; eauto.
      + exact In_n.
      + apply (wf_inits _ WS'). exact IS.
    - exact (run_same _ _ SG _ _ _ _ _ _ _ RR).
    - unfold w2. cbn. split; [lra|]. split; [lra|]. exact Inc.
    - exact Ux.
  Qed.

  Lemma kmp_hangs_A0 : forall fuel beta, kmp fuel al B m <> Ok beta.
  Proof.
    intros fuel beta H. unfold kmp in H. rewrite H0 in H. cbn [bind] in H. 
    assert (XS : exists q qs, map fst (states B) = q :: qs) by (pose proof Ip0 as X; revert X; generalize (map fst (states B)); intros [|q qs]; [intros []|eauto]).
    destruct XS as (q & qs & ES). rewrite ES in H. cbn [kmp_states] in H. apply bind_Ok in H as (r & H & _). assert (XM : seq 1 m = 1 :: seq 2 (m - 1)) by (destruct m as [|k]; [exfalso; clear - M1; lia|cbn [seq]; f_equal; f_equal; lia]).
    rewrite XM in H. cbn [kmp_try] in H. apply bind_Ok in H as (Z1 & H & _). revert H.
    apply (first_hangs fuel (inits (intersectionTA A0 S0 (a_2 al))) (kmp_mark al S0 q) Z1).
    - apply mark_same.
    - apply (same_graph_wf S0); [apply mark_same|exact WS|]. intros y Hy. apply (wf_inits _ WS). exact Hy.
    - reflexivity.
    - split.
      + exists A0, S0, (inits (intersectionTA A0 S0 (a_2 al))). split; [apply same_graph_refl|]. split; [exact W0|].
        split; [apply same_graph_refl|]. split; [exact WS|]. reflexivity.
      + split; intros i st Hs; unfold zget in *; cbn in *; [destruct i; discriminate|]. intros e' H. destruct i; discriminate.
  Qed.
End Hang.
