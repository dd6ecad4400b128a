(* The KMP table: no shift that skips a match. *)
From Coq Require Import QArith Lqa Bool List ZArith Arith Lia.
From Verif Require Import Num NumFacts Outcome Constraint Zone ZoneFacts ZoneOps TA Spec TAFacts Word ZA ZASpec ZAFacts ZAGraph PropZA
  Intersection IntersectionFacts Monaa MonaaFacts Skip SkipFacts Kmp.
Import ListNotations.
Open Scope nat_scope.

Definition letter (ce : nat * Q) : Prop := 1 <= fst ce /\ fst ce < char_max.

Lemma loop_run : forall A p, (forall c, 1 <= c -> c < char_max -> is_edge A p c (mkE (Some p) [] [])) ->
  forall w, Forall letter w -> forall v T, exists v' T', run A p v T w p v' T'.
Proof.
  intros A p H w F. induction F as [|[c t] w [L1 L2] F IH]; intros v T.
  - exists v, T. constructor.
  - destruct (IH (reset_set (delay v (t - T)) []) t) as (v' & T' & R). exists v', T'.
    apply (run_cons A p v T c t (mkE (Some p) [] []) w p); [auto|reflexivity|intros g []|exact R].
Qed.

Lemma widen_sat : forall v gs, sat_guard v gs -> sat_guard v (widen gs).
Proof. intros v gs H g Hg. apply H. now apply widen_incl. Qed.

Lemma run_states : forall A A', states A = states A' -> forall p v T w q v' T', run A p v T w q v' T' -> run A' p v T w q v' T'.
Proof.
  intros A A' E p v T w q v' T' R. induction R; [constructor|]. econstructor; eauto.
  destruct H as (s & es & X). exists s, es. now rewrite <- E.
Qed.

(* Two runs over the same word, in the product. *)
Section Sync.
  Variables (in1 in2 : ta) (fresh2 : ptr -> ptr -> ptr).
  Hypothesis W1 : wf_ta in1.
  Hypothesis W2 : wf_ta in2.
  Hypothesis Inj : forall p1 p2 q1 q2,
    In p1 (map fst (states in1)) -> In q1 (map fst (states in1)) ->
    In p2 (map fst (states in2)) -> In q2 (map fst (states in2)) ->
    fresh2 p1 p2 = fresh2 q1 q2 -> p1 = q1 /\ p2 = q2.
  Hypothesis Small : clockSize in1 + clockSize in2 <= 256.
  Hypothesis HZ : same_zero_flag in1 in2.

  Lemma sync_run : forall w p1 v1 T1 q1 u1 T1' p2 v2 T2 q2 u2 T2' v T,
    run in1 p1 v1 T1 w q1 u1 T1' -> run in2 p2 v2 T2 w q2 u2 T2' ->
    In p1 (map fst (states in1)) -> In p2 (map fst (states in2)) -> vsync in1 in2 v T v1 T1 v2 T2 ->
    exists u T', run (intersectionTA in1 in2 fresh2) (fresh2 p1 p2) v T w (fresh2 q1 q2) u T' /\
      In q1 (map fst (states in1)) /\ In q2 (map fst (states in2)) /\ vsync in1 in2 u T' u1 T1' u2 T2'.
  Proof.
    induction w as [|[c t] w IH]; intros p1 v1 T1 q1 u1 T1' p2 v2 T2 q2 u2 T2' v T R1 R2 H1 H2 HS.
    - inversion R1; inversion R2; subst. exists v, T. split; [constructor|]. auto.
    - inversion R1 as [|? ? ? ? ? e1 ? n1 ? ? ? He1 Ht1 Hg1 Rr1]; subst.
      inversion R2 as [|? ? ? ? ? e2 ? n2 ? ? ? He2 Ht2 Hg2 Rr2]; subst.
      destruct (step_both in1 in2 fresh2 W1 W2 Inj Small HZ _ _ _ _ _ _ _ _ _ _ _ _ _ _ H1 H2 HS He1 Ht1 Hg1 He2 Ht2 Hg2)
        as (e & He & Ht & Hg & I1 & I2 & HS').
      destruct (IH _ _ _ _ _ _ _ _ _ _ _ _ _ _ Rr1 Rr2 I1 I2 HS') as (u & T' & R & J1 & J2 & S').
      exists u, T'. split; [econstructor; eauto|]. auto.
  Qed.

  Lemma eps_right_run : forall p1 v1 T1 p2 v2 T2 v T t e2 n2,
    In p1 (map fst (states in1)) -> In p2 (map fst (states in2)) -> vsync in1 in2 v T v1 T1 v2 T2 ->
    is_edge in2 p2 0 e2 -> etgt e2 = Some n2 -> sat_guard (delay v2 (t - T2)) (eguard e2) ->
    exists u, run (intersectionTA in1 in2 fresh2) (fresh2 p1 p2) v T [(0, t)] (fresh2 p1 n2) u t /\
      In n2 (map fst (states in2)) /\ vsync in1 in2 u t v1 T1 (reset_set (delay v2 (t - T2)) (eresets e2)) t.
  Proof.
    intros p1 v1 T1 p2 v2 T2 v T t e2 n2 H1 H2 HS He Ht Hg.
    destruct (step_right in1 in2 fresh2 W1 W2 Inj Small HZ _ _ _ _ _ _ _ _ _ _ _ H1 H2 HS He Ht Hg) as (e & He' & Ht' & Hg' & I & HS').
    exists (reset_set (delay v (t - T)) (eresets e)). split; [|auto]. econstructor; eauto. constructor.
  Qed.
End Sync.

Section Runs.
  Variables (al : alloc) (B : ta) (m : nat) (A0 : ta).
  Hypothesis WB : wf_ta B.
  Hypothesis AO : alloc_ok al B m.
  Hypothesis KB : 2 * clockSize B <= 255.
  Hypothesis ZB : forall p s, In (p, s) (states B) -> zeroDur s = false.
  Hypothesis H0 : kmp_A0 al B m = Ok A0.

  Let S0 := kmp_As al B.
  Let KB' : clockSize B <= 256. Proof. lia. Qed.
  Let W0 : wf_ta A0 := A0_wf al B m A0 WB AO KB' H0.
  Let WS : wf_ta S0 := As_wf al B m WB AO.

  Lemma copy_run0 : forall p v T w q v' T', run B p v T w q v' T' -> run A0 (a_0 al p) v T w (a_0 al q) v' T'.
  Proof.
    intros p v T w q v' T' R. induction R; [constructor|].
    destruct (A0_edge_copy al B m A0 WB AO H0 p c e q H H1) as [E _]. eapply run_cons; [exact E|reflexivity|exact H2|exact IHR].
  Qed.

  Lemma copy_runS : forall p v T w q v' T', run B p v T w q v' T' -> run S0 (a_S al p) v T w (a_S al q) v' T'.
  Proof.
    intros p v T w q v' T' R. induction R; [constructor|].
    pose proof (As_edge_copy al B WB p c e q H H1) as E. eapply run_cons; [exact E|reflexivity|exact H2|exact IHR].
  Qed.

  Lemma run_end_in : forall p v T w q v' T', run B p v T w q v' T' -> In p (map fst (states B)) -> In q (map fst (states B)).
  Proof.
    intros p v T w q v' T' R. induction R; intros I; auto. apply IHR. pose proof (wf_is_edge _ _ _ _ WB H) as (WT & _). auto.
  Qed.

  Lemma ext_run : forall u n v T, length u = n -> n <= m -> Forall letter u ->
    exists v', run A0 (a_ext al n) v T u (a_ext al 0) v' (last (map snd u) T) /\
      (1 <= n \/ veq (clockSize B) v zeroval -> veq (clockSize B) v' zeroval).
  Proof.
    induction u as [|[c t] u IH]; intros n v T L Hn F; cbn [length] in L.
    - subst n. exists v. split; [constructor|]. intros [X|X]; [lia|auto].
    - inversion F as [|? ? [L1 L2] F']; subst.
      set (v1 := reset_set (delay v (t - T)) (all_clocks B)).
      assert (Z1 : veq (clockSize B) v1 zeroval).
      { intros x Hx. unfold v1, reset_set. destruct (in_dec Nat.eq_dec x (all_clocks B)) as [_|N]; [reflexivity|].
        exfalso. apply N. apply (all_clocks_in B KB'). auto. }
      destruct (IH (length u) v1 t eq_refl ltac:(lia) F') as (v' & R & Hv). exists v'. split; [|intros _; apply Hv; right; exact Z1].
      cbn [fst] in L1, L2.
      pose proof (A0_edge_ext al B m A0 KB' H0 (S (length u)) c ltac:(lia) Hn L1 L2) as E.
      eapply run_cons; [exact E| | |].
      + cbn. rewrite Nat.sub_0_r. reflexivity.
      + intros g [].
      + cbn [eresets map snd]. rewrite last_cons'. exact R.
  Qed.

  Lemma match_run0 : forall p T y q v' T' rest v0, In p (inits B) -> run B p zeroval T y q v' T' -> match_at B q = true ->
    2 <= length y -> Forall letter rest -> veq (clockSize B) v0 zeroval ->
    exists v'' T'', run A0 (a_ext al 0) v0 T (y ++ rest) (a_acc al) v'' T''.
  Proof.
    intros p T y q v' T' rest v0 Hp R Mq Ly FR V0.
    assert (X : exists v'' T'', run A0 (a_ext al 0) zeroval T (y ++ rest) (a_acc al) v'' T'').
    { destruct y as [|[c t] y]; [cbn in Ly; lia|]. inversion R as [|? ? ? ? ? e1 ? n1 ? ? ? He1 Ht1 Hg1 Rr1]; subst.
      destruct (@exists_last _ y) as (y1 & [c2 t2] & ->); [destruct y; [cbn in Ly; lia|discriminate]|].
      apply run_app_inv in Rr1 as (q1 & v1 & T1 & R1 & R2).
      inversion R2 as [|? ? ? ? ? e2 ? n2 ? ? ? He2 Ht2 Hg2 Rr2]; subst. inversion Rr2; subst.
      destruct (loop_run A0 (a_acc al) (A0_edge_acc al B m A0 H0) rest FR
                  (reset_set (delay v1 (T' - T1)) (eresets e2)) T') as (v'' & T'' & R3).
      exists v'', T''. cbn [app]. eapply run_cons.
      - exact (A0_edge_ext0 al B m A0 WB AO H0 p c e1 n1 Hp He1 Ht1).
      - reflexivity.
      - cbn. apply widen_sat. exact Hg1.
      - cbn [eresets]. rewrite <- app_assoc. eapply run_app; [apply copy_run0; exact R1|]. cbn [app]. eapply run_cons.
        + exact (proj2 (A0_edge_copy al B m A0 WB AO H0 q1 c2 e2 q He2 Ht2) Mq).
        + reflexivity.
        + cbn. apply widen_sat. exact Hg2.
        + exact R3. }
    destruct X as (v'' & T'' & X).
    destruct (run_veq A0 _ _ _ _ _ _ _ v0 W0 X) as (u' & Ru & _).
    - rewrite (A0_clocks al B m A0 H0). apply veq_sym. exact V0.
    - exists u', T''. exact Ru.
  Qed.

  Let Inj2 : forall p1 p2 q1 q2, In p1 (map fst (states A0)) -> In q1 (map fst (states A0)) ->
    In p2 (map fst (states S0)) -> In q2 (map fst (states S0)) -> a_2 al p1 p2 = a_2 al q1 q2 -> p1 = q1 /\ p2 = q2.
  Proof.
    intros p1 p2 q1 q2. unfold S0. rewrite (A0_keys al B m A0 H0), (As_keys al B). apply (ao_2 _ _ _ AO).
  Qed.

  Let Small : clockSize A0 + clockSize S0 <= 256.
  Proof. rewrite (A0_clocks al B m A0 H0). unfold S0. rewrite As_clocks. lia. Qed.

  Let HZ : same_zero_flag A0 S0.
  Proof.
    intros p1 s1 p2 s2 I1 I2. rewrite (A0_zero al B m A0 ZB H0 _ _ I1). symmetry. apply (As_zero al B ZB _ _ I2).
  Qed.

  Definition A2 : ta := intersectionTA A0 S0 (a_2 al).

  (* The run of the product that witnesses that a shift by n is needed. *)
  Lemma kmp_run : forall t0 (x1 x2 y1 y2 y3 : tword) p0 s v T p1 q v' T' mid,
    x1 ++ x2 = y1 ++ y2 ++ y3 -> Forall letter (x1 ++ x2) ->
    In p0 (inits B) -> run B p0 zeroval t0 x1 s v T ->
    1 <= length y1 -> length y1 <= m ->
    In p1 (inits B) -> run B p1 zeroval (last (map snd y1) t0) y2 q v' T' -> match_at B q = true -> 2 <= length y2 ->
    exists u Tu, run A2 (a_2 al (a_ext al (length y1)) (a_S al p0)) zeroval t0 (x1 ++ (0, mid) :: x2) (a_2 al (a_acc al) (a_dum al s)) u Tu.
  Proof.
    intros t0 x1 x2 y1 y2 y3 p0 s v T p1 q v' T' mid E F Hp0 R L1 Lm Hp1 R1 Mq L2.
    assert (Fy : Forall letter y1 /\ Forall letter y3).
    { rewrite E in F. apply Forall_app in F as [F1 F2]. apply Forall_app in F2 as [_ F3]. auto. }
    assert (Fx : Forall letter x2) by (apply Forall_app in F; tauto).
    destruct (ext_run y1 (length y1) zeroval t0 eq_refl Lm (proj1 Fy)) as (w1 & RE & ZE).
    destruct (match_run0 p1 _ y2 q v' T' y3 w1 Hp1 R1 Mq L2 (proj2 Fy) (ZE (or_introl L1))) as (w2 & T2 & RM).
    assert (R0 : run A0 (a_ext al (length y1)) zeroval t0 (x1 ++ x2) (a_acc al) w2 T2).
    { rewrite E. exact (run_app _ _ _ _ _ _ _ _ _ _ _ _ RE RM). }
    apply run_app_inv in R0 as (r1 & u1 & T1 & RA & RB).
    pose proof (wf_inits _ WB _ Hp0) as Ip0.
    assert (Is : In s (map fst (states B))) by (eapply run_end_in; eauto).
    assert (J0 : In (a_ext al (length y1)) (map fst (states A0))) by (rewrite (A0_keys al B m A0 H0); apply in0_ext; [exact KB'|lia]).
    assert (JS : In (a_S al p0) (map fst (states S0))) by (unfold S0; rewrite As_keys; apply inS_copy; auto).
    destruct (sync_run A0 S0 (a_2 al) W0 WS Inj2 Small HZ x1 _ _ _ _ _ _ _ _ _ _ _ _ zeroval t0 RA (copy_runS _ _ _ _ _ _ _ R) J0 JS)
      as (uu & Tu & RR & K1 & K2 & VS).
    { split; intros x Hx; unfold zeroval; ring. }
    destruct (eps_right_run A0 S0 (a_2 al) W0 WS Inj2 Small HZ _ _ _ _ _ _ _ _ mid (mkE (Some (a_dum al s)) [] []) (a_dum al s) K1 K2 VS
                (As_edge_eps al B s Is) eq_refl ltac:(intros g [])) as (u3 & R3 & K3 & VS3).
    destruct (loop_run S0 (a_dum al s) (fun c => As_edge_dum al B s c Is) x2 Fx
                (reset_set (delay v (mid - T)) []) mid) as (v5 & T5 & R5).
    destruct (sync_run A0 S0 (a_2 al) W0 WS Inj2 Small HZ x2 _ _ _ _ _ _ _ _ _ _ _ _ u3 mid RB R5 K1 K3 VS3)
      as (u6 & T6 & R6 & _).
    exists u6, T6. unfold A2. eapply run_app; [exact RR|]. change ((0, mid) :: x2) with ([(0, mid)] ++ x2). eapply run_app; [exact R3|exact R6].
  Qed.
End Runs.
