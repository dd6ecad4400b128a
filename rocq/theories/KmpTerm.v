(* When the skip tables are built: patterns that do not wait on their cycles. *)
From Coq Require Import QArith Lqa Bool List ZArith Arith Lia.
From Verif Require Import Num NumFacts Outcome Constraint Zone ZoneFacts ZoneOps TA Spec TAFacts PropBase Word ZA ZASpec ZAFacts ZAGraph PropZA ZATerm ZADiv ZAFin ZALive
  Intersection IntersectionFacts Monaa Skip SkipFacts Sunday SundayTerm Kmp KmpRun KmpSafe KmpUB.
Import ListNotations.
Open Scope nat_scope.

(* ---------- the Sunday table ---------- *)

Lemma sunday_ends : forall A rk, wf_ta A -> clockSize A <= 255 -> labels_ok A -> (forall p e, ~ is_edge A p 0 e) -> calm A rk ->
  exists fuel, (forall k, sunday_sets (fuel + k) A = Exit 10) \/ exists sets, forall k, sunday_sets (fuel + k) A = Ok sets.
Proof.
  intros A rk W K LB NE RK. destruct (Inv_empty A (max_const A)) as [I0 E0].
  destruct (ta2za_calm A rk zempty W K LB RK I0) as (f1 & Z & HZ).
  destruct (ta2za_fresh f1 A Z W K HZ) as (I & _ & WZ & AA & _ & _ & _).
  destruct (C24_removeDeadStates Z WZ AA) as (f2 & Z' & HR & _).
  pose proof (HR 0) as HR0. destruct (removeDead_live Z WZ AA _ _ HR0) as (WZ' & Lv & Ed).
  assert (N0 : forall i c j, zedge Z' i c j -> 1 <= c).
  { intros i c j E. apply Ed in E as (s & Hs & _ & Hc & _). destruct (I i s Hs) as [_ X]. destruct (X c j Hc) as (_ & s' & e & q & m & _ & He & _).
    destruct c; [exfalso; eapply NE; eauto|lia]. }
  destruct (build_ends Z' WZ' N0 (fun i Hi => proj2 (Lv i Hi)) (zinit Z') []) as (f3 & H3); [apply (zwf_init Z' WZ')|].
  assert (B : forall k, sunday_build (f3 + k) Z' (zinit Z') [] = sunday_build f3 Z' (zinit Z') []).
  { intros k. apply build_more; auto. }
  exists (f1 + f2 + f3).
  assert (X : forall k, sunday_sets (f1 + f2 + f3 + k) A = sunday_build f3 Z' (zinit Z') []).
  { intros k. unfold sunday_sets. replace (f1 + f2 + f3 + k) with (f1 + (f2 + f3 + k)) at 1 by lia. rewrite (ta2za_more f1 _ _ _ _ _ HZ). cbn [bind].
    replace (f1 + f2 + f3 + k) with (f2 + (f1 + f3 + k)) at 1 by lia. rewrite HR. cbn [bind].
    replace (f1 + f2 + f3 + k) with (f3 + (f1 + f2 + k)) by lia. apply B. }
  destruct H3 as [H3|(l & H3)]; [left|right; exists l]; intros k; rewrite X; exact H3.
Qed.

(* ---------- ranks ---------- *)

Lemma idle_same : forall A A' rk, same_graph A A' -> idle_loops A' rk -> idle_loops A rk.
Proof. intros A A' rk SG H p c e q He Et. eapply H; eauto. eapply same_graph_edge; eauto. Qed.

Lemma mild_same : forall A A' rk, same_graph A A' -> mild A' rk -> mild A rk.
Proof. intros A A' rk SG H p c e q He Et. eapply H; eauto. eapply same_graph_edge; eauto. Qed.
Lemma timed_same : forall A A', same_graph A A' -> timed A' -> timed A.
Proof. intros A A' [_ E] H. unfold timed, clockSize in *. rewrite E. exact H. Qed.
Lemma calm_same : forall A A' rk, same_graph A A' -> calm A' rk -> calm A rk.
Proof. intros A A' rk SG [H|[H1 H2]]; [left; eapply idle_same; eauto|right; split; [eapply timed_same; eauto|eapply mild_same; eauto]]. Qed.

Section Product.
  Variables (A S : ta) (f : ptr -> ptr -> ptr) (ra rs : ptr -> nat).
  Hypothesis WA : wf_ta A.
  Hypothesis WS : wf_ta S.
  Hypothesis Inj : forall p1 p2 q1 q2, In p1 (map fst (states A)) -> In q1 (map fst (states A)) ->
    In p2 (map fst (states S)) -> In q2 (map fst (states S)) -> f p1 p2 = f q1 q2 -> p1 = q1 /\ p2 = q2.

  Definition rank2 (p : ptr) : nat :=
    match find (fun pq => f (fst pq) (snd pq) =? p) (list_prod (map fst (states A)) (map fst (states S))) with
    | Some (p1, p2) => ra p1 + rs p2 | None => 0 end.

  Lemma rank2_eq : forall p1 p2, In p1 (map fst (states A)) -> In p2 (map fst (states S)) -> rank2 (f p1 p2) = ra p1 + rs p2.
  Proof.
    intros p1 p2 H1 H2. unfold rank2. destruct (find _ _) as [[q1 q2]|] eqn:E.
    - apply find_some in E as [Hin E]. apply in_prod_iff in Hin as [I1 I2]. apply Nat.eqb_eq in E. cbn in E.
      destruct (Inj q1 q2 p1 p2) as [-> ->]; auto.
    - pose proof (find_none _ _ E (p1, p2) (in_prod _ _ _ _ H1 H2)) as X. cbn in X. rewrite Nat.eqb_refl in X. discriminate.
  Qed.

  Lemma idle_product : idle_loops A ra -> idle_loops S rs -> idle_loops (intersectionTA A S f) rank2.
  Proof.
    intros HA HS p c e q He Et. assert (He' := He). destruct He' as (s & es & Hs & _ & _).
    apply out_states_in in Hs as (p1 & s1 & p2 & s2 & I1 & I2 & Z12 & -> & _).
    assert (K1 : In p1 (map fst (states A))) by (apply in_map_iff; exists (p1, s1); auto).
    assert (K2 : In p2 (map fst (states S))) by (apply in_map_iff; exists (p2, s2); auto).
    assert (ZD : zd A p1 = zd S p2).
    { unfold zd, deref. rewrite (In_assoc _ _ _ (wf_nodup _ WA) I1), (In_assoc _ _ _ (wf_nodup _ WS) I2). now rewrite Z12. }
    apply (prod_is_edge A S f WA WS Inj p1 p2 c e K1 K2 ZD) in He as [(e1 & n1 & -> & E1 & T1 & ->)|[(e2 & n2 & -> & E2 & T2 & ->)|(e1 & n1 & e2 & n2 & E1 & T1 & E2 & T2 & ->)]];
      cbn [prod_edge etgt eresets eguard empty_edge] in *; apply toI_iff in Et as (J1 & J2 & _ & ->); rewrite !rank2_eq by auto.
    - destruct (HA _ _ _ _ E1 T1) as [L|(-> & -> & ->)]; [left; lia|right]. auto.
    - destruct (HS _ _ _ _ E2 T2) as [L|(-> & -> & ->)]; [left; lia|right]. auto.
    - destruct (HA _ _ _ _ E1 T1) as [L1|(-> & -> & ->)], (HS _ _ _ _ E2 T2) as [L2|(-> & -> & ->)]; [left; lia|left; lia|left; lia|right]. auto.
  Qed.

  Lemma mild_product : mild A ra -> mild S rs -> mild (intersectionTA A S f) rank2.
  Proof.
    intros HA HS p c e q He Et. assert (He' := He). destruct He' as (s & es & Hs & _ & _).
    apply out_states_in in Hs as (p1 & s1 & p2 & s2 & I1 & I2 & Z12 & -> & _).
    assert (K1 : In p1 (map fst (states A))) by (apply in_map_iff; exists (p1, s1); auto).
    assert (K2 : In p2 (map fst (states S))) by (apply in_map_iff; exists (p2, s2); auto).
    assert (ZD : zd A p1 = zd S p2).
    { unfold zd, deref. rewrite (In_assoc _ _ _ (wf_nodup _ WA) I1), (In_assoc _ _ _ (wf_nodup _ WS) I2). now rewrite Z12. }
    assert (Sh : forall l, Forall mildc l -> Forall mildc (map (shift_guard (clockSize A)) l)).
    { intros l F. apply Forall_map. eapply Forall_impl; [|exact F]. intros g Hg. exact Hg. }
    apply (prod_is_edge A S f WA WS Inj p1 p2 c e K1 K2 ZD) in He as [(e1 & n1 & -> & E1 & T1 & ->)|[(e2 & n2 & -> & E2 & T2 & ->)|(e1 & n1 & e2 & n2 & E1 & T1 & E2 & T2 & ->)]];
      cbn [prod_edge etgt eresets eguard empty_edge] in *; apply toI_iff in Et as (J1 & J2 & _ & ->); rewrite !rank2_eq by auto.
    - destruct (HA _ _ _ _ E1 T1) as [L [D|F]]; (split; [lia|]); [left; lia|right]. apply Forall_app. split; [auto|constructor].
    - destruct (HS _ _ _ _ E2 T2) as [L [D|F]]; (split; [lia|]); [left; lia|right]. apply Forall_app. split; [constructor|apply Sh; auto].
    - destruct (HA _ _ _ _ E1 T1) as [L1 [D1|F1]], (HS _ _ _ _ E2 T2) as [L2 [D2|F2]]; (split; [lia|]); [left; lia|left; lia|left; lia|right]. apply Forall_app. split; [auto|apply Sh; auto].
  Qed.

  Lemma timed_product : timed A -> timed S -> timed (intersectionTA A S f).
  Proof.
    intros HA HS. unfold timed, clockSize in *. unfold intersectionTA. cbn [maxC]. rewrite app_length.
    destruct HA as [HA|(k & Hk & K)]; [|right; exists k; split; auto; apply in_or_app; auto].
    destruct HS as [HS|(k & Hk & K)]; [left; lia|right; exists k; split; auto; apply in_or_app; auto].
  Qed.
End Product.

Section Ranks.
  Variables (al : alloc) (B : ta) (m : nat) (A0 : ta) (rk : ptr -> nat).
  Hypothesis WB : wf_ta B.
  Hypothesis AO : alloc_ok al B m.
  Hypothesis H0 : kmp_A0 al B m = Ok A0.

  Let ps := map fst (states B).
  Let top := list_max (map rk ps).
  Let l0 := map (fun q => (a_0 al q, S (rk q))) ps ++ (a_acc al, 0) :: (a_ext al 0, S (S top)) :: map (fun i => (a_ext al i, S (S (top + i)))) (seq 1 m).
  Let lS := map (fun q => (a_S al q, S (rk q))) ps ++ map (fun q => (a_dum al q, 0)) ps.
  Definition rank0 (p : ptr) : nat := match assoc p l0 with Some r => r | None => 0 end.
  Definition rankS (p : ptr) : nat := match assoc p lS with Some r => r | None => 0 end.

  Lemma l0_keys : map fst l0 = keys0 al B m.
  Proof. unfold l0, keys0, ps. rewrite map_app. cbn [map fst]. rewrite !map_map. reflexivity. Qed.
  Lemma lS_keys : map fst lS = keysS al B.
  Proof. unfold lS, keysS, ps. rewrite map_app, !map_map. reflexivity. Qed.

  Lemma rank0_in : forall p r, In (p, r) l0 -> rank0 p = r.
  Proof. intros p r H. assert (N : NoDup (map fst l0)) by (rewrite l0_keys; apply (ao_0 _ _ _ AO)). unfold rank0. now rewrite (In_assoc l0 p r N H). Qed.
  Lemma rankS_in : forall p r, In (p, r) lS -> rankS p = r.
  Proof. intros p r H. assert (N : NoDup (map fst lS)) by (rewrite lS_keys; apply (ao_S _ _ _ AO)). unfold rankS. now rewrite (In_assoc lS p r N H). Qed.

  Lemma rank0_copy : forall q, In q ps -> rank0 (a_0 al q) = S (rk q).
  Proof. intros q H. apply rank0_in. unfold l0. apply in_or_app. left. apply in_map_iff. exists q. auto. Qed.
  Lemma rank0_acc : rank0 (a_acc al) = 0.
  Proof. apply rank0_in. unfold l0. apply in_or_app. right. left. auto. Qed.
  Lemma rank0_ext : forall i, i <= m -> rank0 (a_ext al i) = S (S (top + i)).
  Proof.
    intros i H. apply rank0_in. unfold l0. apply in_or_app. right. right. destruct i as [|i]; [left; rewrite Nat.add_0_r; auto|right].
    apply in_map_iff. exists (S i). split; auto. apply in_seq. lia.
  Qed.
  Lemma rankS_copy : forall q, In q ps -> rankS (a_S al q) = S (rk q).
  Proof. intros q H. apply rankS_in. unfold lS. apply in_or_app. left. apply in_map_iff. exists q. auto. Qed.
  Lemma rankS_dum : forall q, In q ps -> rankS (a_dum al q) = 0.
  Proof. intros q H. apply rankS_in. unfold lS. apply in_or_app. right. apply in_map_iff. exists q. auto. Qed.
  Lemma rk_top : forall q, In q ps -> rk q <= top.
  Proof.
    intros q H. unfold top. pose proof (proj1 (list_max_le (map rk ps) _) (Nat.le_refl _)) as F. rewrite Forall_forall in F. apply F. apply in_map. auto.
  Qed.

  Lemma copy_edge_inv : forall f e q, etgt (copy_edge B f e) = Some q -> exists q0, etgt e = Some q0 /\ In q0 ps /\ q = f q0.
  Proof.
    intros f e q H. unfold copy_edge in H. cbn [etgt] in H. destruct (etgt e) as [q0|]; [|discriminate]. unfold old2new in H.
    destruct (mem q0 (map fst (states B))) eqn:E; [|discriminate]. injection H as <-. exists q0. split; auto. split; auto. apply mem_In. auto.
  Qed.

  Lemma loops_in : forall p c es e, In (c, es) (loops p) -> In e es -> e = mkE (Some p) [] [].
  Proof. intros p c es e H He. unfold loops in H. apply in_map_iff in H as (c' & E & _). injection E as _ <-. destruct He as [<-|[]]; auto. Qed.

  Section IdleRanks.
  Hypothesis IL : idle_loops B rk.

  Lemma idle_A0 : idle_loops A0 rank0.
  Proof.
    intros p c e q (s & es & Hs & Hc & He) Et. destruct (A0_struct al B m A0 H0) as (sts & E & _ & _ & F). rewrite E in Hs.
    apply in_app_or in Hs as [Hs|[Hs|[Hs|Hs]]].
    - destruct (Forall2_in_r _ _ _ _ F Hs) as ([p0 s0] & I0 & E1 & _ & _ & F'). cbn [fst snd] in *. subst p.
      unfold deepCopy in I0. cbn [states] in I0. apply in_map_iff in I0 as ([q0 t0] & E0 & I0). injection E0 as E01 E02. subst p0 s0. cbn [fst snd] in *.
      destruct (Forall2_in_r _ _ _ _ F' Hc) as ([c0 es0] & J0 & E2 & E3). cbn [fst snd] in *. subst c0.
      cbn [next copy_state] in J0. apply in_map_iff in J0 as ([c1 es1] & E4 & J0). cbn [fst snd] in E4. injection E4 as E5 E6. subst c1 es0.
      assert (Hq0 : In q0 ps) by (apply in_map_iff; exists (q0, t0); auto).
      destruct (acc_append_spec _ _ _ _ E3) as (_ & _ & S3). rewrite (rank0_copy q0) by auto.
      destruct (S3 e He) as [X|(e0 & X & ->)].
      + apply in_map_iff in X as (e1 & <- & X). apply copy_edge_inv in Et as (q1 & T1 & Hq1 & ->). rewrite rank0_copy by auto.
        destruct (IL q0 c e1 q1) as [L|(-> & G & R)]; [exists t0, es1; auto|auto|left; lia|right]. cbn. auto.
      + unfold acc_copy in Et. cbn [etgt] in Et. injection Et as <-. rewrite rank0_acc. left. lia.
    - injection Hs as <- <-. cbn [next] in Hc. pose proof (loops_in _ _ _ _ Hc He). subst e. cbn in *. injection Et as <-. right. auto.
    - injection Hs as <- <-. cbn [next] in Hc. rewrite rank0_ext by lia. left.
      destruct (proj1 (ext0_has al B m WB AO c e)) as (p & s & ces & e0 & Hp & Hs & Hce & He0 & -> & ->); [exists es; auto|].
      cbn [widen_edge etgt] in Et. apply copy_edge_inv in Et as (q1 & T1 & Hq1 & ->). rewrite rank0_copy by auto. pose proof (rk_top q1 Hq1). lia.
    - apply in_map_iff in Hs as (i & E1 & Hi). injection E1 as <- <-. apply in_seq in Hi. cbn [next] in Hc. unfold ext_next in Hc.
      apply in_map_iff in Hc as (c' & E2 & _). injection E2 as _ <-. destruct He as [<-|[]]. cbn in Et. injection Et as <-.
      rewrite !rank0_ext by lia. left. lia.
  Qed.

  Lemma idle_As : idle_loops (kmp_As al B) rankS.
  Proof.
    intros p c e q (s & es & Hs & Hc & He) Et. unfold kmp_As in Hs. cbn [states] in Hs. apply in_app_or in Hs as [Hs|Hs].
    - apply in_map_iff in Hs as ([q0 t0] & E0 & I0). injection E0 as <- <-. cbn [fst snd next] in *.
      assert (Hq0 : In q0 ps) by (apply in_map_iff; exists (q0, t0); auto). rewrite (rankS_copy q0) by auto.
      assert (X : has_edge (push_edge (next (copy_state B (a_S al) t0)) 0 (mkE (Some (a_dum al q0)) [] [])) c e) by (exists es; auto).
      apply has_edge_push in X as [(es' & J & He')|[-> ->]].
      + cbn [next copy_state] in J. apply in_map_iff in J as ([c1 es1] & E4 & J). cbn [fst snd] in E4. injection E4 as E5 E6. subst c1 es'.
        apply in_map_iff in He' as (e1 & <- & X). apply copy_edge_inv in Et as (q1 & T1 & Hq1 & ->). rewrite rankS_copy by auto.
        destruct (IL q0 c e1 q1) as [L|(-> & G & R)]; [exists t0, es1; auto|auto|left; lia|right]. cbn. auto.
      + cbn in Et. injection Et as <-. rewrite rankS_dum by auto. left. lia.
    - apply in_map_iff in Hs as ([q0 t0] & E0 & I0). injection E0 as <- <-. cbn [next] in Hc. pose proof (loops_in _ _ _ _ Hc He). subst e. cbn in *.
      injection Et as <-. right. auto.
  Qed.
  End IdleRanks.

  Section MildRanks.
  Hypothesis ML : mild B rk.

  Lemma mild_A0 : mild A0 rank0.
  Proof.
    intros p c e q (s & es & Hs & Hc & He) Et. destruct (A0_struct al B m A0 H0) as (sts & E & _ & _ & F). rewrite E in Hs.
    apply in_app_or in Hs as [Hs|[Hs|[Hs|Hs]]].
    - destruct (Forall2_in_r _ _ _ _ F Hs) as ([p0 s0] & I0 & E1 & _ & _ & F'). cbn [fst snd] in *. subst p.
      unfold deepCopy in I0. cbn [states] in I0. apply in_map_iff in I0 as ([q0 t0] & E0 & I0). injection E0 as E01 E02. subst p0 s0. cbn [fst snd] in *.
      destruct (Forall2_in_r _ _ _ _ F' Hc) as ([c0 es0] & J0 & E2 & E3). cbn [fst snd] in *. subst c0.
      cbn [next copy_state] in J0. apply in_map_iff in J0 as ([c1 es1] & E4 & J0). cbn [fst snd] in E4. injection E4 as E5 E6. subst c1 es0.
      assert (Hq0 : In q0 ps) by (apply in_map_iff; exists (q0, t0); auto).
      destruct (acc_append_spec _ _ _ _ E3) as (_ & _ & S3). rewrite (rank0_copy q0) by auto.
      destruct (S3 e He) as [X|(e0 & X & ->)].
      + apply in_map_iff in X as (e1 & <- & X). apply copy_edge_inv in Et as (q1 & T1 & Hq1 & ->). rewrite rank0_copy by auto.
        destruct (ML q0 c e1 q1) as [L X1]; [exists t0, es1; auto|auto|]. split; [lia|]. destruct X1 as [D|F1]; [left; lia|right; exact F1].
      + unfold acc_copy in Et. cbn [etgt] in Et. injection Et as <-. rewrite rank0_acc. lia.
    - injection Hs as <- <-. cbn [next] in Hc. pose proof (loops_in _ _ _ _ Hc He). subst e. cbn in *. injection Et as <-. split; [lia|right; constructor].
    - injection Hs as <- <-. cbn [next] in Hc. rewrite rank0_ext by lia.
      destruct (proj1 (ext0_has al B m WB AO c e)) as (p & s & ces & e0 & Hp & Hs & Hce & He0 & -> & ->); [exists es; auto|].
      cbn [widen_edge etgt] in Et. apply copy_edge_inv in Et as (q1 & T1 & Hq1 & ->). rewrite rank0_copy by auto. pose proof (rk_top q1 Hq1). lia.
    - apply in_map_iff in Hs as (i & E1 & Hi). injection E1 as <- <-. apply in_seq in Hi. cbn [next] in Hc. unfold ext_next in Hc.
      apply in_map_iff in Hc as (c' & E2 & _). injection E2 as _ <-. destruct He as [<-|[]]. cbn in Et. injection Et as <-.
      rewrite !rank0_ext by lia. lia.
  Qed.

  Lemma mild_As : mild (kmp_As al B) rankS.
  Proof.
    intros p c e q (s & es & Hs & Hc & He) Et. unfold kmp_As in Hs. cbn [states] in Hs. apply in_app_or in Hs as [Hs|Hs].
    - apply in_map_iff in Hs as ([q0 t0] & E0 & I0). injection E0 as <- <-. cbn [fst snd next] in *.
      assert (Hq0 : In q0 ps) by (apply in_map_iff; exists (q0, t0); auto). rewrite (rankS_copy q0) by auto.
      assert (X : has_edge (push_edge (next (copy_state B (a_S al) t0)) 0 (mkE (Some (a_dum al q0)) [] [])) c e) by (exists es; auto).
      apply has_edge_push in X as [(es' & J & He')|[-> ->]].
      + cbn [next copy_state] in J. apply in_map_iff in J as ([c1 es1] & E4 & J). cbn [fst snd] in E4. injection E4 as E5 E6. subst c1 es'.
        apply in_map_iff in He' as (e1 & <- & X). apply copy_edge_inv in Et as (q1 & T1 & Hq1 & ->). rewrite rankS_copy by auto.
        destruct (ML q0 c e1 q1) as [L X1]; [exists t0, es1; auto|auto|]. split; [lia|]. destruct X1 as [D|F1]; [left; lia|right; exact F1].
      + cbn in Et. injection Et as <-. rewrite rankS_dum by auto. lia.
    - apply in_map_iff in Hs as ([q0 t0] & E0 & I0). injection E0 as <- <-. cbn [next] in Hc. pose proof (loops_in _ _ _ _ Hc He). subst e. cbn in *.
      injection Et as <-. split; [lia|right; constructor].
  Qed.
  End MildRanks.
End Ranks.

(* ---------- the KMP table ---------- *)

Section Ends.
  Variables (al : alloc) (B : ta) (m : nat) (A0 : ta) (rk : ptr -> nat).
  Hypothesis WB : wf_ta B.
  Hypothesis AO : alloc_ok al B m.
  Hypothesis KB : 2 * clockSize B <= 255.
  Hypothesis CB : chars_ok B.
  Hypothesis H0 : kmp_A0 al B m = Ok A0.
  Hypothesis IL : calm B rk.

  Let S0 := kmp_As al B.
  Let keys := toIState_keys A0 S0.
  Let KB' : clockSize B <= 256. Proof. lia. Qed.
  Let W0 : wf_ta A0 := A0_wf al B m A0 WB AO KB' H0.
  Let WS : wf_ta S0 := As_wf al B m WB AO.

  Lemma product_rank : exists r, calm (intersectionTA A0 S0 (a_2 al)) r.
  Proof.
    assert (Inj : forall p1 p2 q1 q2, In p1 (map fst (states A0)) -> In q1 (map fst (states A0)) ->
      In p2 (map fst (states S0)) -> In q2 (map fst (states S0)) -> a_2 al p1 p2 = a_2 al q1 q2 -> p1 = q1 /\ p2 = q2).
    { intros p1 p2 q1 q2. unfold S0. rewrite (A0_keys al B m A0 H0), (As_keys al B). apply (ao_2 _ _ _ AO). }
    destruct IL as [I|[T I]].
    - eexists. left. apply idle_product; [exact W0|exact WS|exact Inj|apply (idle_A0 al B m A0 rk); auto|apply (idle_As al B m rk); auto].
    - assert (T0 : timed A0). { destruct (A0_struct al B m A0 H0) as (sts & _ & _ & E & _). unfold timed, clockSize in *. rewrite E. exact T. }
      eexists. right. split; [apply timed_product; [exact T0|exact T]|].
      apply mild_product; [exact W0|exact WS|exact Inj|apply (mild_A0 al B m A0 rk); auto|apply (mild_As al B m rk); auto].
  Qed.

  Lemma step_ends : forall A2 Z n S', SInv al B A0 A2 Z -> n <= m -> same_graph S0 S' -> wf_ta S' ->
    let A2' := updateInitAccepting (set_inits A0 [a_ext al n]) S' A2 keys (a_2 al) in
    let A2'' := set_inits A2' (sort_nat (inits A2')) in
    exists fuel Z1 b, (forall k, ta2za (fuel + k) A2'' Z [] = Ok Z1) /\ SInv al B A0 A2'' (zupdate Z1 A2'' (inits A2'')) /\
      zempty_check (zupdate Z1 A2'' (inits A2'')) = Ok b.
  Proof.
    intros A2 Z n S' HI Hn SS WS' A2' A2''.
    destruct (step_facts al B m A0 WB AO KB CB H0 A2 Z n S' HI Hn SS WS') as (WA2 & K2 & C2 & ZI & SG & _).
    fold S0 in WA2, K2, C2, ZI, SG. fold keys in WA2, K2, C2, ZI, SG. fold A2' in WA2, K2, C2, ZI, SG. fold A2'' in WA2, K2, C2, ZI, SG.
    destruct product_rank as (r & Hr).
    destruct (ta2za_calm A2'' r Z WA2 K2 C2 (calm_same _ _ _ (same_graph_sym _ _ SG) Hr) (proj1 ZI)) as (fuel & Z1 & E).
    pose proof (step_safe al B m A0 WB AO KB CB H0 fuel A2 Z n S' HI Hn SS WS') as X. cbv zeta in X. fold S0 in X. fold keys in X. fold A2' in X. fold A2'' in X.
    rewrite E in X. cbn [safe] in X. destruct X as (X & b & Hb). exists fuel, Z1, b. split; [|auto]. intros k. apply ta2za_more. exact E.
  Qed.

  Lemma try_ends : forall S', same_graph S0 S' -> wf_ta S' -> forall ns A2 Z, SInv al B A0 A2 Z -> (forall n, In n ns -> n <= m) ->
    exists fuel r, (forall k, kmp_try (fuel + k) al m A0 S' keys ns A2 Z = Ok r) /\ SInv al B A0 (snd (fst r)) (snd r).
  Proof.
    intros S' SS WS'. induction ns as [|n ns IH]; intros A2 Z HI Hn; cbn [kmp_try]; [exists 0; eexists; split; [reflexivity|exact HI]|].
    destruct (step_ends A2 Z n S' HI (Hn n (or_introl eq_refl)) SS WS') as (f1 & Z1 & b & E1 & Y & Hb). destruct b.
    - destruct (IH _ _ Y) as (f2 & r & E2 & Yr); [intros; apply Hn; right; auto|]. exists (f1 + f2), r. split; auto. intros k.
      replace (f1 + f2 + k) with (f1 + (f2 + k)) at 1 by lia. rewrite E1. cbn [bind]. rewrite Hb. cbn [bind].
      replace (f1 + f2 + k) with (f2 + (f1 + k)) by lia. apply E2.
    - exists f1. eexists. split; [intros k; rewrite E1; cbn [bind]; rewrite Hb; cbn [bind]; reflexivity|exact Y].
  Qed.

  Lemma states_end : forall ps A2 Z beta, SInv al B A0 A2 Z -> exists fuel r, forall k, kmp_states (fuel + k) al m A0 S0 keys ps A2 Z beta = Ok r.
  Proof.
    induction ps as [|p ps IH]; intros A2 Z beta HI; cbn [kmp_states]; [exists 0; eauto|].
    assert (SM : same_graph S0 (kmp_mark al S0 p)) by apply mark_same.
    assert (WM : wf_ta (kmp_mark al S0 p)) by (apply (same_graph_wf S0); auto; intros q Hq; apply (wf_inits _ WS); exact Hq).
    destruct (try_ends _ SM WM (seq 1 m) A2 Z HI) as (f1 & [[b A2'] Z'] & E1 & Y); [intros n Hn; apply in_seq in Hn; lia|].
    cbn [fst snd] in Y. destruct (IH A2' Z' (beta ++ [(p, b)]) Y) as (f2 & r & E2). exists (f1 + f2), r. intros k.
    replace (f1 + f2 + k) with (f1 + (f2 + k)) at 1 by lia. rewrite E1. cbn [bind].
    replace (f1 + f2 + k) with (f2 + (f1 + k)) by lia. apply E2.
  Qed.
End Ends.

Theorem kmp_ends : forall al B m rk, wf_ta B -> alloc_ok al B m -> 2 * clockSize B <= 255 -> chars_ok B -> accepting_last B -> calm B rk ->
  exists fuel beta, forall k, kmp (fuel + k) al B m = Ok beta.
Proof.
  intros al B m rk WB AO KB CB AL IL. destruct (A0_ok al B m WB AO AL) as (A0 & H0).
  assert (KB' : clockSize B <= 256) by lia.
  destruct (states_end al B m A0 rk WB AO KB CB H0 IL (map fst (states B)) (intersectionTA A0 (kmp_As al B) (a_2 al)) zempty []) as (fuel & r & E).
  - split.
    + exists A0, (kmp_As al B), (inits (intersectionTA A0 (kmp_As al B) (a_2 al))). split; [apply same_graph_refl|].
      split; [apply (A0_wf al B m); auto|]. split; [apply same_graph_refl|]. split; [apply (As_wf al B m); auto|]. reflexivity.
    + split; intros i st Hs; unfold zget in *; cbn in *; [destruct i; discriminate|]. intros e H. destruct i; discriminate.
  - exists fuel, r. intros k. unfold kmp. rewrite H0. cbn [bind]. apply E.
Qed.

(* ---------- the tables ---------- *)

Theorem tables_end : forall al A rk, wf_ta A -> (forall m, alloc_ok al A m) -> 2 * clockSize A <= 255 -> chars_ok A -> (forall p e, ~ is_edge A p 0 e) ->
  accepting_last A -> calm A rk ->
  exists fuel, (forall k, tables (fuel + k) al A = Exit 10) \/ exists T, forall k, tables (fuel + k) al A = Ok T.
Proof.
  intros al A rk W AO K C NE AL IL. destruct (sunday_ends A rk W ltac:(lia) C NE IL) as (f1 & [E1|(sets & E1)]).
  - exists f1. left. intros k. unfold tables. rewrite E1. reflexivity.
  - destruct (kmp_ends al A (length sets) rk W (AO _) K C AL IL) as (f2 & beta & E2). exists (f1 + f2). right. eexists. intros k. unfold tables.
    replace (f1 + f2 + k) with (f1 + (f2 + k)) at 1 by lia. rewrite E1. cbn [bind].
    replace (f1 + f2 + k) with (f2 + (f1 + k)) by lia. rewrite E2. cbn [bind]. reflexivity.
Qed.
