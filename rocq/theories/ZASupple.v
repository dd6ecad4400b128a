(* Timed automata in which a run never gets stuck: every transition of a state that
   can be reached can be taken after some time.  The cycles may restrict the time
   and may reset clocks; if the transitions that leave a cycle stand behind the ones
   that go round, removeDeadStates loses nothing useful. *)
From Coq Require Import QArith Lqa Bool List ZArith Arith Lia.
From Verif Require Import Num NumFacts Outcome Constraint Zone ZoneFacts ZoneOps TA Spec TAFacts PropBase ZA ZASpec ZAFacts ZAGraph PropZA SkipFacts Sunday ZATerm ZAFin ZAIdle ZALast ZACong ZAOrder ZALoop.
Import ListNotations.
Open Scope nat_scope.

(* ---------- the automata ---------- *)

(* There are sets of clock values, one for each state, that contain the beginning
   of all runs and in which every transition can be taken and stays inside. *)
Definition pliant (k : nat) (A : ta) : Prop := exists G : ptr -> valuation -> Prop,
  (forall p v, In p (inits A) -> (forall x, x < k -> (v x == 0)%Q) -> G p v) /\
  forall p c e q v, G p v -> is_edge A p c e -> etgt e = Some q ->
    exists d, (0 < d)%Q /\ sat_guard (delay v d) (eguard e) /\ G q (reset_set (delay v d) (eresets e)).

(* Some path leads to an accepting state. *)
Inductive useful (A : ta) : ptr -> Prop :=
| us_here : forall p, accepting A p -> useful A p
| us_step : forall p c e q, is_edge A p c e -> etgt e = Some q -> useful A q -> useful A p.

(* A transition to something useful goes down, or is a self-loop that does nothing,
   or another one to something useful stands behind it; while the automaton is
   [open], another one may also accept. *)
Definition exits (open : Prop) (A : ta) (rk : ptr -> nat) : Prop := forall p s c es E1 e E2 q,
  In (p, s) (states A) -> In (c, es) (next s) -> es = E1 ++ e :: E2 -> etgt e = Some q -> useful A q ->
  rk q < rk p \/ (q = p /\ quiet e) \/ (exists e2 q2, In e2 E2 /\ etgt e2 = Some q2 /\ useful A q2 /\ q2 <> p) \/
  (open /\ exists e1 q1, In e1 es /\ etgt e1 = Some q1 /\ accepting A q1).

(* ---------- nothing useful is lost ---------- *)

Lemma zpath_snoc' : forall Z i w j c k, zpath Z i w j -> zedge Z j c k -> zpath Z i (w ++ [c]) k.
Proof. intros Z i w j c k P E. induction P; cbn; [econstructor; [exact E|constructor]|econstructor; eauto]. Qed.

Section Supple.
  Variables (A : ta) (rk : ptr -> nat) (fuel : nat) (Z : za).
  Hypothesis WF : wf_ta A.
  Hypothesis K : clockSize A <= 255.
  Hypothesis ND : NoDup (inits A).
  Hypothesis PL : pliant (clockSize A) A.
  Hypothesis EX : exits False A rk.
  Hypothesis HZ : ta2za fuel A zempty [] = Ok Z.
  Let n := S (clockSize A).
  Let M := max_const A.

  Lemma starts : forall i s, In i (zinit Z) -> zget Z i = Some s -> In (zq s) (inits A) /\ zin n (zm s) zeroval.
  Proof.
    intros i s Hi G. destruct (Inv_empty A (max_const A)) as [I0 E0]. destruct (zero_zone_ok A) as [Z0 Z0']. pose proof HZ as H.
    apply (ta2za_inv A (max_const A) WF K) in H; auto. destruct H as (_ & _ & _ & NI & _). apply NI in Hi as [[]|(s' & p & _ & G' & Hp & Q & Em & _)].
    rewrite G in G'. injection G' as <-. rewrite Q, Em. auto.
  Qed.

  Lemma taken : forall G : ptr -> valuation -> Prop,
    (forall p c e q v, G p v -> is_edge A p c e -> etgt e = Some q -> exists d, (0 < d)%Q /\ sat_guard (delay v d) (eguard e) /\ G q (reset_set (delay v d) (eresets e))) ->
    forall i s v c e q, zget Z i = Some s -> zin n (zm s) v -> G (zq s) v -> is_edge A (zq s) c e -> etgt e = Some q ->
    exists m, succ_zone M (elapse (zm s)) e = Some m /\ square n m /\ exists v', zin n m v' /\ G q v'.
  Proof.
    intros G GS i s v c e q Gi Vi Gv He Et. destruct (st A fuel Z WF K ND HZ i s Gi) as (S1 & G1 & _). destruct (GS _ _ _ _ _ Gv He Et) as (d & Pd & Sg & Gq).
    pose proof (wf_is_edge _ _ _ _ WF He) as (_ & WR & WG). pose proof (elapse_forward n (zm s) v d S1 G1 Vi Pd) as Ve. pose proof (elapse_square n _ S1) as S2. pose proof (elapse_good n _ S1 G1) as G2.
    destruct (succ_zone_forward (clockSize A) K M (elapse (zm s)) e (delay v d) S2 G2 WR WG Ve Sg) as (m & Em & Vm). exists m. split; auto.
    destruct (succ_zone_ok (clockSize A) K M (elapse (zm s)) e m S2 G2 WR WG Em) as (Sm & _). split; auto. eauto.
  Qed.

  (* every transition of a reachable state has an edge *)
  Lemma moves : forall i s c e q, zreachable Z i -> zget Z i = Some s -> is_edge A (zq s) c e -> etgt e = Some q -> exists m, succ_zone M (elapse (zm s)) e = Some m.
  Proof.
    destruct PL as (G & GI & GS). destruct (okZ A fuel Z WF K ND HZ) as (HI & _).
    assert (Main : forall i w j, zpath Z i w j -> (forall s, zget Z i = Some s -> exists v, zin n (zm s) v /\ G (zq s) v) -> forall s, zget Z j = Some s -> exists v, zin n (zm s) v /\ G (zq s) v).
    { intros i w j P. induction P as [i|i c j w k E P IH]; intros H; auto. apply IH. intros s' Gj. destruct E as (s & Gi & _ & Hc & _). assert (Gi' : zget Z i = Some s) by exact Gi.
      destruct (H s Gi') as (v & Vi & Gv). destruct (HI i s Gi') as [_ EO]. destruct (EO c j Hc) as (_ & sj & e & q & m & Gj' & He & Et & Em & Qj & Ez). rewrite Gj in Gj'. injection Gj' as <-.
      destruct (taken G GS i s v c e q Gi' Vi Gv He Et) as (m' & Em' & Sm & v' & V' & Gq). assert (m' = m) by (unfold M in Em'; congruence). subst m'.
      exists v'. rewrite Qj. split; auto. destruct (HI j s' Gj) as [(S2 & _ & (u & Hu) & _) _]. apply (zone_eqb_zin (clockSize A) m (zm s') v' u v'); auto. }
    intros i s c e q (i0 & w & Hi0 & P) Gi He Et. destruct (Main i0 w i P) with (s := s) as (v & Vi & Gv); auto.
    { intros s0 G0. destruct (starts i0 s0 Hi0 G0) as [Hp Hz]. exists zeroval. split; auto. apply GI; auto. intros x _. reflexivity. }
    destruct (taken G GS i s v c e q Gi Vi Gv He Et) as (m & Em & _). eauto.
  Qed.

  Lemma useful_prod : forall p, useful A p -> forall i s, zreachable Z i -> zget Z i = Some s -> zq s = p -> zproductive Z i.
  Proof.
    destruct (okZ A fuel Z WF K ND HZ) as (HI & _ & WZ & AA & _ & AC). pose proof (ta2za_fresh fuel A Z WF K HZ) as (_ & XP & _).
    intros p U. induction U as [p Ap|p c e q He Et U IH]; intros i s R Gi Q.
    - exists [], i. split; [constructor|]. exists s. split; [exact Gi|]. rewrite (AC i s Gi). apply (match_at_spec A _ (wf_nodup _ WF)). congruence.
    - rewrite <- Q in He. destruct (moves i s c e q R Gi He Et) as (m & Em). destruct (XP i s c e Gi He s q m Gi Et Em) as (j & sj & Hc & Gj & Qj & _).
      assert (E : zedge Z i c j). { exists s. split; [exact Gi|]. split; [apply AA; apply (nth_error_In _ _ Gi)|]. split; auto. exists sj. split; [exact Gj|apply AA; apply (nth_error_In _ _ Gj)]. }
      destruct (IH j sj) as (w & k & P & Ak); auto.
      { destruct R as (i0 & w0 & Hi0 & P0). exists i0, (w0 ++ [c]). split; auto. eapply zpath_snoc'; eauto. }
      exists (c :: w), k. split; auto. econstructor; eauto.
  Qed.
  Lemma prod_useful : forall i s, zproductive Z i -> zget Z i = Some s -> useful A (zq s).
  Proof.
    destruct (okZ A fuel Z WF K ND HZ) as (HI & _ & _ & _ & _ & AC). intros i s (w & k & P & Ak) Gi. revert s Gi. induction P as [i|i c j w k E P IH]; intros s Gi.
    - destruct Ak as (s' & G' & Acc). assert (X : zget Z i = Some s') by exact G'. rewrite Gi in X. injection X as <-. rewrite (AC i s Gi) in Acc.
      apply us_here. apply (match_at_spec A _ (wf_nodup _ WF)). auto.
    - destruct E as (s' & G' & _ & Hc & _). assert (X : zget Z i = Some s') by exact G'. rewrite Gi in X. injection X as <-. destruct (HI i s Gi) as [_ EO].
      destruct (EO c j Hc) as (_ & sj & e & q & m & Gj & He & Et & _ & Qj & _). eapply us_step; [exact He|exact Et|]. rewrite <- Qj. auto.
  Qed.

  Definition srank (i : nat) : nat := match zget Z i with Some s => 2 * rk (zq s) + unst A s | None => 0 end.
  Lemma unst_le : forall s, unst A s <= 1.
  Proof. intros s. unfold unst. destruct (zone_eqb _ _); auto. Qed.

  Hypothesis DEC : forall i, i < length (zsts Z) -> zproductive Z i \/ ~ zproductive Z i.

  Lemma exits_closer : last_closer Z srank.
  Proof.
    destruct (okZ A fuel Z WF K ND HZ) as (HI & HO & WZ & AA & ON & AC). intros i s G R PR NA. assert (Gi : zget Z i = Some s) by exact G.
    assert (XX : exists k, In k (zedges s) /\ zproductive Z k /\ k <> i).
    { clear R. destruct PR as (w & k & P & Ak). revert Gi NA G. induction P as [i|i c j w k E P IH]; intros Gi NA G.
      - exfalso. destruct Ak as (s' & G' & A'). congruence.
      - destruct (Nat.eq_dec j i) as [->|N]; [apply IH; auto|]. exists j. split; [|split; auto; exists w, k; auto].
        destruct E as (s' & G' & _ & Hc & _). rewrite G in G'. injection G' as <-. unfold zedges. apply in_flat_map. exists c. split; [apply in_seq; pose proof (zwf_edge Z WZ i s c j G Hc); lia|].
        unfold znext. apply in_map_iff. exists (c, j). split; auto. apply filter_In. split; auto. apply Nat.eqb_refl. }
    assert (LTe : forall k, In k (zedges s) -> exists c, In (c, k) (znx s)).
    { intros k Hk. unfold zedges in Hk. apply in_flat_map in Hk as (c & _ & Hk). unfold znext in Hk. apply in_map_iff in Hk as ([c' j'] & <- & Hk). apply filter_In in Hk as [Hk _]. exists c'. exact Hk. }
    destruct (last_split (fun k => zproductive Z k /\ k <> i) (zedges s)) as (pre & j & post & E & (Pj & Nj) & PO).
    { intros k Hk. destruct (LTe k Hk) as (c & Hc). destruct (DEC k) as [D|D]; [apply (zwf_edge Z WZ i s c k G Hc)| |right; tauto]. destruct (Nat.eq_dec k i); [right; tauto|left; auto]. }
    { destruct XX as (k & H1 & H2). exists k. auto. }
    exists pre, j, post. split; auto. split; auto. split.
    2:{ intros k Hk. specialize (PO k Hk). destruct (Nat.eq_dec k i); [right; auto|left; tauto]. }
    destruct (zedges_split s pre j post E) as (c & L1 & L2 & EL & HL). destruct (HO i s Gi) as (ts & Ed & EM). pose proof EL as EL'. rewrite EL in EM.
    apply emits_split in EM as (l1 & e & l2 & q & m & sj & Ea & Et & Es & Gj & Qj & Sm & EM2).
    destruct (aedges_split ts l1 c e l2 Ea) as (es & E1 & E2 & Hes & Ees & HE2). assert (Hts : In (zq s, ts) (states A)) by (apply assoc_In; auto).
    destruct (st A fuel Z WF K ND HZ i s Gi) as (S1 & G1 & N1 & K1). destruct (st A fuel Z WF K ND HZ j sj Gj) as (S2 & G2 & N2 & K2).
    assert (He : is_edge A (zq s) c e) by (exists ts, es; split; auto; split; auto; rewrite Ees; apply in_elt).
    assert (Ez : zone_eqb m (zm sj) = true).
    { pose proof (wf_is_edge _ _ _ _ WF He) as (_ & WR & WG). destruct (succ_zone_ok (clockSize A) K M (elapse (zm s)) e m) as (X1 & X2 & _); auto; [apply elapse_square; auto|apply elapse_good; auto|].
      apply (same_eqb A rk K m (zm sj)); auto. }
    pose proof (prod_useful j sj Pj Gj) as Uq. rewrite Qj in Uq. pose proof (unst_le sj) as Lj.
    destruct (EX (zq s) ts c es E1 e E2 q Hts Hes Ees Et Uq) as [L|[(Eq & Q)|[(e2 & q2 & I2 & Et2 & U2 & N2')|([] & _)]]].
    - unfold srank. rewrite Gi, Gj, Qj. lia.
    - destruct (quiet_zone A rk fuel Z WF K ND HZ i s j sj e m Gi Gj Q Es Ez) as [U1 U2]. unfold srank. rewrite Gi, Gj, U1, Qj, Eq. destruct (unst A s) as [|u]; [|lia].
      exfalso. apply Nj. apply (uniq A rk fuel Z WF K ND HZ j i sj s); auto. congruence.
    - exfalso. assert (He2 : is_edge A (zq s) c e2) by (exists ts, es; split; auto; split; auto; rewrite Ees; apply in_or_app; right; right; auto).
      destruct (moves i s c e2 q2 R Gi He2 Et2) as (m2 & Em2). destruct (emits_in _ _ _ _ _ c e2 _ _ EM2 (HE2 e2 I2) Et2 Em2) as (k2 & sk & Ik & Gk & Qk & Sk).
      assert (Ek : zedge Z i c k2). { exists s. split; [exact Gi|]. split; [apply AA; apply (nth_error_In _ _ Gi)|]. split; [rewrite EL'; apply in_or_app; right; right; auto|]. exists sk. split; [exact Gk|apply AA; apply (nth_error_In _ _ Gk)]. }
      apply (PO k2 (HL k2 Ik)). split.
      + apply (useful_prod q2 U2 k2 sk); auto. destruct R as (i0 & w0 & Hi0 & P0). exists i0, (w0 ++ [c]). split; auto. eapply zpath_snoc'; eauto.
      + intros ->. rewrite Gi in Gk. injection Gk as <-. congruence.
  Qed.
End Supple.

Lemma keeps_useful_exits : forall fuel A rk, wf_ta A -> clockSize A <= 255 -> NoDup (inits A) -> pliant (clockSize A) A -> exits False A rk -> keeps_useful fuel A.
Proof.
  intros fuel A rk WF K ND PL EX Z Z' HZ HZ' i RE PR. destruct (ta2za_fresh fuel A Z WF K HZ) as (_ & _ & WZ & AA & _).
  assert (Dk : alive Z' i \/ ~ alive Z' i).
  { unfold alive. destruct (nth_error (zsts Z') i) as [s|]; [|right; intros (s & E & _); discriminate].
    destruct (zlive s) eqn:E; [left; eauto|right; intros (s' & E' & L); congruence]. }
  destruct Dk as [|Dk]; auto. exfalso. apply (finite_dec (zproductive Z) (length (zsts Z))). intros D.
  apply Dk. apply (last_kept Z (srank A rk Z) WZ AA (exits_closer A rk fuel Z WF K ND PL EX HZ D) D fuel Z' HZ'); auto.
Qed.
