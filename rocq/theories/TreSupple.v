(* Expressions whose automata never get stuck, with repetitions of what is
   restricted in time: the transitions that leave a repetition stand behind the
   ones that go round. *)
From Coq Require Import QArith Lqa Bool List ZArith Arith Lia.
From Verif Require Import Num Outcome Interval Constraint Zone TA Spec TAFacts Intersection IntersectionFacts Tre TreRun TreFacts TreBuild TreLang PropTre ZATerm ZAFin KmpTerm Monaa Skip SkipFacts ApFacts PropSkip ZALoop ZASupple TreMild TreLean TreLoop.
Import ListNotations.
Open Scope nat_scope.

(* ---------------- the expressions ---------------- *)

(* Inside of &, + stands only behind letters. *)
Fixpoint tidy (r : tre) : Prop :=
  match r with
  | Atom _ | Eps => True
  | Plus r1 => tidy r1
  | Cat r1 r2 | Alt r1 r2 => tidy r1 /\ tidy r2
  | And r1 r2 => lean r1 /\ lean r2
  | Within r1 _ => tidy r1
  end.
(* A restriction that asks for time to pass restricts something that has no other
   restriction, and some duration meets it. *)
Definition spacious (Iv : interval) : Prop := exists t, (0 < t)%Q /\ iin Iv t.
Fixpoint supple (r : tre) : Prop :=
  match r with
  | Atom _ | Eps => True
  | Plus r1 => supple r1
  | Cat r1 r2 | Alt r1 r2 => supple r1 /\ supple r2
  | And r1 r2 => slow r1 /\ slow r2
  | Within r1 Iv => slow (Within r1 Iv) \/ (nclocks r1 = 0 /\ spacious Iv)
  end.

(* Upper bounds are at least 1. *)
Definition ample (A : ta) : Prop := forall p c e, is_edge A p c e -> Forall (fun g => isupper g -> (1 <= cc g)%Z) (eguard e).

(* ---------------- small times ---------------- *)

Lemma small_time : forall (v : valuation) k, (forall x, x < k -> (v x < 1)%Q) -> exists d, (0 < d)%Q /\ forall x, x < k -> (v x + d < 1)%Q.
Proof.
  intros v k. induction k as [|k IH]; intros H; [exists 1%Q; split; [lra|intros x L; lia]|].
  destruct IH as (d & Pd & Hd); [intros; apply H; lia|]. pose proof (H k ltac:(lia)) as Hk.
  exists (if Qlt_le_dec d ((1 - v k) / 2) then d else (1 - v k) / 2)%Q.
  assert (P2 : (0 < (1 - v k) / 2)%Q) by (apply Qlt_shift_div_l; lra). assert (E2 : ((1 - v k) / 2 + (1 - v k) / 2 == 1 - v k)%Q) by field.
  destruct (Qlt_le_dec d ((1 - v k) / 2)) as [L|L].
  - split; auto. intros x Lx. destruct (Nat.eq_dec x k) as [->|N]; [lra|apply Hd; lia].
  - split; auto. intros x Lx. destruct (Nat.eq_dec x k) as [->|N]; [lra|]. specialize (Hd x ltac:(lia)). lra.
Qed.

Lemma slow_pliant : forall A, wf_ta A -> ample A -> mild A still -> pliant (clockSize A) A.
Proof.
  intros A W R M. exists (fun _ v => forall x, x < clockSize A -> (0 <= v x /\ v x < 1)%Q). split.
  - intros p v _ H x L. specialize (H x L). lra.
  - intros p c e q v H He Et. destruct (small_time v (clockSize A)) as (d & Pd & Hd); [intros x L; apply (H x L)|]. exists d. split; auto.
    destruct (M p c e q He Et) as [_ [D|Mg]]; [unfold still in D; lia|]. pose proof (R p c e He) as Rg. destruct (wf_is_edge _ _ _ _ W He) as (_ & WR & WG).
    rewrite Forall_forall in Mg, Rg, WG. split.
    + intros g Hg. specialize (Mg g Hg). specialize (Rg g Hg). specialize (WG g Hg). specialize (Hd _ WG). pose proof (H _ WG) as [H0 H1]. unfold delay, holds, isupper, mildc in *.
      destruct (codr g) eqn:C.
      * assert (L : (inject_Z 1 <= inject_Z (cc g))%Q) by (rewrite <- Zle_Qle; auto). change (inject_Z 1) with 1%Q in L. lra.
      * assert (L : (inject_Z 1 <= inject_Z (cc g))%Q) by (rewrite <- Zle_Qle; auto). change (inject_Z 1) with 1%Q in L. lra.
      * assert (L : (inject_Z (cc g) <= inject_Z 0)%Q) by (rewrite <- Zle_Qle; destruct Mg as [X|[X|X]]; auto; discriminate). change (inject_Z 0) with 0%Q in L. lra.
      * assert (L : (inject_Z (cc g) <= inject_Z 0)%Q) by (rewrite <- Zle_Qle; destruct Mg as [X|[X|X]]; auto; discriminate). change (inject_Z 0) with 0%Q in L. lra.
    + intros x L. unfold reset_set, delay. specialize (Hd x L). specialize (H x L). destruct (in_dec _ _ _); lra.
Qed.

(* ---------------- merging and reducing ---------------- *)

Section Norm.
  Variables (al : nat -> ptr) (n0 n1 : nat) (A : ta).
  Hypothesis T : tinv al n0 n1 A.
  Let N := wf_nodup _ (ti_wf _ _ _ _ T).

  Lemma merge_ample : ample A -> ample (merge A).
  Proof.
    intros R p c e' He'. destruct (terminals A) as [|f rest] eqn:ET; [unfold merge in He'; rewrite ET in He'; exact (R p c e' He')|].
    pose proof (proj1 (merge_edge al n0 n1 A f rest T ET p c e') He') as (e & q & He & _ & Ee). rewrite Ee. cbn [eguard]. exact (R p c e He).
  Qed.
  Lemma merge_pliant : forall k, pliant k A -> pliant k (merge A).
  Proof.
    intros k PL. destruct (terminals A) as [|f rest] eqn:ET; [unfold merge; rewrite ET; auto|]. destruct PL as (G & GI & GS).
    pose proof (tb_spec al n0 n1 A f rest T ET) as TB.
    assert (RF : forall q, (accepting A (rho (tb f rest) f q)) \/ rho (tb f rest) f q = q).
    { intros q. unfold rho. destruct (tb f rest q) eqn:X; auto. left. apply TB. unfold tb. apply mem_In. left. auto. }
    exists (fun p v => accepting A p \/ G p v). split.
    - intros p v Hp Hv. apply (merge_inits al n0 n1 A f rest T ET) in Hp as (q & Hq & ->). destruct (RF q) as [X| ->]; auto.
    - intros p c e' q' v Hv He Et. apply (merge_edge al n0 n1 A f rest T ET) in He as (e & q & He & Eq & ->). cbn [etgt eguard eresets] in *. injection Et as <-.
      destruct Hv as [Hv|Hv]; [destruct (edge_not_acc _ _ _ _ _ _ _ T He Hv)|]. destruct (GS _ _ _ _ _ Hv He Eq) as (d & H1 & H2 & H3). exists d. split; auto. split; auto.
      destruct (RF q) as [X| ->]; auto.
  Qed.

  Lemma merge_exits : forall o rk, (exists p, accepting A p) -> exits o A rk -> exits o (merge A) (norm A rk).
  Proof.
    intros o rk (a & Ha) C. destruct (terminals A) as [|f rest] eqn:ET.
    { exfalso. assert (X : In a (terminals A)); [|rewrite ET in X; destruct X]. apply terminals_in. destruct Ha as (s & Hs & Ms). exists s. split; auto. split; auto. apply (ti_acc _ _ _ _ T _ _ Hs Ms). }
    pose proof (tb_spec al n0 n1 A f rest T ET) as TB. assert (Af : accepting A f) by (apply TB; unfold tb; apply mem_In; left; auto).
    assert (Rf : forall q, (accepting A q /\ rho (tb f rest) f q = f) \/ (~ accepting A q /\ rho (tb f rest) f q = q)).
    { intros q. unfold rho. destruct (tb f rest q) eqn:X; [left|right]; split; auto; [apply TB; auto|]. intros Y. apply TB in Y. congruence. }
    assert (AM : forall q, accepting (merge A) q <-> accepting A q /\ q = rho (tb f rest) f q) by apply (merge_accepting al n0 n1 A f rest T ET).
    assert (Afm : accepting (merge A) f). { apply AM. split; auto. destruct (Rf f) as [[_ X]|[X _]]; auto; contradiction. }
    assert (U1 : forall q, useful (merge A) q -> useful A q).
    { intros q U. induction U as [p Ap|p c e' q He Et U IH]; [apply us_here; apply AM in Ap as [Ap _]; auto|].
      apply (merge_edge al n0 n1 A f rest T ET) in He as (e & q0 & He & Eq & ->). cbn [etgt] in Et. injection Et as <-. eapply us_step; [exact He|exact Eq|].
      destruct (Rf q0) as [[X _]|[_ X]]; [apply us_here; auto|]. rewrite X in IH. auto. }
    assert (U2 : forall q, useful A q -> useful (merge A) (rho (tb f rest) f q)).
    { intros q U. induction U as [p Ap|p c e q He Et U IH].
      - destruct (Rf p) as [[_ X]|[X _]]; [|contradiction]. rewrite X. apply us_here. auto.
      - pose proof (edge_not_acc _ _ _ _ _ _ _ T He) as NA. destruct (Rf p) as [[X _]|[_ X]]; [contradiction|]. rewrite X.
        eapply us_step; [apply (merge_edge al n0 n1 A f rest T ET); exists e, q; split; [exact He|split; [exact Et|reflexivity]]|reflexivity|exact IH]. }
    intros p s' c es' E1' e' E2' q' Hs' Hes' Ees' Et' Uq'.
    apply (merge_states A f rest ET) in Hs' as (s & Hs & _ & ->). cbn [merged_state next] in Hes'. apply in_map_next in Hes' as (es & Hes & Em).
    rewrite Ees' in Em. symmetry in Em. apply map_split in Em as (E1 & e & E2 & Ees & EE1 & Ee & EE2).
    assert (Ie : In e es) by (rewrite Ees; apply in_elt). destruct (ti_tgt _ _ _ _ T p c e) as (q & Et); [exists s, es; auto|]. pose proof (src al n0 n1 A T p s c es e Hs Hes Ie) as NAp.
    rewrite (redirect_some f rest e q Et) in Ee. subst e'. cbn [etgt] in Et'. injection Et' as <-. rewrite (norm_out al n0 n1 A T rk p NAp).
    destruct (Rf q) as [[Aq RQ]|[Aq RQ]]; rewrite RQ in *; [left; rewrite (norm_acc A rk f N Af); lia|]. rewrite (norm_out al n0 n1 A T rk q Aq).
    destruct (C p s c es E1 e E2 q Hs Hes Ees Et (U1 q Uq')) as [L|[(-> & Q)|[(e2 & q2 & I2 & Et2 & V2 & N2)|(O & e1 & q1 & I1 & Et1 & A1)]]].
    - left. lia.
    - right. left. auto.
    - right. right. left. exists (redirect (f :: rest) f e2), (rho (tb f rest) f q2). split; [rewrite <- EE2; apply in_map; auto|].
      split; [rewrite (redirect_some f rest e2 q2 Et2); auto|]. split; auto. destruct (Rf q2) as [[_ ->]|[_ ->]]; auto. intros ->. contradiction.
    - right. right. right. split; auto. exists (redirect (f :: rest) f e1), (rho (tb f rest) f q1). split.
      + apply (in_map (redirect (f :: rest) f)) in I1. rewrite Ees, map_app in I1. cbn [map] in I1. rewrite EE1, EE2, (redirect_some f rest e q Et), RQ in I1. rewrite Ees'. exact I1.
      + split; [rewrite (redirect_some f rest e1 q1 Et1); auto|]. destruct (Rf q1) as [[_ ->]|[X _]]; [auto|contradiction].
  Qed.
End Norm.

Lemma cut_exits : forall o A rk, NoDup (map fst (states A)) -> exits o A rk -> exits o (removeStuckStates A) rk.
Proof.
  intros o A rk N C.
  assert (U1 : forall q, useful (removeStuckStates A) q -> useful A q).
  { intros q U. induction U as [p Ap|p c e q He Et U IH]; [apply us_here; apply (cut_accepting A p N); auto|]. apply cut_edge in He as (He & _). eapply us_step; eauto. }
  assert (US : forall q, useful A q -> ~ In q (stuck A)).
  { intros q U X. apply stuck_in in X as (s & Hs & Ms & Nx). destruct U as [p Ap|p c e q He Et U].
    - apply (accepting_state A p s N Hs) in Ap. congruence.
    - destruct He as (s2 & es & H2 & H3 & _). rewrite <- (NoDup_fst_inj _ _ _ _ N Hs H2), Nx in H3. destruct H3. }
  assert (UT : forall e q, etgt e = Some q -> useful A q -> tgt_in (stuck A) e = false).
  { intros e q Et U. apply not_true_iff_false. intros X. apply (tgt_in_spec _ _ _ Et) in X. exact (US q U X). }
  assert (U2 : forall q, useful A q -> useful (removeStuckStates A) q).
  { intros q U. induction U as [p Ap|p c e q He Et U IH]; [apply us_here; apply (cut_accepting A p N); auto|].
    eapply us_step; [apply cut_edge; split; [exact He|split; [apply US; eapply us_step; eauto|eapply UT; eauto]]|exact Et|exact IH]. }
  intros p s' c es' E1' e E2' q Hs' Hes' Ees' Et Uq.
  apply cut_states in Hs' as (s & Hs & _ & ->). cbn [next] in Hes'. unfold cut_next in Hes'. apply filter_In in Hes' as [Hes' _].
  apply in_map_next in Hes' as (es & Hes & Em). rewrite Ees' in Em. symmetry in Em. apply filter_split in Em as (E1 & E2 & Ees & F1 & F2 & _).
  destruct (C p s c es E1 e E2 q Hs Hes Ees Et (U1 q Uq)) as [L|[L|[(e2 & q2 & I2 & Et2 & V2 & N2)|(O & e1 & q1 & I1 & Et1 & A1)]]]; auto.
  - right. right. left. exists e2, q2. split; [rewrite <- F2; apply filter_In; split; auto; rewrite (UT e2 q2 Et2 V2); auto|auto].
  - right. right. right. split; auto. exists e1, q1. split; [|split; auto; apply (cut_accepting A q1 N); auto].
    assert (K1 : negb (tgt_in (stuck A) e1) = true) by (rewrite (UT e1 q1 Et1 (us_here _ _ A1)); auto).
    rewrite Ees', <- F1, <- F2. rewrite Ees in I1. apply in_app_or in I1 as [I1|[I1|I1]]; apply in_or_app; [left|right; left; auto|right; right]; apply filter_In; auto.
Qed.
Lemma reduce_exits : forall o A B rk, wf_ta A -> exits o A rk -> reduceStates A = Ok B -> exits o B rk.
Proof.
  intros o A B rk. unfold reduceStates. generalize (S (length (states A))). intros n. revert A. induction n as [|n IH]; intros A W C E; [discriminate|].
  cbn [reduce_loop] in E. assert (C' : exits o (removeStuckStates A) rk) by (apply cut_exits; auto; apply (wf_nodup _ W)). destruct (_ =? _).
  - injection E as <-. auto.
  - apply (IH (removeStuckStates A)); auto. apply cut_wf; auto.
Qed.

Record springy (r : tre) (A : ta) : Prop := mkSp {
  sp_ample : ample A;
  sp_pliant : supple r -> pliant (nclocks r) A;
  sp_exits : forall o : Prop, o -> tidy r -> exists rk, exits o A rk
}.

Lemma reduce_tools : forall al n0 n1 A B, tinv al n0 n1 A -> reduceStates (merge A) = Ok B -> wf_ta (merge A) /\ reduced (merge A) B.
Proof.
  intros al n0 n1 A B T E.
  assert (TM : wf_ta (merge A)).
  { destruct (terminals A) as [|f rest] eqn:ET; [unfold merge; rewrite ET; apply (ti_wf _ _ _ _ T)|]. apply (ti_wf _ _ _ _ (merge_tinv1 al n0 n1 A f rest T ET)). }
  split; auto. destruct (reduceStates_ok (merge A) TM) as (B' & E' & R & _). rewrite E' in E. injection E as ->. auto.
Qed.
Lemma post_exits : forall al n0 n1 o A B rk, tinv al n0 n1 A -> (exists p, accepting A p) -> exits o A rk -> reduceStates (merge A) = Ok B -> exits o B (norm A rk).
Proof.
  intros al n0 n1 o A B rk T Ha X E. destruct (reduce_tools al n0 n1 A B T E) as [TM _]. eapply reduce_exits; eauto. eapply merge_exits; eauto.
Qed.
Lemma post_pliant : forall al n0 n1 k A B, tinv al n0 n1 A -> pliant k A -> reduceStates (merge A) = Ok B -> pliant k B.
Proof.
  intros al n0 n1 k A B T P E. destruct (reduce_tools al n0 n1 A B T E) as [_ R]. destruct (merge_pliant al n0 n1 A T k P) as (G & GI & GS). exists G.
  destruct (reduce_inits _ _ E) as (h & EI). split.
  - intros p v Hp. rewrite EI in Hp. apply filter_In in Hp as [Hp _]. auto.
  - intros p c e q v Hv He. apply (rd_edge _ _ R) in He. eauto.
Qed.
Lemma springy_post : forall al n0 n1 r A B, tinv al n0 n1 A -> (exists p, accepting A p) -> springy r A -> reduceStates (merge A) = Ok B -> springy r B.
Proof.
  intros al n0 n1 r A B T Ha [SR SP SE] E. destruct (reduce_tools al n0 n1 A B T E) as [TM R]. constructor.
  - intros p c e H. apply (rd_edge _ _ R) in H. eapply merge_ample; eauto.
  - intros H. eapply post_pliant; eauto.
  - intros o O H. destruct (SE o O H) as (rk & X). exists (norm A rk). eapply post_exits; eauto.
Qed.

(* ---------------- atoms ---------------- *)

Lemma atom_exits : forall al n c o, injective al -> exits o (atomTA al c n) (fun p => if p =? al n then 1 else 0).
Proof.
  intros al n c o Inj p s c' es E1 e E2 q Hs Hes Ees Et _. assert (H : is_edge (atomTA al c n) p c' e) by (exists s, es; split; auto; split; auto; rewrite Ees; apply in_elt).
  apply (atom_edge al n Inj) in H as (-> & _ & ->). cbn in Et. injection Et as <-. left. rewrite Nat.eqb_refl. destruct (Nat.eqb_spec (al (S n)) (al n)) as [X|X]; [|auto].
  apply Inj in X. lia.
Qed.
Lemma free_pliant : forall k A, (forall p c e, is_edge A p c e -> eguard e = []) -> pliant k A.
Proof. intros k A H. exists (fun _ _ => True). split; auto. intros p c e q v _ He _. exists 1%Q. rewrite (H _ _ _ He). split; [lra|]. split; auto. intros g []. Qed.
Lemma springy_atom : forall al n c, injective al -> springy (Atom c) (atomTA al c n).
Proof.
  intros al n c Inj. constructor.
  - intros p c' e H. apply (atom_edge al n Inj) in H as (_ & _ & ->). constructor.
  - intros _. apply free_pliant. intros p c' e H. apply (atom_edge al n Inj) in H as (_ & _ & ->). auto.
  - intros o _ _. eexists. apply atom_exits. auto.
Qed.
Lemma springy_eps : forall al n, springy Eps (epsTA al n).
Proof.
  intros al n. constructor.
  - intros p c e H. destruct (eps_edge al n _ _ _ H).
  - intros _. apply free_pliant. intros p c e H. destruct (eps_edge al n _ _ _ H).
  - intros o _ _. exists (fun _ => 0). intros p s c es E1 e E2 q [H|[]] Hc. injection H as _ <-. destruct Hc.
Qed.

(* ---------------- Kleene plus ---------------- *)

Lemma iota_zero : forall v l k x, k <= 256 -> x < k -> (reset_set v (l ++ iota k) x == 0)%Q.
Proof.
  intros v l k x K L. unfold reset_set. destruct (in_dec _ _ _) as [|N]; [reflexivity|]. destruct N. apply in_or_app. right. rewrite (iota_id k K). apply in_seq. lia.
Qed.

Lemma springy_plus : forall al n0 n1 r A, built al r n0 n1 A -> nclocks r <= 256 -> springy r A -> springy (Plus r) (plusTA A).
Proof.
  intros al n0 n1 r A B K [SR SP SE]. pose proof (bu_inv _ _ _ _ _ B) as T. pose proof (wf_nodup _ (ti_wf _ _ _ _ T)) as N. pose proof (bu_clocks _ _ _ _ _ B) as EK. constructor.
  - intros p c e H. apply (plus_edge al n0 n1 A T) in H as [H|(e1 & q & i & H & _ & _ & _ & _ & _ & ->)]; [eauto|cbn; eauto].
  - intros H. cbn [supple nclocks] in *. destruct (SP H) as (G & GI & GS). exists G. split; auto.
    intros p c e q v Hv He Et. apply (plus_edge al n0 n1 A T) in He as [He|(e1 & q1 & i & He & Et1 & _ & _ & Hi & _ & ->)]; [eauto|].
    cbn [etgt eguard eresets] in *. injection Et as <-. destruct (GS _ _ _ _ _ Hv He Et1) as (d & H1 & H2 & H3). exists d. split; auto. split; auto. apply GI; auto.
    intros x L. apply iota_zero; lia.
  - intros o O H. cbn [tidy] in H. destruct (SE True Logic.I H) as (rk & C). exists rk.
    assert (U1 : forall q, useful (plusTA A) q -> useful A q).
    { intros q U. induction U as [p Ap|p c e q He Et U IH]; [apply us_here; apply plus_accepting; auto|].
      apply (plus_edge al n0 n1 A T) in He as [He|(e1 & q1 & i & He & Et1 & Aq & _)]; [eapply us_step; eauto|]. eapply us_step; [exact He|exact Et1|apply us_here; auto]. }
    assert (U2 : forall q, useful A q -> useful (plusTA A) q).
    { intros q U. induction U as [p Ap|p c e q He Et U IH]; [apply us_here; apply plus_accepting; auto|].
      eapply us_step; [apply (plus_edge al n0 n1 A T); left; exact He|exact Et|exact IH]. }
    intros p s' c es' E1' e E2' q Hs' Hes' Ees' Et Uq. apply plus_state in Hs' as (s & Hs & ->). cbn [next] in Hes'. apply in_map_next in Hes' as (es & Hes & ->).
    unfold plus_edges in *. destruct (app_split _ _ _ _ _ Ees') as [(E2 & Ees & ->)|(p2 & _ & XE)].
    + destruct (C p s c es E1' e E2 q Hs Hes Ees Et (U1 q Uq)) as [L|[L|[(e2 & q2 & I2 & Et2 & V2 & N2)|(_ & e1 & q1 & I1 & Et1 & A1)]]]; auto.
      * right. right. left. exists e2, q2. split; [apply in_or_app; auto|auto].
      * right. right. right. split; auto. exists e1, q1. split; [apply in_or_app; auto|]. split; auto. apply plus_accepting. auto.
    + right. right. right. split; auto. assert (Ie : In e (p2 ++ e :: E2')) by apply in_elt. rewrite <- XE in Ie. apply in_flat_map in Ie as (e1 & I1 & Ie).
      destruct (acc_tgt A e1 && negb (zero_tgt A e1)) eqn:Ac; [|destruct Ie]. apply andb_true_iff in Ac as [Ac _].
      destruct (ti_tgt _ _ _ _ T p c e1) as (q1 & Eq1); [exists s, es; auto|]. apply (acc_tgt_spec A e1 q1 N Eq1) in Ac.
      exists e1, q1. split; [apply in_or_app; auto|]. split; auto. apply plus_accepting. auto.
Qed.

(* ---------------- two automata ---------------- *)

Section Two.
  Variables (al : nat -> ptr) (n0 n1 n2 : nat) (r1 r2 : tre) (A B : ta).
  Hypothesis Inj : injective al.
  Hypothesis B1 : built al r1 n0 n1 A.
  Hypothesis B2 : built al r2 n1 n2 B.
  Let T1 := bu_inv _ _ _ _ _ B1.
  Let T2 := bu_inv _ _ _ _ _ B2.
  Let W1 := ti_wf _ _ _ _ T1.
  Let W2 := ti_wf _ _ _ _ T2.
  Notation apart := (apart al n0 n1 n2 r1 r2 A B Inj B1 B2).
  Notation edgeA := (edgeA al n0 n1 r1 A B1).
  Notation edgeB := (edgeB al n1 n2 r2 B B2).
  Notation beside_B := (beside_B al n0 n1 n2 r1 r2 A B Inj B1 B2).
  Notation beside_A := (beside_A A).

  (* the clock values of the one or of the other *)
  Definition either (GA GB : ptr -> valuation -> Prop) (p : ptr) (v : valuation) : Prop :=
    (In p (map fst (states A)) /\ GA p v) \/ (In p (map fst (states B)) /\ GB p v).

  Lemma alt_pliant : pliant (nclocks r1) A -> pliant (nclocks r2) B -> pliant (nclocks (Alt r1 r2)) (altTA A B).
  Proof.
    intros (GA & AI & AS) (GB & BI & BS). exists (either GA GB). split.
    - intros p v Hp Hv. cbn [nclocks] in Hv. cbn [altTA inits] in Hp. apply in_app_or in Hp as [Hp|Hp]; [left|right]; (split; [apply (wf_inits _ W1) || apply (wf_inits _ W2); auto|]);
        [apply AI|apply BI]; auto; intros x L; apply Hv; lia.
    - intros p c e q v Hv He Et. apply alt_edge in He as [He|He].
      + destruct (edgeA _ _ _ _ He Et) as [Kp Kq]. destruct Hv as [[_ Hv]|[Kb _]]; [|destruct (apart p Kp Kb)]. destruct (AS _ _ _ _ _ Hv He Et) as (d & H1 & H2 & H3).
        exists d. split; auto. split; auto. left. auto.
      + destruct (edgeB _ _ _ _ He Et) as [Kp Kq]. destruct Hv as [[Ka _]|[_ Hv]]; [destruct (apart p Ka Kp)|]. destruct (BS _ _ _ _ _ Hv He Et) as (d & H1 & H2 & H3).
        exists d. split; auto. split; auto. right. auto.
  Qed.

  Lemma alt_exits : forall o ra rb, exits o A ra -> exits o B rb -> exits o (altTA A B) (beside A 0 ra rb).
  Proof.
    intros o ra rb Ca Cb.
    assert (UA : forall q, In q (map fst (states A)) -> useful (altTA A B) q -> useful A q).
    { intros q Kq U. revert Kq. induction U as [p Ap|p c e q He Et U IH]; intros Kp.
      - apply us_here. apply alt_accepting in Ap as [Ap|Ap]; auto. destruct (apart p Kp (accepting_in _ _ Ap)).
      - apply alt_edge in He as [He|He]; [|destruct (apart p Kp (edge_source _ _ _ _ He))]. destruct (edgeA _ _ _ _ He Et) as [_ Kq]. eapply us_step; eauto. }
    assert (UB : forall q, In q (map fst (states B)) -> useful (altTA A B) q -> useful B q).
    { intros q Kq U. revert Kq. induction U as [p Ap|p c e q He Et U IH]; intros Kp.
      - apply us_here. apply alt_accepting in Ap as [Ap|Ap]; auto. destruct (apart p (accepting_in _ _ Ap) Kp).
      - apply alt_edge in He as [He|He]; [destruct (apart p (edge_source _ _ _ _ He) Kp)|]. destruct (edgeB _ _ _ _ He Et) as [_ Kq]. eapply us_step; eauto. }
    assert (VA : forall q, useful A q -> useful (altTA A B) q).
    { intros q U. induction U as [p Ap|p c e q He Et U IH]; [apply us_here; apply alt_accepting; auto|]. eapply us_step; [apply alt_edge; left; exact He|exact Et|exact IH]. }
    assert (VB : forall q, useful B q -> useful (altTA A B) q).
    { intros q U. induction U as [p Ap|p c e q He Et U IH]; [apply us_here; apply alt_accepting; auto|]. eapply us_step; [apply alt_edge; right; exact He|exact Et|exact IH]. }
    intros p s c es E1 e E2 q Hs Hes Ees Et Uq. cbn [altTA states] in Hs. apply in_app_or in Hs as [Hs|Hs].
    - assert (He : is_edge A p c e) by (exists s, es; split; auto; split; auto; eapply split_in; eauto). destruct (edgeA _ _ _ _ He Et) as [Kp Kq]. rewrite !beside_A by auto.
      destruct (Ca p s c es E1 e E2 q Hs Hes Ees Et (UA q Kq Uq)) as [L|[L|[(e2 & q2 & I2 & Et2 & V2 & N2)|(O & e1 & q1 & I1 & Et1 & A1)]]]; auto.
      + right. right. left. exists e2, q2. auto.
      + right. right. right. split; auto. exists e1, q1. split; auto. split; auto. apply alt_accepting. auto.
    - assert (He : is_edge B p c e) by (exists s, es; split; auto; split; auto; eapply split_in; eauto). destruct (edgeB _ _ _ _ He Et) as [Kp Kq]. rewrite !beside_B by auto.
      destruct (Cb p s c es E1 e E2 q Hs Hes Ees Et (UB q Kq Uq)) as [L|[L|[(e2 & q2 & I2 & Et2 & V2 & N2)|(O & e1 & q1 & I1 & Et1 & A1)]]]; auto.
      + right. right. left. exists e2, q2. auto.
      + right. right. right. split; auto. exists e1, q1. split; auto. split; auto. apply alt_accepting. auto.
  Qed.

  Notation catE := (catE al n0 n1 r1 A B B1).

  Lemma cat_pliant : nclocks r2 <= 256 -> pliant (nclocks r1) A -> pliant (nclocks r2) B -> pliant (nclocks (Cat r1 r2)) (concat2 A B).
  Proof.
    intros K2 (GA & AI & AS) (GB & BI & BS). pose proof (bu_clocks _ _ _ _ _ B2) as EK. exists (either GA GB). split.
    - intros p v Hp Hv. cbn [nclocks] in Hv. apply (cat_inits al n0 n1 A B T1) in Hp as [Hp|[_ Hp]]; [left|right]; (split; [apply (wf_inits _ W1) || apply (wf_inits _ W2); auto|]);
        [apply AI|apply BI]; auto; intros x L; apply Hv; lia.
    - intros p c e q v Hv He Et. apply catE in He as [He|[He|(e1 & q1 & i & He & Et1 & _ & Hi & ->)]].
      + destruct (edgeA _ _ _ _ He Et) as [Kp Kq]. destruct Hv as [[_ Hv]|[Kb _]]; [|destruct (apart p Kp Kb)]. destruct (AS _ _ _ _ _ Hv He Et) as (d & H1 & H2 & H3).
        exists d. split; auto. split; auto. left. auto.
      + destruct (edgeB _ _ _ _ He Et) as [Kp Kq]. destruct Hv as [[Ka _]|[_ Hv]]; [destruct (apart p Ka Kp)|]. destruct (BS _ _ _ _ _ Hv He Et) as (d & H1 & H2 & H3).
        exists d. split; auto. split; auto. right. auto.
      + cbn [etgt eguard eresets] in *. injection Et as <-. destruct (edgeA _ _ _ _ He Et1) as [Kp _]. destruct Hv as [[_ Hv]|[Kb _]]; [|destruct (apart p Kp Kb)].
        destruct (AS _ _ _ _ _ Hv He Et1) as (d & H1 & H2 & H3). exists d. split; auto. split; auto. right. split; [apply (wf_inits _ W2); auto|]. apply BI; auto.
        intros x L. apply (iota_zero (delay v d) [] (clockSize B)); lia.
  Qed.

  Lemma cat_exits : forall o ra rb, exits True A ra -> exits o B rb -> exits o (concat2 A B) (beside A (S (list_max (map rb (map fst (states B))))) ra rb).
  Proof.
    intros o ra rb Ca Cb. set (h := S (list_max (map rb (map fst (states B))))).
    assert (CA : forall x, accepting (concat2 A B) x <-> accepting B x) by apply (cat_accepting A B).
    assert (LB : forall i x, In i (inits B) -> In x (map fst (states A)) -> beside A h ra rb i < beside A h ra rb x).
    { intros i x Hi Kx. pose proof (wf_inits _ W2 _ Hi) as Ki. rewrite (beside_A _ _ _ x Kx), (beside_B _ _ _ i Ki).
      pose proof (proj1 (list_max_le (map rb (map fst (states B))) _) (le_n _)) as F. rewrite Forall_forall in F. specialize (F (rb i) (in_map _ _ _ Ki)). unfold h. lia. }
    assert (UB : forall q, In q (map fst (states B)) -> useful (concat2 A B) q -> useful B q).
    { intros q Kq U. revert Kq. induction U as [p Ap|p c e q He Et U IH]; intros Kp.
      - apply us_here. apply CA. auto.
      - apply catE in He as [He|[He|(e1 & q1 & i & He & _)]]; try (destruct (apart p (edge_source _ _ _ _ He) Kp)). destruct (edgeB _ _ _ _ He Et) as [_ Kq]. eapply us_step; eauto. }
    assert (VB : forall q, useful B q -> useful (concat2 A B) q).
    { intros q U. induction U as [p Ap|p c e q He Et U IH]; [apply us_here; apply CA; auto|]. eapply us_step; [apply catE; right; left; exact He|exact Et|exact IH]. }
    assert (UA : forall q, In q (map fst (states A)) -> useful (concat2 A B) q -> useful A q /\ exists i, In i (inits B) /\ useful B i).
    { intros q Kq U. revert Kq. induction U as [p Ap|p c e q He Et U IH]; intros Kp.
      - apply CA in Ap. destruct (apart p Kp (accepting_in _ _ Ap)).
      - apply catE in He as [He|[He|(e1 & q1 & i & He & Et1 & Aq & Hi & ->)]]; [|destruct (apart p Kp (edge_source _ _ _ _ He))|].
        + destruct (edgeA _ _ _ _ He Et) as [_ Kq]. destruct (IH Kq) as (V & I). split; auto. eapply us_step; eauto.
        + cbn [etgt] in Et. injection Et as <-. split; [eapply us_step; [exact He|exact Et1|apply us_here; auto]|]. exists i. split; auto. apply UB; auto. apply (wf_inits _ W2); auto. }
    assert (VA : forall q, useful A q -> ~ accepting A q -> forall i, In i (inits B) -> useful B i -> useful (concat2 A B) q).
    { intros q U. induction U as [p Ap|p c e q He Et U IH]; intros NA i Hi Ui; [contradiction|]. destruct (acc_dec al n0 n1 A T1 q) as [Aq|Aq].
      - eapply us_step; [apply catE; right; right; exists e, q, i; split; [exact He|split; [exact Et|split; [exact Aq|split; [exact Hi|reflexivity]]]]|reflexivity|apply VB; auto].
      - eapply us_step; [apply catE; left; exact He|exact Et|eapply IH; eauto]. }
    intros p s' c es' E1' e E2' q Hs' Hes' Ees' Et Uq. apply cat_state in Hs' as [(s & Hs & ->)|(s & Hs & ->)].
    - cbn [left_state next] in Hes'. apply in_map_next in Hes' as (es & Hes & ->).
      pose proof (in_map fst _ _ Hs) as Kp. cbn [fst] in Kp. unfold cat_edges in *. destruct (app_split _ _ _ _ _ Ees') as [(E2 & Ees & ->)|(p2 & _ & XE)].
      + assert (Ie : In e es) by (eapply split_in; eauto). assert (He : is_edge A p c e) by (exists s, es; auto). destruct (edgeA _ _ _ _ He Et) as [_ Kq].
        destruct (UA q Kq Uq) as (Va & i & Hi & Ui). rewrite !beside_A by auto.
        assert (JU : forall e1 q1, In e1 es -> etgt e1 = Some q1 -> accepting A q1 -> exists e2 q2,
          In e2 (E2 ++ flat_map (fun e => if acc_tgt A e then map (fun i => mkE (Some i) (iota (clockSize B)) (eguard e)) (inits B) else []) es) /\ etgt e2 = Some q2 /\ useful (concat2 A B) q2 /\ q2 <> p).
        { intros e1 q1 I1 Et1 A1. exists (mkE (Some i) (iota (clockSize B)) (eguard e1)), i. split; [|split; [auto|split; [auto|]]].
          - apply in_or_app. right. apply in_flat_map. exists e1. split; auto. rewrite (proj2 (acc_tgt_spec A e1 q1 (wf_nodup _ W1) Et1) A1). apply in_map_iff. eauto.
          - intros ->. exact (apart p Kp (wf_inits _ W2 _ Hi)). }
        destruct (Ca p s c es E1' e E2 q Hs Hes Ees Et Va) as [L|[L|[(e2 & q2 & I2 & Et2 & V2 & N2)|(_ & e1 & q1 & I1 & Et1 & A1)]]]; auto; [left; lia| |].
        * right. right. left. destruct (acc_dec al n0 n1 A T1 q2) as [Aq|Aq]; [apply (JU e2 q2); auto; rewrite Ees; apply in_or_app; right; right; auto|].
          exists e2, q2. split; [apply in_or_app; auto|]. split; auto. split; auto. apply (VA q2 V2 Aq i); auto.
        * right. right. left. apply (JU e1 q1); auto.
      + assert (Ie : In e (p2 ++ e :: E2')) by apply in_elt. rewrite <- XE in Ie. apply in_flat_map in Ie as (e1 & I1 & Ie). destruct (acc_tgt A e1); [|destruct Ie].
        apply in_map_iff in Ie as (i & Ee & Hi). subst e. cbn [etgt] in Et. injection Et as <-. left. apply LB; auto.
    - destruct (right_state_same A B p s) as (_ & EN & _). rewrite EN in Hes'. pose proof (in_map fst _ _ Hs) as Kp. cbn [fst] in Kp.
      assert (He : is_edge B p c e) by (exists s, es'; split; auto; split; auto; eapply split_in; eauto). destruct (edgeB _ _ _ _ He Et) as [_ Kq]. rewrite !beside_B by auto.
      destruct (Cb p s c es' E1' e E2' q Hs Hes' Ees' Et (UB q Kq Uq)) as [L|[L|[(e2 & q2 & I2 & Et2 & V2 & N2)|(O & e1 & q1 & I1 & Et1 & A1)]]]; auto.
      + right. right. left. exists e2, q2. auto.
      + right. right. right. split; auto. exists e1, q1. split; auto. split; auto. apply CA. auto.
  Qed.

  Hypothesis K2 : nclocks r2 <= 256.
  Lemma springy_alt : springy r1 A -> springy r2 B -> springy (Alt r1 r2) (altTA A B).
  Proof.
    intros [R1 P1 X1] [R2 P2 X2]. constructor; cbn [supple tidy].
    - intros p c e H. apply alt_edge in H as [H|H]; eauto.
    - intros [H1 H2]. apply alt_pliant; auto.
    - intros o O [H1 H2]. destruct (X1 o O H1) as (ra & Ca), (X2 o O H2) as (rb & Cb). eexists. apply alt_exits; eauto.
  Qed.
  Lemma springy_cat : springy r1 A -> springy r2 B -> springy (Cat r1 r2) (concat2 A B).
  Proof.
    intros [R1 P1 X1] [R2 P2 X2]. constructor; cbn [supple tidy].
    - intros p c e H. apply catE in H as [H|[H|(e1 & q1 & i & H & _ & _ & _ & ->)]]; eauto. cbn. eauto.
    - intros [H1 H2]. apply cat_pliant; auto.
    - intros o O [H1 H2]. destruct (X1 True Logic.I H1) as (ra & Ca), (X2 o O H2) as (rb & Cb). eexists. apply cat_exits; eauto.
  Qed.

  Hypothesis F1 : flag r1 = NoFlag.
  Hypothesis F2 : flag r2 = NoFlag.
  Hypothesis K : nclocks r1 + nclocks r2 <= 256.
  Lemma idle_exits : forall o D rk, idle_loops D rk -> exits o D rk.
  Proof.
    intros o D rk I p s c es E1 e E2 q H1 H2 H3 H4 _. destruct (I p c e q) as [L|(E & G & R)]; auto; [exists s, es; split; auto; split; auto; rewrite H3; apply in_elt|].
    right. left. split; auto. split; auto.
  Qed.
  Lemma springy_and : springy r1 A -> springy r2 B -> calmed r1 A -> calmed r2 B -> leaned r1 A -> leaned r2 B ->
    springy (And r1 r2) (andTA al n2 A B).
  Proof.
    intros [R1 P1 X1] [R2 P2 X2] C1 C2 L1 L2.
    assert (RP : ample (andTA al n2 A B)).
    { intros p c e H. apply (and_edge2 al n0 n1 n2 r1 r2 A B) in H as (p1 & p2 & e1 & t1 & e2 & t2 & _ & H1 & _ & H2 & _ & ->); auto. cbn [prod_edge eguard]. apply Forall_app. split; [eauto|].
      specialize (R2 _ _ _ H2). apply Forall_forall. intros g Hg. apply in_map_iff in Hg as (g0 & <- & Hg). rewrite Forall_forall in R2. apply (R2 g0 Hg). }
    constructor; cbn [supple tidy]; auto.
    - intros [H1 H2]. assert (EK : nclocks (And r1 r2) = clockSize (andTA al n2 A B)).
      { cbn [nclocks]. unfold clockSize, andTA, intersectionTA. cbn [maxC]. rewrite app_length. fold (clockSize A) (clockSize B). rewrite (bu_clocks _ _ _ _ _ B1), (bu_clocks _ _ _ _ _ B2). auto. }
      rewrite EK. apply slow_pliant; auto.
      + pose proof (bu_flg _ _ _ _ _ B1) as G1. rewrite F1 in G1. pose proof (bu_flg _ _ _ _ _ B2) as G2. rewrite F2 in G2.
        eapply ti_wf, (and_tinv al n0 n1 n2 A B); eauto using bu_inv, bu_le, bu_free. rewrite (bu_clocks _ _ _ _ _ B1), (bu_clocks _ _ _ _ _ B2). auto.
      + apply (ca_slow (And r1 r2)); [|cbn; auto]. apply (calmed_and al n0 n1 n2 r1 r2); auto.
    - intros o O [H1 H2]. destruct (le_idle _ _ L1 H1) as (ra & M1), (le_idle _ _ L2 H2) as (rb & M2).
      destruct (and_idle al n0 n1 n2 r1 r2 A B Inj B1 B2 K ra rb M1 M2) as (rk & M). exists rk. apply idle_exits. auto.
  Qed.
End Two.

(* ---------------- restriction ---------------- *)

Lemma springy_within : forall al n0 n1 r A Iv lo up, built al r n0 n1 A -> calmed r A -> fst (lob Iv) = Fin (inject_Z lo) -> fst (upb Iv) = Fin (inject_Z up) -> (1 <= up)%Z -> nclocks r < 256 ->
  springy r A -> springy (Within r Iv) (wTA A Iv lo up).
Proof.
  intros al n0 n1 r A Iv lo up B Ca El Eu Lu K [SR SP SE]. pose proof (bu_inv _ _ _ _ _ B) as T. pose proof (wf_nodup _ (ti_wf _ _ _ _ T)) as N.
  pose proof (bu_clocks _ _ _ _ _ B) as EK.
  assert (RW : ample (wTA A Iv lo up)).
  { intros p c e' H. apply (w_edge al n0 n1 A Iv lo up T) in H as (e & q & H & _ & ->). cbn [eguard]. specialize (SR _ _ _ H). destruct (match_at A q); auto. apply Forall_app. split; auto.
    unfold within_guard. constructor; [|constructor; [|constructor]]; unfold isupper; cbn [codr cc]; auto. destruct (snd (lob Iv)); intros [X|X]; discriminate. }
  constructor; cbn [tidy]; auto.
  - intros [H|[H0 (t & Pt & It)]].
    + assert (EW : nclocks (Within r Iv) = clockSize (wTA A Iv lo up)) by (rewrite w_clocks; cbn; lia). rewrite EW. apply slow_pliant; auto.
      * eapply ti_wf, w_tinv; eauto; lia.
      * apply (ca_slow (Within r Iv)); auto. eapply calmed_within; eauto.
    + rewrite H0 in EK. assert (Q0 : forall p c e, is_edge A p c e -> quiet e) by (intros p c e H; apply (no_clock_quiet A p c); auto; apply (ti_wf _ _ _ _ T)).
      exists (fun p v => accepting A p \/ (v 0%nat < t)%Q). split.
      * intros p v Hp Hv. right. rewrite (Hv 0); [auto|cbn; lia].
      * intros p c e' q' v Hv He Et. apply (w_edge al n0 n1 A Iv lo up T) in He as (e & q & He & Eq & ->). cbn [etgt eguard eresets] in *. injection Et as <-.
        destruct Hv as [Hv|Hv]; [destruct (edge_not_acc _ _ _ _ _ _ _ T He Hv)|]. destruct (Q0 _ _ _ He) as [Q1 Q2]. rewrite Q1, Q2.
        destruct (match_at A q) eqn:X.
        -- exists (t - v 0%nat)%Q. split; [lra|]. split; [|left; apply (match_at_spec A q N); auto]. cbn [app]. intros g Hg.
           assert (Cg : cx g = 0) by (rewrite EK in Hg; destruct Hg as [<-|[<-|[]]]; auto). apply (proj1 (within_guard_iin (clockSize A) Iv lo up t El Eu)) in It. specialize (It g Hg).
           unfold delay. rewrite Cg. unfold holds in *. destruct (codr g); lra.
        -- exists ((t - v 0%nat) / 2)%Q. assert (P2 : (0 < (t - v 0%nat) / 2)%Q) by (apply Qlt_shift_div_l; lra). assert (E2 : ((t - v 0%nat) / 2 + (t - v 0%nat) / 2 == t - v 0%nat)%Q) by field.
           split; auto. split; [intros g []|]. right. unfold reset_set, delay. cbn. lra.
  - intros o O H. destruct (SE o O H) as (rk & C). exists rk.
    assert (CA : forall x, accepting (wTA A Iv lo up) x <-> accepting A x) by apply (w_accepting A Iv lo up).
    assert (WT : forall e, etgt (wedge A Iv lo up e) = etgt e) by (intros e; unfold wedge; destruct (acc_tgt A e); auto).
    assert (U1 : forall q, useful (wTA A Iv lo up) q -> useful A q).
    { intros q U. induction U as [p Ap|p c e' q He Et U IH]; [apply us_here; apply CA; auto|]. apply (w_edge al n0 n1 A Iv lo up T) in He as (e & q0 & He & Eq & ->).
      cbn [etgt] in Et. injection Et as <-. eapply us_step; eauto. }
    assert (U2 : forall q, useful A q -> useful (wTA A Iv lo up) q).
    { intros q U. induction U as [p Ap|p c e q He Et U IH]; [apply us_here; apply CA; auto|].
      eapply us_step; [apply (w_edge al n0 n1 A Iv lo up T); exists e, q; split; [exact He|split; [exact Et|reflexivity]]|reflexivity|exact IH]. }
    intros p s' c es' E1' e' E2' q Hs' Hes' Ees' Et' Uq. apply w_state in Hs' as (s & Hs & ->). cbn [wstate next] in Hes'. apply in_map_next in Hes' as (es & Hes & Em).
    rewrite Ees' in Em. symmetry in Em. apply map_split in Em as (E1 & e & E2 & Ees & EE1 & Ee & EE2). subst e'. rewrite WT in Et'.
    assert (Ie : In e es) by (eapply split_in; eauto). pose proof (src al n0 n1 A T p s c es e Hs Hes Ie) as NAp.
    destruct (C p s c es E1 e E2 q Hs Hes Ees Et' (U1 q Uq)) as [L|[(-> & Q)|[(e2 & q2 & I2 & Et2 & V2 & N2)|(_ & e1 & q1 & I1 & Et1 & A1)]]]; auto.
    + right. left. split; auto. unfold wedge. destruct (acc_tgt A e) eqn:Y; auto. apply (acc_tgt_spec A e p N Et') in Y. contradiction.
    + right. right. left. exists (wedge A Iv lo up e2), q2. rewrite WT. split; [rewrite <- EE2; apply in_map; auto|auto].
    + right. right. right. split; auto. exists (wedge A Iv lo up e1), q1. rewrite WT. split; [|split; auto; apply CA; auto].
      apply (in_map (wedge A Iv lo up)) in I1. rewrite Ees, map_app in I1. cbn [map] in I1. rewrite EE1, EE2 in I1. rewrite Ees'. exact I1.
Qed.

(* ---------------- every expression ---------------- *)

Theorem toEventTA_springy : forall al r n A m, injective al -> plain r -> nclocks r <= 256 -> toEventTA al r n = Ok (A, m) -> springy r A.
Proof.
  intros al r n A m Inj. revert n A m.
  induction r as [c| |r IH|r1 IH1 r2 IH2|r1 IH1 r2 IH2|r1 IH1 r2 IH2|r IH Iv]; intros n A m P K E.
  - rewrite atom_once in E by auto. injection E as <- <-. apply springy_atom; auto.
  - cbn [toEventTA bind fst snd] in E. apply bind_Ok in E as (B & E & X). injection X as <- <-.
    eapply (springy_post al n (S n) Eps (epsTA al n)); [apply eps_tinv; auto| |apply springy_eps|exact E]. exists (al n). eexists. split; [left; reflexivity|reflexivity].
  - cbn [toEventTA] in E. cbn [plain nclocks] in P, K. destruct P as (P & F & Nu). pose proof (plain_ok r P) as O. apply bind_Ok in E as (X & E & E2). apply bind_Ok in E2 as (B & E2 & X2).
    injection X2 as <- <-. apply bind_Ok in E as ([A1 n1] & E & X1). injection X1 as <-. cbn [fst snd] in *.
    pose proof (toEventTA_inv al r n A1 n1 Inj O K E) as Bu. destruct (le_some _ _ (toEventTA_leaned al r n A1 n1 Inj P K E)) as (a & Ha).
    eapply (springy_post al n n1 (Plus r) (plusTA A1)); [| | |exact E2].
    + apply plus_tinv; [apply Bu|rewrite (bu_clocks _ _ _ _ _ Bu); auto].
    + exists a. apply plus_accepting. auto.
    + eapply springy_plus; eauto.
  - cbn [toEventTA] in E. cbn [plain nclocks] in P, K. destruct P as [P1 P2]. pose proof (plain_ok r1 P1) as O1. pose proof (plain_ok r2 P2) as O2.
    apply bind_Ok in E as (X & E & E2). apply bind_Ok in E2 as (B & E2 & X2). injection X2 as <- <-.
    apply bind_Ok in E as ([A1 n1] & Ea & E). apply bind_Ok in E as ([A2 n2] & Eb & X1). injection X1 as <-. cbn [fst snd] in *.
    pose proof (toEventTA_inv al r1 n A1 n1 Inj O1 ltac:(lia) Ea) as Bu1. pose proof (toEventTA_inv al r2 n1 A2 n2 Inj O2 ltac:(lia) Eb) as Bu2.
    assert (KB : clockSize A2 <= 256) by (rewrite (bu_clocks _ _ _ _ _ Bu2); lia). destruct (le_some _ _ (toEventTA_leaned al r2 n1 A2 n2 Inj P2 ltac:(lia) Eb)) as (a & Ha).
    eapply (springy_post al n n2 (Cat r1 r2) (concat2 A1 A2)); [| | |exact E2].
    + eapply cat_tinv; eauto using bu_inv, bu_le.
    + exists a. apply (cat_accepting A1 A2). auto.
    + apply (springy_cat al n n1 n2); auto; [lia|eapply IH1; eauto; lia|eapply IH2; eauto; lia].
  - cbn [toEventTA] in E. cbn [plain nclocks] in P, K. destruct P as [P1 P2]. pose proof (plain_ok r1 P1) as O1. pose proof (plain_ok r2 P2) as O2.
    apply bind_Ok in E as (X & E & E2). apply bind_Ok in E2 as (B & E2 & X2). injection X2 as <- <-.
    apply bind_Ok in E as ([A1 n1] & Ea & E). apply bind_Ok in E as ([A2 n2] & Eb & X1). injection X1 as <-. cbn [fst snd] in *.
    pose proof (toEventTA_inv al r1 n A1 n1 Inj O1 ltac:(lia) Ea) as Bu1. pose proof (toEventTA_inv al r2 n1 A2 n2 Inj O2 ltac:(lia) Eb) as Bu2.
    destruct (le_some _ _ (toEventTA_leaned al r2 n1 A2 n2 Inj P2 ltac:(lia) Eb)) as (a & Ha).
    eapply (springy_post al n n2 (Alt r1 r2) (altTA A1 A2)); [| | |exact E2].
    + eapply alt_tinv; eauto using bu_inv, bu_le.
    + exists a. apply alt_accepting. auto.
    + apply (springy_alt al n n1 n2); auto; [eapply IH1; eauto; lia|eapply IH2; eauto; lia].
  - cbn [toEventTA] in E. cbn [plain nclocks] in P, K. destruct P as (P1 & P2 & F1 & F2). pose proof (plain_ok r1 P1) as O1. pose proof (plain_ok r2 P2) as O2.
    apply bind_Ok in E as (X & E & E2). apply bind_Ok in E2 as (B & E2 & X2). injection X2 as <- <-.
    apply bind_Ok in E as ([A1 n1] & Ea & E). apply bind_Ok in E as ([A2 n2] & Eb & X1). injection X1 as <-. cbn [fst snd] in *.
    pose proof (toEventTA_inv al r1 n A1 n1 Inj O1 ltac:(lia) Ea) as Bu1. pose proof (toEventTA_inv al r2 n1 A2 n2 Inj O2 ltac:(lia) Eb) as Bu2.
    assert (KA : clockSize A1 + clockSize A2 <= 256) by (rewrite (bu_clocks _ _ _ _ _ Bu1), (bu_clocks _ _ _ _ _ Bu2); lia).
    pose proof (bu_flg _ _ _ _ _ Bu1) as G1. rewrite F1 in G1. pose proof (bu_flg _ _ _ _ _ Bu2) as G2. rewrite F2 in G2.
    pose proof (toEventTA_leaned al r1 n A1 n1 Inj P1 ltac:(lia) Ea) as Le1. pose proof (toEventTA_leaned al r2 n1 A2 n2 Inj P2 ltac:(lia) Eb) as Le2.
    eapply (springy_post al n (n2 + length (states A1) * length (states A2)) (And r1 r2) (andTA al n2 A1 A2)); [| | |exact E2].
    + eapply and_tinv; eauto using bu_inv, bu_le, bu_free.
    + eapply (and_some al n n1 n2 r1 r2 A1 A2); eauto using le_some.
    + apply (springy_and al n n1 n2 r1 r2); auto; [eapply IH1; eauto; lia|eapply IH2; eauto; lia|eapply toEventTA_calmed; eauto; lia|eapply toEventTA_calmed; eauto; lia].
  - cbn [toEventTA] in E. cbn [plain nclocks] in P, K. destruct P as (P & F & Nu & lo & up & E1 & E2 & Lu). pose proof (plain_ok r P) as O.
    apply bind_Ok in E as (X & E & E3). apply bind_Ok in E3 as (B & E3 & X2). injection X2 as <- <-.
    apply bind_Ok in E as ([A1 n1] & Ea & E). apply bind_Ok in E as (B1 & Ew & X1). injection X1 as <-. cbn [fst snd] in *.
    pose proof (toEventTA_inv al r n A1 n1 Inj O ltac:(lia) Ea) as Bu.
    assert (KA : clockSize A1 < 256) by (rewrite (bu_clocks _ _ _ _ _ Bu); lia).
    rewrite (withinTA_ok al n n1 A1 Iv lo up (bu_inv _ _ _ _ _ Bu) E1 E2 KA) in Ew. injection Ew as <-.
    destruct (le_some _ _ (toEventTA_leaned al r n A1 n1 Inj P ltac:(lia) Ea)) as (a & Ha).
    eapply (springy_post al n (S n1) (Within r Iv) (wTA A1 Iv lo up)); [| | |exact E3].
    + eapply w_tinv; eauto using bu_inv, bu_le.
    + exists a. apply w_accepting. auto.
    + eapply springy_within; eauto; [eapply toEventTA_calmed; eauto; lia|eapply IH; eauto; lia].
Qed.

(* ---------------- with '$' and without ---------------- *)

(* Nothing is open when a letter follows. *)
Lemma ended_exits : forall al r c n A m, injective al -> plain r -> c <> 0 -> nclocks r <= 256 -> toEventTA al (Cat r (Atom c)) n = Ok (A, m) -> tidy r ->
  exists rk, exits False A rk.
Proof.
  intros al r c n A m Inj P Nc K E TD. cbn [toEventTA] in E. apply bind_Ok in E as (X & E & E2). apply bind_Ok in E2 as (B & E2 & X2). injection X2 as <- <-.
  apply bind_Ok in E as ([A1 n1] & Ea & E). apply bind_Ok in E as ([A2 n2] & Eb & X1). injection X1 as <-. cbn [fst snd] in *.
  assert (Eb' : toEventTA al (Atom c) n1 = Ok (A2, n2)) by exact Eb. rewrite atom_once in Eb' by auto. injection Eb' as <- <-.
  pose proof (toEventTA_inv al r n A1 n1 Inj (plain_ok r P) K Ea) as Bu1. assert (Pa : plain (Atom c)) by exact Nc.
  pose proof (toEventTA_inv al (Atom c) n1 _ _ Inj (plain_ok _ Pa) ltac:(cbn; lia) Eb) as Bu2.
  destruct (sp_exits _ _ (toEventTA_springy al r n A1 n1 Inj P K Ea) True Logic.I TD) as (ra & Ca).
  destruct (le_some _ _ (toEventTA_leaned al (Atom c) n1 _ _ Inj Pa ltac:(cbn; lia) Eb)) as (a & Ha).
  eexists. eapply (post_exits al n (S (S n1)) False (concat2 A1 (atomTA al c n1))); [| | |exact E2].
  - eapply cat_tinv; eauto using bu_inv, bu_le. rewrite (bu_clocks _ _ _ _ _ Bu2). cbn. lia.
  - exists a. apply (cat_accepting A1 _). auto.
  - eapply (cat_exits al n n1 (S (S n1)) r (Atom c)); eauto. apply atom_exits. auto.
Qed.

Lemma ap_exits : forall D Ap rk, wf_ta D -> full D -> make_ap D = Ok Ap -> (forall p e, is_edge D p dollar e -> exists q, etgt e = Some q /\ accepting D q) ->
  exits False D rk -> exits False Ap rk.
Proof.
  intros D Ap rk W FD HA HD C. pose proof (wf_nodup _ W) as N. destruct (make_ap_states _ _ HA) as (ES & _).
  assert (AP : forall x, accepting Ap x -> accepting D x \/ exists e, is_edge D x dollar e).
  { intros x (sx & Hx & Mx). rewrite ES in Hx. apply in_map_iff in Hx as ([x0 s0] & Eq & Hx). cbn [fst snd] in Eq. injection Eq as -> <-. unfold ap_state in Mx.
    destruct (assoc dollar (next s0)) as [l|] eqn:X; [|left; exists s0; auto].
    right. apply assoc_In in X. destruct l as [|e0 l]; [destruct (FD _ _ _ _ Hx X eq_refl)|]. exists e0, s0, (e0 :: l). split; auto. split; auto. left. auto. }
  assert (PA : forall x, accepting D x -> accepting Ap x).
  { intros x (s & Hs & Ms). exists (ap_state s). rewrite ES. split; [apply in_map_iff; exists (x, s); auto|]. unfold ap_state. destruct (assoc dollar (next s)); auto. }
  assert (PD : forall x e, is_edge D x dollar e -> accepting Ap x).
  { intros x e (s & es & Hs & Hes & _). exists (ap_state s). rewrite ES. split; [apply in_map_iff; exists (x, s); auto|]. unfold ap_state.
    rewrite (In_assoc _ _ _ (wf_keys _ W _ _ Hs) Hes). auto. }
  assert (U1 : forall q, useful Ap q -> useful D q).
  { intros q U. induction U as [p Ac|p c e q He Et U IH].
    - apply AP in Ac as [Ac|(e & He)]; [apply us_here; auto|]. destruct (HD p e He) as (q & Eq & Aq). eapply us_step; [exact He|exact Eq|apply us_here; auto].
    - apply (ap_edge D Ap HA) in He as [He _]. eapply us_step; eauto. }
  assert (U2 : forall q, useful D q -> useful Ap q).
  { intros q U. induction U as [p Ac|p c e q He Et U IH]; [apply us_here; auto|]. destruct (Nat.eq_dec c dollar) as [->|Nd]; [apply us_here; eauto|].
    eapply us_step; [apply (ap_edge D Ap HA); split; [exact He|exact Nd]|exact Et|exact IH]. }
  intros p s' c es E1 e E2 q Hs' Hes Ees Et Uq. rewrite ES in Hs'. apply in_map_iff in Hs' as ([p0 s] & Eq & Hs). cbn [fst snd] in Eq. injection Eq as -> <-. apply ap_next in Hes as [Hes Nd].
  destruct (C p s c es E1 e E2 q Hs Hes Ees Et (U1 q Uq)) as [L|[L|[(e2 & q2 & I2 & Et2 & V2 & N2)|([] & _)]]]; auto.
  right. right. left. exists e2, q2. auto.
Qed.
Lemma ap_pliant : forall k D Ap, make_ap D = Ok Ap -> (forall p, In p (inits Ap) -> In p (inits D)) -> pliant k D -> pliant k Ap.
Proof.
  intros k D Ap HA HI (G & GI & GS). exists G. split; [auto|]. intros p c e q v Hv He. apply (ap_edge D Ap HA) in He as [He _]. eauto.
Qed.
