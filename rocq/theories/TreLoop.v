(* Expressions whose repetitions restrict no time: the automata have longer cycles,
   but the transitions that go round stand before the ones that leave. *)
From Coq Require Import QArith Bool List ZArith Arith Lia.
From Verif Require Import Num Outcome Interval Constraint Zone TA Spec TAFacts Intersection IntersectionFacts Tre TreRun TreFacts TreBuild TreLang PropTre ZATerm ZAFin KmpTerm Monaa Skip SkipFacts ApFacts PropSkip ZALoop TreMild TreLean.
Import ListNotations.
Open Scope nat_scope.

(* ---------------- the expressions ---------------- *)

(* + stands behind what is not restricted in time; inside of &, only behind letters. *)
Fixpoint looped (r : tre) : Prop :=
  match r with
  | Atom _ | Eps => True
  | Plus r1 => looped r1 /\ nclocks r1 = 0
  | Cat r1 r2 | Alt r1 r2 => looped r1 /\ looped r2
  | And r1 r2 => lean r1 /\ lean r2
  | Within r1 _ => looped r1
  end.
(* The end is not repeated. *)
Fixpoint closed (r : tre) : Prop :=
  match r with
  | Atom _ | Eps => True
  | Plus _ => False
  | Cat r1 r2 => closed r2 /\ (nullable r2 = true -> closed r1)
  | Alt r1 r2 => closed r1 /\ closed r2
  | And _ _ => True
  | Within r1 _ => closed r1
  end.

(* ---------------- weakening ---------------- *)

Lemma rounds_mono : forall (o o' : Prop) w A rg ps, (o -> o') -> rounds_first o w A rg ps -> rounds_first o' w A rg ps.
Proof.
  intros o o' w A rg ps I C p s c es E1 e E2 q H1 H2 H3 H4. destruct (C p s c es E1 e E2 q H1 H2 H3 H4) as [L|[L|(Q & Er & G & Gp & Gq & G1 & G2)]]; auto.
  right. right. split; auto. split; auto. exists G. split; auto. split; auto. split; auto. intros x c' e' y Hx He Et.
  destruct (G2 x c' e' y Hx He Et) as [X|[X|[(X1 & X2 & X3)|X]]]; auto 10.
Qed.
Lemma idle_rounds : forall o w A rk, idle_loops A rk -> rounds_first o w A rk (fun _ => 0).
Proof.
  intros o w A rk I p s c es E1 e E2 q H1 H2 H3 H4.
  destruct (I p c e q) as [L|(E & G & R)]; auto; [exists s, es; split; auto; split; auto; rewrite H3; apply in_elt|left; left; auto|]. right. left. split; auto. split; auto.
Qed.
Lemma no_clock_quiet : forall A p c e, wf_ta A -> clockSize A = 0 -> is_edge A p c e -> quiet e.
Proof.
  intros A p c e W K H. destruct (wf_is_edge _ _ _ _ W H) as (_ & H1 & H2). rewrite K in H1, H2. split.
  - destruct (eguard e) as [|g l]; auto. inversion H2; lia.
  - destruct (eresets e) as [|g l]; auto. inversion H1; lia.
Qed.

(* ---------------- merging and reducing ---------------- *)

Section Norm.
  Variables (al : nat -> ptr) (n0 n1 : nat) (A : ta).
  Hypothesis T : tinv al n0 n1 A.
  Let N := wf_nodup _ (ti_wf _ _ _ _ T).
  Lemma norm_out : forall rk p, ~ accepting A p -> norm A rk p = S (rk p).
  Proof. intros rk p H. unfold norm. destruct (match_at A p) eqn:X; auto. apply (match_at_spec A p N) in X. contradiction. Qed.
  Lemma acc_dec : forall p, accepting A p \/ ~ accepting A p.
  Proof. intros p. destruct (match_at A p) eqn:X; [left|right; intros H]; apply (match_at_spec A p N) in X || (apply (match_at_spec A p N) in H; congruence). auto. Qed.
  Lemma lower_norm : forall rg ps p e e' q, ~ accepting A p -> ~ accepting A q -> (quiet e -> quiet e') -> lower rg ps p e q -> lower (norm A rg) ps p e' q.
  Proof. intros rg ps p e e' q Hp Hq I [L|(E & Q & L)]; unfold lower; rewrite !norm_out by auto; [left; lia|right; auto]. Qed.
  Lemma down_norm : forall rg ps p e q, ~ accepting A p -> accepting A q -> lower (norm A rg) ps p e q.
  Proof. intros rg ps p e q Hp Hq. left. rewrite (norm_acc A rg q N Hq), norm_out by auto. lia. Qed.
  Lemma src : forall p s c es e, In (p, s) (states A) -> In (c, es) (next s) -> In e es -> ~ accepting A p.
  Proof. intros p s c es e H1 H2 H3. apply (edge_not_acc al n0 n1 A p c e T). exists s, es. auto. Qed.

  Lemma merge_rounds : forall o rg ps, (exists p, accepting A p) -> rounds_first o False A rg ps -> rounds_first o False (merge A) (norm A rg) ps.
  Proof.
    intros o rg ps (a & Ha) C. destruct (terminals A) as [|f rest] eqn:ET.
    { exfalso. assert (X : In a (terminals A)); [|rewrite ET in X; destruct X]. apply terminals_in. destruct Ha as (s & Hs & Ms). exists s. split; auto. split; auto. apply (ti_acc _ _ _ _ T _ _ Hs Ms). }
    pose proof (tb_spec al n0 n1 A f rest T ET) as TB. assert (Af : accepting A f) by (apply TB; unfold tb; apply mem_In; left; auto).
    assert (Rf : forall q, (accepting A q /\ rho (tb f rest) f q = f) \/ (~ accepting A q /\ rho (tb f rest) f q = q)).
    { intros q. unfold rho. destruct (tb f rest q) eqn:X; [left|right]; split; auto; [apply TB; auto|]. intros Y. apply TB in Y. congruence. }
    assert (AM : forall q, accepting (merge A) q <-> accepting A q /\ q = rho (tb f rest) f q) by apply (merge_accepting al n0 n1 A f rest T ET).
    assert (Afm : accepting (merge A) f). { apply AM. split; auto. destruct (Rf f) as [[_ X]|[X _]]; auto; contradiction. }
    intros p s' c es' E1' e' E2' q' Hs' Hes' Ees' Et'.
    apply (merge_states A f rest ET) in Hs' as (s & Hs & _ & ->). cbn [merged_state next] in Hes'. apply in_map_next in Hes' as (es & Hes & Em).
    rewrite Ees' in Em. symmetry in Em. apply map_split in Em as (E1 & e & E2 & Ees & EE1 & Ee & EE2).
    assert (TG : forall e0, In e0 es -> exists q, etgt e0 = Some q) by (intros e0 H; apply (ti_tgt _ _ _ _ T p c); exists s, es; auto).
    assert (Ie : In e es) by (rewrite Ees; apply in_elt). destruct (TG e Ie) as (q & Et). pose proof (src p s c es e Hs Hes Ie) as NAp.
    rewrite (redirect_some f rest e q Et) in Ee. subst e'. cbn [etgt] in Et'. injection Et' as <-.
    destruct (Rf q) as [[Aq RQ]|[Aq RQ]]; rewrite RQ in *; [left; apply down_norm; auto|].
    destruct (C p s c es E1 e E2 q Hs Hes Ees Et) as [L|[(-> & Q)|(Q & Er & G & Gp & Gq & G1 & G2)]].
    - left. apply (lower_norm rg ps p e); auto.
    - right. left. auto.
    - right. right. split; auto. rewrite !norm_out by auto. split; [auto|]. exists G. split; auto. split; auto. split.
      + intros x Gx Ax. apply AM in Ax as [Ax _]. exact (G1 x Gx Ax).
      + intros x c1 e1' y' Gx He Et1. apply (merge_edge al n0 n1 A f rest T ET) in He as (e1 & y & He & Ey & ->). cbn [etgt eguard eresets] in *. injection Et1 as <-.
        destruct (Rf y) as [[Ay ->]|[Ay ->]]; destruct (G2 x c1 e1 y Gx He Ey) as [(Gy & Qy)|[(D1 & D2)|[(Ay2 & O & e2 & q2 & I2 & Eq2 & Aq2 & Eg)|(W & e2 & I2 & Et2 & Eg & Ers & L)]]].
        * destruct (G1 y Gy Ay).
        * destruct (D1 Ay).
        * right. right. left. split; auto. split; auto. exists (redirect (f :: rest) f e2). rewrite (redirect_some f rest e2 q2 Eq2). eexists. cbn [etgt eguard].
          split; [|split; [reflexivity|]].
          -- rewrite <- (redirect_some f rest e2 q2 Eq2). apply (in_map (redirect (f :: rest) f)) in I2. rewrite Ees, map_app in I2. cbn [map] in I2.
             rewrite EE1, EE2, (redirect_some f rest e q Et), RQ in I2. rewrite Ees'. exact I2.
          -- split; auto. destruct (Rf q2) as [[_ ->]|[X _]]; [auto|contradiction].
        * destruct W as [[]|W]; contradiction.
        * left. auto.
        * right. left. split; [intros X; apply AM in X as [X _]; auto|]. intros c0 e0 He0. apply (merge_edge al n0 n1 A f rest T ET) in He0 as (e3 & q3 & He3 & _). exact (D2 _ _ He3).
        * contradiction.
        * right. right. right. split; [right; intros X; apply AM in X as [X _]; auto|]. exists (redirect (f :: rest) f e2). rewrite (redirect_some f rest e2 y Et2).
          cbn [etgt eguard eresets]. destruct (Rf y) as [[X _]|[_ X]]; [contradiction|]. rewrite X. split; [|split; [auto|split; [auto|split; [auto|]]]].
          -- rewrite <- EE2. rewrite <- X, <- (redirect_some f rest e2 y Et2). apply in_map. auto.
          -- apply (lower_norm rg ps p e2); auto.
  Qed.
End Norm.

Lemma cut_rounds : forall o A rg ps, NoDup (map fst (states A)) -> (forall p c e, is_edge A p c e -> exists q, etgt e = Some q) ->
  rounds_first o False A rg ps -> rounds_first o False (removeStuckStates A) rg ps.
Proof.
  intros o A rg ps N TG C p s' c es' E1' e E2' q Hs' Hes' Ees' Et.
  apply cut_states in Hs' as (s & Hs & _ & ->). cbn [next] in Hes'. unfold cut_next in Hes'. apply filter_In in Hes' as [Hes' _].
  apply in_map_next in Hes' as (es & Hes & Em). rewrite Ees' in Em. symmetry in Em. apply filter_split in Em as (E1 & E2 & Ees & F1 & F2 & _).
  destruct (C p s c es E1 e E2 q Hs Hes Ees Et) as [L|[L|(Q & Er & G & Gp & Gq & G1 & G2)]]; auto.
  right. right. split; auto. split; auto. exists G. split; auto. split; auto. split.
  - intros x Gx Ax. apply (cut_accepting A x N) in Ax. exact (G1 x Gx Ax).
  - intros x c1 e1 y Gx He Ey. apply cut_edge in He as (He & _ & Hst).
    assert (KY : ~ In y (stuck A)). { intros X. apply (tgt_in_spec _ _ _ Ey) in X. congruence. }
    destruct (G2 x c1 e1 y Gx He Ey) as [X|[(D1 & D2)|[(Ay & O & e2 & q2 & I2 & Eq2 & Aq2 & Eg)|(W & e2 & I2 & Et2 & Eg & Ers & L)]]]; auto.
    + right. left. split; [intros X; apply (cut_accepting A y N) in X; auto|]. intros c0 e0 He0. apply cut_edge in He0 as (He0 & _). exact (D2 _ _ He0).
    + right. right. left. split; [apply (cut_accepting A y N); auto|]. split; auto. exists e2, q2. split; [|split; auto; split; auto; apply (cut_accepting A q2 N); auto].
      rewrite Ees', <- F1, <- F2.
      assert (K2 : negb (tgt_in (stuck A) e2) = true).
      { apply negb_true_iff, not_true_iff_false. intros X. apply (tgt_in_spec _ _ _ Eq2) in X. apply stuck_in in X as (s2 & Hs2 & M2 & _). apply (accepting_state A q2 s2 N Hs2) in Aq2. congruence. }
      rewrite Ees in I2. apply in_app_or in I2 as [I2|[I2|I2]]; apply in_or_app; [left|right; left; auto|right; right]; apply filter_In; auto.
    + right. right. right. split; [right; intros X; apply (cut_accepting A y N) in X; destruct W as [[]|W]; auto|]. exists e2. split; auto.
      rewrite <- F2. apply filter_In. split; auto. apply negb_true_iff, not_true_iff_false. intros X. apply (tgt_in_spec _ _ _ Et2) in X. contradiction.
Qed.
Lemma reduce_rounds : forall o A B rg ps, wf_ta A -> (forall p c e, is_edge A p c e -> exists q, etgt e = Some q) -> rounds_first o False A rg ps -> reduceStates A = Ok B -> rounds_first o False B rg ps.
Proof.
  intros o A B rg ps. unfold reduceStates. generalize (S (length (states A))). intros n. revert A. induction n as [|n IH]; intros A W TG C E; [discriminate|].
  cbn [reduce_loop] in E. assert (C' : rounds_first o False (removeStuckStates A) rg ps) by (apply cut_rounds; auto; apply (wf_nodup _ W)). destruct (_ =? _).
  - injection E as <-. auto.
  - apply (IH (removeStuckStates A)); auto; [apply cut_wf; auto|]. intros p c e He. apply cut_edge in He as (He & _). eauto.
Qed.
Lemma post_rounds : forall al n0 n1 o A B rg ps, tinv al n0 n1 A -> (exists p, accepting A p) -> rounds_first o False A rg ps -> reduceStates (merge A) = Ok B -> exists rg' ps', rounds_first o False B rg' ps'.
Proof.
  intros al n0 n1 o A B rg ps T (a & Ha) C E. exists (norm A rg), ps.
  assert (TM : tinv al n0 n1 (merge A)).
  { destruct (terminals A) as [|f rest] eqn:ET; [unfold merge; rewrite ET; auto|]. apply (merge_tinv1 al n0 n1 A f rest T ET). }
  eapply (reduce_rounds o (merge A)); eauto using ti_wf, ti_tgt. eapply merge_rounds; eauto.
Qed.

(* ---------------- Kleene plus ---------------- *)

Lemma app_split : forall {X} (a b pre post : list X) y, a ++ b = pre ++ y :: post -> (exists n, a = pre ++ y :: n /\ post = n ++ b) \/ exists p2, pre = a ++ p2 /\ b = p2 ++ y :: post.
Proof.
  intros X. induction a as [|z a IH]; intros b pre post y E; cbn in E; [right; exists pre; auto|]. destruct pre as [|z' pre]; cbn in E; injection E as <- E.
  - left. exists a. auto.
  - destruct (IH b pre post y E) as [(n & -> & ->)|(p2 & -> & R)]; [left; exists n; auto|right; exists p2; auto].
Qed.
Lemma split_in : forall {X} (es pre post : list X) y, es = pre ++ y :: post -> In y es.
Proof. intros X es pre post y ->. apply in_elt. Qed.

Section PlusCalm.
  Variables (al : nat -> ptr) (n0 n1 : nat) (A : ta) (o : Prop) (rg ps : ptr -> nat).
  Hypothesis T : tinv al n0 n1 A.
  Hypothesis NI : forall i, In i (inits A) -> ~ accepting A i.
  Hypothesis K0 : clockSize A = 0.
  Hypothesis C : rounds_first o False A rg ps.
  Let N := wf_nodup _ (ti_wf _ _ _ _ T).
  Let b := list_max (map ps (map fst (states A))).
  Definition plus_rg (p : ptr) : nat := if match_at A p then 0 else 1.
  Definition plus_ps (p : ptr) : nat := rg p * S b + ps p.

  Lemma plus_rg_out : forall p, ~ accepting A p -> plus_rg p = 1.
  Proof. intros p H. unfold plus_rg. destruct (match_at A p) eqn:X; auto. apply (match_at_spec A p N) in X. contradiction. Qed.
  Lemma plus_rg_acc : forall p, accepting A p -> plus_rg p = 0.
  Proof. intros p H. unfold plus_rg. now rewrite (proj2 (match_at_spec A p N) H). Qed.
  Lemma plus_lower : forall p e q, In q (map fst (states A)) -> ~ accepting A p -> ~ accepting A q -> quiet e -> lower rg ps p e q -> lower plus_rg plus_ps p e q.
  Proof.
    intros p e q Kq Hp Hq Q L. right. rewrite !plus_rg_out by auto. split; auto. split; auto. unfold plus_ps.
    assert (Lb : ps q <= b). { unfold b. pose proof (proj1 (list_max_le (map ps (map fst (states A))) _) (le_n _)) as F. rewrite Forall_forall in F. apply F. apply in_map. auto. }
    destruct L as [L|(E & _ & L)]; [|rewrite E; lia]. clear - L Lb. assert (S (rg q) * S b <= rg p * S b) by (apply Nat.mul_le_mono_r; lia). change (S (rg q) * S b) with (S b + rg q * S b) in *. lia.
  Qed.
  Lemma plus_quiet : forall p c e, is_edge (plusTA A) p c e -> quiet e.
  Proof.
    intros p c e H. apply (no_clock_quiet (plusTA A) p c); auto. apply (ti_wf al n0 n1). apply plus_tinv; auto. lia.
  Qed.
  Lemma plus_ring : forall p s c es E2 e1 q1, In (p, s) (states A) -> In (c, es) (next s) -> In e1 es -> etgt e1 = Some q1 -> accepting A q1 ->
    ring True False (plusTA A) plus_rg plus_ps p (plus_edges A es) E2 (fun x => ~ accepting A x).
  Proof.
    intros p s c es E2 e1 q1 Hs Hes I1 Et1 A1. split.
    - intros x Hx Ax. apply (plus_accepting A x) in Ax. auto.
    - intros x c' e y Hx He Et. pose proof (plus_quiet _ _ _ He) as [Q1 Q2]. destruct (acc_dec al n0 n1 A T y) as [Ay|Ay].
      + right. right. left. split; [apply plus_accepting; auto|]. split; auto. exists e1, q1. split; [unfold plus_edges; apply in_or_app; auto|]. split; auto. split; [apply plus_accepting; auto|].
        rewrite Q1. apply (no_clock_quiet A p c); auto; [apply (ti_wf _ _ _ _ T)|]. exists s, es. auto.
      + left. split; auto. split; auto.
  Qed.
  Lemma plus_rounds : rounds_first True False (plusTA A) plus_rg plus_ps.
  Proof.
    intros p s' c es' E1' e E2' q Hs' Hes' Ees' Et. assert (Hq : is_edge (plusTA A) p c e) by (exists s', es'; split; auto; split; auto; eapply split_in; eauto).
    pose proof (plus_quiet _ _ _ Hq) as Qe. apply plus_state in Hs' as (s & Hs & ->). cbn [next] in Hes'. apply in_map_next in Hes' as (es & Hes & ->).
    assert (TG : forall e0, In e0 es -> exists q, etgt e0 = Some q) by (intros e0 H; apply (ti_tgt _ _ _ _ T p c); exists s, es; auto).
    unfold plus_edges in Ees'. destruct (app_split _ _ _ _ _ Ees') as [(E2 & Ees & ->)|(p2 & _ & EX)].
    - assert (Ie : In e es) by (eapply split_in; eauto). pose proof (src al n0 n1 A T p s c es e Hs Hes Ie) as NAp.
      assert (Kq : In q (map fst (states A))) by (apply (edge_target A p c e q (ti_wf _ _ _ _ T)); auto; exists s, es; auto).
      destruct (acc_dec al n0 n1 A T q) as [Aq|Aq]; [left; left; rewrite plus_rg_acc, plus_rg_out by auto; lia|].
      destruct (C p s c es E1' e E2 q Hs Hes Ees Et) as [L|[L|(Q & Er & G & Gp & Gq & G1 & G2)]]; [left; apply plus_lower; auto|right; left; auto|].
      right. right. split; auto. rewrite !plus_rg_out by auto. split; auto. destruct (existsb (acc_tgt A) es) eqn:EA.
      + apply existsb_exists in EA as (e1 & I1 & A1). destruct (TG e1 I1) as (q1 & Et1). apply (acc_tgt_spec A e1 q1 N Et1) in A1.
        exists (fun x => ~ accepting A x). split; auto. split; auto. apply (plus_ring p s c es _ e1 q1); auto.
      + assert (NA : forall x c0 e0 y, G x -> is_edge A x c0 e0 -> etgt e0 = Some y -> ~ accepting A y).
        { intros x c0 e0 y Gx He0 Ey Ay. destruct (G2 x c0 e0 y Gx He0 Ey) as [(Gy & _)|[(D1 & _)|[(_ & O & e2 & q2 & I2 & Eq2 & Aq2 & _)|([[]|W] & _)]]]; auto; [exact (G1 y Gy Ay)|].
          apply (acc_tgt_spec A e2 q2 N Eq2) in Aq2. apply not_true_iff_false in EA. apply EA. apply existsb_exists. eauto. }
        exists G. split; auto. split; auto. split; [intros x Gx Ax; apply (plus_accepting A x) in Ax; exact (G1 x Gx Ax)|].
        intros x c0 e0 y Gx He0 Ey. pose proof (plus_quiet _ _ _ He0) as Q0. apply (plus_edge al n0 n1 A T) in He0 as [He0|(e1 & q1 & i & He1 & Eq1 & Aq1 & _)]; [|destruct (NA x c0 e1 q1 Gx He1 Eq1 Aq1)].
        destruct (G2 x c0 e0 y Gx He0 Ey) as [X|[(D1 & D2)|[(Ay & _)|(W & e2 & I2 & Et2 & Eg & Ers & L)]]]; auto.
        * right. left. split; [intros X; apply (plus_accepting A y) in X; auto|]. intros c3 e3 He3. apply (plus_edge al n0 n1 A T) in He3 as [He3|(e1 & q1 & i & He1 & _)]; eapply D2; eauto.
        * destruct (NA x c0 e0 y Gx He0 Ey Ay).
        * destruct W as [[]|W]. right. right. right. split; [right; intros X; apply (plus_accepting A y) in X; auto|]. exists e2. split; [apply in_or_app; auto|].
          split; auto. split; auto. split; auto. apply plus_lower; auto.
          -- apply (edge_target A x c0 e0 y (ti_wf _ _ _ _ T)); auto.
          -- destruct Q0 as [Q1 Q2]. split; congruence.
    - assert (Ie : In e (p2 ++ e :: E2')) by apply in_elt. rewrite <- EX in Ie. apply in_flat_map in Ie as (e1 & I1 & Ie). destruct (acc_tgt A e1 && negb (zero_tgt A e1)) eqn:Ac; [|destruct Ie].
      apply andb_true_iff in Ac as [Ac _]. apply in_map_iff in Ie as (i & Ee & Hi). apply filter_In in Hi as [Hi _]. subst e. cbn [etgt] in Et. injection Et as <-.
      destruct (TG e1 I1) as (q1 & Eq1). apply (acc_tgt_spec A e1 q1 N Eq1) in Ac. pose proof (src al n0 n1 A T p s c es e1 Hs Hes I1) as NAp.
      right. right. split; auto. rewrite !plus_rg_out by auto. split; auto. exists (fun x => ~ accepting A x). split; auto. split; auto. apply (plus_ring p s c es _ e1 q1); auto.
  Qed.
End PlusCalm.

(* ---------------- two automata ---------------- *)

Lemma lower_shift : forall rg ps rg' ps' (k k' : nat) p e q, rg' p = k + rg p -> rg' q = k + rg q -> ps' p = k' + ps p -> ps' q = k' + ps q -> lower rg ps p e q -> lower rg' ps' p e q.
Proof. intros rg ps rg' ps' k k' p e q H1 H2 H3 H4 [L|(E & Q & L)]; unfold lower; rewrite H1, H2, H3, H4; [left; lia|right; split; [lia|split; auto; lia]]. Qed.

Section TwoCalm.
  Variables (al : nat -> ptr) (n0 n1 n2 : nat) (r1 r2 : tre) (A B : ta).
  Hypothesis Inj : injective al.
  Hypothesis B1 : built al r1 n0 n1 A.
  Hypothesis B2 : built al r2 n1 n2 B.
  Let T1 := bu_inv _ _ _ _ _ B1.
  Let T2 := bu_inv _ _ _ _ _ B2.
  Let W1 := ti_wf _ _ _ _ T1.
  Let W2 := ti_wf _ _ _ _ T2.
  Notation apart := (apart al n0 n1 n2 r1 r2 A B Inj B1 B2).
  Notation edgeA := (edgeA al n0 n1 r1 A B1).
  Notation edgeB := (edgeB al n1 n2 r2 B B2).
  Notation beside_B := (beside_B al n0 n1 n2 r1 r2 A B Inj B1 B2).
  Notation beside_A := (beside_A A).

  Lemma alt_rounds : forall o1 o2 ra pa rb pb, rounds_first o1 False A ra pa -> rounds_first o2 False B rb pb -> rounds_first (o1 \/ o2) False (altTA A B) (beside A 0 ra rb) (beside A 0 pa pb).
  Proof.
    intros o1 o2 ra pa rb pb Ca Cb p s c es E1 e E2 q Hs Hes Ees Et. cbn [altTA states] in Hs. apply in_app_or in Hs as [Hs|Hs].
    - assert (He : is_edge A p c e) by (exists s, es; split; auto; split; auto; eapply split_in; eauto). destruct (edgeA _ _ _ _ He Et) as [Kp Kq].
      destruct (Ca p s c es E1 e E2 q Hs Hes Ees Et) as [L|[L|(Q & Er & G & Gp & Gq & G1 & G2)]]; auto.
      + left. apply (lower_shift ra pa _ _ 0 0); auto; apply beside_A; auto.
      + right. right. split; auto. rewrite !beside_A by auto. split; [lia|]. exists (fun x => In x (map fst (states A)) /\ G x). split; auto. split; auto. split.
        * intros x [Kx Gx] Ax. apply alt_accepting in Ax as [Ax|Ax]; [exact (G1 x Gx Ax)|]. apply (apart x Kx), accepting_in. auto.
        * intros x c1 e1 y [Kx Gx] He1 Ey. apply alt_edge in He1 as [He1|He1]; [|destruct (apart x Kx (edge_source _ _ _ _ He1))]. destruct (edgeA _ _ _ _ He1 Ey) as [_ Ky].
          assert (AY : ~ accepting A y -> ~ accepting (altTA A B) y). { intros X Y. apply alt_accepting in Y as [Y|Y]; auto. apply (apart y Ky), accepting_in. auto. }
          destruct (G2 x c1 e1 y Gx He1 Ey) as [(Gy & Qy)|[(D1 & D2)|[(Ay & O & e2 & q2 & I2 & Eq2 & Aq2 & Eg)|([[]|W] & e2 & I2 & Et2 & Eg & Ers & L)]]]; auto.
          -- right. left. split; auto. intros c3 e3 H3. apply alt_edge in H3 as [H3|H3]; [exact (D2 _ _ H3)|destruct (apart y Ky (edge_source _ _ _ _ H3))].
          -- right. right. left. split; [apply alt_accepting; auto|]. split; auto. exists e2, q2. split; auto. split; auto. split; auto. apply alt_accepting; auto.
          -- right. right. right. split; auto. exists e2. split; auto. split; auto. split; auto. split; auto. apply (lower_shift ra pa _ _ 0 0); auto; apply beside_A; auto.
    - assert (He : is_edge B p c e) by (exists s, es; split; auto; split; auto; eapply split_in; eauto). destruct (edgeB _ _ _ _ He Et) as [Kp Kq].
      destruct (Cb p s c es E1 e E2 q Hs Hes Ees Et) as [L|[L|(Q & Er & G & Gp & Gq & G1 & G2)]]; auto.
      + left. apply (lower_shift rb pb _ _ 0 0); auto; rewrite beside_B by auto; reflexivity.
      + right. right. split; auto. rewrite !beside_B by auto. split; [lia|]. exists (fun x => In x (map fst (states B)) /\ G x). split; auto. split; auto. split.
        * intros x [Kx Gx] Ax. apply alt_accepting in Ax as [Ax|Ax]; [|exact (G1 x Gx Ax)]. refine (apart x _ Kx). apply accepting_in. auto.
        * intros x c1 e1 y [Kx Gx] He1 Ey. apply alt_edge in He1 as [He1|He1]; [destruct (apart x (edge_source _ _ _ _ He1) Kx)|]. destruct (edgeB _ _ _ _ He1 Ey) as [_ Ky].
          assert (AY : ~ accepting B y -> ~ accepting (altTA A B) y). { intros X Y. apply alt_accepting in Y as [Y|Y]; auto. refine (apart y _ Ky). apply accepting_in. auto. }
          destruct (G2 x c1 e1 y Gx He1 Ey) as [(Gy & Qy)|[(D1 & D2)|[(Ay & O & e2 & q2 & I2 & Eq2 & Aq2 & Eg)|([[]|W] & e2 & I2 & Et2 & Eg & Ers & L)]]]; auto.
          -- right. left. split; auto. intros c3 e3 H3. apply alt_edge in H3 as [H3|H3]; [destruct (apart y (edge_source _ _ _ _ H3) Ky)|exact (D2 _ _ H3)].
          -- right. right. left. split; [apply alt_accepting; auto|]. split; auto. exists e2, q2. split; auto. split; auto. split; auto. apply alt_accepting; auto.
          -- right. right. right. split; auto. exists e2. split; auto. split; auto. split; auto. split; auto. apply (lower_shift rb pb _ _ 0 0); auto; rewrite beside_B by auto; reflexivity.
  Qed.

  Notation catE := (catE al n0 n1 r1 A B B1).

  Lemma cat_rounds : forall o1 o2 ra pa rb pb, rounds_first o1 False A ra pa -> rounds_first o2 False B rb pb ->
    rounds_first (o2 \/ (nullable r2 = true /\ o1)) False (concat2 A B) (beside A (S (list_max (map rb (map fst (states B))))) ra rb) (beside A 0 pa pb).
  Proof.
    intros o1 o2 ra pa rb pb Ca Cb p s' c es' E1' e E2' q Hs' Hes' Ees' Et. set (h := S (list_max (map rb (map fst (states B))))).
    assert (CA : forall x, accepting (concat2 A B) x <-> accepting B x) by apply (cat_accepting A B).
    assert (LB : forall i x e0, In i (inits B) -> In x (map fst (states A)) -> lower (beside A h ra rb) (beside A 0 pa pb) x e0 i).
    { intros i x e0 Hi Kx. left. pose proof (wf_inits _ W2 _ Hi) as Ki. rewrite (beside_A _ _ _ x Kx), (beside_B _ _ _ i Ki).
      pose proof (proj1 (list_max_le (map rb (map fst (states B))) _) (le_n _)) as F. rewrite Forall_forall in F. specialize (F (rb i) (in_map _ _ _ Ki)). unfold h. lia. }
    apply cat_state in Hs' as [(s & Hs & ->)|(s & Hs & ->)].
    - cbn [left_state next] in Hes'. apply in_map_next in Hes' as (es & Hes & ->).
      assert (TG : forall e0, In e0 es -> exists q, etgt e0 = Some q) by (intros e0 H; apply (ti_tgt _ _ _ _ T1 p c); exists s, es; auto).
      pose proof (in_map fst _ _ Hs) as Kp. cbn [fst] in Kp. unfold cat_edges in Ees'. destruct (app_split _ _ _ _ _ Ees') as [(E2 & Ees & ->)|(p2 & _ & EX)].
      + assert (Ie : In e es) by (eapply split_in; eauto). assert (He : is_edge A p c e) by (exists s, es; auto). destruct (edgeA _ _ _ _ He Et) as [_ Kq].
        destruct (Ca p s c es E1' e E2 q Hs Hes Ees Et) as [L|[L|(Q & Er & G & Gp & Gq & G1 & G2)]]; auto.
        { left. apply (lower_shift ra pa _ _ h 0); auto; apply beside_A; auto. }
        right. right. split; auto. rewrite !beside_A by auto. split; [lia|]. exists (fun x => In x (map fst (states A)) /\ G x). split; auto. split; auto. split.
        * intros x [Kx Gx] Ax. apply CA in Ax. apply (apart x Kx), accepting_in. auto.
        * assert (DE : forall y, In y (map fst (states A)) -> (forall c e, ~ is_edge A y c e) -> dead_end (concat2 A B) y).
          { intros y Ky D2. split; [intros X; apply CA in X; apply (apart y Ky), accepting_in; auto|]. intros c3 e3 H3.
            apply catE in H3 as [H3|[H3|(e4 & q4 & i4 & H4 & _)]]; [eapply D2; eauto|destruct (apart y Ky (edge_source _ _ _ _ H3))|eapply D2; eauto]. }
          intros x c1 e1 y [Kx Gx] He1 Ey. apply catE in He1 as [He1|[He1|(e0 & q0 & i & He0 & Eq0 & Aq0 & Hi & ->)]].
          -- destruct (edgeA _ _ _ _ He1 Ey) as [_ Ky]. destruct (G2 x c1 e1 y Gx He1 Ey) as [(Gy & Qy)|[(D1 & D2)|[(Ay & _)|([[]|W] & e2 & I2 & Et2 & Eg & Ers & L)]]]; auto.
             ++ right. left. apply DE; auto. intros c3 e3 H3. exact (edge_not_acc _ _ _ _ _ _ _ T1 H3 Ay).
             ++ right. right. right. split; [right; intros X; apply CA in X; apply (apart y Ky), accepting_in; auto|]. exists e2. split; [apply in_or_app; auto|].
                split; auto. split; auto. split; auto. apply (lower_shift ra pa _ _ h 0); auto; apply beside_A; auto.
          -- destruct (apart x Kx (edge_source _ _ _ _ He1)).
          -- cbn [etgt eguard eresets] in *. injection Ey as <-.
             destruct (G2 x c1 e0 q0 Gx He0 Eq0) as [(Gy & _)|[(D1 & _)|[(_ & O & e2 & q2 & I2 & Eq2 & Aq2 & Eg)|([[]|W] & _)]]]; try contradiction; [destruct (G1 _ Gy Aq0)|].
             assert (I : In (mkE (Some i) (iota (clockSize B)) (eguard e2)) (flat_map (fun e => if acc_tgt A e then map (fun i => mkE (Some i) (iota (clockSize B)) (eguard e)) (inits B) else []) es)).
             { apply in_flat_map. exists e2. split; auto. rewrite (proj2 (acc_tgt_spec A e2 q2 (wf_nodup _ W1) Eq2) Aq2). apply in_map_iff. eauto. }
             destruct (acc_dec al n1 n2 B T2 i) as [Ai|Ai].
             ++ right. right. left. split; [apply CA; auto|]. split.
                ** right. split; auto. destruct (nullable r2) eqn:N2; auto. exfalso. revert Ai. eapply no_init_acc; eauto.
                ** exists (mkE (Some i) (iota (clockSize B)) (eguard e2)), i. cbn [etgt eguard]. split; [|split; auto; split; [apply CA|]; auto]. apply in_or_app. auto.
             ++ right. right. right. split; [right; intros X; apply CA in X; auto|].
                exists (mkE (Some i) (iota (clockSize B)) (eguard e2)). cbn [etgt eguard eresets]. split; [|split; auto]. apply in_or_app. auto.
      + assert (Ie : In e (p2 ++ e :: E2')) by apply in_elt. rewrite <- EX in Ie. apply in_flat_map in Ie as (e1 & I1 & Ie). destruct (acc_tgt A e1); [|destruct Ie].
        apply in_map_iff in Ie as (i & Ee & Hi). subst e. cbn [etgt] in Et. injection Et as <-. left. apply LB; auto.
    - destruct (right_state_same A B p s) as (_ & EN & _). rewrite EN in Hes'. pose proof (in_map fst _ _ Hs) as Kp. cbn [fst] in Kp.
      assert (He : is_edge B p c e) by (exists s, es'; split; auto; split; auto; eapply split_in; eauto). destruct (edgeB _ _ _ _ He Et) as [_ Kq].
      destruct (Cb p s c es' E1' e E2' q Hs Hes' Ees' Et) as [L|[L|(Q & Er & G & Gp & Gq & G1 & G2)]]; auto.
      { left. apply (lower_shift rb pb _ _ 0 0); auto; rewrite beside_B by auto; reflexivity. }
      right. right. split; auto. rewrite !beside_B by auto. split; [lia|]. exists (fun x => In x (map fst (states B)) /\ G x). split; auto. split; auto. split.
      + intros x [Kx Gx] Ax. apply CA in Ax. exact (G1 x Gx Ax).
      + assert (EB : forall x c1 e1, In x (map fst (states B)) -> is_edge (concat2 A B) x c1 e1 -> is_edge B x c1 e1).
        { intros x c1 e1 Kx H. apply catE in H as [H|[H|(e4 & q4 & i4 & H & _)]]; auto; destruct (apart x (edge_source _ _ _ _ H) Kx). }
        intros x c1 e1 y [Kx Gx] He1 Ey. apply EB in He1; auto. destruct (edgeB _ _ _ _ He1 Ey) as [_ Ky].
        destruct (G2 x c1 e1 y Gx He1 Ey) as [(Gy & Qy)|[(D1 & D2)|[(Ay & O & e2 & q2 & I2 & Eq2 & Aq2 & Eg)|([[]|W] & e2 & I2 & Et2 & Eg & Ers & L)]]]; auto.
        * right. left. split; [intros X; apply CA in X; auto|]. intros c3 e3 H3. apply EB in H3; auto. exact (D2 _ _ H3).
        * right. right. left. split; [apply CA; auto|]. split; auto. exists e2, q2. split; auto. split; auto. split; auto. apply CA; auto.
        * right. right. right. split; [right; intros X; apply CA in X; auto|]. exists e2. split; auto. split; auto. split; auto. split; auto. apply (lower_shift rb pb _ _ 0 0); auto; rewrite beside_B by auto; reflexivity.
  Qed.
End TwoCalm.

(* ---------------- restriction ---------------- *)

Lemma within_rounds : forall al n0 n1 A Iv lo up o rg ps, tinv al n0 n1 A -> rounds_first o False A rg ps -> rounds_first o False (wTA A Iv lo up) (norm A rg) ps.
Proof.
  intros al n0 n1 A Iv lo up o rg ps T C p s' c es' E1' e' E2' q Hs' Hes' Ees' Et'. pose proof (wf_nodup _ (ti_wf _ _ _ _ T)) as N.
  assert (CA : forall x, accepting (wTA A Iv lo up) x <-> accepting A x) by apply (w_accepting A Iv lo up).
  assert (WT : forall e, etgt (wedge A Iv lo up e) = etgt e) by (intros e; unfold wedge; destruct (acc_tgt A e); auto).
  assert (WO : forall e q, etgt e = Some q -> ~ accepting A q -> wedge A Iv lo up e = e).
  { intros e q0 E X. unfold wedge. destruct (acc_tgt A e) eqn:Y; auto. apply (acc_tgt_spec A e q0 N E) in Y. contradiction. }
  assert (WI : forall e q, etgt e = Some q -> accepting A q -> eguard (wedge A Iv lo up e) = eguard e ++ within_guard (clockSize A) Iv lo up).
  { intros e q0 E X. unfold wedge. rewrite (proj2 (acc_tgt_spec A e q0 N E) X). auto. }
  apply w_state in Hs' as (s & Hs & ->). cbn [wstate next] in Hes'. apply in_map_next in Hes' as (es & Hes & Em).
  rewrite Ees' in Em. symmetry in Em. apply map_split in Em as (E1 & e & E2 & Ees & EE1 & Ee & EE2). subst e'. rewrite WT in Et'.
  assert (Ie : In e es) by (eapply split_in; eauto). pose proof (src al n0 n1 A T p s c es e Hs Hes Ie) as NAp.
  destruct (acc_dec al n0 n1 A T q) as [Aq|Aq]; [left; apply (down_norm al n0 n1 A T); auto|]. rewrite (WO e q Et' Aq) in *.
  destruct (C p s c es E1 e E2 q Hs Hes Ees Et') as [L|[L|(Q & Er & G & Gp & Gq & G1 & G2)]]; auto.
  - left. apply (lower_norm al n0 n1 A T rg ps p e); auto.
  - right. right. split; auto. rewrite !(norm_out al n0 n1 A T) by auto. split; auto. exists G. split; auto. split; auto. split; [intros x Gx Ax; apply CA in Ax; exact (G1 x Gx Ax)|].
    intros x c1 e1' y Gx He Ey. apply (w_edge al n0 n1 A Iv lo up T) in He as (e1 & y0 & He & Ey0 & ->). cbn [etgt eguard eresets] in *. injection Ey as <-.
    destruct (G2 x c1 e1 y0 Gx He Ey0) as [(Gy & Qy)|[(D1 & D2)|[(Ay & O & e2 & q2 & I2 & Eq2 & Aq2 & Eg)|([[]|W] & e2 & I2 & Et2 & Eg & Ers & L)]]].
    + left. split; auto. destruct (match_at A y0) eqn:X; [apply (match_at_spec A y0 N) in X; destruct (G1 _ Gy X)|]. exact Qy.
    + right. left. split; [intros X; apply CA in X; auto|]. intros c3 e3 H3. apply (w_edge al n0 n1 A Iv lo up T) in H3 as (e4 & q4 & H4 & _). exact (D2 _ _ H4).
    + right. right. left. split; [apply CA; auto|]. split; auto. exists (wedge A Iv lo up e2), q2. split; [|split; [rewrite WT; auto|split; [apply CA; auto|]]].
      * apply (in_map (wedge A Iv lo up)) in I2. rewrite Ees, map_app in I2. cbn [map] in I2. rewrite EE1, EE2, (WO e q Et' Aq) in I2. rewrite Ees'. exact I2.
      * rewrite (WI e2 q2 Eq2 Aq2), (proj2 (match_at_spec A y0 N) Ay), Eg. auto.
    + right. right. right. split; [right; intros X; apply CA in X; auto|]. exists e2. destruct (match_at A y0) eqn:X; [apply (match_at_spec A y0 N) in X; contradiction|].
      split; [rewrite <- EE2, <- (WO e2 y0 Et2 W); apply in_map; auto|]. split; auto. split; auto. split; auto. apply (lower_norm al n0 n1 A T rg ps p e2); auto.
Qed.

(* ---------------- every expression ---------------- *)

Lemma closed_dec : forall r, closed r \/ ~ closed r.
Proof. induction r; cbn; try tauto. destruct (nullable r2); intuition discriminate. Qed.

Theorem toEventTA_rounds : forall al r n A m, injective al -> plain r -> nclocks r <= 256 -> toEventTA al r n = Ok (A, m) -> looped r ->
  exists rg ps, rounds_first (~ closed r) False A rg ps.
Proof.
  intros al r n A m Inj. revert n A m.
  induction r as [c| |r IH|r1 IH1 r2 IH2|r1 IH1 r2 IH2|r1 IH1 r2 IH2|r IH Iv]; intros n A m P K E L.
  - destruct (toEventTA_leaned al _ n A m Inj P K E) as [_ _ _ LI _]. destruct (LI Logic.I) as (rk & M). exists rk, (fun _ => 0). apply idle_rounds. auto.
  - destruct (toEventTA_leaned al _ n A m Inj P K E) as [_ _ _ LI _]. destruct (LI Logic.I) as (rk & M). exists rk, (fun _ => 0). apply idle_rounds. auto.
  - cbn [toEventTA] in E. cbn [plain nclocks] in P, K. destruct P as (P & F & Nu). pose proof (plain_ok r P) as O. apply bind_Ok in E as (X & E & E2). apply bind_Ok in E2 as (B & E2 & X2).
    injection X2 as <- <-. apply bind_Ok in E as ([A1 n1] & E & X1). injection X1 as <-. cbn [fst snd] in *. destruct L as [L L0].
    pose proof (toEventTA_inv al r n A1 n1 Inj O K E) as Bu. pose proof (bu_inv _ _ _ _ _ Bu) as T. destruct (IH n A1 n1 P K E L) as (rg & ps & C).
    destruct (le_some _ _ (toEventTA_leaned al r n A1 n1 Inj P K E)) as (a & Ha).
    eapply (post_rounds al n n1 _ (plusTA A1)); [| | |exact E2].
    + apply plus_tinv; auto. rewrite (bu_clocks _ _ _ _ _ Bu). auto.
    + exists a. apply plus_accepting. auto.
    + apply (rounds_mono True); [intros _ []|]. eapply (plus_rounds al n n1); eauto; [eapply no_init_acc; eauto|]. rewrite (bu_clocks _ _ _ _ _ Bu). auto.
  - cbn [toEventTA] in E. cbn [plain nclocks] in P, K. destruct P as [P1 P2]. pose proof (plain_ok r1 P1) as O1. pose proof (plain_ok r2 P2) as O2.
    apply bind_Ok in E as (X & E & E2). apply bind_Ok in E2 as (B & E2 & X2). injection X2 as <- <-.
    apply bind_Ok in E as ([A1 n1] & Ea & E). apply bind_Ok in E as ([A2 n2] & Eb & X1). injection X1 as <-. cbn [fst snd] in *. destruct L as [L1 L2].
    pose proof (toEventTA_inv al r1 n A1 n1 Inj O1 ltac:(lia) Ea) as Bu1. pose proof (toEventTA_inv al r2 n1 A2 n2 Inj O2 ltac:(lia) Eb) as Bu2.
    assert (KB : clockSize A2 <= 256) by (rewrite (bu_clocks _ _ _ _ _ Bu2); lia).
    destruct (IH1 n A1 n1 P1 ltac:(lia) Ea L1) as (ra & pa & Ca). destruct (IH2 n1 A2 n2 P2 ltac:(lia) Eb L2) as (rb & pb & Cb).
    destruct (le_some _ _ (toEventTA_leaned al r2 n1 A2 n2 Inj P2 ltac:(lia) Eb)) as (a & Ha).
    eapply (post_rounds al n n2 _ (concat2 A1 A2)); [| | |exact E2].
    + eapply cat_tinv; eauto using bu_inv, bu_le.
    + exists a. apply (cat_accepting A1 A2). auto.
    + eapply (rounds_mono (~ closed r2 \/ (nullable r2 = true /\ ~ closed r1))); [cbn [closed]; tauto|]. eapply (cat_rounds al n n1 n2 r1 r2); eauto.
  - cbn [toEventTA] in E. cbn [plain nclocks] in P, K. destruct P as [P1 P2]. pose proof (plain_ok r1 P1) as O1. pose proof (plain_ok r2 P2) as O2.
    apply bind_Ok in E as (X & E & E2). apply bind_Ok in E2 as (B & E2 & X2). injection X2 as <- <-.
    apply bind_Ok in E as ([A1 n1] & Ea & E). apply bind_Ok in E as ([A2 n2] & Eb & X1). injection X1 as <-. cbn [fst snd] in *. destruct L as [L1 L2].
    pose proof (toEventTA_inv al r1 n A1 n1 Inj O1 ltac:(lia) Ea) as Bu1. pose proof (toEventTA_inv al r2 n1 A2 n2 Inj O2 ltac:(lia) Eb) as Bu2.
    destruct (IH1 n A1 n1 P1 ltac:(lia) Ea L1) as (ra & pa & Ca). destruct (IH2 n1 A2 n2 P2 ltac:(lia) Eb L2) as (rb & pb & Cb).
    destruct (le_some _ _ (toEventTA_leaned al r2 n1 A2 n2 Inj P2 ltac:(lia) Eb)) as (a & Ha).
    eapply (post_rounds al n n2 _ (altTA A1 A2)); [| | |exact E2].
    + eapply alt_tinv; eauto using bu_inv, bu_le.
    + exists a. apply alt_accepting. auto.
    + eapply (rounds_mono (~ closed r1 \/ ~ closed r2)); [cbn [closed]; tauto|]. eapply (alt_rounds al n n1 n2 r1 r2); eauto.
  - destruct (toEventTA_leaned al _ n A m Inj P K E) as [_ _ _ LI _]. destruct (LI L) as (rk & M). exists rk, (fun _ => 0). apply idle_rounds. auto.
  - cbn [toEventTA] in E. cbn [plain nclocks] in P, K. destruct P as (P & F & Nu & lo & up & E1 & E2 & Lu). pose proof (plain_ok r P) as O.
    apply bind_Ok in E as (X & E & E3). apply bind_Ok in E3 as (B & E3 & X2). injection X2 as <- <-.
    apply bind_Ok in E as ([A1 n1] & Ea & E). apply bind_Ok in E as (B1 & Ew & X1). injection X1 as <-. cbn [fst snd] in *.
    pose proof (toEventTA_inv al r n A1 n1 Inj O ltac:(lia) Ea) as Bu.
    assert (KA : clockSize A1 < 256) by (rewrite (bu_clocks _ _ _ _ _ Bu); lia).
    rewrite (withinTA_ok al n n1 A1 Iv lo up (bu_inv _ _ _ _ _ Bu) E1 E2 KA) in Ew. injection Ew as <-.
    destruct (IH n A1 n1 P ltac:(lia) Ea L) as (rg & ps & C). destruct (le_some _ _ (toEventTA_leaned al r n A1 n1 Inj P ltac:(lia) Ea)) as (a & Ha).
    eapply (post_rounds al n (S n1) _ (wTA A1 Iv lo up)); [| | |exact E3].
    + eapply w_tinv; eauto using bu_inv, bu_le.
    + exists a. apply w_accepting. auto.
    + eapply within_rounds; eauto using bu_inv.
Qed.

(* ---------------- without '$' ---------------- *)

Lemma ap_rounds : forall D Ap rg ps, wf_ta D -> full D -> make_ap D = Ok Ap -> (forall p e, is_edge D p dollar e -> exists q, etgt e = Some q /\ accepting D q) ->
  rounds_first False False D rg ps -> rounds_first False True Ap rg ps.
Proof.
  intros D Ap rg ps W FD HA HD C p s' c es E1 e E2 q Hs' Hes Ees Et. pose proof (wf_nodup _ W) as N. destruct (make_ap_states _ _ HA) as (ES & _).
  rewrite ES in Hs'. apply in_map_iff in Hs' as ([p0 s] & Eq & Hs). cbn [fst snd] in Eq. injection Eq as -> <-. apply ap_next in Hes as [Hes Nd].
  assert (AP : forall x, accepting Ap x -> accepting D x \/ exists e, is_edge D x dollar e).
  { intros x (sx & Hx & Mx). rewrite ES in Hx. apply in_map_iff in Hx as ([x0 s0] & Eq & Hx). cbn [fst snd] in Eq. injection Eq as -> <-. unfold ap_state in Mx.
    destruct (assoc dollar (next s0)) as [l|] eqn:X; [|left; exists s0; auto].
    right. apply assoc_In in X. destruct l as [|e0 l]; [destruct (FD _ _ _ _ Hx X eq_refl)|]. exists e0, s0, (e0 :: l). split; auto. split; auto. left. auto. }
  destruct (C p s c es E1 e E2 q Hs Hes Ees Et) as [L|[L|(Q & Er & G & Gp & Gq & G1 & G2)]]; auto.
  right. right. split; auto. split; auto. exists G. split; auto. split; auto. split.
  - intros x Gx Ax. destruct (AP x Ax) as [X|(e0 & He0)]; [exact (G1 x Gx X)|]. destruct (HD x e0 He0) as (y & Ey & Ay).
    destruct (G2 x dollar e0 y Gx He0 Ey) as [(Gy & _)|[(D1 & _)|[(_ & [] & _)|([[]|W2] & _)]]]; auto. exact (G1 y Gy Ay).
  - intros x c1 e1 y Gx He1 Ey. apply (ap_edge D Ap HA) in He1 as [He1 _].
    destruct (G2 x c1 e1 y Gx He1 Ey) as [X|[(D1 & D2)|[(_ & [] & _)|([[]|W2] & X)]]]; auto 6.
    right. left. split; [intros X; destruct (AP y X) as [Y|(e0 & Y)]; [auto|exact (D2 _ _ Y)]|]. intros c3 e3 H3. apply (ap_edge D Ap HA) in H3 as [H3 _]. exact (D2 _ _ H3).
Qed.
