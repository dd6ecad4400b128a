(* Times with at most six decimals give zones with at most six decimals. *)
From Coq Require Import QArith Qabs Lqa Bool List ZArith Arith Lia.
From Verif Require Import Num NumFacts Outcome Constraint Zone TA Spec Word WordFacts ZA Monaa Skip Text Ans Print PrintFacts.
Import ListNotations.
Open Scope nat_scope.

Definition mnum (a : num) : Prop := match a with Fin q => micro q | _ => True end.
Definition mbound (b : bound) : Prop := mnum (fst b).
Lemma micro_int : forall z, micro (inject_Z z).
Proof. intros z. exists (z * 1000000)%Z. rewrite inject_Z_mult. field. Qed.
Lemma micro_0 : micro 0.
Proof. exists 0%Z. reflexivity. Qed.
Lemma micro_plus : forall a b, micro a -> micro b -> micro (a + b).
Proof. intros a b (x & Ex) (y & Ey). exists (x + y)%Z. rewrite Ex, Ey, inject_Z_plus. field. Qed.
Lemma micro_opp : forall a, micro a -> micro (- a).
Proof. intros a (x & Ex). exists (- x)%Z. rewrite Ex, inject_Z_opp. field. Qed.
Lemma micro_minus : forall a b, micro a -> micro b -> micro (a - b).
Proof. intros a b Ha Hb. apply micro_plus; auto using micro_opp. Qed.
Lemma mbound_add : forall a b, mbound a -> mbound b -> mbound (badd a b).
Proof. intros [[| |x|] fa] [[| |y|] fb]; unfold mbound; cbn; auto. apply micro_plus. Qed.
Lemma mbound_min : forall a b, mbound a -> mbound b -> mbound (bmin a b).
Proof. intros a b Ha Hb. unfold bmin. destruct (bltb b a); auto. Qed.
Lemma mbound_bnd : forall q f, micro q -> mbound (bnd q f).
Proof. auto. Qed.
Lemma mbound_zero : mbound bzero.
Proof. exact micro_0. Qed.
#[local] Hint Resolve mbound_add mbound_min mbound_bnd mbound_zero micro_plus micro_opp micro_minus micro_0 micro_int : mi.

Definition m6 (b : six) : Prop := mbound (ub b) /\ mbound (lb b) /\ mbound (ue b) /\ mbound (le6 b) /\ mbound (ud b) /\ mbound (ld b).
Definition mcfg (c : iconf) : Prop := mbound (iup c) /\ mbound (ilo c) /\ Forall micro (irst c).
Definition mzone (z : mat) : Prop := forall i j, mbound (mget z i j).

Lemma mq_nth : forall l x, Forall micro l -> micro (qnth l x).
Proof.
  intros l x F. unfold qnth. destruct (Nat.lt_ge_cases x (length l)) as [L|L].
  - rewrite Forall_forall in F. apply F, nth_In. auto.
  - rewrite nth_overflow by auto. apply micro_0.
Qed.
Lemma acc_guard1_m : forall rst b g, Forall micro rst -> m6 b -> m6 (acc_guard1 rst b g).
Proof.
  intros rst b g F (H1 & H2 & H3 & H4 & H5 & H6). pose proof (mq_nth rst (cx g) F). unfold acc_guard1. destruct (is_reset rst (cx g)), (codr g); unfold m6; cbn [ub lb ue le6 ud ld]; repeat split; auto 10 with mi.
Qed.
Lemma ans_zone_m : forall b, m6 b -> mzone (ans_zone b).
Proof.
  intros b (H1 & H2 & H3 & H4 & H5 & H6) i j. unfold mget, ans_zone. assert (X : mbound binf) by exact Logic.I.
  destruct i as [|[|[|i]]]; cbn [nth]; try (destruct j as [|[|[|j]]]; cbn [nth]; auto with mi; destruct j; auto); destruct i; cbn; destruct j; auto.
Qed.
Lemma acc_edge_m : forall cfg up lo e z, mcfg cfg -> mbound up -> mbound lo -> acc_edge cfg up lo e = Some z -> mzone z.
Proof.
  intros cfg up lo e z (H1 & H2 & H3) Hu Hl E. unfold acc_edge in E.
  set (b := fold_left (acc_guard1 (irst cfg)) (eguard e) (six_init cfg up lo)) in *.
  assert (M : m6 b).
  { unfold b. clear E b. assert (X : m6 (six_init cfg up lo)) by (unfold m6, six_init; cbn [ub lb ue le6 ud ld]; repeat split; auto with mi).
    clear - X H3. revert X. generalize (six_init cfg up lo). induction (eguard e) as [|g gs IH]; intros s X; [exact X|]. cbn [fold_left]. apply IH, acc_guard1_m; auto. }
  destruct (_ && _); [|discriminate]. injection E as <-. apply ans_zone_m. auto.
Qed.
Lemma step_guard_m : forall rst t gs up lo up' lo', micro t -> mbound up -> mbound lo -> step_guard rst t gs up lo = Some (up', lo') -> mbound up' /\ mbound lo'.
Proof.
  intros rst t gs. induction gs as [|g gs IH]; intros up lo up' lo' Ht Hu Hl E; cbn [step_guard] in E.
  - injection E as <- <-. auto.
  - destruct (is_reset rst (cx g)).
    + destruct (satisfy g _); [eauto|discriminate].
    + destruct (codr g); eapply IH; try exact E; auto with mi.
Qed.
Lemma set_micro : forall l x t, Forall micro l -> micro t -> Forall micro (set_nth l x t).
Proof. induction l as [|a l IH]; intros x t F H; [constructor|]. inversion F; subst. destruct x; cbn [set_nth]; constructor; auto. Qed.
Lemma step_edge_m : forall cfg t e cfg', mcfg cfg -> micro t -> step_edge cfg t e = Some cfg' -> mcfg cfg'.
Proof.
  intros cfg t e cfg' (H1 & H2 & H3) Ht E. unfold step_edge in E. destruct (etgt e); [|discriminate].
  destruct (step_guard _ _ _ _ _) as [[up lo]|] eqn:G; [|discriminate]. destruct (isValidConstraint up lo); [|discriminate]. injection E as <-.
  destruct (step_guard_m _ _ _ _ _ _ _ Ht H1 H2 G) as (X1 & X2). split; [|split]; cbn [iup ilo irst]; auto.
  clear - H3 Ht. revert H3. generalize (irst cfg). induction (eresets e) as [|x xs IH]; intros l F; [exact F|]. cbn [fold_left]. apply IH, set_micro; auto.
Qed.

Section Run.
  Variable A : ta.
  Variable T : skips.
  Variable M : mode.
  Variable w : tword.
  Hypothesis HM : M <> MOptional.
  Hypothesis Hw : forall c t, In (c, t) w -> micro t.

  Lemma vec_m : forall j e, vec_at w j = Ok e -> micro (snd e).
  Proof. intros j [c t] E. unfold vec_at in E. destruct (nth_error w j) eqn:N; [|discriminate]. injection E as ->. apply nth_error_In in N. eauto. Qed.
  Lemma low_m : forall j b, low_end vecC w j = Ok b -> mbound b.
  Proof.
    intros j b E. unfold low_end in E. destruct (0 <? j); [|injection E as <-; auto with mi]. destruct (cat vecC w (j - 1)) as [e| | | |] eqn:V; try discriminate. cbn [bind] in E. injection E as <-. apply vec_m in V. auto with mi.
  Qed.
  Lemma fold_m : forall {S X} (P : S -> Prop) (f : X -> S -> outcome S) l s s', P s -> (forall x s s', In x l -> P s -> f x s = Ok s' -> P s') -> fold_out f l s = Ok s' -> P s'.
  Proof.
    intros S X P f l. induction l as [|x l IH]; intros s s' Hs Hf E; cbn [fold_out] in E; [injection E as <-; auto|].
    destruct (f x s) as [s1| | | |] eqn:F; try discriminate. cbn [bind] in E. eapply IH; [| |exact E]; [eapply Hf; eauto; left; auto|]. intros y u u' Hy. apply Hf. right. auto.
  Qed.
  Lemma acc_confs_m : forall fin l j cs ans ans', Forall mcfg cs -> Forall mzone ans -> acc_confs vecC A fin l w j cs ans = Ok ans' -> Forall mzone ans'.
  Proof.
    intros fin l j cs ans ans' Hc Ha E. unfold acc_confs in E. revert E. apply (fold_m (Forall mzone)); auto. clear ans ans' Ha.
    intros cfg ans ans' Hcfg Ha. apply (fold_m (Forall mzone)); auto. clear ans ans' Ha. intros e ans ans' _ Ha E. rewrite Forall_forall in Hc. specialize (Hc _ Hcfg).
    destruct (match etgt e with Some q => _ | None => false end); [|injection E as <-; auto].
    assert (U : exists up lo, mbound up /\ mbound lo /\ ans' = ans ++ opt_list (acc_edge cfg up lo e)).
    { destruct fin.
      - cbn [bind] in E. destruct (low_end vecC w j) as [lo| | | |] eqn:Lo; try discriminate. cbn [bind] in E. injection E as <-. exists (PInf, true), lo. split; [exact Logic.I|]. split; [eapply low_m; eauto|reflexivity].
      - destruct (cat vecC w j) as [x| | | |] eqn:V; try discriminate. cbn [bind] in E. destruct (low_end vecC w j) as [lo| | | |] eqn:Lo; try discriminate. cbn [bind] in E. injection E as <-.
        exists (bnd (snd x) true), lo. apply vec_m in V. split; [exact V|]. split; [eapply low_m; eauto|reflexivity]. }
    destruct U as (up & lo & Hu & Hl & ->). apply Forall_app. split; auto. destruct (acc_edge cfg up lo e) as [z|] eqn:Ez; constructor; auto. exact (acc_edge_m cfg up lo e z Hc Hu Hl Ez).
  Qed.
  Lemma step_confs_m : forall c t cs, micro t -> Forall mcfg cs -> Forall mcfg (step_confs A c t cs).
  Proof.
    intros c t cs Ht F. apply Forall_forall. intros x Hx. unfold step_confs in Hx. apply in_flat_map in Hx as (cfg & Hc & Hx). apply in_flat_map in Hx as (e & _ & Hx).
    destruct (step_edge cfg t e) eqn:E; [|destruct Hx]. destruct Hx as [<-|[]]. rewrite Forall_forall in F. eapply step_edge_m; eauto.
  Qed.
  Lemma match_loop_m : forall fuel j cs ls ans r, Forall mcfg cs -> Forall mzone ans ->
    match_loop vecC A M fuel w j cs ls ans = Ok r -> fst (fst (fst (fst r))) = w /\ Forall mcfg (snd (fst (fst r))) /\ Forall mzone (snd r).
  Proof.
    induction fuel as [|fuel IH]; intros j cs ls ans r Hc Ha E.
    - cbn [match_loop] in E. destruct cs as [|c cs]; [injection E as <-; cbn; auto|]. cbn [cfetch vecC] in E. destruct (j <? length w); [discriminate|]. injection E as <-. cbn; auto.
    - cbn [match_loop] in E. destruct cs as [|c cs]; [injection E as <-; cbn; auto|]. cbn [cfetch vecC] in E. destruct (j <? length w); [|injection E as <-; cbn; auto].
      destruct (cat vecC w j) as [e| | | |] eqn:V; try discriminate. cbn [bind] in E. destruct (acc_confs _ _ _ _ _ _ _ _) as [a| | | |] eqn:Ac; try discriminate. cbn [bind] in E.
      apply vec_m in V. pose proof (acc_confs_m _ _ _ _ _ _ Hc Ha Ac) as Hz.
      replace (event_confs M A (fst e) (snd e) (c :: cs)) with (step_confs A (fst e) (snd e) (c :: cs)) in E by (destruct M; auto; congruence).
      replace (event_zones M A (fst e) (snd e) (c :: cs)) with (@nil mat) in E by (destruct M; auto; congruence). rewrite app_nil_r in E.
      eapply IH; [| |exact E]; auto. apply step_confs_m; auto.
  Qed.
  Lemma start_m : forall i cs, start_confs vecC A w i = Ok cs -> Forall mcfg cs.
  Proof.
    intros i cs E. unfold start_confs in E. destruct (cat vecC w i) as [e| | | |] eqn:V; try discriminate. cbn [bind] in E. apply vec_m in V.
    assert (X : exists lo, mbound lo /\ cs = map (fun p => mkI p (repeat 0%Q (clockSize A)) (bnd (snd e) false) lo) (inits A)).
    { destruct (0 <? i); [|cbn [bind] in E; injection E as <-; eauto with mi]. destruct (cat vecC w (i - 1)) as [f| | | |] eqn:V2; try discriminate. cbn [bind] in E. injection E as <-. apply vec_m in V2. eexists. split; [|reflexivity]. auto with mi. }
    destruct X as (lo & Hl & ->). apply Forall_forall. intros x Hx. apply in_map_iff in Hx as (p & <- & _). split; [|split]; cbn [iup ilo irst]; auto with mi.
    apply Forall_forall. intros q Hq. apply repeat_spec in Hq. subst. apply micro_0.
  Qed.
  Lemma sunday_loop_m : forall fuel i r, sunday_loop vecC T fuel w i = Ok r -> fst r = w.
  Proof.
    induction fuel as [|fuel IH]; intros i r E; cbn [sunday_loop] in E; (destruct (cat vecC w _) as [e| | | |]; try discriminate); cbn [bind] in E; (destruct (mem (fst e) (sk_end T)); [injection E as <-; auto|]);
      cbn [cfetch vecC] in E; (destruct (_ <? length w); [|injection E as <-; auto]); (destruct (cat vecC w _) as [e2| | | |]; try discriminate); cbn [bind] in E; (destruct (sk_delta T (fst e2)); [|discriminate]); [discriminate|].
    cbn [csetFront vecC bind cfetch] in E. destruct (_ <? length w); [eauto|]. injection E as <-. auto.
  Qed.
  Lemma outer_m : forall fuel i ls ans zs, Forall mzone ans -> outer_loop vecC A T M fuel w i ls ans = Ok zs -> Forall mzone zs.
  Proof.
    induction fuel as [|fuel IH]; intros i ls ans zs Ha E; cbn [outer_loop cfetch vecC] in E.
    - destruct (_ <? length w); [discriminate|]. injection E as <-. auto.
    - destruct (_ <? length w); [|injection E as <-; auto].
      destruct (sunday_shift vecC T (S fuel) w i) as [[c o]| | | |] eqn:Su; try discriminate. cbn [bind snd fst] in E.
      assert (Ec : c = w). { unfold sunday_shift in Su. destruct (1 <? sk_m T); [|injection Su as <- _; auto]. cbn [cfetch vecC] in Su. destruct (_ <? length w); [|injection Su as <- _; auto]. apply sunday_loop_m in Su. auto. }
      subst c. destruct o as [i'|]; [|injection E as <-; auto]. destruct (i' <? length w); [|injection E as <-; auto].
      destruct (start_confs vecC A w i') as [cs| | | |] eqn:St; try discriminate. cbn [bind] in E. destruct (match_loop vecC A M (S fuel) w i' cs ls ans) as [[[[[c j] cs'] ls'] ans']| | | |] eqn:Ml; try discriminate. cbn [bind] in E.
      destruct (match_loop_m _ _ _ _ _ _ (start_m _ _ St) Ha Ml) as (Ew & Hc & Hz). cbn [fst snd] in Ew, Hc, Hz. subst c.
      destruct (if j <? length w then _ else _) as [la| | | |] eqn:La; try discriminate. cbn [bind] in E.
      assert (Hl : Forall mzone (snd la)).
      { destruct (j <? length w); [injection La as <-; auto|]. destruct M; try congruence.
        - destruct (acc_confs _ _ _ _ _ _ _ _) as [a| | | |] eqn:Ac; try discriminate. cbn [bind] in La. injection La as <-. cbn [snd]. eapply acc_confs_m; [| |exact Ac]; auto.
        - injection La as <-. auto. }
      destruct (greatest T (fst la)) as [n| | | |]; try discriminate. cbn [bind csetFront vecC] in E. eapply IH; [|exact E]. auto.
  Qed.
End Run.

(* What is reported for a word with at most six decimals has at most six. *)
Lemma monaaDollar_micro : forall fuel al A w zs, (forall c t, In (c, t) w -> micro t) -> monaaDollar fuel al vecC A w = Ok zs -> Forall mzone zs.
Proof.
  intros fuel al A w zs Hw H. unfold monaaDollar in H. destruct (make_ap A) as [Ap| | | |]; try discriminate. cbn [bind] in H. destruct (tables fuel al Ap) as [T| | | |]; try discriminate. cbn [bind] in H.
  destruct (no_eps A); [|injection H as <-; constructor]. eapply (outer_m A T MDollar w); [discriminate|exact Hw|constructor|exact H].
Qed.
