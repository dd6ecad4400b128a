(* Properties C76 and C26: the zone automaton has no path, and
   the Sunday table no character, that no timed word shows. *)
From Coq Require Import QArith Lqa Bool List ZArith Arith Lia.
From Verif Require Import Num NumFacts Outcome Constraint Zone ZoneFacts ZoneOps TA Spec TAFacts WfDec PropBase Word MonaaFacts ApFacts ZA ZASpec ZAFacts ZAGraph PropZA ZATerm ZALive ZADiv ZAExact
  Intersection Monaa Skip SkipFacts Sunday SundayTerm PropTerm PropSkipEx.
Import ListNotations.
Open Scope nat_scope.

(* No constant of a guard is above all elements of maxConstraints, one of which
   is positive (or there are no clocks). *)
Definition consts_known (A : ta) : Prop :=
  (clockSize A = 0 \/ exists k, In k (maxC A) /\ (1 <= k)%Z) /\
  forall p c e g, is_edge A p c e -> In g (eguard e) -> exists k, In k (maxC A) /\ (cc g <= k)%Z.

Lemma known_max : forall A, wf_ta A -> consts_known A -> exists c, max_const A = (Fin (inject_Z c), true) /\ (clockSize A = 0 \/ (1 <= c)%Z) /\
  forall p a e g, is_edge A p a e -> In g (eguard e) -> (cc g <= c)%Z.
Proof.
  intros A W [H1 H2].
  assert (E : exists c, max_const A = (Fin (inject_Z c), true)) by (unfold max_const; destruct (maxC A); eauto; exists 0%Z; reflexivity).
  destruct E as (c & E). exists c. split; auto.
  assert (Q : forall k, In k (maxC A) -> (k <= c)%Z).
  { intros k Hk. destruct (max_const_ge A k Hk) as (z & Ez & Lz). rewrite E in Ez. injection Ez as Ez. lia. }
  split.
  - destruct H1 as [H1|(k & Hk & Lk)]; auto. right. specialize (Q k Hk). lia.
  - intros p a e g He Hg. destruct (H2 p a e g He Hg) as (k & Hk & Lk). specialize (Q k Hk). lia.
Qed.

(* ================= C76 every path is the trace of a run ================= *)

Theorem C76_paths : forall fuel A Z i l j, wf_ta A -> clockSize A <= 255 -> consts_known A -> ta2za fuel A zempty [] = Ok Z ->
  In i (zinit Z) -> zpath Z i l j ->
  exists p w q v T, In p (inits A) /\ map fst w = l /\ increasing 0 w /\ run A p zeroval 0 w q v T /\ (zaccepting Z j -> accepting A q).
Proof.
  intros fuel A Z i l j W K CK H Hi P. destruct (known_max A W CK) as (c & MC & HM & Cov).
  destruct (ta2za_fresh fuel A Z W K H) as (I & _ & _ & _ & _ & _ & AC).
  destruct (Inv_empty A (max_const A)) as [I0 E0]. destruct (zero_zone_ok A) as [Z0 Z0'].
  pose proof H as H'. apply (ta2za_inv A (max_const A) W K) in H'; auto. destruct H' as (_ & _ & _ & NI & _).
  apply NI in Hi as [[]|(s & p & _ & G & Hp & Q & Em & _)].
  rewrite MC in I. pose proof (start_real A c K HM s Em) as R0. rewrite Q in R0.
  destruct (path_real A c W K HM Cov MC Z I i l j P p [] s G R0) as (s' & G' & (m & (_ & _ & _ & (v & Hv) & _) & _ & R)).
  destruct (R v Hv) as (w & u & T & Ew & Inc & _ & _ & Rn & _).
  exists p, w, (zq s'), u, T. split; [exact Hp|]. split; [exact Ew|]. split; [exact Inc|]. split; [exact Rn|].
  intros (s2 & G2 & A2). unfold zget in G'. rewrite G' in G2. injection G2 as <-. rewrite (AC j s' G') in A2.
  apply match_at_spec; auto. apply (wf_nodup _ W).
Qed.

(* So both have the same words without the times. *)
Theorem C76_untimed : forall fuel A Z, wf_ta A -> clockSize A <= 255 -> consts_known A -> ta2za fuel A zempty [] = Ok Z ->
  forall l, (exists i j, In i (zinit Z) /\ zpath Z i l j /\ zaccepting Z j) <-> exists w, map fst w = l /\ increasing 0 w /\ accepts A w.
Proof.
  intros fuel A Z W K CK H l. split.
  - intros (i & j & Hi & P & Aj). destruct (C76_paths fuel A Z i l j W K CK H Hi P) as (p & w & q & v & T & Hp & Ew & Inc & R & Ac).
    exists w. split; auto. split; auto. exists p, q, v, T. auto.
  - intros (w & Ew & Inc & (p & q & v & T & Hp & R & Ac)). destruct (C20_simulation fuel A Z p q v 0 w T W K H Hp R Inc) as (i & j & Hi & P & Hj).
    rewrite Ew in P. eauto 6.
Qed.

Theorem C76_empty_iff : forall fuel A Z, wf_ta A -> clockSize A <= 255 -> consts_known A -> ta2za fuel A zempty [] = Ok Z ->
  (zempty_check Z = Ok true <-> forall w, increasing 0 w -> ~ accepts A w).
Proof.
  intros fuel A Z W K CK H. split; [apply (C20_empty fuel A Z W K H)|]. intros HN.
  destruct (ta2za_fresh fuel A Z W K H) as (_ & _ & WZ & _). destruct (zempty_check_spec Z WZ) as (b & Eb & Hb). rewrite Eb. f_equal. apply Hb.
  intros j (i & l & Hi & P) Aj. destruct (proj1 (C76_untimed fuel A Z W K CK H l)) as (w & _ & Inc & Ac); [eauto 6|]. exact (HN w Inc Ac).
Qed.

(* A constant must be positive: with 0 alone, a reset clock counts as unbounded
   below and x < 0 as possible. *)
Definition exZero : ta := mkTA
  [(1, mkS false false [(97, [mkE (Some 2) [0] []])]); (2, mkS false false [(98, [mkE (Some 3) [] [mkC 0 Lt 0]])]); (3, mkS true false [])] [1] [0%Z].

Theorem C76_zero_refuted : wf_ta exZero /\ (exists Z, ta2za 100 exZero zempty [] = Ok Z /\ zempty_check Z = Ok false) /\
  forall w, nondecreasing 0 w -> ~ accepts exZero w.
Proof.
  split; [apply wf_tab_ok; vm_compute; reflexivity|]. split; [eexists; split; vm_compute; reflexivity|].
  intros w ND (p & q & v & T & [<-|[]] & R & (s & Hs & Ms)).
  destruct w as [|[c t] w].
  { inversion R; subst. destruct Hs as [E|[E|[E|[]]]]; inversion E; subst; discriminate. }
  inversion R as [|? ? ? ? ? e ? q1 ? ? ? (s1 & es & I1 & I2 & I3) Et SG R1]; subst.
  destruct I1 as [E|[E|[E|[]]]]; try discriminate. injection E as <-. destruct I2 as [E|[]]. injection E as <- <-. destruct I3 as [<-|[]]. injection Et as <-.
  destruct w as [|[c2 t2] w].
  { inversion R1; subst. destruct Hs as [E|[E|[E|[]]]]; inversion E; subst; discriminate. }
  inversion R1 as [|? ? ? ? ? e ? q1 ? ? ? (s1 & es & I1 & I2 & I3) Et SG1 R2]; subst.
  destruct I1 as [E|[E|[E|[]]]]; try discriminate. injection E as <-. destruct I2 as [E|[]]. injection E as <- <-. destruct I3 as [<-|[]].
  specialize (SG1 (mkC 0 Lt 0) (or_introl eq_refl)). cbn in SG1, ND. unfold holds, delay, reset_set in SG1. cbn in SG1. change (inject_Z 0) with 0%Q in SG1. destruct ND as (_ & ND & _). lra.
Qed.

(* ================= C26 the Sunday table is tight ================= *)

(* The characters that are read. *)
Definition seen (l : list nat) : list nat := filter (fun c => negb (c =? 0)) l.
Lemma seen_app : forall l k, seen (l ++ k) = seen l ++ seen k.
Proof. intros. apply filter_app. Qed.
Lemma seen_zeros : forall n, seen (repeat 0 n) = [].
Proof. induction n; auto. Qed.
Lemma seen_observe : forall w, seen (map fst w) = map fst (observe w).
Proof. induction w as [|[c t] w IH]; auto. cbn [map fst observe seen filter] in *. unfold seen, observe in *. cbn. destruct (c =? 0); cbn; rewrite IH; auto. Qed.

Lemma fold_out_from : forall {X Y} (f : X -> outcome (list Y)) l acc r,
  fold_out (fun i acc => do y <- f i ; Ok (acc ++ y)) l acc = Ok r ->
  forall z, In z r -> In z acc \/ exists i y, In i l /\ f i = Ok y /\ In z y.
Proof.
  induction l as [|x l IH]; intros acc r H z Hz; cbn [fold_out] in H; [injection H as <-; auto|].
  apply bind_Ok in H as (acc' & H1 & H). apply bind_Ok in H1 as (y & Hy & H1). injection H1 as <-.
  destruct (IH _ _ H z Hz) as [HI|(i & y' & Hi & Ey & Hin)]; [apply in_app_or in HI as [HI|HI]; auto; right; exists x, y; cbn; auto|].
  right. exists i, y'. cbn. auto.
Qed.

Section Build.
  Variable Z : za.
  Hypothesis W : za_wf Z.
  Variable I0 : list nat.
  Hypothesis I0a : forall i, In i I0 -> alive Z i.

  (* Reached with n characters read. *)
  Definition at_level (n i : nat) : Prop := exists i0 l, In i0 I0 /\ zpath Z i0 l i /\ length (seen l) = n.
  (* The n-th character read on some path is c. *)
  Definition at_place (n c : nat) : Prop := exists i0 l j, In i0 I0 /\ zpath Z i0 l j /\ n < length (seen l) /\ nth n (seen l) 0 = c /\ 1 <= c.

  Lemma path_alive : forall i l j, zpath Z i l j -> alive Z i -> alive Z j.
  Proof. induction 1 as [|i c j w k E P IH]; auto. intros _. apply IH. destruct E as (_ & _ & _ & _ & E). exact E. Qed.

  Lemma succ_step : forall i l c j, alive Z i -> sunday_succ Z i = Ok l -> In (c, j) l -> 1 <= c /\ exists n k, zpath Z i (repeat 0 n) k /\ zedge Z k c j.
  Proof.
    intros i l c j Ai H Hin. unfold sunday_succ in H.
    destruct (epsilonClosure_spec Z [i]) as (R & E & HR); [repeat constructor; intros []|intros x [<-|[]]; exact Ai|].
    rewrite E in H. cbn [bind] in H. apply Ok_inj in H. subst l. apply in_flat_map in Hin as (k & Hk & Hin).
    apply HR in Hk as (i' & [<-|[]] & (n & Pk)).
    destruct (zget Z k) as [s|] eqn:G; [|contradiction]. apply in_flat_map in Hin as (c' & Hc & Hin). apply in_seq in Hc.
    apply in_map_iff in Hin as (j' & E' & Hin). injection E' as <- <-. apply filter_In in Hin as [Hin L].
    split; [lia|]. exists n, k. split; [exact Pk|].
    assert (Ak : alive Z k) by (eapply path_alive; eauto). destruct Ak as (s' & Gs & Ls). unfold zget in G. rewrite G in Gs. injection Gs as <-.
    exists s. split; auto. split; auto. split.
    - unfold znext in Hin. apply in_map_iff in Hin as ([c1 j1] & E1 & Hin). apply filter_In in Hin as [Hin Ec]. cbn in E1, Ec. apply Nat.eqb_eq in Ec. subst. exact Hin.
    - unfold zlock in L. destruct (zget Z j') as [s1|] eqn:G1; [|discriminate]. destruct (zlive s1) eqn:L1; [|discriminate]. exists s1. auto.
  Qed.

  Lemma build_real : forall fuel cs sets r, sunday_build fuel Z cs sets = Ok r ->
    (forall i, In i cs -> at_level (length sets) i) ->
    (forall n c, n < length sets -> In c (nth n sets []) -> at_place n c) ->
    (forall n c, n < length r -> In c (nth n r []) -> at_place n c) /\ exists j, at_level (length r) j /\ zaccepting Z j.
  Proof.
    induction fuel; intros cs sets r H L P; (destruct cs as [|c0 cs']; [discriminate|]); cbn [sunday_build] in H; [discriminate|].
    set (cs := c0 :: cs') in *. apply bind_Ok in H as (l & E & H). cbv zeta in H.
    assert (Lv : forall c j, In (c, j) l -> 1 <= c /\ exists i0 u, In i0 I0 /\ zpath Z i0 (u ++ [c]) j /\ length (seen u) = length sets).
    { intros c j Hin. destruct (fold_out_from _ _ _ _ E _ Hin) as [[]|(i & y & Hi & Ey & Hy)].
      destruct (L i Hi) as (i0 & u & H0 & Pu & Lu). destruct (succ_step i y c j) as (C1 & n & k & Pk & Ek); auto; [eapply path_alive; eauto|].
      split; auto. exists i0, (u ++ repeat 0 n). split; auto. split; [|rewrite seen_app, seen_zeros, app_nil_r; auto].
      eapply zpath_app; [eapply zpath_app; eauto|]. econstructor; [exact Ek|constructor]. }
    assert (Sc : forall c, 1 <= c -> seen [c] = [c]) by (intros c Hc; unfold seen; cbn; destruct (Nat.eqb_spec c 0); [lia|reflexivity]).
    assert (P' : forall n c, n < length (sets ++ [map fst l]) -> In c (nth n (sets ++ [map fst l]) []) -> at_place n c).
    { intros n c Hn Hc. rewrite app_length in Hn. cbn in Hn. destruct (Nat.lt_ge_cases n (length sets)) as [Ln|Ln]; [rewrite app_nth1 in Hc by auto; auto|].
      replace n with (length sets) in * by lia. rewrite app_nth2, Nat.sub_diag in Hc by lia. cbn in Hc. apply in_map_iff in Hc as ([c' j] & <- & Hin).
      destruct (Lv c' j Hin) as (C1 & i0 & u & H0 & Pu & Lu). exists i0, (u ++ [c']), j. rewrite seen_app, (Sc _ C1), app_length, Lu. cbn.
      split; auto. split; auto. split; [lia|]. split; auto. rewrite app_nth2, Lu, Nat.sub_diag by lia. reflexivity. }
    assert (L' : forall c j, In (c, j) l -> at_level (length (sets ++ [map fst l])) j).
    { intros c j Hin. destruct (Lv c j Hin) as (C1 & i0 & u & H0 & Pu & Lu). exists i0, (u ++ [c]). rewrite seen_app, (Sc _ C1), !app_length, Lu. auto. }
    destruct (existsb (fun cj => zaccepts Z (snd cj)) l) eqn:EX.
    - injection H as <-. split; auto. apply existsb_exists in EX as ([c j] & Hin & Ac). exists j. split; eauto.
      unfold zaccepts, zlock in Ac. cbn [snd] in Ac. destruct (zget Z j) as [s|] eqn:G; [|discriminate]. destruct (zlive s); [|discriminate]. exists s. auto.
    - apply (IHfuel _ _ _ H); auto. intros i Hi. apply in_map_iff in Hi as ([c j] & <- & Hin). eauto.
  Qed.
End Build.

Lemma remove_acc : forall fuel Z Z' i, all_alive Z -> removeDeadStates fuel Z = Ok Z' -> alive Z' i -> zaccepting Z' i -> zaccepting Z i.
Proof.
  intros fuel Z Z' i AA H Ai (s' & G & Ac). destruct (remove_struct _ _ _ AA H) as [_ H2].
  destruct (nth_error (zsts Z) i) as [s|] eqn:E.
  - destruct (H2 i s E Ai) as (s2 & G2 & _ & _ & E2). exists s. split; auto. congruence.
  - exfalso. unfold removeDeadStates in H. apply bind_Ok in H as (R & _ & H). injection H as <-. cbn [zsts] in G.
    apply nth_error_None in E. match type of G with ?t = _ => assert (L : t <> None) by congruence end.
    apply nth_error_Some in L. rewrite map_length, combine_length, seq_length in L. lia.
Qed.

Lemma sunday_real : forall fuel A sets, wf_ta A -> clockSize A <= 255 -> consts_known A -> sunday_sets fuel A = Ok sets ->
  (exists w, increasing 0 w /\ accepts A w /\ length (observe w) = length sets) /\
  (forall n c, n < length sets -> In c (nth n sets []) -> 1 <= c /\
     exists w, increasing 0 w /\ accepts A w /\ n < length (observe w) /\ fst (nth n (observe w) (0, 0%Q)) = c).
Proof.
  intros fuel A sets W K CK H. unfold sunday_sets in H. apply bind_Ok in H as (Z & HZ & H). apply bind_Ok in H as (Z' & HZ' & H).
  destruct (ta2za_fresh fuel A Z W K HZ) as (_ & _ & WZ & AA & _).
  destruct (removeDead_live Z WZ AA fuel Z' HZ') as (WZ' & Lv & Ed). destruct (remove_struct _ _ _ AA HZ') as [Ini _].
  assert (In' : forall i, In i (zinit Z') -> In i (zinit Z)) by (intros i Hi; apply Ini in Hi; tauto).
  assert (Up : forall i l j, zpath Z' i l j -> zpath Z i l j) by (induction 1; [constructor|econstructor; eauto]).
  destruct (build_real Z' (zinit Z') (zwf_init _ WZ') _ _ _ _ H) as [B1 (j & (i0 & l & H0 & P0 & L0) & Aj)].
  - intros i Hi. exists i, []. split; auto. split; [constructor|reflexivity].
  - intros n c Hn. cbn in Hn. lia.
  - assert (Word : forall i l j, In i (zinit Z') -> zpath Z' i l j -> zaccepting Z' j -> exists w, map fst w = l /\ increasing 0 w /\ accepts A w).
    { intros i l1 j1 Hi Pi Ai. apply (C76_untimed fuel A Z W K CK HZ l1). exists i, j1. split; auto. split; auto.
      apply (remove_acc fuel Z Z' j1 AA HZ'); auto. eapply path_alive; [exact Pi|]. apply (zwf_init _ WZ'); auto. }
    split.
    + destruct (Word i0 l j H0 P0 Aj) as (w & Ew & Inc & Ac). exists w. split; auto. split; auto.
      rewrite <- L0, <- Ew, seen_observe, map_length. reflexivity.
    + intros n c Hn Hc. destruct (B1 n c Hn Hc) as (i1 & l1 & j1 & H1 & P1 & N1 & C1 & Pos). split; auto.
      assert (A1 : alive Z' j1) by (eapply path_alive; [exact P1|]; apply (zwf_init _ WZ'); auto).
      destruct (Lv j1 A1) as [_ (l2 & j2 & P2 & A2)].
      destruct (Word i1 (l1 ++ l2) j2 H1 (zpath_app _ _ _ _ P1 _ _ P2) A2) as (w & Ew & Inc & Ac). exists w. split; auto. split; auto.
      assert (E : map fst (observe w) = seen l1 ++ seen l2) by (rewrite <- seen_observe, Ew, seen_app; auto).
      assert (N2 : n < length (map fst (observe w))) by (rewrite E, app_length; lia).
      rewrite map_length in N2. split; auto.
      refine (eq_trans (eq_sym (map_nth fst (observe w) (0, 0%Q) n)) _). cbn [fst]. rewrite E, app_nth1 by auto. exact C1.
Qed.

(* m is the number of characters read of some accepted word: nothing less than
   the shortest is computed. *)
Theorem C26_attained : forall fuel A sets, wf_ta A -> clockSize A <= 255 -> consts_known A -> sunday_sets fuel A = Ok sets ->
  exists w, increasing 0 w /\ accepts A w /\ length (observe w) = length sets.
Proof. intros fuel A sets W K CK H. apply (proj1 (sunday_real fuel A sets W K CK H)). Qed.

(* Only characters that accepted words have at this place are recorded. *)
Theorem C26_chars : forall fuel A sets n c, wf_ta A -> clockSize A <= 255 -> consts_known A -> sunday_sets fuel A = Ok sets ->
  n < length sets -> In c (nth n sets []) ->
  1 <= c /\ exists w, increasing 0 w /\ accepts A w /\ n < length (observe w) /\ fst (nth n (observe w) (0, 0%Q)) = c.
Proof. intros fuel A sets n c W K CK H. apply (proj2 (sunday_real fuel A sets W K CK H)). Qed.

Lemma run_chars : forall A p v T w q v' T', run A p v T w q v' T' -> labels_ok A -> no_tau A -> forall c t, In (c, t) w -> 1 <= c /\ c < char_max.
Proof.
  intros A p v T w q v' T' R LB NT. induction R as [|p v T a s e w q p' v' T' He Et SG R IH]; intros c t Hin; [contradiction|].
  destruct Hin as [E|Hin]; [|eauto]. injection E as <- <-. split.
  - destruct a; [exfalso; exact (NT p e He)|lia].
  - apply (LB p a e He).
Qed.
Lemma observe_all : forall w, (forall c t, In (c, t) w -> 1 <= c) -> observe w = w.
Proof.
  induction w as [|[c t] w IH]; intros H; auto. unfold observe in *. cbn [filter fst]. pose proof (H c t (or_introl eq_refl)).
  destruct (Nat.eqb_spec c 0); [lia|]. cbn [negb]. rewrite IH; auto. intros c' t' Hin. apply (H c' t'). right. exact Hin.
Qed.

(* Without unobservable transitions the whole table is determined by the words. *)
Theorem C26_exact : forall fuel A sets, wf_ta A -> clockSize A <= 255 -> consts_known A -> labels_ok A -> no_tau A -> keeps_useful fuel A ->
  sunday_sets fuel A = Ok sets ->
  (forall k, length sets <= k <-> 1 <= k /\ exists w, increasing 0 w /\ accepts A w /\ w <> [] /\ length w <= k) /\
  (forall n c, n < length sets -> (In c (nth n sets []) <-> exists w, increasing 0 w /\ accepts A w /\ n < length w /\ fst (nth n w (0, 0%Q)) = c)).
Proof.
  intros fuel A sets W K CK LB NT KU H. pose proof (sunday_sets_length _ _ _ H) as L1. destruct (sunday_real fuel A sets W K CK H) as [R1 R2].
  assert (OB : forall w, accepts A w -> observe w = w).
  { intros w (p & q & v & T & _ & R & _). apply observe_all. intros c t Hin. apply (run_chars A _ _ _ _ _ _ _ R LB NT c t Hin). }
  assert (SP : forall w, accepts A w -> increasing 0 w -> w <> [] -> length sets <= length w /\ forall n, n < length sets -> In (fst (nth n w (0, 0%Q))) (nth n sets [])).
  { intros w (p & q & v & T & Hp & R & Ac) Inc NE. apply (sunday_spec fuel A sets W K KU H p q v 0 w T); auto. apply (run_chars A _ _ _ _ _ _ _ R LB NT). }
  split.
  - intros k. split.
    + intros Lk. split; [lia|]. destruct R1 as (w & Inc & Ac & Lw). rewrite (OB w Ac) in Lw. exists w. split; auto. split; auto. split; [|lia].
      intros ->. cbn in Lw. lia.
    + intros (_ & w & Inc & Ac & NE & Lw). destruct (SP w Ac Inc NE) as [S1 _]. lia.
  - intros n c Hn. split.
    + intros Hc. destruct (R2 n c Hn Hc) as (_ & w & Inc & Ac & Lw & Ew). rewrite (OB w Ac) in *. eauto 6.
    + intros (w & Inc & Ac & Lw & <-). apply SP; auto. intros ->. cbn in Lw. lia.
Qed.

(* After a: b within 2, or d and e, or c after more than 1 and then b before 1,
   which no word can do. *)
Definition exRl : ta := mkTA
  [(1, mkS false false [(97, [mkE (Some 2) [0] []])]);
   (2, mkS false false [(98, [mkE (Some 3) [] [mkC 0 Lt 2]]); (99, [mkE (Some 4) [] [mkC 0 Gt 1]]); (100, [mkE (Some 5) [] []])]);
   (3, mkS true false []);
   (4, mkS false false [(98, [mkE (Some 3) [] [mkC 0 Lt 1]])]);
   (5, mkS false false [(101, [mkE (Some 3) [] []])])] [1] [2%Z].

Lemma exRl_ok : wf_ta exRl /\ clockSize exRl <= 255 /\ consts_known exRl /\ labels_ok exRl /\ no_tau exRl /\ keeps_useful 100 exRl.
Proof.
  assert (W : wf_ta exRl) by (apply wf_tab_ok; vm_compute; reflexivity). assert (K : clockSize exRl <= 255) by (vm_compute; lia).
  assert (ED : forall p c e, is_edge exRl p c e -> 97 <= c <= 101 /\ forall g, In g (eguard e) -> (cc g <= 2)%Z).
  { intros p c e (s & es & I1 & I2 & I3). cbn in I1.
    repeat (destruct I1 as [I1|I1]; [injection I1 as <- <-; cbn in I2; repeat (destruct I2 as [I2|I2]; [injection I2 as <- <-; destruct I3 as [<-|[]];
      (split; [lia|]); intros g Hg; cbn in Hg; repeat (destruct Hg as [<-|Hg]; [cbn; lia|]); contradiction|]); contradiction|]). contradiction. }
  split; auto. split; auto. split.
  { split; [right; exists 2%Z; split; [left; reflexivity|lia]|]. intros p c e g He Hg. exists 2%Z. split; [left; reflexivity|]. apply (proj2 (ED _ _ _ He) g Hg). }
  split. { intros p c e He. destruct (ED _ _ _ He) as [L _]. vm_compute. lia. }
  split. { intros p e He. destruct (ED _ _ _ He) as [L _]. lia. }
  apply (keeps_useful_acyclic 100 exRl (fun p => match p with 1 => 3 | 2 => 2 | 4 => 1 | 5 => 1 | _ => 0 end)); auto. apply rankb_ok. reflexivity.
Qed.

Example C26_exact_case : sunday_sets 100 exRl = Ok [[97]; [98; 100]] /\
  wf_ta exRl /\ clockSize exRl <= 255 /\ consts_known exRl /\ labels_ok exRl /\ no_tau exRl /\ keeps_useful 100 exRl.
Proof. split; [vm_compute; reflexivity|]. exact exRl_ok. Qed.

Example C76_case : exists Z, ta2za 100 exRl zempty [] = Ok Z /\ zempty_check Z = Ok false.
Proof. eexists. split; vm_compute; reflexivity. Qed.
