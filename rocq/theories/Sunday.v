(* What the Sunday table knows about the words of the pattern. *)
From Coq Require Import QArith Lqa Bool List ZArith Arith Lia.
From Verif Require Import Num Outcome Constraint Zone TA Spec TAFacts Word ZA ZASpec ZAFacts ZAGraph PropZA Intersection Monaa Skip SkipFacts.
Import ListNotations.
Open Scope nat_scope.

Lemma fold_out_app : forall {X Y} (f : X -> outcome (list Y)) l acc r,
  fold_out (fun i acc => do y <- f i ; Ok (acc ++ y)) l acc = Ok r ->
  incl acc r /\ forall i, In i l -> exists y, f i = Ok y /\ incl y r.
Proof.
  induction l as [|x l IH]; intros acc r H; cbn [fold_out] in H.
  - injection H as <-. split; [apply incl_refl|intros i []].
  - apply bind_Ok in H as (acc' & H1 & H). apply bind_Ok in H1 as (y & Hy & H1). injection H1 as <-.
    apply IH in H as [H1 H2]. split; [intros z Hz; apply H1, in_or_app; auto|].
    intros i [<-|Hi]; auto. exists y. split; auto. intros z Hz. apply H1, in_or_app; auto.
Qed.

Lemma eps_loop_incl : forall fuel Z C wt R, eps_loop fuel Z C wt = Ok R -> incl C R.
Proof.
  induction fuel; intros Z C wt R H; cbn [eps_loop] in H; destruct wt as [|i wt]; try discriminate;
    try (injection H as <-; apply incl_refl).
  destruct (zget Z i) as [s|]; [|discriminate]. apply IHfuel in H.
  intros x Hx. apply H. clear - Hx.
  assert (X : forall js C w, In x C -> In x (fst (fold_left (eps_add Z) js (C, w)))).
  { induction js; intros D w0 HD; cbn [fold_left]; auto. unfold eps_add at 2. destruct (zlock Z a); auto.
    cbn [fst snd]. destruct (mem a D); auto. apply IHjs. apply in_or_app; auto. }
  apply X; auto.
Qed.

Lemma sunday_succ_edge : forall Z i l c j, sunday_succ Z i = Ok l -> zedge Z i c j -> 1 <= c -> c < char_max -> In (c, j) l.
Proof.
  intros Z i l c j H (s & Hs & Ls & Hc & Aj) C1 C2. unfold sunday_succ in H. apply bind_Ok in H as (cl & Hcl & H). apply Ok_inj in H. subst l.
  apply in_flat_map. exists i. split.
  - unfold epsilonClosure in Hcl. apply eps_loop_incl in Hcl. apply Hcl. left; auto.
  - unfold zget. rewrite Hs. apply in_flat_map. exists c. split; [apply in_seq; lia|].
    apply in_map. apply filter_In. split; [apply in_znext; auto|].
    apply zlock_alive in Aj as (s' & ->). auto.
Qed.

(* The sets that are built cover every non-empty path to an accepting state. *)
Lemma sunday_build_spec : forall fuel Z cs sets r, sunday_build fuel Z cs sets = Ok r ->
  (exists tl, r = sets ++ tl) /\
  forall i w k, In i cs -> zpath Z i w k -> alive Z k -> zaccepting Z k -> w <> [] ->
    (forall c, In c w -> 1 <= c /\ c < char_max) ->
    length r <= length sets + length w /\
    forall n, length sets + n < length r -> In (nth n w 0) (nth (length sets + n) r []).
Proof.
  induction fuel; intros Z cs sets r H; cbn [sunday_build] in H; (destruct cs as [|c0 cs]; [discriminate|]); [discriminate|].
  apply bind_Ok in H as (l & Hl & H). cbv zeta in H. apply fold_out_app in Hl as [_ Hl].
  destruct (existsb (fun cj => zaccepts Z (snd cj)) l) eqn:EX.
  - injection H as <-. split; [eauto|]. intros i w k Hi P Ak Ac NE HC. destruct P as [|i c j w k E P]; [congruence|].
    destruct (Hl i Hi) as (y & Hy & Iy). destruct (HC c (or_introl eq_refl)) as [C1 C2].
    pose proof (Iy _ (sunday_succ_edge _ _ _ _ _ Hy E C1 C2)) as Hcj.
    rewrite app_length. cbn [length]. split; [lia|]. intros n Hn. assert (n = 0) by lia. subst n.
    rewrite Nat.add_0_r, app_nth2, Nat.sub_diag by lia. cbn [nth]. change c with (fst (c, j)). apply in_map; auto.
  - apply IHfuel in H as [[tl Etl] H]. split; [exists (map fst l :: tl); rewrite Etl, <- app_assoc; reflexivity|].
    intros i w k Hi P Ak Ac NE HC. destruct P as [|i c j w k E P]; [congruence|].
    destruct (Hl i Hi) as (y & Hy & Iy). destruct (HC c (or_introl eq_refl)) as [C1 C2].
    pose proof (Iy _ (sunday_succ_edge _ _ _ _ _ Hy E C1 C2)) as Hcj.
    assert (NW : w <> []).
    { intros ->. inversion P; subst. assert (X : existsb (fun cj => zaccepts Z (snd cj)) l = true).
      { apply existsb_exists. exists (c, k). split; auto. cbn [snd]. unfold zaccepts.
        apply zlock_alive in Ak as (s & Es). rewrite Es. destruct Ac as (s' & Es' & Ac).
        unfold zlock, zget in Es. rewrite Es' in Es. destruct (zlive s'); [|discriminate]. injection Es as <-. auto. }
      congruence. }
    destruct (H j w k) as [H1 H2]; auto.
    { apply in_map_iff. exists (c, j). auto. }
    { intros x Hx. apply HC. right; auto. }
    rewrite app_length in H1, H2. cbn [length] in *. split; [lia|]. intros [|n] Hn.
    + rewrite Nat.add_0_r. rewrite Etl, app_nth1, app_nth2, Nat.sub_diag by (rewrite ?app_length; cbn; lia). cbn [nth].
      change c with (fst (c, j)). apply in_map; auto.
    + cbn [nth]. replace (length sets + S n) with (length sets + 1 + n) by lia. apply H2. lia.
Qed.

(* No useful state of the zone automaton is lost by removeDeadStates. *)
Definition keeps_useful (fuel : nat) (A : ta) : Prop :=
  forall Z Z', ta2za fuel A zempty [] = Ok Z -> removeDeadStates fuel Z = Ok Z' ->
    forall i, zreachable Z i -> zproductive Z i -> alive Z' i.

Lemma remove_struct : forall fuel Z Z', all_alive Z -> removeDeadStates fuel Z = Ok Z' ->
  (forall i, In i (zinit Z') <-> In i (zinit Z) /\ (i < length (zsts Z) -> alive Z' i) /\ (~ i < length (zsts Z) -> In i (zinit Z'))) /\
  (forall i s, nth_error (zsts Z) i = Some s -> alive Z' i ->
     exists s', nth_error (zsts Z') i = Some s' /\ zlive s' = true /\ znx s' = znx s /\ zacc s' = zacc s).
Proof.
  intros fuel Z Z' AA H. unfold removeDeadStates in H. apply bind_Ok in H as (R & _ & H). injection H as <-. split.
  - intros i. rewrite kept_iff by auto. cbn [zinit]. rewrite filter_In, mem_In. split.
    + intros [A B]. split; auto.
    + intros (A & B & C). destruct (Nat.lt_ge_cases i (length (zsts Z))) as [L|L]; [|apply C; lia]. split; auto. apply B; auto.
  - intros i s Hs (s' & Hs' & Ls'). exists s'. split; auto. split; auto. cbn [zsts] in Hs'.
    rewrite nth_error_map in Hs'.
    assert (G : forall (l : list zst) k i, nth_error (combine (seq k (length l)) l) i = match nth_error l i with Some s => Some (k + i, s) | None => None end).
    { clear. induction l as [|a l IH]; intros k i; destruct i; simpl; auto; [rewrite Nat.add_0_r; auto|].
      rewrite IH. destruct (nth_error l i); auto. do 2 f_equal. lia. }
    rewrite G, Hs in Hs'. injection Hs' as <-. auto.
Qed.

Lemma remove_path : forall fuel Z Z', za_wf Z -> all_alive Z -> removeDeadStates fuel Z = Ok Z' ->
  (forall i, zreachable Z i -> zproductive Z i -> alive Z' i) ->
  forall i w k, zpath Z i w k -> zreachable Z i -> zaccepting Z k -> zpath Z' i w k /\ alive Z' k /\ zaccepting Z' k /\
    (In i (zinit Z) -> In i (zinit Z')).
Proof.
  intros fuel Z Z' WZ AA H KU. destruct (remove_struct _ _ _ AA H) as [H1 H2].
  assert (INI : forall i, In i (zinit Z) -> alive Z' i -> In i (zinit Z')).
  { intros i Hi Ha. apply H1. split; auto. split; auto. intros L. exfalso. apply L. apply alive_lt. apply (zwf_init _ WZ); auto. }
  intros i w k P. induction P as [i|i c j w k E P IH]; intros RE Ac.
  - assert (PR : zproductive Z i) by (exists [], i; split; [constructor|auto]).
    pose proof (KU i RE PR) as Ai. split; [constructor|]. split; auto. split; auto.
    destruct Ac as (s & Hs & Ac). destruct (H2 i s Hs Ai) as (s' & Hs' & _ & _ & Ea). exists s'. split; auto. congruence.
  - assert (PR : zproductive Z i) by (exists (c :: w), k; split; [econstructor; eauto|auto]).
    assert (PRj : zproductive Z j) by (exists w, k; auto).
    assert (REj : zreachable Z j).
    { destruct RE as (i0 & u & Hi0 & Pu). exists i0, (u ++ [c]). split; auto. eapply zpath_snoc; eauto. }
    destruct (IH REj Ac) as (IH1 & IH2 & IH3 & _). split; [|split; [auto|split; [auto|]]].
    + econstructor; eauto. destruct E as (s & Hs & Ls & Hc & Aj). destruct (H2 i s Hs (KU i RE PR)) as (s' & Hs' & L' & En & _).
      exists s'. split; auto. split; auto. rewrite En. split; auto.
    + intros Hi. apply INI; auto.
Qed.

(* The table and the runs of the automaton. *)
Theorem sunday_spec : forall fuel A sets, wf_ta A -> clockSize A <= 255 -> keeps_useful fuel A ->
  sunday_sets fuel A = Ok sets ->
  forall p q v T w T', In p (inits A) -> run A p zeroval T w q v T' -> accepting A q -> increasing T w -> w <> [] ->
    (forall c t, In (c, t) w -> 1 <= c /\ c < char_max) ->
    length sets <= length w /\ forall n, n < length sets -> In (fst (nth n w (0, 0%Q))) (nth n sets []).
Proof.
  intros fuel A sets WF K KU H p q v T w T' Hp R Ac Inc NE HC. unfold sunday_sets in H.
  apply bind_Ok in H as (Z & HZ & H). apply bind_Ok in H as (Z' & HZ' & H).
  destruct (ta2za_fresh fuel A Z WF K HZ) as (I & EX & WZ & AA & _ & PI & AC).
  destruct (PI p Hp) as (i & s & Hi & G & Q & Z0).
  destruct (ta2za_run A (max_const A) WF K Z I EX _ _ _ _ _ _ _ R Inc i s G Q Z0) as (j & s' & P & G' & Q' & _).
  assert (Aj : zaccepting Z j).
  { exists s'. split; auto. rewrite (AC j s' G'), Q'. apply match_at_spec; auto. apply (wf_nodup _ WF). }
  assert (RE : zreachable Z i) by (exists i, []; split; [auto|constructor]).
  destruct (remove_path _ _ _ WZ AA HZ' (KU _ _ HZ HZ') _ _ _ P RE Aj) as (P' & L' & A' & I').
  apply sunday_build_spec in H as [_ H]. cbn [length] in H.
  destruct (H i (map fst w) j (I' Hi) P' L' A') as [H1 H2].
  - destruct w; [congruence|discriminate].
  - intros c Hc. apply in_map_iff in Hc as ([c' t] & <- & Hc). apply (HC c' t); auto.
  - rewrite map_length in H1. split; [auto|]. intros n Hn. specialize (H2 n Hn). cbn [Nat.add] in H2.
    change 0 with (fst (0, 0%Q)) in H2 at 1. now rewrite map_nth in H2.
Qed.

(* When nothing but self-loops are cycles, no useful state is lost.  For the
   acyclic automata this can be seen on the automaton itself. *)
Lemma keeps_useful_acyclic : forall fuel A rk, wf_ta A -> clockSize A <= 255 ->
  (forall p c e q, is_edge A p c e -> etgt e = Some q -> rk q < rk p) -> keeps_useful fuel A.
Proof.
  intros fuel A rk WF K RK Z Z' HZ HZ' i RE PR.
  destruct (ta2za_fresh fuel A Z WF K HZ) as (I & EX & WZ & AA & _ & _ & _).
  destruct (C25_complete_partial Z (fun i => match zget Z i with Some s => rk (zq s) | None => 0 end) WZ AA) as (f0 & Z2 & H1 & H2).
  - intros a c b (s & Hs & Ls & Hc & Ab) _. unfold zget. rewrite Hs. destruct (I a s Hs) as [_ EO].
    destruct (EO c b Hc) as (_ & s' & e & q & m & G & He & Et & _ & Eq & _). unfold zget in G. rewrite G. subst q. eapply RK; eauto.
  - assert (Z2 = Z').
    { assert (X : forall fuel f st R r, dead_loop fuel Z st R = Ok r -> dead_loop (fuel + f) Z st R = Ok r).
      { clear. induction fuel; intros f st R r H; destruct st as [|[a P] st]; cbn [dead_loop Nat.add] in *; auto; [destruct f; auto|discriminate|].
        destruct (zlock Z a) as [s|]; [|discriminate]. apply IHfuel; auto. }
      assert (Y : forall fuel f Z', removeDeadStates fuel Z = Ok Z' -> removeDeadStates (fuel + f) Z = Ok Z').
      { intros fu f Z1 H. unfold removeDeadStates in *. apply bind_Ok in H as (R & HR & H). rewrite (X _ f _ _ _ HR). exact H. }
      apply (Y _ f0) in HZ'. rewrite Nat.add_comm in HZ'. rewrite H1 in HZ'. congruence. }
    subst Z2. apply H2. auto.
Qed.
