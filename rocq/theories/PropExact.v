(* Properties C25, C26 and C68: exactly what monaa reports, from the text of a pattern
   and of a word. *)
From Coq Require Import QArith Lqa Bool List ZArith Arith Lia Sorted Ascii String List.
From Verif Require Import Num NumFacts Outcome Interval IntervalFacts Constraint Zone TA Spec TAFacts PropBase WfDec Word ZA ZAFacts ZASpec ZAGraph PropZA ZATerm ZALive ZADiv ZAFin ZAIdle ZALast ZALoop ZASupple Monaa MonaaFacts MonaaVec Skip SkipFacts ApFacts Sunday
  SundayTerm Kmp KmpUB KmpTerm KmpHang PropSkip PropSkipEx PropMonaa PropTerm Intersection Tre TreRun TreFacts TreBuild TreLang PropTre TreMild TreLean TreLoop TreSupple TreOrder Text TextFacts PropText Ans Signal Parse ParseSpec ParseFacts PropParse Main MainFacts PropMain PropEvent.
Import ListNotations.
Open Scope list_scope.
Open Scope nat_scope.

(* ================= C25 what is kept, on the automaton ================= *)

(* No state of the zone automaton that is on a way to an accepting one is removed,
   when the cycles of the timed automaton are self-loops that do nothing.
   Missing: other cycles (C25_complete_refuted, C25_rounds_partial). *)
Theorem C25_automaton_partial : forall fuel A rk Z Z', wf_ta A -> clockSize A <= 255 -> NoDup (inits A) -> idle_loops A rk ->
  ta2za fuel A zempty [] = Ok Z -> removeDeadStates fuel Z = Ok Z' ->
  forall i, zreachable Z i -> zproductive Z i -> alive Z' i.
Proof. intros fuel A rk Z Z' W K ND IL HZ HZ'. apply (keeps_useful_idle fuel A rk W K ND IL Z Z' HZ HZ'). Qed.

(* The same with longer cycles that do nothing, when the transitions that go round
   stand before the ones that leave (rounds_first). *)
Theorem C25_rounds_partial : forall fuel A rg ps Z Z', wf_ta A -> clockSize A <= 255 -> NoDup (inits A) -> rounds_first False True A rg ps ->
  ta2za fuel A zempty [] = Ok Z -> removeDeadStates fuel Z = Ok Z' ->
  forall i, zreachable Z i -> zproductive Z i -> alive Z' i.
Proof. intros fuel A rg ps Z Z' W K ND RF HZ HZ'. apply (keeps_useful_rounds fuel A rg ps W K ND RF Z Z' HZ HZ'). Qed.

(* The same with cycles that are restricted in time, when the clocks never prevent a
   transition (pliant) and another useful transition stands behind the ones that
   do not go down (exits). *)
Theorem C25_exits_partial : forall fuel A rk Z Z', wf_ta A -> clockSize A <= 255 -> NoDup (inits A) -> pliant (clockSize A) A -> exits False A rk ->
  ta2za fuel A zempty [] = Ok Z -> removeDeadStates fuel Z = Ok Z' ->
  forall i, zreachable Z i -> zproductive Z i -> alive Z' i.
Proof. intros fuel A rk Z Z' W K ND PL EX HZ HZ'. apply (keeps_useful_exits fuel A rk W K ND PL EX Z Z' HZ HZ'). Qed.

(* (ab)+ and a c in less than a second *)
Definition exO : ta := mkTA [(0, mkS false false [(97, [mkE (Some 1) [] []])]); (1, mkS false false [(98, [mkE (Some 0) [] []; mkE (Some 2) [0] []])]);
  (2, mkS false false [(99, [mkE (Some 3) [] [mkC 0 Lt 1%Z]])]); (3, mkS true false [])] [0] [1%Z].
Definition exOrg (q : ptr) : nat := match q with 0 | 1 => 2 | 2 => 1 | _ => 0 end.
Definition exOps (q : ptr) : nat := match q with 0 => 1 | _ => 0 end.
Example C25_case_rounds : wf_ta exO /\ clockSize exO <= 255 /\ NoDup (inits exO) /\ rounds_first False True exO exOrg exOps /\ (forall rk, ~ idle_loops exO rk) /\
  exists Z Z', ta2za 20 exO zempty [] = Ok Z /\ removeDeadStates 20 Z = Ok Z' /\ length (zsts Z) = 5 /\ forallb zlive (zsts Z') = true.
Proof.
  split; [apply wf_tab_ok; vm_compute; reflexivity|]. split; [cbn; lia|]. split; [repeat constructor; auto|]. split; [|split].
  - intros p s c es E1 e E2 q Hs Hes Ees Et. cbn in Hs.
    destruct Hs as [Hs|[Hs|[Hs|[Hs|[]]]]]; injection Hs as <- <-; cbn in Hes; [| | |destruct Hes]; (destruct Hes as [Hes|[]]); injection Hes as <- <-.
    + destruct E1 as [|e1 [|]]; cbn in Ees; try discriminate; injection Ees as <- <-. cbn in Et. injection Et as <-. left. right. cbn. repeat split; auto.
    + destruct E1 as [|e1 [|e2 [|]]]; cbn in Ees; try discriminate; [injection Ees as <- <-|injection Ees as <- <- <-]; cbn in Et; injection Et as <-.
      * right. right. split; [split; auto|]. split; auto. exists (fun x => x = 0 \/ x = 1). split; auto. split; auto. split.
        -- intros x Hx (s & Hs & M). cbn in Hs. destruct Hs as [Hs|[Hs|[Hs|[Hs|[]]]]]; injection Hs as E <-; try discriminate. subst x. lia.
        -- intros x c e y Hx (s & es & Hs & Hes & He) Ey. cbn in Hs. destruct Hs as [Hs|[Hs|[Hs|[Hs|[]]]]]; injection Hs as E <-; subst x; try lia; destruct Hes as [Hes|[]]; injection Hes as <- <-.
           ++ destruct He as [<-|[]]. cbn in Ey. injection Ey as <-. left. split; [auto|split; auto].
           ++ destruct He as [<-|[<-|[]]]; cbn in Ey; injection Ey as <-; [left; split; [auto|split; auto]|]. right. right. right. split; auto.
              eexists. split; [left; reflexivity|]. repeat split; auto. left. cbn. lia.
      * left. left. cbn. lia.
    + destruct E1 as [|e1 [|]]; cbn in Ees; try discriminate; injection Ees as <- <-. cbn in Et. injection Et as <-. left. left. cbn. lia.
  - intros rk H. assert (H1 : is_edge exO 0 97 (mkE (Some 1) [] [])) by (do 2 eexists; split; [left; reflexivity|]; split; [left; reflexivity|left; reflexivity]).
    assert (H2 : is_edge exO 1 98 (mkE (Some 0) [] [])) by (do 2 eexists; split; [right; left; reflexivity|]; split; [left; reflexivity|left; reflexivity]).
    destruct (H _ _ _ _ H1 eq_refl) as [X|[X _]]; [|discriminate]. destruct (H _ _ _ _ H2 eq_refl) as [Y|[Y _]]; [lia|discriminate].
  - eexists. eexists. split; [vm_compute; reflexivity|]. split; [vm_compute; reflexivity|]. split; vm_compute; reflexivity.
Qed.

(* (ab)+, every a and b together in less than a second, and a c *)
Definition exP : ta := mkTA [(0, mkS false false [(97, [mkE (Some 1) [] []])]); (1, mkS false false [(98, [mkE (Some 0) [0] [mkC 0 Lt 1%Z]; mkE (Some 2) [] [mkC 0 Lt 1%Z]])]);
  (2, mkS false false [(99, [mkE (Some 3) [] []])]); (3, mkS true false [])] [0] [1%Z].
Example C25_case_exits : wf_ta exP /\ clockSize exP <= 255 /\ NoDup (inits exP) /\ pliant (clockSize exP) exP /\ exits False exP (fun q => 3 - q) /\
  (forall rg ps, ~ rounds_first False True exP rg ps) /\
  exists Z Z', ta2za 40 exP zempty [] = Ok Z /\ removeDeadStates 40 Z = Ok Z' /\ forallb zlive (zsts Z') = true.
Proof.
  split; [apply wf_tab_ok; vm_compute; reflexivity|]. split; [cbn; lia|]. split; [repeat constructor; auto|]. split; [|split; [|split]].
  - exists (fun q v => q = 0 /\ (v 0%nat == 0)%Q \/ q = 1 /\ (v 0%nat < 1)%Q \/ q = 2 \/ q = 3). split.
    + intros p v [<-|[]] H. left. split; [reflexivity|]. apply H. cbn. lia.
    + intros p c e q v G (s & es & Hs & Hes & He) Et. cbn in Hs. destruct Hs as [Hs|[Hs|[Hs|[Hs|[]]]]]; injection Hs as <- <-; cbn in Hes; [| | |destruct Hes]; (destruct Hes as [Hes|[]]); injection Hes as <- <-; cbn in He.
      * destruct He as [<-|[]]. cbn in Et. injection Et as <-. exists (1 # 2)%Q. split; [reflexivity|]. split; [intros g []|]. right. left. split; auto. unfold reset_set, delay. cbn.
        destruct G as [[_ G]|[[X _]|[X|X]]]; try discriminate. lra.
      * destruct G as [[X _]|[[_ G]|[X|X]]]; try discriminate.
        destruct (small_time v 1) as (d & Pd & Hd); [intros y Ly; destruct y; [auto|lia]|]. specialize (Hd 0 ltac:(lia)).
        destruct He as [<-|[<-|[]]]; cbn in Et; injection Et as <-.
        -- exists d. split; [auto|]. split; [intros g [<-|[]]; unfold holds, delay; cbn [cx codr cc]; change (inject_Z 1) with 1%Q; lra|].
           left. split; [reflexivity|]. unfold reset_set. cbn. reflexivity.
        -- exists d. split; [auto|]. split; [intros g [<-|[]]; unfold holds, delay; cbn [cx codr cc]; change (inject_Z 1) with 1%Q; lra|auto].
      * destruct He as [<-|[]]. cbn in Et. injection Et as <-. exists 1%Q. split; [reflexivity|]. split; [intros g []|auto].
  - intros p s c es E1 e E2 q Hs Hes Ees Et _. cbn in Hs.
    destruct Hs as [Hs|[Hs|[Hs|[Hs|[]]]]]; injection Hs as <- <-; cbn in Hes; [| | |destruct Hes]; (destruct Hes as [Hes|[]]); injection Hes as <- <-.
    + destruct E1 as [|e1 [|]]; cbn in Ees; try discriminate; injection Ees as <- <-. cbn in Et. injection Et as <-. left. cbn. lia.
    + destruct E1 as [|e1 [|e2 [|]]]; cbn in Ees; try discriminate; [injection Ees as <- <-|injection Ees as <- <- <-]; cbn in Et; injection Et as <-; [|left; cbn; lia].
      right. right. left. do 2 eexists. split; [left; reflexivity|]. split; [reflexivity|]. split; [|lia]. apply (us_step exP 2 99 (mkE (Some 3) [] []) 3).
      * do 2 eexists. split; [right; right; left; reflexivity|]. split; [left; reflexivity|left; reflexivity].
      * reflexivity.
      * apply us_here. eexists. split; [right; right; right; left; reflexivity|reflexivity].
    + destruct E1 as [|e1 [|]]; cbn in Ees; try discriminate; injection Ees as <- <-. cbn in Et. injection Et as <-. left. cbn. lia.
  - intros rg ps RF.
    pose proof (RF 1 _ 98 _ [] _ _ 0 (or_intror (or_introl eq_refl)) (or_introl eq_refl) eq_refl eq_refl) as [[L1|(_ & (X & _) & _)]|[(X & _)|((X & _) & _)]]; try discriminate.
    pose proof (RF 0 _ 97 _ [] _ _ 1 (or_introl eq_refl) (or_introl eq_refl) eq_refl eq_refl) as [[L2|(E2 & _)]|[(X & _)|(_ & E2 & _)]]; try discriminate; lia.
  - eexists. eexists. split; [vm_compute; reflexivity|]. split; vm_compute; reflexivity.
Qed.

(* A zone automaton with a longer cycle: C25_last_partial. *)
Example C25_case_last : let Z := mkZA [gz false [(97, 1)]; gz false [(98, 0); (98, 2); (98, 3)]; gz true []; gz false [(97, 3)]] [0] in
  za_wf Z /\ all_alive Z /\ last_closer Z (fun i => 2 - i) /\
  exists Z', removeDeadStates 100 Z = Ok Z' /\ map zlive (zsts Z') = [true; true; true; false].
Proof.
  intros Z. split; [apply za_wfb_ok; vm_compute; reflexivity|].
  assert (AA : all_alive Z) by (intros s Hs; simpl in Hs; destruct Hs as [<-|[<-|[<-|[<-|[]]]]]; reflexivity). split; [exact AA|].
  assert (P2 : zproductive Z 2) by (exists [], 2; split; [constructor|eexists; split; reflexivity]).
  assert (P1 : zproductive Z 1).
  { exists [98], 2. split; [|eexists; split; reflexivity]. econstructor; [|constructor]. eexists. split; [reflexivity|]. split; auto. split; [right; left; reflexivity|]. eexists. split; reflexivity. }
  assert (N3 : ~ zproductive Z 3).
  { assert (ST : forall a w k, zpath Z a w k -> a = 3 -> k = 3).
    { intros a w k P. induction P as [a|a c j w k E P IH]; intros Ea; auto. apply IH. subst a. destruct E as (s' & G' & _ & Hc & _). cbn in G'. injection G' as <-.
      destruct Hc as [Hc|[]]. injection Hc as _ <-. auto. }
    intros (w & k & P & s & G & M). rewrite (ST _ _ _ P eq_refl) in G. cbn in G. injection G as <-. discriminate. }
  split; [|eexists; split; vm_compute; reflexivity].
  intros i s G _ PR NA. destruct i as [|[|[|[|i]]]]; cbn in G; try (injection G as <-).
  - exists [], 1, []. split; [vm_compute; reflexivity|]. split; [exact P1|]. split; [lia|]. intros k [].
  - exists [0], 2, [3]. split; [vm_compute; reflexivity|]. split; [exact P2|]. split; [lia|]. intros k [<-|[]]. auto.
  - discriminate.
  - contradiction.
  - destruct i; discriminate.
Qed.

(* ================= C26 the message that nothing matches ================= *)

Lemma eps_no_exit : forall fuel Z cl todo n, eps_loop fuel Z cl todo <> Exit n.
Proof.
  induction fuel; intros Z cl todo n; destruct todo as [|i todo]; cbn [eps_loop]; try discriminate.
  all: repeat match goal with |- context [match ?x with _ => _ end] => destruct x end; try discriminate; auto.
Qed.
Lemma succ_no_exit : forall Z i n, sunday_succ Z i <> Exit n.
Proof.
  intros Z i n. unfold sunday_succ, epsilonClosure. pose proof (eps_no_exit (List.length (zsts Z)) Z [i] [i] n) as H.
  destruct (eps_loop _ _ _ _); cbn [bind]; congruence.
Qed.
Lemma fold_no_exit : forall Z cs acc n, fold_out (fun i acc => do l <- sunday_succ Z i ; Ok (acc ++ l)) cs acc <> Exit n.
Proof.
  intros Z. induction cs as [|i cs IH]; intros acc n; cbn [fold_out]; [discriminate|].
  pose proof (succ_no_exit Z i n) as H. destruct (sunday_succ Z i); cbn [bind]; try congruence. apply IH.
Qed.
Lemma build_exit : forall fuel Z cs sets n, sunday_build fuel Z cs sets = Exit n ->
  forall i w k, In i cs -> zpath Z i w k -> alive Z k -> zaccepting Z k -> w <> [] -> (forall c, In c w -> 1 <= c /\ c < char_max) -> False.
Proof.
  induction fuel; intros Z cs sets n H i w k Hi P Ak Ac NE HC; (destruct cs as [|c0 cs]; [destruct Hi|]); cbn [sunday_build] in H; [discriminate|].
  destruct (fold_out _ (c0 :: cs) []) as [l| | |n'|] eqn:Hl; cbn [bind] in H; try discriminate; [|exact (fold_no_exit _ _ _ _ Hl)].
  apply fold_out_app in Hl as [_ Hl]. destruct (existsb (fun cj => zaccepts Z (snd cj)) l) eqn:EX; [discriminate|].
  destruct P as [|i c j w k E P]; [congruence|]. destruct (Hl i Hi) as (y & Hy & Iy). destruct (HC c (or_introl eq_refl)) as [C1 C2].
  pose proof (Iy _ (sunday_succ_edge _ _ _ _ _ Hy E C1 C2)) as Hcj.
  apply (IHfuel _ _ _ _ H j w k); auto.
  - apply in_map_iff. exists (c, j). auto.
  - intros ->. inversion P; subst. assert (X : existsb (fun cj => zaccepts Z (snd cj)) l = true).
    { apply existsb_exists. exists (c, k). split; auto. cbn [snd]. unfold zaccepts.
      apply zlock_alive in Ak as (s & Es). rewrite Es. destruct Ac as (s' & Es' & Ac).
      unfold zlock, zget in Es. rewrite Es' in Es. destruct (zlive s'); [|discriminate]. injection Es as <-. auto. }
    congruence.
  - intros x Hx. apply HC. right. auto.
Qed.

Lemma fold_out_no_exit : forall {S X} (f : X -> S -> outcome S) n l s, (forall x s, f x s <> Exit n) -> fold_out f l s <> Exit n.
Proof.
  intros S X f n. induction l as [|x l IH]; intros s H; cbn [fold_out]; [discriminate|]. specialize (H x s) as H0.
  destruct (f x s); cbn [bind]; try congruence. apply IH. auto.
Qed.
Lemma loop_no_exit : forall fuel A M Z q n, ta2za_loop fuel A M Z q <> Exit n.
Proof.
  induction fuel; intros A M Z q n; destruct q as [|i q]; cbn [ta2za_loop]; try discriminate.
  assert (X : ta2za_conf A M i (Z, []) <> Exit n).
  { unfold ta2za_conf. destruct (zget _ i); [|discriminate]. destruct (deref A (zq z)); [|discriminate]. cbv zeta.
    apply fold_out_no_exit. intros ce Zq. apply fold_out_no_exit. intros e [Z1 nq]. unfold ta2za_edge.
    repeat match goal with |- context [match ?x with _ => _ end] => destruct x end; discriminate. }
  destruct (ta2za_conf A M i (Z, [])); cbn [bind]; try congruence. apply IHfuel.
Qed.
Lemma ta2za_no_exit : forall fuel A Z0 l n, ta2za fuel A Z0 l <> Exit n.
Proof.
  intros fuel A Z0 l n. unfold ta2za. cbv zeta. destruct (filter _ (inits A)) as [|p ps]; [discriminate|].
  match goal with |- bind (fold_out ?f ?l ?s) _ <> _ => assert (X : fold_out f l s <> Exit n) end.
  { apply fold_out_no_exit. intros x s. destruct (deref A x); discriminate. }
  destruct (fold_out _ _ _); cbn [bind]; try congruence. apply loop_no_exit.
Qed.
Lemma remove_no_exit : forall fuel Z n, removeDeadStates fuel Z <> Exit n.
Proof.
  intros fuel Z n. unfold removeDeadStates.
  assert (X : forall fuel st R, dead_loop fuel Z st R <> Exit n).
  { clear. induction fuel; intros st R; destruct st as [|[i P] st]; cbn [dead_loop]; try discriminate. destruct (zlock Z i); [|discriminate]. apply IHfuel. }
  specialize (X fuel (map (fun i => (i, [])) (rev (zinit Z))) []). destruct (dead_loop _ _ _ _); cbn [bind]; congruence.
Qed.

(* No word of letters with increasing time stamps, after time 0, has a run. *)
Lemma sunday_exit : forall fuel A n, wf_ta A -> clockSize A <= 255 -> keeps_useful fuel A -> sunday_sets fuel A = Exit n ->
  forall p q v T w T', In p (inits A) -> Spec.run A p zeroval T w q v T' -> accepting A q -> increasing T w -> w <> [] ->
    (forall c t, In (c, t) w -> 1 <= c /\ c < char_max) -> False.
Proof.
  intros fuel A n WF K KU H p q v T w T' Hp R Ac Inc NE HC. unfold sunday_sets in H.
  destruct (ta2za fuel A zempty []) as [Z| | |n'|] eqn:HZ; cbn [bind] in H; try discriminate; [|exact (ta2za_no_exit _ _ _ _ _ HZ)].
  destruct (removeDeadStates fuel Z) as [Z'| | |n'|] eqn:HZ'; cbn [bind] in H; try discriminate; [|exact (remove_no_exit _ _ _ HZ')].
  destruct (ta2za_fresh fuel A Z WF K HZ) as (I & EX & WZ & AA & _ & PI & AC).
  destruct (PI p Hp) as (i & s & Hi & G & Q & Z0).
  destruct (ta2za_run A (max_const A) WF K Z I EX _ _ _ _ _ _ _ R Inc i s G Q Z0) as (j & s' & P & G' & Q' & _).
  assert (Aj : zaccepting Z j).
  { exists s'. split; auto. rewrite (AC j s' G'), Q'. apply match_at_spec; auto. apply (wf_nodup _ WF). }
  assert (RE : zreachable Z i) by (exists i, []; split; [auto|constructor]).
  destruct (remove_path _ _ _ WZ AA HZ' (KU _ _ HZ HZ') _ _ _ P RE Aj) as (P' & L' & A' & I').
  apply (build_exit _ _ _ _ _ H i (map fst w) j (I' Hi) P' L' A').
  - destruct w; [congruence|discriminate].
  - intros c Hc. apply in_map_iff in Hc as ([c' t] & <- & Hc). apply (HC c' t); auto.
Qed.
(* exit(10) is right: when SundaySkipValue gives up, the pattern accepts no word. *)
Theorem C26_exit : forall fuel A n, wf_ta A -> clockSize A <= 255 -> keeps_useful fuel A -> sunday_sets fuel A = Exit n ->
  forall w, accepts A w -> w <> [] -> increasing 0 w -> (forall c t, In (c, t) w -> 1 <= c /\ c < char_max) -> False.
Proof. intros fuel A n WF K KU H w (p & q & v & T & Hp & R & Ac) NE Inc HC. eapply (sunday_exit fuel A n); eauto. Qed.

(* ================= C68 exactly the matches ================= *)

(* ---------------- the patterns ---------------- *)

Fixpoint one_letter (x : sx) : Prop := match x with XAtom _ => True | XPar y => one_letter y | _ => False end.
(* + and * stand only behind letters. *)
Fixpoint letter_loops (x : sx) : Prop :=
  match x with
  | XAtom _ => True
  | XPlus y | XStar y => one_letter y
  | XPar y | XIn y _ => letter_loops y
  | XCat y z | XOr y z | XAnd y z => letter_loops y /\ letter_loops z
  end.
(* + and * stand behind what is not restricted in time; inside of &, only behind letters. *)
Fixpoint free_loops (x : sx) : Prop :=
  match x with
  | XAtom _ => True
  | XPlus y | XStar y => free_loops y /\ restrictions y = 0
  | XPar y | XIn y _ => free_loops y
  | XCat y z | XOr y z => free_loops y /\ free_loops z
  | XAnd y z => letter_loops y /\ letter_loops z
  end.
(* Inside of &, + and * stand only behind letters. *)
Fixpoint letters_below (x : sx) : Prop :=
  match x with
  | XAtom _ => True
  | XPar y | XIn y _ | XPlus y | XStar y => letters_below y
  | XCat y z | XOr y z => letters_below y /\ letters_below z
  | XAnd y z => letter_loops y /\ letter_loops z
  end.
(* Some duration meets the restriction. *)
Fixpoint met (r : restr) : Prop :=
  match r with RRange lc a b rc => (a < b)%Z \/ (a = b /\ lc = true /\ rc = true) | RPar r => met r | _ => True end.
(* No restriction prevents what follows: it asks for no time to pass, or restricts
   something that has no other restriction. *)
Fixpoint loose (x : sx) : Prop :=
  match x with
  | XAtom _ => True
  | XPar y | XPlus y | XStar y => loose y
  | XCat y z | XOr y z => loose y /\ loose z
  | XAnd y z => hasty y /\ hasty z
  | XIn y r => (hasty y /\ instant r) \/ (restrictions y = 0 /\ met r)
  end.
(* The loops of the fragment *)
Definition fair_loops (x : sx) : Prop := free_loops x \/ (hasty_loops x /\ letters_below x /\ loose x).
(* No choice at the beginning. *)
Fixpoint one_start (x : sx) : Prop :=
  match x with
  | XAtom _ => True
  | XStar _ | XOr _ _ => False
  | XPar y | XPlus y | XIn y _ | XCat y _ => one_start y
  | XAnd y z => one_start y /\ one_start z
  end.
(* No star at the beginning, and no choice at the beginning of the operands of &,
   when & is at the beginning. *)
Fixpoint plain_start (x : sx) : Prop :=
  match x with
  | XAtom _ => True
  | XOr y z => nul y = false /\ nul z = false
  | XStar _ => False
  | XPar y | XPlus y | XIn y _ | XCat y _ => plain_start y
  | XAnd y z => one_start y /\ one_start z
  end.
(* Nothing that begins with the match is restricted in time. *)
Fixpoint free_start (x : sx) : Prop :=
  match x with
  | XAtom _ => True
  | XIn _ _ => False
  | XPar y | XPlus y | XStar y => free_start y
  | XCat y z => free_start y /\ (nul y = true -> free_start z)
  | XOr y z | XAnd y z => free_start y /\ free_start z
  end.

Lemma one_letter_den : forall x, one_letter x -> exists c, den x = Atom c.
Proof. induction x; cbn; intros H; try contradiction; eauto. Qed.
Lemma letter_lean : forall x, letter_loops x -> lean (den x).
Proof.
  induction x as [c|y IH|y IH|y IH|y IHy z IHz|y IHy z IHz|y IHy z IHz|y IH r]; cbn [letter_loops den]; intros H; try contradiction; cbn [lean]; try tauto;
    destruct (one_letter_den y H) as (c & ->); cbn; auto.
Qed.
Lemma letter_hasty : forall x, letter_loops x -> hasty_loops x.
Proof.
  assert (O : forall y, one_letter y -> hasty y) by (induction y; cbn; intros H; try contradiction; auto).
  induction x as [c|y IH|y IH|y IH|y IHy z IHz|y IHy z IHz|y IHy z IHz|y IH r]; cbn; intros H; try contradiction; try tauto; auto.
Qed.
Lemma free_looped : forall x, tame x -> (forall c, In c (atoms x) -> ParseSpec.letter c) -> free_loops x -> looped (den x).
Proof.
  induction x as [c|y IH|y IH|y IH|y IHy z IHz|y IHy z IHz|y IHy z IHz|y IH r]; cbn [tame atoms free_loops den]; intros T L H; try contradiction; cbn [looped]; auto.
  - destruct H as [H R], T as (T & _). specialize (IH T L H). pose proof (den_clocks y T L) as K. rewrite R in K.
    destruct (mkPlus_cases (den y)) as [->|(r1 & E & ->)]; [cbn [looped]; split; auto; lia|exact IH].
  - destruct H as [H R], T as (T & _). specialize (IH T L H). pose proof (den_clocks y T L) as K. rewrite R in K. split; [exact Logic.I|].
    destruct (mkPlus_cases (den y)) as [->|(r1 & E & ->)]; [cbn [looped]; split; auto; lia|exact IH].
  - destruct T as (T1 & T2 & _), H. split; [apply IHy|apply IHz]; auto; intros c Hc; apply L, in_app_iff; auto.
  - destruct T, H. split; [apply IHy|apply IHz]; auto; intros c Hc; apply L, in_app_iff; auto.
  - destruct H. split; apply letter_lean; auto.
  - destruct T. auto.
Qed.
Lemma unrestricted_hasty : forall x, restrictions x = 0 -> hasty x.
Proof. induction x; cbn; intros H; auto; try discriminate; (split; [apply IHx1|apply IHx2]; lia). Qed.
Lemma free_hasty : forall x, free_loops x -> hasty_loops x.
Proof.
  induction x as [c|y IH|y IH|y IH|y IHy z IHz|y IHy z IHz|y IHy z IHz|y IH r]; cbn; intros H; try contradiction; try tauto.
  - destruct H. apply unrestricted_hasty; auto.
  - destruct H. apply unrestricted_hasty; auto.
  - destruct H. split; apply letter_hasty; auto.
Qed.
Lemma fair_hasty : forall x, fair_loops x -> hasty_loops x.
Proof. intros x [H|H]; [apply free_hasty; auto|tauto]. Qed.
Lemma letters_tidy : forall x, letters_below x -> tidy (den x).
Proof.
  induction x as [c|y IH|y IH|y IH|y IHy z IHz|y IHy z IHz|y IHy z IHz|y IH r]; cbn [letters_below den]; intros H; try exact Logic.I; auto; try (destruct H; split; auto using letter_lean; fail).
  - specialize (IH H). destruct (mkPlus_cases (den y)) as [->|(r1 & E & ->)]; auto.
  - specialize (IH H). split; [exact Logic.I|]. destruct (mkPlus_cases (den y)) as [->|(r1 & E & ->)]; auto.
Qed.
Lemma met_spacious : forall r, PropEvent.roomy r -> met r -> spacious (rden r).
Proof.
  assert (P : forall lc a b rc, (1 <= b)%Z -> (a < b)%Z \/ (a = b /\ lc = true /\ rc = true) -> spacious (Interval.mkI (zbound a lc) (zbound b rc))).
  { intros lc a b rc Lb [L|(-> & -> & ->)].
    - exists (inject_Z b - (1 # 2))%Q. assert (Q1 : (inject_Z 1 <= inject_Z b)%Q) by (rewrite <- Zle_Qle; auto). assert (Q2 : (inject_Z a + 1 <= inject_Z b)%Q).
      { setoid_replace (inject_Z a + 1)%Q with (inject_Z (a + 1)) by (rewrite inject_Z_plus; reflexivity). rewrite <- Zle_Qle. lia. }
      change (inject_Z 1) with 1%Q in Q1. split; [lra|]. split; cbn; [destruct lc|destruct rc]; lra.
    - exists (inject_Z b). assert (Q1 : (inject_Z 1 <= inject_Z b)%Q) by (rewrite <- Zle_Qle; auto). change (inject_Z 1) with 1%Q in Q1. split; [lra|]. split; cbn; lra. }
  induction r as [lc a b rc|z|z|z|z|z|r IH]; cbn [PropEvent.roomy met rden]; intros R M; try contradiction; auto; apply P; auto; left; lia.
Qed.
Lemma loose_supple : forall x, tame x -> (forall c, In c (atoms x) -> ParseSpec.letter c) -> loose x -> supple (den x).
Proof.
  induction x as [c|y IH|y IH|y IH|y IHy z IHz|y IHy z IHz|y IHy z IHz|y IH r]; cbn [tame atoms loose den]; intros T L H; try exact Logic.I; auto.
  - specialize (IH (proj1 T) L H). destruct (mkPlus_cases (den y)) as [->|(r1 & E & ->)]; auto.
  - specialize (IH (proj1 T) L H). split; [exact Logic.I|]. destruct (mkPlus_cases (den y)) as [->|(r1 & E & ->)]; auto.
  - destruct T as (T1 & T2 & _), H. split; [apply IHy|apply IHz]; auto; intros; apply L, in_app_iff; auto.
  - destruct T, H. split; [apply IHy|apply IHz]; auto; intros; apply L, in_app_iff; auto.
  - destruct H. split; apply hasty_slow; auto.
  - destruct T as (T & _ & _ & Rm), H as [[H1 H2]|[H1 H2]]; [left; apply (hasty_slow (XIn y r)); split; auto|right]. split; [|apply met_spacious; auto].
    pose proof (den_clocks y T L). lia.
Qed.
Lemma letter_free : forall x, letter_loops x -> free_loops x.
Proof.
  assert (O : forall y, one_letter y -> free_loops y /\ restrictions y = 0) by (induction y; cbn; intros H; try contradiction; auto).
  induction x as [c|y IH|y IH|y IH|y IHy z IHz|y IHy z IHz|y IHy z IHz|y IH r]; cbn; intros H; try contradiction; try tauto; auto.
Qed.
Lemma one_single : forall x, one_start x -> single (den x).
Proof.
  induction x as [c|y IH|y IH|y IH|y IHy z IHz|y IHy z IHz|y IHy z IHz|y IH r]; cbn [one_start den]; intros H; try contradiction; cbn [single]; try tauto.
  specialize (IH H). destruct (mkPlus_cases (den y)) as [->|(r1 & E & ->)]; auto.
Qed.
Lemma tame_nullable : forall x, tame x -> (forall c, In c (atoms x) -> ParseSpec.letter c) -> nullable (den x) = nul x.
Proof. intros x T L. apply (starsafe_ok x (tame_starsafe x T) L). Qed.
Lemma plain_orderly : forall x, tame x -> (forall c, In c (atoms x) -> ParseSpec.letter c) -> plain_start x -> orderly (den x).
Proof.
  induction x as [c|y IH|y IH|y IH|y IHy z IHz|y IHy z IHz|y IHy z IHz|y IH r]; cbn [tame atoms plain_start den]; intros T L H; try contradiction; cbn [orderly]; try tauto.
  - specialize (IH (proj1 T) L H). destruct (mkPlus_cases (den y)) as [->|(r1 & E & ->)]; auto.
  - apply IHy; auto; [tauto|]. intros; apply L, in_app_iff; auto.
  - destruct T as [T1 T2]. rewrite !tame_nullable; auto; intros; apply L, in_app_iff; auto.
  - destruct H. split; apply one_single; auto.
Qed.
Lemma free_late : forall x, tame x -> (forall c, In c (atoms x) -> ParseSpec.letter c) -> free_start x -> late (den x).
Proof.
  induction x as [c|y IH|y IH|y IH|y IHy z IHz|y IHy z IHz|y IHy z IHz|y IH r]; cbn [tame atoms free_start den]; intros T L H; try contradiction; auto.
  - specialize (IH (proj1 T) L H). destruct (mkPlus_cases (den y)) as [->|(r1 & E & ->)]; auto.
  - specialize (IH (proj1 T) L H). split; [exact Logic.I|]. destruct (mkPlus_cases (den y)) as [->|(r1 & E & ->)]; auto.
  - destruct T as (T1 & T2 & _), H as [H1 H2]. assert (L1 : forall c, In c (atoms y) -> ParseSpec.letter c) by (intros; apply L, in_app_iff; auto).
    split; auto. rewrite (tame_nullable y T1 L1). intros N. apply IHz; auto. intros; apply L, in_app_iff; auto.
  - destruct T as [T1 T2], H. split; [apply IHy|apply IHz]; auto; intros; apply L, in_app_iff; auto.
  - destruct T as (T1 & T2 & _), H. split; [apply IHy|apply IHz]; auto; intros; apply L, in_app_iff; auto.
Qed.
Lemma one_nonempty : forall x, one_start x -> nul x = false.
Proof. induction x; cbn; intros H; try contradiction; auto; [rewrite IHx1; auto|rewrite IHx1; tauto]. Qed.
Lemma start_nonempty : forall x, plain_start x -> nul x = false.
Proof. induction x; cbn; intros H; try contradiction; auto; [rewrite IHx1; auto|destruct H as [-> ->]; auto|rewrite one_nonempty; tauto]. Qed.
Lemma sem_nonempty : forall x u, nul x = false -> sem x u -> u <> [].
Proof.
  induction x as [c|y IH|y IH|y IH|y IHy z IHz|y IHy z IHz|y IHy z IHz|y IH r]; cbn [nul sem]; intros u T S; try discriminate; eauto.
  - destruct S as (d & ->). discriminate.
  - destruct S as ([|u1 us] & NE & F & ->); [congruence|]. inversion F; subst. cbn. intros X. apply app_eq_nil in X as [X _]. eapply IH; eauto.
  - destruct S as (u1 & u2 & -> & S1 & S2). intros X. apply app_eq_nil in X as [X1 X2]. apply andb_false_iff in T as [T|T]; [eapply IHy|eapply IHz]; eauto.
  - apply orb_false_iff in T as [T1 T2]. destruct S; [apply IHy|apply IHz]; tauto.
  - destruct S. apply andb_false_iff in T as [T|T]; eauto.
  - apply IH; tauto.
Qed.

(* ---------------- the theorem ---------------- *)

(* t and t' satisfy all of the inequalities of some printed block. *)
Definition reports (o : outcome shown) (t t' : Q) : Prop :=
  exists p block, o = Ok (Printed p) /\ In block (pr_out p) /\ Forall (fun q => sat_ineq q t t') block.
(* The time of an event, or any time before all of them. *)
Definition begins (w : tword) (t : Q) : Prop := (exists c t0, In (c, t0) w /\ (t == t0)%Q) \/ (forall c t0, In (c, t0) w -> (t < t0)%Q).

Lemma increasing_nth : forall (w : tword) T i j, increasing T w -> i < j -> j < List.length w -> (snd (nth i w (0%nat, 0%Q)) < snd (nth j w (0%nat, 0%Q)))%Q.
Proof.
  assert (L : forall (w : tword) T j, increasing T w -> j < List.length w -> (T < snd (nth j w (0%nat, 0%Q)))%Q).
  { induction w as [|[c t] w IH]; intros T j H L; cbn in L; [lia|]. destruct H as [H1 H2]. destruct j as [|j]; cbn [nth snd]; auto.
    specialize (IH t j H2 ltac:(lia)). lra. }
  induction w as [|[c t] w IH]; intros T i j H Hij Lj; cbn in Lj; [lia|]. destruct H as [H1 H2]. destruct j as [|j]; [lia|].
  destruct i as [|i]; cbn [nth snd]; [apply L; auto; lia|]. apply (IH t); auto; lia.
Qed.
Lemma begins_pos : forall w k t, word_ok w -> k < List.length w -> at_pos w k t -> begins w t -> 0 < k -> (t == snd (nth (k - 1) w (0%nat, 0)))%Q.
Proof.
  intros w k t WO Lk (S0 & S1 & S2) [(c & t0 & I & E)|B] Pk.
  - destruct (@In_nth event w _ (0%nat, 0%Q) I) as (j & Lj & Ej). specialize (S1 Pk).
    assert (Et : (t == snd (nth j w (0%nat, 0)))%Q) by (rewrite Ej; exact E).
    destruct (lt_eq_lt_dec j (k - 1)) as [[Hj|Hj]|Hj].
    + pose proof (increasing_nth w 0 j (k - 1) (wo_inc _ WO) Hj ltac:(lia)). lra.
    + subst j. exact Et.
    + destruct (Nat.eq_dec j k) as [->|N]; [lra|]. pose proof (increasing_nth w 0 k j (wo_inc _ WO) ltac:(lia) Lj). lra.
  - specialize (S1 Pk). destruct (@nth event (k - 1) w (0%nat, 0%Q)) as [c t0] eqn:E. assert (I : In (c, t0) w) by (rewrite <- E; apply nth_In; lia).
    specialize (B c t0 I). cbn [snd] in S1. lra.
Qed.

(* From t to t', the word with $ at t' is one that the pattern x$ describes. *)
Definition is_match (x : sx) (w : tword) (t t' : Q) : Prop :=
  (0 <= t)%Q /\ (t <= t')%Q /\ sem (XCat x (XAtom dollar)) (delays t (between w t t' ++ [(dollar, t')])).

Lemma match_events : forall x w, nul x = false -> forall t t', is_match x w t t' -> between w t t' <> [].
Proof.
  intros x w N t t' (H0 & H1 & Sm) X. rewrite X in Sm. cbn [sem app delays] in Sm. destruct Sm as (u1 & u2 & Eu & S1 & (d & ->)). pose proof (sem_nonempty x u1 N S1) as Nn.
  destruct u1 as [|e u1]; [congruence|]. destruct u1; discriminate.
Qed.

(* The transitions on $ of an automaton for a pattern x$ accept. *)
Lemma dollar_accepts : forall al r n n1 L D, injective al -> TreMild.plain r -> nclocks r <= 256 -> ~ In dollar (tatoms r) ->
  toEventTA al r n = Ok (L, n1) -> reduceStates (merge (concat2 L (atomTA al dollar n1))) = Ok D ->
  forall p e, is_edge D p dollar e -> eguard e = [] /\ exists q, etgt e = Some q /\ accepting D q.
Proof.
  intros al r n n1 L D Inj Pl K ND E1 E2 p e H. pose proof (d_built al r n n1 L Inj Pl K E1) as B. pose proof (d_tinv al r n n1 L Inj Pl K E1) as T.
  destruct (d_merge al n1 L) as (f & rest & ET). pose proof (ti_wf _ _ _ _ (merge_tinv1 al _ _ _ f rest T ET)) as WM.
  destruct (reduceStates_ok _ WM) as (D' & E' & Rd & _). rewrite E2 in E'. injection E' as <-.
  apply (rd_edge _ _ Rd) in H. destruct (proj1 (merge_edge al _ _ _ f rest T ET p dollar e) H) as (e0 & q0 & H0 & Eq0 & ->).
  pose proof (toEventTA_calmed al r n L n1 Inj Pl K E1) as Ca. cbn [eguard].
  apply (cat_edge al n n1 L _ (bu_inv _ _ _ _ _ B)) in H0 as [H0|[H0|(e1 & q1 & i & H0 & _)]]; try (destruct (ND (ca_char _ _ Ca _ _ _ H0)); fail).
  split; [apply (atom_edge al n1 Inj) in H0 as (_ & _ & ->); reflexivity|]. exists (rho (tb f rest) f q0). split; auto.
  assert (A0 : accepting (concat2 L (atomTA al dollar n1)) q0).
  { apply (cat_accepting L (atomTA al dollar n1)). apply (atom_edge al n1 Inj) in H0 as (_ & _ & ->). cbn in Eq0. injection Eq0 as <-. apply (atom_accepting al n1 Inj). auto. }
  pose proof (tb_spec al _ _ _ f rest T ET) as TB. apply (rd_acc _ _ Rd). apply (merge_accepting al _ _ _ f rest T ET). unfold rho. rewrite (proj2 (TB q0) A0).
  assert (tb f rest f = true) as -> by (unfold tb; apply mem_In; left; auto). split; auto. apply TB. unfold tb. apply mem_In. left. auto.
Qed.

Section Exact.
Context (sepA sepD : heap -> nat -> outcome heap) (dec : list nat -> Q) (al0 : nat -> ptr) (al : alloc) (W : world).
Notation run fuel o := (main sepA sepD dec fuel al0 al W o).

Section One.
  Variables (x : sx) (o : options) (s : list nat) (input : list nat) (w : tword).
  Hypothesis Inj : injective al0.
  Hypothesis AO : forall B m, wf_ta B -> alloc_ok al B m.
  Hypothesis ER : event_run o s.
  Hypothesis M : meant (XCat x (XAtom dollar)) s.
  Hypothesis T : tame x.
  Hypothesis LL : fair_loops x.
  Hypothesis PS : plain_start x \/ rising al0.
  Hypothesis ND : ~ In dollar (atoms x).
  Hypothesis K : 2 * restrictions x <= 255.
  Hypothesis Wf : word_from W o input.
  Hypothesis R : rendered w input.
  Hypothesis WO : word_ok w.
  Hypothesis Q : o_quiet o = false.
  (* What is known about the automata of the pattern *)
  Lemma ready : exists D m Ap rk, toEventTA al0 (den (XCat x (XAtom dollar))) 0 = Ok (D, m) /\ ended D Ap /\ wf_ta Ap /\ calm Ap rk /\ 2 * clockSize Ap <= 255 /\
    clockSize Ap = clockSize D /\ StronglySorted le (inits D) /\ (forall f, keeps_useful f Ap) /\ (free_start x -> uppers_after_reset Ap) /\ pattern_ok D /\
    (forall p e, ~ is_edge Ap p 0 e) /\ (forall p e, is_edge D p dollar e -> eguard e = [] /\ exists q, etgt e = Some q /\ accepting D q).
  Proof.
    pose proof (meant_parse _ _ M) as Ps.
    assert (L : forall c, In c (atoms x) -> ParseSpec.letter c) by (intros c Hc; apply (meant_atoms _ _ c M); cbn; apply in_app_iff; auto).
    destruct (ended_ok al0 x Inj T L ND K) as (D & m & Ap & E & [WD HA NE CO AL] & EC & CM & Z0).
    destruct (CM (fair_hasty x LL)) as (rk & Cm). pose proof (ap_wf D Ap WD HA) as WP. pose proof (den_clocks x T L) as DK.
    pose proof (ap_clocks D Ap HA) as EK.
    assert (T' : tame (XCat x (XAtom dollar))) by (cbn; auto).
    assert (L' : forall c, In c (atoms (XCat x (XAtom dollar))) -> ParseSpec.letter c) by (intros c Hc; apply (meant_atoms _ _ c M); auto).
    pose proof (tame_plain _ T' L') as Pl. pose proof (plain_ok _ Pl) as O. assert (Fl : flag (den (XCat x (XAtom dollar))) = NoFlag) by reflexivity.
    assert (K' : nclocks (den (XCat x (XAtom dollar))) <= 256) by (cbn; lia).
    pose proof (toEventTA_leaned al0 _ 0 D m Inj Pl K' E) as [_ _ LO LI LR].
    assert (SO : StronglySorted le (inits D)).
    { destruct PS as [H|H]; [apply LO; cbn; apply plain_orderly; auto|]. apply (risen_sorted al0 _ 0 D m H Pl K'); auto. cbn. apply andb_false_r. }
    assert (DA : forall p e, is_edge D p dollar e -> eguard e = [] /\ exists q, etgt e = Some q /\ accepting D q).
    { intros p e He. cbn [den] in E. rewrite cat_built in E. apply bind_Ok in E as ([C n2] & E1 & E).
      apply bind_Ok in E1 as ([A1 n1] & E1 & E2). cbn [fst snd] in E2. rewrite atom_built in E2. cbn [bind fst snd] in E2. injection E2 as <- <-. cbn [fst snd] in E.
      apply bind_Ok in E as (D' & E2 & E). injection E as -> _.
      apply (dollar_accepts al0 (den x) 0 n1 A1 D Inj) with (p := p); auto; [apply tame_plain; auto|lia|]. intros H. apply ND. apply den_atoms; auto. }
    assert (KU : forall f, keeps_useful f Ap).
    { destruct (toEventTA_built al0 _ Inj O K' 0) as (D' & m' & E' & B). rewrite E in E'. injection E' as <- <-. pose proof (bu_inv _ _ _ _ _ B) as TI.
      assert (NI : NoDup (inits Ap)) by (destruct (make_ap_states _ _ HA) as (_ & EI & _); rewrite EI; apply NoDup_filter; apply (wf_nodup _ WD)).
      intros f. destruct LL as [FL|(_ & LB & LO')].
      - destruct (toEventTA_rounds al0 _ 0 D m Inj Pl K' E) as (rg & ps & RF); [cbn; split; [apply free_looped; auto|exact Logic.I]|].
        assert (RD : rounds_first False False D rg ps) by (apply (rounds_mono (~ closed (den (XCat x (XAtom dollar))))); auto; cbn; intuition discriminate).
        apply (keeps_useful_rounds f Ap rg ps WP); [lia|auto|]. apply (ap_rounds D Ap rg ps WD); auto; [exact (ti_full _ _ _ _ TI)|]. intros p e He. apply (DA p e He).
      - destruct (ended_exits al0 (den x) dollar 0 D m Inj) as (rk2 & RX); auto; [apply tame_plain; auto|discriminate|lia|apply letters_tidy; auto|].
        apply (keeps_useful_exits f Ap rk2 WP); [lia|auto| |apply (ap_exits D Ap rk2 WD); auto; [exact (ti_full _ _ _ _ TI)|intros p e He; apply (DA p e He)]].
        rewrite EK. apply (ap_pliant _ D Ap HA); [intros p Hp; apply (ap_inits D Ap WD HA SO); auto|]. rewrite (bu_clocks _ _ _ _ _ B).
        apply (sp_pliant _ _ (toEventTA_springy al0 _ 0 D m Inj Pl K' E)). split; [apply loose_supple; auto|exact Logic.I]. }
    assert (UR : free_start x -> uppers_after_reset Ap).
    { intros F. destruct (LR ltac:(split; [apply free_late; auto|intros _; exact Logic.I])) as (RR & R1 & R2 & R3). exists RR. split.
      - intros p y Hp. apply R1. apply (ap_inits D Ap WD HA SO). auto.
      - intros p c e q He Et. apply (ap_edge D Ap HA) in He as [He _]. apply (R3 p c e q He Et). }
    assert (PO : pattern_ok D).
    { constructor; auto. intros p st Hp. destruct (zeroDur st) eqn:Zd; auto. exfalso.
      destruct (toEventTA_built al0 _ Inj O K' 0) as (D' & m' & E' & B). rewrite E in E'. injection E' as <- <-. pose proof (bu_inv _ _ _ _ _ B) as TI.
      pose proof (ti_zero _ _ _ _ TI p st Hp Zd) as N. pose proof (bu_free _ _ _ _ _ B p st Hp N) as Mt. pose proof (bu_flg _ _ _ _ _ B p st Hp Mt Zd) as X. rewrite Fl in X. exact X. }
    assert (NT : forall p e, ~ is_edge Ap p 0 e). { intros p e H. apply (ap_edge D Ap HA) in H as [H _]. exact (no_eps_tau D NE p e H). }
    exists D, m, Ap, rk. split; [exact E|]. split; [constructor; auto|]. split; [exact WP|]. split; [exact Cm|]. split; [lia|]. split; [exact EK|]. split; [exact SO|]. split; [exact KU|].
    split; [exact UR|]. split; [exact PO|]. split; [exact NT|]. exact DA.
  Qed.
  Lemma exact : exists fuel, forall k,
    ((exists p, run (fuel + k) o = Ok (Printed p)) \/ (run (fuel + k) o = Exit 10 /\ forall t t', between w t t' <> [] -> ~ is_match x w t t')) /\
    (forall t t', reports (run (fuel + k) o) t t' -> is_match x w t t') /\
    (forall t t', free_start x \/ begins w t -> between w t t' <> [] -> is_match x w t t' -> reports (run (fuel + k) o) t t').
  Proof.
    destruct ready as (D & m & Ap & rk & E & [WD HA NE CO AL] & WP & Cm & KP & EK & SO & KU & UR & PO & NT & _).
    pose proof (meant_parse _ _ M) as Ps.
    assert (L : forall c, In c (atoms x) -> ParseSpec.letter c) by (intros c Hc; apply (meant_atoms _ _ c M); cbn; apply in_app_iff; auto).
    pose proof (den_clocks x T L) as DK.
    assert (T' : tame (XCat x (XAtom dollar))) by (cbn; auto).
    assert (L' : forall c, In c (atoms (XCat x (XAtom dollar))) -> ParseSpec.letter c) by (intros c Hc; apply (meant_atoms _ _ c M); auto).
    pose proof (tame_plain _ T' L') as Pl. pose proof (plain_ok _ Pl) as O.
    assert (K' : nclocks (den (XCat x (XAtom dollar))) <= 256) by (cbn; lia).
    pose proof (increasing_nondecreasing _ _ (wo_inc _ WO)) as NW.
    assert (HC : forall c t, In (c, t) w -> c < char_max) by (intros c t I; apply (wo_chars _ WO c t I)).
    assert (MM : forall t t', between w t t' <> [] -> is_match x w t t' -> matches D w t t' /\ exists k, k < List.length w /\ at_pos w k t).
    { intros t t' NB (H0 & H1 & Sm). split.
      - apply (C42_matches al0 _ 0 D m w t t' Inj O K' E). split; auto. split; auto. apply den_sem. auto.
      - destruct (between_start w t t' NB) as (k0 & L0 & B1 & B2). apply (find_start w t NW H0). eauto. }
    assert (X : forall f, run f o = do p <- (do zs <- monaaDollar f al vecC D w ; Ok (fold_left pr_op (Clear :: map Push zs) (mkPr (o_quiet o) 0 []))) ; Ok (Printed p)).
    { intros f. rewrite (event_run_main sepA sepD dec f al0 al W o s _ input ER Wf Ps), E. cbn [bind fst]. unfold main_event.
      rewrite (C39_wellformed w input R). cbn [bind]. rewrite C36_online_offline. reflexivity. }
    assert (Sound : forall f t t', reports (run f o) t t' -> is_match x w t t').
    { intros f t t' (p & block & Ep & Hb & F).
      destruct (C68_meant_partial sepA sepD dec f al0 al W (XCat x (XAtom dollar)) o s input w p block Inj ER M) as [H _]; auto; [apply tame_starsafe; auto|cbn; lia|exact (H t t' F)]. }
    destruct (tables_end al Ap rk WP (fun m => AO Ap m WP) ltac:(lia) CO NT AL Cm) as (fuel & [H|(Tb & H)]).
    - exists fuel. intros k.
      assert (Ex : run (fuel + k) o = Exit 10) by (rewrite X; unfold monaaDollar; rewrite HA; cbn [bind]; rewrite H; reflexivity).
      assert (No : forall t t', between w t t' <> [] -> ~ is_match x w t t').
      { intros t t' NB Mt. destruct (MM t t' NB Mt) as (Mm & j0 & Lj & Sj).
        destruct (match_ap D Ap w j0 t PO HA WO Lj Sj) as (j & p & q & v & T1 & L1 & L2 & Hp & Rn & Ac); [exists t'; auto|].
        assert (HS : sunday_sets fuel Ap = Exit 10).
        { specialize (H 0). rewrite Nat.add_0_r in H. unfold tables in H. destruct (sunday_sets fuel Ap) as [sets| | |n|]; cbn [bind] in H; try congruence.
          destruct (kmp_no_ub fuel al Ap (List.length sets) WP (AO _ _ WP) ltac:(lia) CO AL) as [(beta & B)|B]; rewrite B in H; discriminate. }
        apply (sunday_exit fuel Ap 10 WP ltac:(lia) (KU _) HS _ _ _ _ _ _ Hp Rn Ac).
        - apply increasing_slice; [apply (wo_inc _ WO)|lia|lia|intros _; apply (proj2 (proj2 Sj))].
        - intros Sl. apply (f_equal (@List.length _)) in Sl. rewrite slice_length in Sl by lia. cbn in Sl. lia.
        - intros c t0 I. destruct (slice_chars w j0 j c t0 WO I) as (C1 & C2 & _). auto. }
      split; [right; auto|]. split; [apply Sound|]. intros t t' _ NB Mt. destruct (No t t' NB Mt).
    - exists (fuel + List.length w). intros k. specialize (H (List.length w + k)). rewrite Nat.add_assoc in H.
      destruct (C32_terminates (fuel + List.length w + k) al D w Ap Tb) as (zs & Mz); auto; [lia|].
      assert (Ep : run (fuel + List.length w + k) o = Ok (Printed (fold_left pr_op (Clear :: map Push zs) (mkPr false 0 [])))) by (rewrite X, Mz; cbn [bind]; rewrite Q; reflexivity).
      split; [left; eauto|]. split; [apply Sound|]. intros t t' FB NB Mt. destruct (MM t t' NB Mt) as (Mm & j0 & Lj & Sj).
      destruct (monaaDollar_complete (fuel + List.length w + k) al D Ap Tb w zs PO ltac:(lia) WO) with (k := j0) (t := t) (t' := t') as (z & Hz & Zi); auto.
      { constructor; auto. }
      { destruct FB as [F|B]; [left; auto|right]. intros Pj. apply begins_pos; auto. }
      exists (fold_left pr_op (Clear :: map Push zs) (mkPr false 0 [])), (print_zone z). split; [exact Ep|].
      destruct (monaaDollar_ok _ _ _ _ _ WD NW Mz z Hz) as (i & _ & _ & G & C & _). split.
      + destruct (C46_printer (Clear :: map Push zs) false) as [_ EP]. rewrite EP. cbn [flat_map Datatypes.app].
        apply in_flat_map. exists (Push z). split; [apply in_map; auto|left; auto].
      + apply C54_meaning; auto. apply (proj1 C).
  Qed.
End One.

(* monaa with a pattern x$ of the fragment, and a word with increasing time
   stamps.  It returns; what it prints are matches; the matches that begin at an
   event or before all of them are among what is printed, and so are all others
   if nothing at the beginning of x is restricted in time; when it says that the
   pattern matches nothing and exits with 10, there is no match.  Missing:
   patterns with * at the beginning or directly below or behind &, with + or * behind what may match
   nothing, behind what takes time or, inside of &, behind more than a letter, with loops that are restricted in
   time beside nested restrictions that ask for time to pass, with >, >= or upper bounds below 1, with a choice at the beginning of an operand of & that is at the
   beginning itself. *)
Theorem C68_exact_partial : forall x o s input w, injective al0 -> (forall B m, wf_ta B -> alloc_ok al B m) ->
  event_run o s -> meant (XCat x (XAtom dollar)) s -> tame x -> fair_loops x -> plain_start x -> ~ In dollar (atoms x) -> 2 * restrictions x <= 255 ->
  word_from W o input -> rendered w input -> word_ok w -> o_quiet o = false ->
  exists fuel, forall k,
    ((exists p, run (fuel + k) o = Ok (Printed p)) \/ (run (fuel + k) o = Exit 10 /\ forall t t', ~ is_match x w t t')) /\
    (forall t t', reports (run (fuel + k) o) t t' -> is_match x w t t') /\
    (forall t t', free_start x \/ begins w t -> is_match x w t t' -> reports (run (fuel + k) o) t t').
Proof.
  intros x o s input w Inj AO ER M T LL PS ND K Wf R WO Q. destruct (exact x o s input w Inj AO ER M T LL (or_introl PS) ND K Wf R WO Q) as (fuel & X). exists fuel. intros k.
  pose proof (match_events x w (start_nonempty x PS)) as NB. destruct (X k) as (X1 & X2 & X3). split; [|split; auto].
  destruct X1 as [X1|[X1 N]]; [left; auto|right]. split; auto. intros t t' Mt. apply (N t t' (NB t t' Mt) Mt).
Qed.

(* When the addresses of states increase in the order of their creation, the
   pattern may begin with stars and with choices of any kind.  Matches without
   events, of patterns that match the empty word, are not covered. *)
Theorem C68_rising_partial : forall x o s input w, rising al0 -> (forall B m, wf_ta B -> alloc_ok al B m) ->
  event_run o s -> meant (XCat x (XAtom dollar)) s -> tame x -> fair_loops x -> ~ In dollar (atoms x) -> 2 * restrictions x <= 255 ->
  word_from W o input -> rendered w input -> word_ok w -> o_quiet o = false ->
  exists fuel, forall k,
    ((exists p, run (fuel + k) o = Ok (Printed p)) \/ (run (fuel + k) o = Exit 10 /\ forall t t', between w t t' <> [] -> ~ is_match x w t t')) /\
    (forall t t', reports (run (fuel + k) o) t t' -> is_match x w t t') /\
    (forall t t', free_start x \/ begins w t -> between w t t' <> [] -> is_match x w t t' -> reports (run (fuel + k) o) t t').
Proof. intros x o s input w Ri. intros. eapply exact; eauto using rising_inj. Qed.

Corollary C68_iff_partial : forall x o s input w, injective al0 -> (forall B m, wf_ta B -> alloc_ok al B m) ->
  event_run o s -> meant (XCat x (XAtom dollar)) s -> tame x -> fair_loops x -> plain_start x -> free_start x -> ~ In dollar (atoms x) -> 2 * restrictions x <= 255 ->
  word_from W o input -> rendered w input -> word_ok w -> o_quiet o = false ->
  exists fuel, forall k t t', reports (run (fuel + k) o) t t' <-> is_match x w t t'.
Proof.
  intros. destruct (C68_exact_partial x o s input w) as (fuel & X); auto. exists fuel. intros k t t'. destruct (X k) as (_ & X1 & X2). split; auto.
Qed.
End Exact.

(* ---------------- cases ---------------- *)

(* Some A's or a B, then C in less than a second *)
Definition exE : sx := XPar (XCat (XPar (XOr (XPlus (XAtom 65)) (XAtom 66))) (XIn (XAtom 67) (RRange false 0 1 false))).
Definition exEs : list nat := str "((A+|B)C%(0,1))$".
Lemma exE_meant : meant (XCat exE (XAtom dollar)) exEs.
Proof. right. split; [cbn; lia|]. split; [cbn; auto 10|]. unfold exEs. spelled. Qed.
Lemma doc_tword_ok : word_ok doc_tword.
Proof.
  constructor; [cbn; repeat split; unfold Qlt; cbn; lia|]. intros c t H. cbn in H. unfold char_max, dollar. repeat destruct H as [H|H]; try contradiction; injection H as <- <-; lia.
Qed.
Example C68_case_exact : event_run (cmd [exEs]) exEs /\ meant (XCat exE (XAtom dollar)) exEs /\ tame exE /\ free_loops exE /\ plain_start exE /\ free_start exE /\
  ~ In dollar (atoms exE) /\ 2 * restrictions exE <= 255 /\ word_from (world1 doc_word) (cmd [exEs]) doc_word /\ rendered doc_tword doc_word /\ word_ok doc_tword /\
  is_match exE doc_tword 0.6 1.6 /\ ~ is_match exE doc_tword 3.3 4.7.
Proof.
  split; [apply event1; discriminate|]. split; [exact exE_meant|]. split; [cbn; lia|]. split; [cbn; auto 10|]. split; [cbn; intuition discriminate|]. split; [cbn; intuition discriminate|].
  split; [cbn; unfold dollar; lia|]. split; [cbn; lia|].
  split; [apply from1|]. split; [destruct doc_rendered as (w & R & <-); exact R|]. split; [exact doc_tword_ok|]. split.
  - split; [unfold Qle; cbn; lia|]. split; [unfold Qle; cbn; lia|]. cbn.
    exists [(66, (0.8 - 0.6)%Q); (67, (1.5 - 0.8)%Q)], [(dollar, (1.6 - 1.5)%Q)]. split; [reflexivity|]. split; [|eauto].
    exists [(66, (0.8 - 0.6)%Q)], [(67, (1.5 - 0.8)%Q)]. split; [reflexivity|]. split; [right; eauto|]. split; [eauto|]. cbn. unfold duration, Qlt; cbn; lia.
  - intros (_ & _ & S). cbn in S.
    destruct S as (u1 & u2 & E1 & (u3 & u4 & E3 & S3 & ((d & ->) & R)) & (d' & ->)). subst u1.
    change (([(65, (3.5 - 3.3)%Q); (67, (4.6 - 3.5)%Q)] ++ [(dollar, (4.7 - 4.6)%Q)]) = (u3 ++ [(67, d)]) ++ [(dollar, d')]) in E1.
    apply app_inj_tail in E1 as [E1 _]. change ([(65, (3.5 - 3.3)%Q)] ++ [(67, (4.6 - 3.5)%Q)] = u3 ++ [(67, d)]) in E1. apply app_inj_tail in E1 as [_ E1]. injection E1 as <-.
    unfold duration in R. cbn in R. unfold Qlt in R. cbn in R. lia.
Qed.

(* A within a second and after five seconds: the message, whatever the word is *)
Definition exX : sx := XPar (XAnd (XIn (XAtom 65) (RRange false 0 1 false)) (XIn (XAtom 65) (RRange false 5 6 false))).
Definition exXs : list nat := str "(A%(0,1)&A%(5,6))$".
Lemma exX_meant : meant (XCat exX (XAtom dollar)) exXs.
Proof. right. split; [cbn; lia|]. split; [cbn; auto 10|]. unfold exXs. spelled. Qed.
Definition exXta : ta := Eval vm_compute in fst (PropMonaa.get (mkTA [] [] [], 0) (toEventTA (fun k => k) (den (XCat exX (XAtom dollar))) 0)).
Definition exXap : ta := Eval vm_compute in PropMonaa.get exXta (make_ap exXta).
Example C68_case_exit : meant (XCat exX (XAtom dollar)) exXs /\ tame exX /\ free_loops exX /\ plain_start exX /\
  forall sepA sepD dec input w, text_word input = Ok w ->
  main sepA sepD dec 10 (fun k => k) uAl (world1 input) (cmd [exXs]) = Exit 10.
Proof.
  split; [exact exX_meant|]. split; [cbn; lia|]. split; [cbn; intuition discriminate|]. split; [cbn; intuition discriminate|]. intros sepA sepD dec input w Tw.
  rewrite (event_run_main sepA sepD dec 10 (fun k => k) uAl (world1 input) (cmd [exXs]) exXs (den (XCat exX (XAtom dollar))) input);
    [|apply event1; discriminate|apply from1|apply meant_parse; exact exX_meant].
  assert (E : exists m, toEventTA (fun k => k) (den (XCat exX (XAtom dollar))) 0 = Ok (exXta, m)) by (eexists; vm_compute; reflexivity). destruct E as (m & ->). cbn [bind fst].
  unfold main_event. rewrite Tw. cbn [bind]. unfold monaaDollar.
  assert (HA : make_ap exXta = Ok exXap) by (vm_compute; reflexivity). rewrite HA. cbn [bind]. unfold tables.
  assert (HS : sunday_sets 10 exXap = Exit 10) by (vm_compute; reflexivity). rewrite HS. reflexivity.
Qed.

(* ABs and C's, then A in less than a second: a longer loop *)
Definition exL : sx := XPar (XCat (XPlus (XPar (XOr (XPar (XCat (XAtom 65) (XAtom 66))) (XAtom 67)))) (XIn (XAtom 65) (RRange false 0 1 false))).
Definition exLs : list nat := str "(((AB)|C)+A%(0,1))$".
Lemma exL_meant : meant (XCat exL (XAtom dollar)) exLs.
Proof. right. split; [cbn; lia|]. split; [cbn; auto 10|]. unfold exLs. spelled. Qed.
Example C68_case_loop : event_run (cmd [exLs]) exLs /\ meant (XCat exL (XAtom dollar)) exLs /\ tame exL /\ free_loops exL /\ ~ letter_loops exL /\ plain_start exL /\ free_start exL /\
  ~ In dollar (atoms exL) /\ 2 * restrictions exL <= 255 /\ word_from (world1 doc_word) (cmd [exLs]) doc_word /\ rendered doc_tword doc_word /\ word_ok doc_tword /\
  is_match exL doc_tword 0.4 3.6 /\ ~ is_match exL doc_tword 1.6 3.3.
Proof.
  split; [apply event1; discriminate|]. split; [exact exL_meant|]. split; [cbn; lia|]. split; [cbn; auto 10|]. split; [cbn; tauto|]. split; [cbn; intuition discriminate|]. split; [cbn; intuition discriminate|].
  split; [cbn; unfold dollar; lia|]. split; [cbn; lia|].
  split; [apply from1|]. split; [destruct doc_rendered as (w & R & <-); exact R|]. split; [exact doc_tword_ok|]. split.
  - split; [unfold Qle; cbn; lia|]. split; [unfold Qle; cbn; lia|]. cbn.
    exists [(65, (0.5 - 0.4)%Q); (66, (0.8 - 0.5)%Q); (67, (1.5 - 0.8)%Q); (65, (2.0 - 1.5)%Q); (66, (3.2 - 2.0)%Q); (65, (3.5 - 3.2)%Q)], [(dollar, (3.6 - 3.5)%Q)]. split; [reflexivity|]. split; [|eauto].
    exists [(65, (0.5 - 0.4)%Q); (66, (0.8 - 0.5)%Q); (67, (1.5 - 0.8)%Q); (65, (2.0 - 1.5)%Q); (66, (3.2 - 2.0)%Q)], [(65, (3.5 - 3.2)%Q)]. split; [reflexivity|].
    split; [|split; [eauto|unfold duration, Qlt; cbn; lia]].
    exists [[(65, (0.5 - 0.4)%Q); (66, (0.8 - 0.5)%Q)]; [(67, (1.5 - 0.8)%Q)]; [(65, (2.0 - 1.5)%Q); (66, (3.2 - 2.0)%Q)]]. split; [discriminate|]. split; [|reflexivity].
    constructor; [left; exists [(65, (0.5 - 0.4)%Q)], [(66, (0.8 - 0.5)%Q)]; split; [reflexivity|eauto]|].
    constructor; [right; eauto|]. constructor; [left; exists [(65, (2.0 - 1.5)%Q)], [(66, (3.2 - 2.0)%Q)]; split; [reflexivity|eauto]|]. constructor.
  - intros (_ & _ & S). cbn in S. destruct S as (u1 & u2 & E1 & (u3 & u4 & E3 & S3 & ((d & ->) & R)) & (d' & ->)). subst u1.
    change (([(65, (2.0 - 1.6)%Q)] ++ [(66, (3.2 - 2.0)%Q)]) ++ [(dollar, (3.3 - 3.2)%Q)] = (u3 ++ [(65, d)]) ++ [(dollar, d')]) in E1.
    apply app_inj_tail in E1 as [E1 _]. apply app_inj_tail in E1 as [_ E1]. discriminate.
Qed.

(* Pairs of letters, each in less than two seconds, then C: a loop that is restricted in time *)
Definition exW : sx := XPar (XCat (XPlus (XPar (XIn (XPar (XCat (XPar (XOr (XAtom 65) (XOr (XAtom 66) (XAtom 67)))) (XPar (XOr (XAtom 65) (XAtom 66))))) (RRange false 0 2 false)))) (XAtom 67)).
Definition exWs : list nat := str "((((A|B|C)(A|B))%(0,2))+C)$".
Lemma exW_meant : meant (XCat exW (XAtom dollar)) exWs.
Proof. right. split; [cbn; lia|]. split; [cbn; auto 10|]. unfold exWs. spelled. Qed.
Example C68_case_timed : event_run (cmd [exWs]) exWs /\ meant (XCat exW (XAtom dollar)) exWs /\ tame exW /\ fair_loops exW /\ ~ free_loops exW /\ plain_start exW /\
  ~ In dollar (atoms exW) /\ 2 * restrictions exW <= 255 /\ word_from (world1 doc_word) (cmd [exWs]) doc_word /\ rendered doc_tword doc_word /\ word_ok doc_tword /\
  begins doc_tword 0.4 /\ is_match exW doc_tword 0.4 4.7 /\ ~ is_match exW doc_tword 1.6 3.3.
Proof.
  split; [apply event1; discriminate|]. split; [exact exW_meant|]. split; [cbn; intuition lia|]. split; [right; cbn; auto 20|]. split; [cbn; lia|]. split; [cbn; intuition discriminate|].
  split; [cbn; unfold dollar; lia|]. split; [cbn; lia|].
  split; [apply from1|]. split; [destruct doc_rendered as (w & R & <-); exact R|]. split; [exact doc_tword_ok|]. split; [|split].
  - right. intros c t H. cbn in H. repeat destruct H as [H|H]; try contradiction; injection H as <- <-; reflexivity.
  - split; [unfold Qle; cbn; lia|]. split; [unfold Qle; cbn; lia|]. cbn.
    exists [(65, (0.5 - 0.4)%Q); (66, (0.8 - 0.5)%Q); (67, (1.5 - 0.8)%Q); (65, (2.0 - 1.5)%Q); (66, (3.2 - 2.0)%Q); (65, (3.5 - 3.2)%Q); (67, (4.6 - 3.5)%Q)], [(dollar, (4.7 - 4.6)%Q)].
    split; [reflexivity|]. split; [|eauto].
    exists [(65, (0.5 - 0.4)%Q); (66, (0.8 - 0.5)%Q); (67, (1.5 - 0.8)%Q); (65, (2.0 - 1.5)%Q); (66, (3.2 - 2.0)%Q); (65, (3.5 - 3.2)%Q)], [(67, (4.6 - 3.5)%Q)]. split; [reflexivity|].
    split; [|eauto].
    exists [[(65, (0.5 - 0.4)%Q); (66, (0.8 - 0.5)%Q)]; [(67, (1.5 - 0.8)%Q); (65, (2.0 - 1.5)%Q)]; [(66, (3.2 - 2.0)%Q); (65, (3.5 - 3.2)%Q)]]. split; [discriminate|]. split; [|reflexivity].
    constructor; [split; [exists [(65, (0.5 - 0.4)%Q)], [(66, (0.8 - 0.5)%Q)]; split; [reflexivity|]; split; eauto|unfold duration, Qlt; cbn; lia]|].
    constructor; [split; [exists [(67, (1.5 - 0.8)%Q)], [(65, (2.0 - 1.5)%Q)]; split; [reflexivity|]; split; eauto|unfold duration, Qlt; cbn; lia]|].
    constructor; [split; [exists [(66, (3.2 - 2.0)%Q)], [(65, (3.5 - 3.2)%Q)]; split; [reflexivity|]; split; eauto|unfold duration, Qlt; cbn; lia]|]. constructor.
  - intros (_ & _ & S). cbn in S. destruct S as (u1 & u2 & E1 & (u3 & u4 & E3 & S3 & (d & ->)) & (d' & ->)). subst u1.
    change (([(65, (2.0 - 1.6)%Q)] ++ [(66, (3.2 - 2.0)%Q)]) ++ [(dollar, (3.3 - 3.2)%Q)] = (u3 ++ [(67, d)]) ++ [(dollar, d')]) in E1.
    apply app_inj_tail in E1 as [E1 _]. apply app_inj_tail in E1 as [_ E1]. discriminate.
Qed.

(* A, then B's with C's behind them or not, then A in less than a second: stars in a star *)
Definition exR : sx := XPar (XCat (XAtom 65) (XCat (XStar (XPar (XCat (XAtom 66) (XStar (XAtom 67))))) (XIn (XAtom 65) (RRange false 0 1 false)))).
Definition exRs : list nat := str "(A(BC*)*A%(0,1))$".
Lemma exR_meant : meant (XCat exR (XAtom dollar)) exRs.
Proof. right. split; [cbn; lia|]. split; [cbn; auto 10|]. unfold exRs. spelled. Qed.
Example C68_case_star : event_run (cmd [exRs]) exRs /\ meant (XCat exR (XAtom dollar)) exRs /\ tame exR /\ free_loops exR /\ plain_start exR /\ free_start exR /\
  ~ In dollar (atoms exR) /\ 2 * restrictions exR <= 255 /\ word_from (world1 doc_word) (cmd [exRs]) doc_word /\ rendered doc_tword doc_word /\ word_ok doc_tword /\
  is_match exR doc_tword 0.4 2.1 /\ is_match exR doc_tword 1.6 3.6 /\ ~ is_match exR doc_tword 1.6 3.3.
Proof.
  split; [apply event1; discriminate|]. split; [exact exR_meant|]. split; [cbn; intuition discriminate|]. split; [cbn; auto 10|]. split; [cbn; auto|]. split; [cbn; intuition discriminate|].
  split; [cbn; unfold dollar; lia|]. split; [cbn; lia|].
  split; [apply from1|]. split; [destruct doc_rendered as (w & R & <-); exact R|]. split; [exact doc_tword_ok|]. split; [|split].
  - split; [unfold Qle; cbn; lia|]. split; [unfold Qle; cbn; lia|]. cbn.
    exists [(65, (0.5 - 0.4)%Q); (66, (0.8 - 0.5)%Q); (67, (1.5 - 0.8)%Q); (65, (2.0 - 1.5)%Q)], [(dollar, (2.1 - 2.0)%Q)]. split; [reflexivity|]. split; [|eauto].
    exists [(65, (0.5 - 0.4)%Q)], [(66, (0.8 - 0.5)%Q); (67, (1.5 - 0.8)%Q); (65, (2.0 - 1.5)%Q)]. split; [reflexivity|]. split; [eauto|].
    exists [(66, (0.8 - 0.5)%Q); (67, (1.5 - 0.8)%Q)], [(65, (2.0 - 1.5)%Q)]. split; [reflexivity|].
    split; [|split; [eauto|unfold duration, Qlt; cbn; lia]].
    exists [[(66, (0.8 - 0.5)%Q); (67, (1.5 - 0.8)%Q)]]. split; [|reflexivity]. constructor; [|constructor].
    exists [(66, (0.8 - 0.5)%Q)], [(67, (1.5 - 0.8)%Q)]. split; [reflexivity|]. split; [eauto|]. exists [[(67, (1.5 - 0.8)%Q)]]. split; [|reflexivity]. constructor; eauto.
  - split; [unfold Qle; cbn; lia|]. split; [unfold Qle; cbn; lia|]. cbn.
    exists [(65, (2.0 - 1.6)%Q); (66, (3.2 - 2.0)%Q); (65, (3.5 - 3.2)%Q)], [(dollar, (3.6 - 3.5)%Q)]. split; [reflexivity|]. split; [|eauto].
    exists [(65, (2.0 - 1.6)%Q)], [(66, (3.2 - 2.0)%Q); (65, (3.5 - 3.2)%Q)]. split; [reflexivity|]. split; [eauto|].
    exists [(66, (3.2 - 2.0)%Q)], [(65, (3.5 - 3.2)%Q)]. split; [reflexivity|].
    split; [|split; [eauto|unfold duration, Qlt; cbn; lia]].
    exists [[(66, (3.2 - 2.0)%Q)]]. split; [|reflexivity]. constructor; [|constructor].
    exists [(66, (3.2 - 2.0)%Q)], []. split; [reflexivity|]. split; [eauto|]. exists []. auto.
  - intros (_ & _ & S). cbn in S. destruct S as (u1 & u2 & E1 & (u3 & u4 & E3 & S3 & (u5 & u6 & E5 & S5 & ((d & ->) & R))) & (d' & ->)). subst u4 u1.
    change (([(65, (2.0 - 1.6)%Q)] ++ [(66, (3.2 - 2.0)%Q)]) ++ [(dollar, (3.3 - 3.2)%Q)] = (u3 ++ u5 ++ [(65, d)]) ++ [(dollar, d')]) in E1.
    rewrite app_assoc in E1. apply app_inj_tail in E1 as [E1 _]. apply app_inj_tail in E1 as [_ E1]. discriminate.
Qed.
