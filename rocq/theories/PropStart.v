(* Property C68: patterns that begin with a star, the addresses of states, and matches
   behind the last event. *)
From Coq Require Import QArith Lqa Bool List ZArith Arith Lia Sorted Ascii String List.
From Verif Require Import Num NumFacts Outcome Interval IntervalFacts Constraint Zone TA Spec TAFacts PropBase WfDec Word ZA ZAFacts ZASpec ZAGraph PropZA ZATerm ZALive ZADiv ZAFin ZAIdle ZALast ZALoop Monaa MonaaFacts MonaaVec Skip SkipFacts ApFacts Sunday
  SundayTerm Kmp KmpUB KmpTerm KmpHang PropSkip PropSkipEx PropMonaa PropTerm Intersection Tre TreRun TreFacts TreBuild TreLang PropTre TreMild TreLean TreLoop TreOrder Text TextFacts PropText Ans Signal Parse ParseSpec ParseFacts PropParse Main MainFacts PropMain PropEvent PropExact.
Import ListNotations.
Open Scope list_scope.
Open Scope nat_scope.

Section Start.
Context (sepA sepD : heap -> nat -> outcome heap) (dec : list nat -> Q) (al0 : nat -> ptr) (al : alloc) (W : world).
Notation run fuel o := (main sepA sepD dec fuel al0 al W o).

(* C68_iff_partial with stars and choices at the beginning of the pattern, for
   addresses that increase in the order of creation. *)
Corollary C68_rising_iff_partial : forall x o s input w, rising al0 -> (forall B m, wf_ta B -> alloc_ok al B m) ->
  event_run o s -> meant (XCat x (XAtom dollar)) s -> tame x -> fair_loops x -> nul x = false -> free_start x -> ~ In dollar (atoms x) -> 2 * restrictions x <= 255 ->
  word_from W o input -> rendered w input -> word_ok w -> o_quiet o = false ->
  exists fuel, forall k t t', reports (run (fuel + k) o) t t' <-> is_match x w t t'.
Proof.
  intros x o s input w Ri AO ER M T LL NU FS ND K Wf R WO Q. destruct (C68_rising_partial sepA sepD dec al0 al W x o s input w) as (fuel & X); auto. exists fuel. intros k t t'.
  destruct (X k) as (_ & X1 & X2). split; auto. intros Mt. apply X2; auto. apply (match_events x w NU t t' Mt).
Qed.

(* Whatever the pattern is: what is reported begins before the last event. *)
Theorem C68_until_last : forall fuel o s r input w t t', injective al0 -> event_run o s -> parse s = Ok (Some r) -> ok r -> nclocks r <= 256 ->
  word_from W o input -> rendered w input -> nondecreasing 0 w -> reports (run fuel o) t t' -> exists c t0, In (c, t0) w /\ (t < t0)%Q.
Proof.
  intros fuel o s r input w t t' Inj ER Ps O K Wf R ND (p & block & E & Hb & F). rewrite (event_run_main sepA sepD dec fuel al0 al W o s r input ER Wf Ps) in E.
  destruct (toEventTA al0 r 0) as [[A m]| | | |] eqn:T; try discriminate. cbn [bind fst] in E.
  destruct (main_event fuel al (o_quiet o) A input) as [p'| | | |] eqn:H; try discriminate. cbn [bind] in E. apply Ok_inj in E. injection E as ->.
  pose proof (ti_wf _ _ _ _ (bu_inv _ _ _ _ _ (toEventTA_inv _ _ _ _ _ Inj O K T))) as WA.
  unfold main_event in H. rewrite (C39_wellformed w input R) in H. cbn [bind] in H.
  destruct (monaaDollar fuel al lazyC A (lopen w)) as [zs| | | |] eqn:Mz; try discriminate. cbn [bind] in H. apply Ok_inj in H. subst p.
  destruct (C46_printer (Clear :: map Push zs) (o_quiet o)) as [_ E]. rewrite E in Hb. destruct (o_quiet o); [destruct Hb|]. cbn [flat_map Datatypes.app] in Hb.
  apply in_flat_map in Hb as (op & Ho & Hb). apply in_map_iff in Ho as (z & <- & Hz). destruct Hb as [<-|[]].
  rewrite C36_online_offline in Mz. destruct (monaaDollar_ok _ _ _ _ _ WA ND Mz z Hz) as (i & Li & _ & G & C & Z).
  apply C54_meaning in F; auto; [|apply (proj1 C)]. destruct (Z t t' F) as ((_ & _ & L) & _).
  destruct (@nth event i w (0%nat, 0%Q)) as [c t0] eqn:N. exists c, t0. split; [rewrite <- N; apply nth_In; auto|]. unfold tm in L. rewrite N in L. exact L.
Qed.
End Start.

(* ---------------- cases ---------------- *)

(* A's or none, then B *)
Definition exS : sx := XPar (XCat (XStar (XAtom 65)) (XAtom 66)).
Definition exSs : list nat := str "(A*B)$".
Lemma exS_meant : meant (XCat exS (XAtom dollar)) exSs.
Proof. right. split; [cbn; lia|]. split; [cbn; auto 10|]. unfold exSs. spelled. Qed.
Lemma exS_match : is_match exS doc_tword 0.4 1.
Proof.
  split; [unfold Qle; cbn; lia|]. split; [unfold Qle; cbn; lia|]. cbn.
  exists [(65, (0.5 - 0.4)%Q); (66, (0.8 - 0.5)%Q)], [(dollar, (1 - 0.8)%Q)]. split; [reflexivity|]. split; [|eauto].
  exists [(65, (0.5 - 0.4)%Q)], [(66, (0.8 - 0.5)%Q)]. split; [reflexivity|]. split; [|eauto]. exists [[(65, (0.5 - 0.4)%Q)]]. split; [|reflexivity]. constructor; eauto.
Qed.
Example C68_case_rising : rising (fun k => k) /\ event_run (cmd [exSs]) exSs /\ meant (XCat exS (XAtom dollar)) exSs /\ tame exS /\ free_loops exS /\ ~ plain_start exS /\ nul exS = false /\ free_start exS /\
  ~ In dollar (atoms exS) /\ 2 * restrictions exS <= 255 /\ word_from (world1 doc_word) (cmd [exSs]) doc_word /\ rendered doc_tword doc_word /\ word_ok doc_tword /\
  is_match exS doc_tword 0.4 1 /\ ~ is_match exS doc_tword 0.4 1.6.
Proof.
  split; [intros a b H; exact H|]. split; [apply event1; discriminate|]. split; [exact exS_meant|]. split; [cbn; intuition discriminate|]. split; [cbn; auto 10|]. split; [cbn; auto|]. split; [reflexivity|]. split; [cbn; auto|].
  split; [cbn; unfold dollar; lia|]. split; [cbn; lia|].
  split; [apply from1|]. split; [destruct doc_rendered as (w & R & <-); exact R|]. split; [exact doc_tword_ok|]. split; [exact exS_match|].
  intros (_ & _ & S). cbn in S. destruct S as (u1 & u2 & E1 & (u3 & u4 & E3 & S3 & (d & ->)) & (d' & ->)). subst u1.
  change (([(65, (0.5 - 0.4)%Q); (66, (0.8 - 0.5)%Q)] ++ [(67, (1.5 - 0.8)%Q)]) ++ [(dollar, (1.6 - 1.5)%Q)] = (u3 ++ [(66, d)]) ++ [(dollar, d')]) in E1.
  apply app_inj_tail in E1 as [E1 _]. apply app_inj_tail in E1 as [_ E1]. discriminate.
Qed.

(* The second state is allocated below the first one, and so on: monaa "(A*B)$" says
   that the pattern matches nothing and exits with 10, whatever the word is.  The
   binary search among the initial states expects them to be sorted (C68_exact_partial without plain_start). *)
Definition dal (k : nat) : ptr := if k <? 100 then 99 - k else k.
Lemma dal_inj : injective dal.
Proof. intros a b. unfold dal. destruct (Nat.ltb_spec a 100), (Nat.ltb_spec b 100); lia. Qed.
Definition exSta : ta := Eval vm_compute in fst (PropMonaa.get (mkTA [] [] [], 0) (toEventTA dal (den (XCat exS (XAtom dollar))) 0)).
Definition exSap : ta := Eval vm_compute in PropMonaa.get exSta (make_ap exSta).
Theorem C68_order_refuted : injective dal /\ meant (XCat exS (XAtom dollar)) exSs /\ tame exS /\ free_loops exS /\ free_start exS /\ is_match exS doc_tword 0.4 1 /\
  forall sepA sepD dec al input w k, text_word input = Ok w ->
  main sepA sepD dec (10 + k) dal al (world1 input) (cmd [exSs]) = Exit 10.
Proof.
  split; [exact dal_inj|]. split; [exact exS_meant|]. split; [cbn; intuition discriminate|]. split; [cbn; auto 10|]. split; [cbn; auto|]. split; [exact exS_match|].
  intros sepA sepD dec al input w k Tw.
  rewrite (event_run_main sepA sepD dec (10 + k) dal al (world1 input) (cmd [exSs]) exSs (den (XCat exS (XAtom dollar))) input);
    [|apply event1; discriminate|apply from1|apply meant_parse; exact exS_meant].
  assert (E : exists m, toEventTA dal (den (XCat exS (XAtom dollar))) 0 = Ok (exSta, m)) by (eexists; vm_compute; reflexivity). destruct E as (m & ->). cbn [bind fst].
  unfold main_event. rewrite Tw. cbn [bind]. unfold monaaDollar.
  assert (HA : make_ap exSta = Ok exSap) by (vm_compute; reflexivity). rewrite HA. cbn [bind]. unfold tables.
  assert (HS : sunday_sets (10 + k) exSap = Exit 10) by reflexivity. rewrite HS. reflexivity.
Qed.

(* A's or none: behind the last event there are matches, and none is reported. *)
Definition exZ : sx := XPar (XStar (XAtom 65)).
Definition exZs : list nat := str "(A*)$".
Lemma exZ_meant : meant (XCat exZ (XAtom dollar)) exZs.
Proof. right. split; [cbn; lia|]. split; [cbn; auto 10|]. unfold exZs. spelled. Qed.
Lemma doc_before : forall c t, In (c, t) doc_tword -> (t < 10)%Q.
Proof. intros c t H. cbn in H. repeat destruct H as [H|H]; try contradiction; injection H as <- <-; unfold Qlt; cbn; lia. Qed.
Theorem C68_silence_refuted : meant (XCat exZ (XAtom dollar)) exZs /\ tame exZ /\ free_loops exZ /\ free_start exZ /\ rendered doc_tword doc_word /\ is_match exZ doc_tword 10 11 /\
  forall sepA sepD dec fuel al0 al, injective al0 -> ~ reports (main sepA sepD dec fuel al0 al (world1 doc_word) (cmd [exZs])) 10 11.
Proof.
  assert (Rd : rendered doc_tword doc_word) by (destruct doc_rendered as (w & R & <-); exact R).
  split; [exact exZ_meant|]. split; [cbn; intuition discriminate|]. split; [cbn; auto 10|]. split; [cbn; auto|]. split; [exact Rd|]. split.
  - split; [unfold Qle; cbn; lia|]. split; [unfold Qle; cbn; lia|]. cbn. exists [], [(dollar, (11 - 10)%Q)]. split; [reflexivity|]. split; [|eauto]. exists []. auto.
  - intros sepA sepD dec fuel al0 al Inj Rp.
    destruct (starsafe_ok (XCat exZ (XAtom dollar)) ltac:(cbn; intuition discriminate) (fun c => meant_atoms _ _ c exZ_meant)) as (H1 & _ & _ & _ & H4).
    destruct (C68_until_last sepA sepD dec al0 al (world1 doc_word) fuel (cmd [exZs]) exZs (den (XCat exZ (XAtom dollar))) doc_word doc_tword 10 11 Inj) as (c & t0 & I & L); auto.
    + apply event1. discriminate.
    + cbn in H4 |- *. lia.
    + apply from1.
    + apply (increasing_nondecreasing _ _ (wo_inc _ doc_tword_ok)).
    + specialize (doc_before c t0 I). lra.
Qed.
