(* Property C80: from the characters of the pattern and of the word to the
   characters that are printed. *)
From Coq Require Import QArith Qabs Lqa Bool List ZArith Arith Lia Sorted Ascii String List.
From Verif Require Import Num NumFacts Outcome Interval IntervalFacts Constraint Zone TA Spec TAFacts PropBase WfDec Word ZA ZAFacts ZASpec ZAGraph PropZA ZATerm ZALive ZADiv ZAFin ZAIdle ZALast ZALoop Monaa MonaaFacts MonaaVec Skip SkipFacts ApFacts Sunday
  SundayTerm Kmp KmpUB KmpTerm KmpHang PropSkip PropSkipEx PropMonaa PropTerm Intersection Tre TreRun TreFacts TreBuild TreLang PropTre TreMild TreLean TreLoop TreOrder Text TextFacts PropText Ans Signal Parse ParseSpec ParseFacts PropParse Main MainFacts PropMain PropEvent PropExact PropStart
  Print PrintFacts PrintMicro PropPrint.
Import ListNotations.
Open Scope list_scope.
Open Scope nat_scope.

(* The pair satisfies the inequalities of one of the blocks in the printed text. *)
Definition prints (minus : nat -> bool) (r : outcome shown) (t t' : Q) : Prop :=
  exists p, r = Ok (Printed p) /\ says (output minus p) t t'.

Section PrintMain.
Context (sepA sepD : heap -> nat -> outcome heap) (dec : list nat -> Q) (al0 : nat -> ptr) (al : alloc) (W : world).
Notation run fuel o := (main sepA sepD dec fuel al0 al W o).

(* For words with at most six decimals nothing is lost in the printed text. *)
Theorem C80_reports : forall fuel o s r input w minus t t', injective al0 -> event_run o s -> parse s = Ok (Some r) -> ok r -> nclocks r <= 256 ->
  word_from W o input -> rendered w input -> nondecreasing 0 w -> (forall c t, In (c, t) w -> micro t) -> o_quiet o = false ->
  (prints minus (run fuel o) t t' <-> reports (run fuel o) t t').
Proof.
  intros fuel o s r input w minus t t' Inj ER Ps O K Wf R ND MW Q. rewrite (event_run_main sepA sepD dec fuel al0 al W o s r input ER Wf Ps), Q.
  destruct (toEventTA al0 r 0) as [[A m]| | | |] eqn:T; try (split; [intros (p & E & _)|intros (p & b & E & _)]; discriminate). cbn [bind fst].
  pose proof (ti_wf _ _ _ _ (bu_inv _ _ _ _ _ (toEventTA_inv _ _ _ _ _ Inj O K T))) as WA.
  destruct (main_event fuel al false A input) as [p| | | |] eqn:H; try (split; [intros (p & E & _)|intros (p & b & E & _)]; discriminate). cbn [bind].
  pose proof (C80_exact fuel al A input w p minus WA R ND MW H t t') as X. split.
  - intros (p' & E & S). injection E as <-. apply X in S as (b & Hb & F). exists p, b. auto.
  - intros (p' & b & E & Hb & F). injection E as <-. exists p. split; auto. apply X. eauto.
Qed.

(* The whole program, for the patterns of C68_iff_partial and
   C68_rising_iff_partial: a pair satisfies one of the blocks of the printed
   text exactly if it is a match.  Missing: as in C68_iff_partial. *)
Theorem C80_text_partial : forall x o s input w, injective al0 -> (forall B m, wf_ta B -> alloc_ok al B m) ->
  event_run o s -> meant (XCat x (XAtom dollar)) s -> tame x -> fair_loops x -> plain_start x \/ (rising al0 /\ nul x = false) -> free_start x -> ~ In dollar (atoms x) -> 2 * restrictions x <= 255 ->
  word_from W o input -> rendered w input -> word_ok w -> (forall c t, In (c, t) w -> micro t) -> o_quiet o = false ->
  exists fuel, forall k minus t t', prints minus (run (fuel + k) o) t t' <-> is_match x w t t'.
Proof.
  intros x o s input w Inj AO ER M T LL PS FS ND K Wf R WO MW Q.
  assert (L : forall c, In c (atoms x) -> ParseSpec.letter c) by (intros c Hc; apply (meant_atoms _ _ c M); cbn; apply in_app_iff; auto).
  assert (T' : tame (XCat x (XAtom dollar))) by (cbn; auto).
  assert (L' : forall c, In c (atoms (XCat x (XAtom dollar))) -> ParseSpec.letter c) by (intros c Hc; apply (meant_atoms _ _ c M); auto).
  assert (K' : nclocks (den (XCat x (XAtom dollar))) <= 256) by (pose proof (den_clocks x T L); cbn; lia).
  assert (H : exists fuel, forall k t t', reports (run (fuel + k) o) t t' <-> is_match x w t t').
  { destruct PS as [PS|(Ri & NU)]; [apply (C68_iff_partial sepA sepD dec al0 al W x o s input w)|apply (C68_rising_iff_partial sepA sepD dec al0 al W x o s input w)]; auto. }
  destruct H as (fuel & H). exists fuel. intros k minus t t'. rewrite <- H.
  apply (C80_reports (fuel + k) o s (den (XCat x (XAtom dollar))) input w minus t t'); auto.
  - apply meant_parse. auto.
  - apply plain_ok. apply tame_plain; auto.
  - apply increasing_nondecreasing. apply (wo_inc _ WO).
Qed.
End PrintMain.

(* ---------------- cases ---------------- *)

(* What examples/integrated_test.sh:27-36 expects from monaa '(AB)$' *)
Definition doc_output : list nat := flat_map (fun l => str l ++ [10])
  [" -0.000000       <= t <   0.500000"; "  0.800000        < t' <=   1.500000"; "  0.300000        < t' - t <=   1.500000"; "=============================";
   "  1.500000       <= t <   2.000000"; "  3.200000        < t' <=   3.500000"; "  1.200000        < t' - t <=   2.000000"; "============================="]%string.
(* The sign of the first zero *)
Definition first_minus (n : nat) : bool := n =? 0.
Example C80_documented : exists p, go [str "(AB)$"] doc_word = Ok (Printed p) /\ output first_minus p = doc_output.
Proof.
  rewrite (event_run_main _ _ _ _ _ _ _ (cmd [str "(AB)$"]) (str "(AB)$") (den exAB) doc_word exAB_event exAB_from (meant_parse _ _ exAB_meant)).
  rewrite exAB_ta. cbn [bind fst]. unfold main_event. rewrite doc_text. cbn [bind].
  rewrite C36_online_offline, exAB_run. unfold exABz. cbn [bind]. eexists. split; [reflexivity|]. vm_compute. reflexivity.
Qed.

(* The hypotheses of C80_text_partial hold for the example of C68 and the
   documented word. *)
Lemma doc_micro : forall c t, In (c, t) doc_tword -> micro t.
Proof.
  assert (X : forall z, micro (z # 10)%Q) by (intros z; exists (z * 100000)%Z; unfold Qdiv, Qinv, Qeq; cbn; lia).
  intros c t H. cbn in H. repeat (destruct H as [E|H]; [injection E as <- <-; apply X|]). destruct H.
Qed.
Example C80_case : tame exE /\ free_loops exE /\ plain_start exE /\ free_start exE /\ rendered doc_tword doc_word /\ word_ok doc_tword /\
  (forall c t, In (c, t) doc_tword -> micro t) /\ is_match exE doc_tword 0.6 1.6 /\ ~ is_match exE doc_tword 3.3 4.7.
Proof.
  destruct C68_case_exact as (_ & _ & H1 & H2 & H3 & H4 & _ & _ & _ & H5 & H6 & H7 & H8). repeat (split; [first [assumption|exact doc_micro]|]). exact H8.
Qed.

(* With more decimals the text is wrong.  A after 0.1 and B after 0.4
   microseconds: the first line is  -0.000000 <= t < 0.000000,  so no pair
   satisfies the block although there are matches. *)
Definition fast_word : list nat := flat_map (fun l => str l ++ [10]) ["A 0.0000001"; "B 0.0000004"]%string.
Definition fast_tword : tword := [(65, 0.0000001%Q); (66, 0.0000004%Q)].
Definition fast_zones : outcome (list mat) := Eval vm_compute in outer_loop vecC exABta (the_tables exABs exABb) MDollar 200 fast_tword 0 [] [].
Lemma fast_run : monaaDollar 200 exAl vecC exABta fast_tword = fast_zones.
Proof. refine (eq_trans (monaaDollar_with _ _ _ _ _ _ _ _ exAB_ap exAB_sets exAB_kmp eq_refl) _). vm_compute. reflexivity. Qed.
Lemma fast_text : text_word fast_word = Ok fast_tword.
Proof. vm_compute. reflexivity. Qed.
Definition fast_out : printer := fold_left pr_op (Clear :: map Push (PropMonaa.get [] fast_zones)) (mkPr false 0 []).
Definition fast_chars : list nat := Eval vm_compute in output (fun _ => false) fast_out.
Lemma fast_output : output (fun _ => false) fast_out = fast_chars.
Proof. vm_compute. reflexivity. Qed.
Definition fast_blocks : list (list ineq) := Eval vm_compute in match read_output fast_chars with Some l => l | None => [] end.
Lemma fast_read : read_output fast_chars = Some fast_blocks.
Proof. vm_compute. reflexivity. Qed.
Lemma fast_none : forall b, In b fast_blocks -> ~ Forall (fun q => sat_ineq q 0%Q 1%Q) b.
Proof. intros b [<-|[]] F. inversion F as [|? ? (_ & X) _]. unfold Qlt in X. cbn in X. lia. Qed.
Lemma fast_from : word_from (world1 fast_word) (cmd [str "(AB)$"]) fast_word.
Proof. left. split; [|reflexivity]. split; [reflexivity|]. cbn. constructor. Qed.
Lemma fast_go : go [str "(AB)$"] fast_word = Ok (Printed fast_out).
Proof.
  rewrite (event_run_main _ _ _ _ _ _ _ (cmd [str "(AB)$"]) (str "(AB)$") (den exAB) fast_word exAB_event fast_from (meant_parse _ _ exAB_meant)).
  rewrite exAB_ta. cbn [bind fst]. unfold main_event. rewrite fast_text. cbn [bind]. rewrite C36_online_offline, fast_run. reflexivity.
Qed.
Theorem C80_digits_refuted : ~ (forall w input minus t t', text_word input = Ok w -> word_ok w ->
  (is_match (XPar (XCat (XAtom 65) (XAtom 66))) w t t' -> prints minus (go [str "(AB)$"] input) t t')).
Proof.
  intros H. specialize (H fast_tword fast_word (fun _ => false) 0%Q 1%Q fast_text).
  assert (WO : word_ok fast_tword).
  { constructor; [cbn; unfold Qlt; cbn; lia|]. intros c t I. cbn in I. destruct I as [[= <- <-]|[[= <- <-]|[]]]; unfold dollar, char_max; lia. }
  specialize (H WO). assert (Mt : is_match (XPar (XCat (XAtom 65) (XAtom 66))) fast_tword 0 1).
  { split; [unfold Qle; cbn; lia|]. split; [unfold Qle; cbn; lia|]. cbn.
    exists [(65, (0.0000001 - 0)%Q); (66, (0.0000004 - 0.0000001)%Q)], [(dollar, (1 - 0.0000004)%Q)]. split; [reflexivity|]. split; [|eauto].
    exists [(65, (0.0000001 - 0)%Q)], [(66, (0.0000004 - 0.0000001)%Q)]. split; [reflexivity|]. eauto. }
  specialize (H Mt). destruct H as (p & E & (l & b & R & Hb & F)).
  rewrite fast_go in E. apply Ok_inj in E. injection E as <-. rewrite fast_output, fast_read in R. injection R as <-. exact (fast_none b Hb F).
Qed.
