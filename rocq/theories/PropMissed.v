(* Property C68: a match that monaa misses, from the texts. *)
From Coq Require Import QArith Lqa Bool List ZArith Arith Lia Sorted Ascii String List.
From Verif Require Import Num NumFacts Outcome Interval IntervalFacts Constraint Zone TA Spec TAFacts PropBase WfDec Word ZA ZAFacts ZASpec ZAGraph PropZA ZATerm ZALive ZADiv ZAFin ZAIdle Monaa MonaaFacts MonaaVec Skip SkipFacts ApFacts Sunday
  SundayTerm Kmp KmpUB KmpTerm KmpHang PropSkip PropSkipEx PropMonaa PropTerm Intersection Tre TreRun TreFacts TreBuild TreLang PropTre TreMild TreLean Text TextFacts PropText Ans Signal Parse ParseSpec ParseFacts PropParse Main MainFacts PropMain PropEvent PropExact.
Import ListNotations.
Open Scope list_scope.
Open Scope nat_scope.

(* The pattern of the letters A, A, A: soon after the beginning, after 5 to 6, in
   less than 2.  It is in the fragment of C68_exact_partial, but restricted at its
   beginning.  The KMP table lets the positions 1 and 2 out when the first two
   letters have been read and the third has not: an attempt at position 1 is taken
   to begin at event 0, 5 to 6 before event 1, though it may begin later. *)
Definition exM : sx := XPar (XCat (XIn (XAtom 65) (RRange false 0 1 false)) (XCat (XIn (XAtom 65) (RRange false 5 6 false)) (XIn (XAtom 65) (RRange false 0 2 false)))).
Definition exMs : list nat := str "(A%(0,1)A%(5,6)A%(0,2))$".
Lemma exM_meant : meant (XCat exM (XAtom dollar)) exMs.
Proof. right. split; [cbn; lia|]. split; [cbn; auto 10|]. unfold exMs. spelled. Qed.
Definition exMin : list nat := flat_map (fun l => str l ++ [10]) ["A 0.5"; "A 6.0"; "A 11.5"; "A 12.5"]%string.
Definition exMw : tword := [(65, 0.5%Q); (65, 6.0%Q); (65, 11.5%Q); (65, 12.5%Q)].
Lemma exM_text : text_word exMin = Ok exMw.
Proof. vm_compute. reflexivity. Qed.
Definition exMta : ta := Eval vm_compute in fst (PropMonaa.get (mkTA [] [] [], 0) (toEventTA (fun k => k) (den (XCat exM (XAtom dollar))) 0)).
Definition exMap : ta := Eval vm_compute in PropMonaa.get exMta (make_ap exMta).
Definition exMset : list (list nat) := Eval vm_compute in PropMonaa.get [] (sunday_sets 200 exMap).
Definition exMb : list (ptr * nat) := Eval vm_compute in PropMonaa.get [] (kmp 200 exAl exMap (List.length exMset)).
Lemma exM_ap : make_ap exMta = Ok exMap.
Proof. vm_compute. reflexivity. Qed.
Lemma exM_sets : sunday_sets 200 exMap = Ok exMset.
Proof. vm_compute. reflexivity. Qed.
Lemma exM_kmp : kmp 200 exAl exMap (List.length exMset) = Ok exMb.
Proof. vm_compute. reflexivity. Qed.
Lemma exM_run : monaaDollar 200 exAl vecC exMta exMw = Ok [].
Proof. refine (eq_trans (monaaDollar_with _ _ _ _ _ _ _ _ exM_ap exM_sets exM_kmp eq_refl) _). vm_compute. reflexivity. Qed.

Lemma exM_ta : toEventTA (fun k => k) (den (XCat exM (XAtom dollar))) 0 = Ok (exMta, 11).
Proof. vm_compute. reflexivity. Qed.
Lemma exM_go : go [exMs] exMin = Ok (Printed (mkPr false 0 [])).
Proof.
  rewrite (event_run_main _ _ _ _ _ _ _ (cmd [exMs]) exMs (den (XCat exM (XAtom dollar))) exMin (event1 exMs ltac:(discriminate)) (from1 exMs exMin) (meant_parse _ _ exM_meant)).
  rewrite exM_ta. cbn [bind fst]. unfold main_event. rewrite exM_text. cbn [bind]. rewrite C36_online_offline, exM_run. reflexivity.
Qed.

(* monaa prints nothing, and there is a match. *)
Theorem C68_missed_refuted : meant (XCat exM (XAtom dollar)) exMs /\ tame exM /\ letter_loops exM /\ plain_start exM /\
  text_word exMin = Ok exMw /\ word_ok exMw /\ is_match exM exMw 5.5 13 /\
  forall t t', ~ reports (go [exMs] exMin) t t'.
Proof.
  split; [exact exM_meant|]. split; [cbn; lia|]. split; [cbn; auto|]. split; [cbn; auto|]. split; [exact exM_text|]. split; [|split].
  - constructor; [cbn; repeat split; unfold Qlt; cbn; lia|]. intros c t H. cbn in H. unfold char_max, dollar. repeat destruct H as [H|H]; try contradiction; injection H as <- <-; lia.
  - split; [unfold Qle; cbn; lia|]. split; [unfold Qle; cbn; lia|]. cbn.
    exists [(65, (6.0 - 5.5)%Q); (65, (11.5 - 6.0)%Q); (65, (12.5 - 11.5)%Q)], [(dollar, (13 - 12.5)%Q)]. split; [reflexivity|]. split; [|eauto].
    exists [(65, (6.0 - 5.5)%Q)], [(65, (11.5 - 6.0)%Q); (65, (12.5 - 11.5)%Q)]. split; [reflexivity|].
    split; [split; [eauto|unfold duration, Qlt; cbn; lia]|].
    exists [(65, (11.5 - 6.0)%Q)], [(65, (12.5 - 11.5)%Q)]. split; [reflexivity|].
    split; (split; [eauto|unfold duration, Qlt; cbn; lia]).
  - intros t t' (p & block & E & Hb & _). rewrite exM_go in E. injection E as <-. exact Hb.
Qed.
