(* C69 without the restriction on stars: tre2ta "(b*|a)+"; C47 for labels from
   CHAR_MAX on. *)
From Coq Require Import QArith Lqa Bool List ZArith Arith Lia Permutation String.
From Verif Require Import Num NumFacts Outcome Interval Constraint TA Spec TAFacts WfDec PropMonaa PropBase Tre TreFacts PropTre Text TextFacts BoostFacts Ans PropText Parse ParseSpec
  PropParse Main MainFacts PropMain
  Word Monaa ZA ZASpec ZAFacts Skip SkipFacts PropZA PropModes.
Import ListNotations.
Local Open Scope list_scope.
Open Scope nat_scope.

Definition exNS : sx := XPlus (XPar (XOr (XStar (XAtom 98)) (XAtom 97))).
Lemma exNS_meant : meant exNS (str "(b*|a)+").
Proof.
  right. split; [cbn; lia|]. split; [cbn; auto|]. cbn.
  repeat first [apply sp_end | apply sp_letter; [unfold letter; lia|] |
    match goal with |- spells (?t :: _) (?c :: _) => apply (sp_punct t [c]); [reflexivity|intros [|]; discriminate|] end].
Qed.

Theorem C69_nested_star_refuted : exists vs es G, meant exNS (str "(b*|a)+") /\
  tre2ta (fun k => k) false false (str "") [str "(b*|a)+"] = Ok (Graph (vs, es)) /\
  parseBoostTA vs es = Ok G /\ wf_ta (convBoostTA (fun k => k) G) /\
  sem exNS (delays 0 [(97, 1%Q); (97, 2%Q)]) /\ ~ accepts (convBoostTA (fun k => k) G) [(97, 1%Q); (97, 2%Q)].
Proof.
  eexists. eexists. eexists. split; [exact exNS_meant|]. split; [vm_compute; reflexivity|]. split; [vm_compute; reflexivity|].
  split; [apply wf_tab_ok; vm_compute; reflexivity|]. split.
  - exists [[(97, (1 - 0)%Q)]; [(97, (2 - 1)%Q)]]. split; [discriminate|]. split; [|reflexivity].
    repeat apply Forall_cons; [right; eexists; reflexivity|right; eexists; reflexivity|apply Forall_nil].
  - rewrite <- isMember_correct by (apply wf_tab_ok; vm_compute; reflexivity). vm_compute. discriminate.
Qed.

(* ---------------- C47: labels from CHAR_MAX on ---------------- *)

(* A pattern from a DOT file may have the byte 127 as a label; the zone automaton
   of the Sunday sets has arrays of CHAR_MAX elements.  No table is ever made of
   a pattern that can read such a byte, and monaa has no result. *)
Theorem C47_labels : forall A p q v T w T' c t, wf_ta A -> clockSize A <= 255 -> In p (inits A) -> run A p zeroval T w q v T' -> increasing T w ->
  In (c, t) w -> char_max <= c ->
  forall fuel al W u, (forall sets, sunday_sets fuel A <> Ok sets) /\ forall zs, monaa_plain fuel al W A u <> Ok zs.
Proof.
  intros A p q v T w T' c t WF K Hp R Inc I C fuel al W u.
  assert (S : forall sets, sunday_sets fuel A <> Ok sets).
  { intros sets E. unfold sunday_sets in E. apply bind_Ok in E as (Z & E & _).
    destruct (C20_simulation _ _ _ _ _ _ _ _ _ WF K E Hp R Inc) as (i & j & _ & P & _).
    destruct (ta2za_fresh fuel A Z WF K E) as (_ & _ & WZ & _).
    assert (L : forall i w j, zpath Z i w j -> forall c, In c w -> c < char_max).
    { clear - WZ. induction 1 as [|i c j w k H P IH]; [intros c' []|]. intros c' [<-|I]; [|auto]. destruct H as (s & H & _ & N & _). exact (proj1 (zwf_edge _ WZ _ _ _ _ H N)). }
    specialize (L _ _ _ P c). rewrite in_map_iff in L. specialize (L (ex_intro _ (c, t) (conj eq_refl I))). lia. }
  split; [exact S|]. intros zs E. unfold monaa_plain in E. apply bind_Ok in E as (Tb & E & _). unfold tables in E. apply bind_Ok in E as (sets & E & _). exact (S _ E).
Qed.

(* Undefined in every mode, whatever the word. *)
Definition exL : ta := mkTA
  [ (0, mkS false false [(97, [mkE (Some 1) [] []]); (127, [mkE (Some 1) [] []])]);
    (1, mkS false false [(dollar, [mkE (Some 2) [] []])]); (2, mkS true false []) ] [0] [].
Theorem C47_label_refuted : wf_ta exL /\ no_eps exL = true /\ (exists e, is_edge exL 0 127 e) /\
  forall fuel al W c, monaaDollar (S fuel) al W exL c = UB /\ monaa_plain (S fuel) al W exL c = UB /\ monaaNotNecessaryDollar (S fuel) al W exL c = UB.
Proof.
  split; [apply wf_tab_ok; reflexivity|]. split; [reflexivity|].
  split; [eexists; eexists; eexists; split; [left; reflexivity|]; split; [right; left; reflexivity|left; reflexivity]|].
  intros fuel al W c.
  assert (S : forall B, B = exL \/ make_ap exL = Ok B -> sunday_sets (S fuel) B = UB).
  { intros B [->|E]; [|vm_compute in E; injection E as <-]; unfold sunday_sets, ta2za; reflexivity. }
  split; [|split].
  - unfold monaaDollar. destruct (make_ap exL) as [B| | | |] eqn:E; try (vm_compute in E; discriminate). cbn [bind]. unfold tables. rewrite (S B) by auto. reflexivity.
  - unfold monaa_plain, tables. rewrite (S exL) by auto. reflexivity.
  - unfold monaaNotNecessaryDollar, tables.
    destruct (make_ap exL) as [B| | | |] eqn:E; try (vm_compute in E; discriminate).
    rewrite (lax_ap exL B) by (auto; apply wf_tab_ok; reflexivity). rewrite (S B) by auto. reflexivity.
Qed.

Example C47_labels_case : clockSize exL <= 255 /\ exists q v T', run exL 0 zeroval 0%Q [(127, 1%Q)] q v T'.
Proof.
  split; [vm_compute; lia|]. assert (W : wf_ta exL) by (apply wf_tab_ok; reflexivity).
  eexists. eexists. eexists. eapply run_cons with (e := mkE (Some 1) [] []) (q := 1); [|reflexivity| |apply run_nil].
  - eexists; eexists; split; [left; reflexivity|]; split; [right; left; reflexivity|left; reflexivity].
  - intros g [].
Qed.
