(* Concrete patterns for C33, C34, C35 and C50. *)
From Coq Require Import QArith Lqa Bool List ZArith Arith Lia Sorted.
From Verif Require Import Num NumFacts Outcome Constraint Zone ZoneFacts TA Spec TAFacts WfDec Word Monaa MonaaFacts MonaaVec
  ZA Skip SkipFacts Sunday Kmp KmpSafe ApFacts Tables PropMonaa PropSkip PropSkipEx PropModes.
Import ListNotations.
Open Scope nat_scope.

Lemma monaa_with : forall fuel al W A c sets beta, sunday_sets fuel A = Ok sets -> kmp fuel al A (length sets) = Ok beta ->
  monaa_plain fuel al W A c = outer_loop W A (the_tables sets beta) MSignal fuel c 0 [] [].
Proof. intros fuel al W A c sets beta HS HK. unfold monaa_plain. rewrite (tables_with _ _ _ _ _ HS HK). reflexivity. Qed.

Lemma zin3_dec : forall z t t', forallb (fun i => forallb (fun j => let b := mget z i j in
    match fst b with
    | Fin q => if snd b then Qle_bool (ev (pairv t t') i - ev (pairv t t') j) q else negb (Qle_bool q (ev (pairv t t') i - ev (pairv t t') j))
    | PInf => true
    | _ => false
    end) [0; 1; 2]) [0; 1; 2] = true -> zin 3 z (pairv t t').
Proof.
  intros z t t' H i j Hi Hj. rewrite forallb_forall in H. specialize (H i ltac:(do 3 (destruct i; [cbn; auto|]); lia)).
  rewrite forallb_forall in H. specialize (H j ltac:(do 3 (destruct j; [cbn; auto|]); lia)).
  cbv zeta in H. unfold below. destruct (mget z i j) as [[ | |q|] []]; cbn [fst snd] in *; try discriminate; auto.
  - now apply Qle_bool_iff.
  - apply negb_true_iff in H. apply Qnot_le_lt. intros X. apply Qle_bool_iff in X. congruence.
Qed.

(* ---------- C34: a pattern without upper bounds ---------- *)

Definition exV : ta := mkTA
  [ (0, mkS false false [(97, [mkE (Some 1) [0] [mkC 0 Gt 1%Z]])]);
    (1, mkS false false [(98, [mkE (Some 2) [] [mkC 0 Ge 1%Z]])]);
    (2, mkS true false []) ] [0] [1%Z].
Definition exVw : tword := [(97, 1%Q); (98, 2%Q); (97, 5%Q); (98, 7%Q); (97, 8%Q); (98, 9%Q)].
Definition exVs : list (list nat) := Eval vm_compute in get [] (sunday_sets 100 exV).
Definition exVb : list (ptr * nat) := Eval vm_compute in get [] (kmp 100 exAl exV (length exVs)).
Definition exVz : list mat := Eval vm_compute in get [] (outer_loop vecC exV (the_tables exVs exVb) MSignal 100 exVw 0 [] []).
Lemma exV_sets : sunday_sets 100 exV = Ok exVs.
Proof. vm_compute. reflexivity. Qed.
Lemma exV_kmp : kmp 100 exAl exV (length exVs) = Ok exVb.
Proof. vm_compute. reflexivity. Qed.
Lemma exV_wf : wf_ta exV.
Proof. apply wf_tab_ok. reflexivity. Qed.
Lemma exV_run : monaa_plain 100 exAl vecC exV exVw = Ok exVz.
Proof. refine (eq_trans (monaa_with _ _ _ _ _ _ _ exV_sets exV_kmp) _). vm_compute. reflexivity. Qed.
Lemma exV_inc : increasing 0 exVw.
Proof. cbn. repeat split; unfold Qlt; cbn; lia. Qed.

Lemma exV_match : signal_matches exV exVw (5 # 2) (13 # 2).
Proof.
  split; [vm_compute; discriminate|]. split; [vm_compute; discriminate|].
  eexists [(97, 1%Q); (98, 2%Q); (97, 5%Q)], 98, 7%Q, _, 0, 1, _, _, (mkE (Some 2) [] [mkC 0 Ge 1%Z]), 2.
  split; [reflexivity|]. split; [intros x H; cbn in H; destruct H as [<-|[<-|[<-|[]]]]; vm_compute; reflexivity|].
  split; [vm_compute; discriminate|]. split; [left; auto|]. split.
  - change (between exVw (5 # 2) (13 # 2)) with [(97, 5%Q)].
    eapply run_cons with (e := mkE (Some 1) [0] [mkC 0 Gt 1%Z]) (q := 1); [|reflexivity| |apply run_nil].
    + eexists. eexists. split; [left; reflexivity|]. split; [left; reflexivity|left; reflexivity].
    + intros g [<-|[]]. vm_compute. reflexivity.
  - split; [eexists; eexists; split; [right; left; reflexivity|]; split; [left; reflexivity|left; reflexivity]|].
    split; [reflexivity|]. split; [eexists; split; [do 2 right; left; reflexivity|reflexivity]|].
    intros g [<-|[]]. vm_compute. discriminate.
Qed.

Example C33_case : monaa_plain 100 exAl vecC exV exVw = Ok exVz /\ length exVz = 1 /\
  exists z, In z exVz /\ zin 3 z (pairv (5 # 2) (13 # 2)).
Proof. split; [exact exV_run|]. split; [reflexivity|]. eexists. split; [left; reflexivity|]. apply zin3_dec. reflexivity. Qed.

Example C34_case : wf_ta exV /\ (forall p s, In (p, s) (states exV) -> zeroDur s = false) /\ increasing 0 exVw /\ letters_ok exVw /\
  keeps_useful 100 exV /\ alloc_ok exAl exV (length exVs) /\ accept_no_upper exV /\ uppers_after_reset exV /\
  2 < length exVw /\ at_pos exVw 2 (5 # 2) /\ signal_matches exV exVw (5 # 2) (13 # 2) /\ ~ skipped exV exVw (the_tables exVs exVb) 2.
Proof.
  assert (NU : forall p c e g, is_edge exV p c e -> In g (eguard e) -> codr g = Gt \/ codr g = Ge).
  { intros p c e g (s & es & I1 & I2 & I3) G.
    assert (X : forallb (fun ps => forallb (fun ces => forallb (fun e => forallb (fun g => match codr g with Gt | Ge => true | _ => false end) (eguard e)) (snd ces)) (next (snd ps))) (states exV) = true) by reflexivity.
    rewrite forallb_forall in X. specialize (X _ I1). rewrite forallb_forall in X. specialize (X _ I2). rewrite forallb_forall in X. specialize (X _ I3).
    rewrite forallb_forall in X. specialize (X _ G). destruct (codr g); auto; discriminate. }
  assert (UR : uppers_after_reset exV).
  { exists (fun _ _ => False). split; [auto|]. intros p c e q He Et. split; [|tauto]. intros g G O. destruct (NU _ _ _ _ He G) as [X|X], O as [O|O]; congruence. }
  assert (LO : letters_ok exVw).
  { intros c t H. cbn in H. unfold char_max. repeat (destruct H as [H|H]; [injection H as <- <-; lia|]). contradiction. }
  assert (KU : keeps_useful 100 exV).
  { apply (keeps_useful_acyclic 100 exV (fun p => 9 - p)); [apply exV_wf|vm_compute; lia|apply rankb_ok; reflexivity]. }
  assert (AL : alloc_ok exAl exV (length exVs)) by (apply alloc_okb_ok; vm_compute; reflexivity).
  assert (ZD : forall p s, In (p, s) (states exV) -> zeroDur s = false) by (apply zerob_ok; reflexivity).
  assert (AP : at_pos exVw 2 (5 # 2)) by (unfold at_pos; cbn; split; [lra|]; split; [intros _|]; unfold Qle, Qlt; cbn; lia).
  split; [exact exV_wf|]. split; [exact ZD|]. split; [exact exV_inc|]. split; [exact LO|].
  split; [exact KU|]. split; [exact AL|]. split; [intros p c e q g He _ _ G; eapply NU; eauto|].
  split; [exact UR|]. split; [cbn; lia|]. split; [exact AP|]. split; [exact exV_match|].
  pose proof (signal_reads exV exVw 2 (5 # 2) (13 # 2) exV_inc ltac:(cbn; lia) AP ltac:(reflexivity) exV_match) as RD.
  intros SK. inversion SK; subst.
  - cbn in H. lia.
  - apply H1. cbn. auto.
  - apply (sun_delta 100 exV exVw exVs exV_wf LO KU exV_sets ltac:(vm_compute; lia) i 2 d H1 H2 H3 RD).
  - assert (RA : reads_at exV exVw 2).
    { destruct (signal_real exV exVw 2 (5 # 2) (13 # 2)) as (j' & p' & q & v' & TT & L1 & L2 & Hp & R & Ac); auto.
      - intros p1 c e q g He _ _ G; eapply NU; eauto.
      - exact exV_inc.
      - cbn; lia.
      - reflexivity.
      - exact exV_match.
      - destruct (run_back exV exVw 2 (5 # 2) p' j' q v' TT exV_wf ltac:(lia) AP (or_introl UR) Hp R) as (u & U & R'). exists j', p', q, u, U. auto. }
    eapply (kmp_safe 100 exV exVw exVs exV_wf exV_inc LO KU exV_sets exAl exVb ltac:(vm_compute; lia) ZD AL exV_kmp i j 2 b s p t v T'); eauto. apply H3.
Qed.

(* ---------- C34 refutation: the KMP shift and a moved event ---------- *)

(* a then b within 1, or a a then b after at least 5. *)
Definition exQ : ta := mkTA
  [ (0, mkS false false [(97, [mkE (Some 1) [0] []; mkE (Some 2) [] []])]);
    (1, mkS false false [(98, [mkE (Some 4) [] [mkC 0 Le 1%Z]])]);
    (2, mkS false false [(97, [mkE (Some 3) [0] []])]);
    (3, mkS false false [(98, [mkE (Some 4) [] [mkC 0 Ge 5%Z]])]);
    (4, mkS true false []) ] [0] [5%Z].
Definition exQw : tword := [(97, 1%Q); (97, 2%Q); (98, 10%Q); (100, 11%Q); (100, 12%Q)].
Definition exQs : list (list nat) := Eval vm_compute in get [] (sunday_sets 200 exQ).
Definition exQb : list (ptr * nat) := Eval vm_compute in get [] (kmp 200 exAl exQ (length exQs)).
Definition exQz : list mat := Eval vm_compute in get [] (outer_loop vecC exQ (the_tables exQs exQb) MSignal 200 exQw 0 [] []).
Lemma exQ_sets : sunday_sets 200 exQ = Ok exQs.
Proof. vm_compute. reflexivity. Qed.
Lemma exQ_kmp : kmp 200 exAl exQ (length exQs) = Ok exQb.
Proof. vm_compute. reflexivity. Qed.

Theorem C34_kmp_refuted : wf_ta exQ /\ (forall p s, In (p, s) (states exQ) -> zeroDur s = false) /\ 2 * clockSize exQ <= 255 /\ increasing 0 exQw /\
  keeps_useful 200 exQ /\ alloc_ok exAl exQ (length exQs) /\ uppers_after_reset exQ /\
  monaa_plain 200 exAl vecC exQ exQw = Ok exQz /\
  signal_matches exQ exQw 1 (5 # 2) /\ at_pos exQw 1 1 /\ forall z, In z exQz -> ~ zin 3 z (pairv 1 (5 # 2)).
Proof.
  assert (W : wf_ta exQ) by (apply wf_tab_ok; reflexivity).
  split; [exact W|]. split; [apply zerob_ok; reflexivity|]. split; [vm_compute; lia|]. split; [cbn; repeat split; unfold Qlt; cbn; lia|].
  split; [apply (keeps_useful_acyclic 200 exQ (fun p => 9 - p)); [exact W|vm_compute; lia|apply rankb_ok; reflexivity]|].
  split; [apply alloc_okb_ok; vm_compute; reflexivity|]. split.
  { exists (fun p x => (p = 1 \/ p = 3) /\ x = 0). split.
    - intros p x [<-|[]] [[L|L] _]; lia.
    - intros p c e q (s & es & I1 & I2 & I3) Et.
      destruct I1 as [I1|[I1|[I1|[I1|[I1|[]]]]]]; injection I1 as <- <-; cbn in I2;
        repeat (destruct I2 as [I2|I2]; [injection I2 as <- <-|]); try contradiction; cbn in I3;
        repeat (destruct I3 as [<-|I3]; [injection Et as <-; split; [intros g G O; cbn in G; repeat (destruct G as [<-|G]; [cbn in O; destruct O as [O|O]; try discriminate; cbn; auto|]); try contradiction|
          intros x [[L|L] ->]; try discriminate L; cbn; auto]|]); contradiction. }
  split; [refine (eq_trans (monaa_with _ _ _ _ _ _ _ exQ_sets exQ_kmp) _); vm_compute; reflexivity|]. split; [|split].
  - split; [vm_compute; discriminate|]. split; [vm_compute; discriminate|].
    eexists [(97, 1%Q); (97, 2%Q)], 98, 10%Q, _, 0, 1, _, _, (mkE (Some 4) [] [mkC 0 Le 1%Z]), 4.
    split; [reflexivity|]. split; [intros x H; cbn in H; destruct H as [<-|[<-|[]]]; vm_compute; reflexivity|].
    split; [vm_compute; discriminate|]. split; [left; auto|]. split.
    + change (between exQw 1 (5 # 2)) with [(97, 2%Q)].
      eapply run_cons with (e := mkE (Some 1) [0] []) (q := 1); [|reflexivity| |apply run_nil].
      * eexists. eexists. split; [left; reflexivity|]. split; [left; reflexivity|left; reflexivity].
      * intros g [].
    + split; [eexists; eexists; split; [right; left; reflexivity|]; split; [left; reflexivity|left; reflexivity]|].
      split; [reflexivity|]. split; [eexists; split; [do 4 right; left; reflexivity|reflexivity]|].
      intros g [<-|[]]. vm_compute. discriminate.
  - unfold at_pos. cbn. split; [unfold Qle; cbn; lia|]. split; [intros _; unfold Qle; cbn; lia|unfold Qlt; cbn; lia].
  - intros z [<-|[]] Z. specialize (Z 0 2 ltac:(lia) ltac:(lia)). vm_compute in Z. apply Z. reflexivity.
Qed.

(* ---------- C35 and C50: state 2 of exN made accepting ---------- *)

Definition exO : ta := mkTA
  [ (0, mkS false false [(97, [mkE (Some 1) [0] [mkC 0 Gt 1%Z]])]);
    (1, mkS false false [(98, [mkE (Some 2) [] [mkC 0 Le 2%Z]])]);
    (2, mkS true false [(dollar, [mkE (Some 3) [] [mkC 0 Lt 8%Z]])]);
    (3, mkS true false []) ] [0] [8%Z].
Lemma exO_ap : make_ap exO = Ok exNap.
Proof. reflexivity. Qed.
Lemma exO_pattern : pattern_ok exO.
Proof. apply pattern_okb. reflexivity. Qed.
Definition exOz : list mat := Eval vm_compute in get [] (outer_loop vecC exO (the_tables exNs exNb) MOptional 100 exNw 0 [] []).
Lemma exO_run : monaaNotNecessaryDollar 100 exAl vecC exO exNw = Ok exOz.
Proof.
  unfold monaaNotNecessaryDollar. rewrite (lax_ap exO exNap (po_wf _ exO_pattern) exO_ap), (tables_with _ _ _ _ _ exN_sets exN_kmp).
  cbn [bind]. vm_compute. reflexivity.
Qed.

Lemma exO_event : event_matches exO exNw (5 # 2) 6.
Proof.
  split; [vm_compute; discriminate|]. eexists [(97, 1%Q); (98, 2%Q)], [(97, 5%Q); (98, 6%Q)], _, 0, 2, _, _.
  split; [reflexivity|]. split; [intros x H; cbn in H; destruct H as [<-|[<-|[]]]; vm_compute; discriminate|].
  split; [intros x H; cbn in H; destruct H as [<-|[<-|[]]]; vm_compute; reflexivity|]. split; [discriminate|]. split; [left; auto|]. split.
  - eapply run_cons with (e := mkE (Some 1) [0] [mkC 0 Gt 1%Z]) (q := 1).
    * eexists. eexists. split; [left; reflexivity|]. split; [left; reflexivity|left; reflexivity].
    * reflexivity.
    * intros g [<-|[]]. vm_compute. reflexivity.
    * eapply run_cons with (e := mkE (Some 2) [] [mkC 0 Le 2%Z]) (q := 2); [|reflexivity| |apply run_nil].
      -- eexists. eexists. split; [right; left; reflexivity|]. split; [left; reflexivity|left; reflexivity].
      -- intros g [<-|[]]. vm_compute. discriminate.
  - split; [eexists; split; [do 2 right; left; reflexivity|reflexivity]|reflexivity].
Qed.

Example C35_case : monaaNotNecessaryDollar 100 exAl vecC exO exNw = Ok exOz /\ length exOz = 4 /\
  exists z, In z exOz /\ zin 3 z (pairv (5 # 2) 6).
Proof. split; [exact exO_run|]. split; [reflexivity|]. eexists. split; [left; reflexivity|]. apply zin3_dec. reflexivity. Qed.

(* The pair (5/2, 3) is reported although nothing happens between 5/2 and 3. *)
Theorem C35_sound_refuted : pattern_ok exO /\ word_ok exNw /\ no_eps exO = true /\
  monaaNotNecessaryDollar 100 exAl vecC exO exNw = Ok exOz /\
  exists z, In z exOz /\ zin 3 z (pairv (5 # 2) 3) /\ ~ matches exO exNw (5 # 2) 3 /\ ~ event_matches exO exNw (5 # 2) 3 /\
    between exNw (5 # 2) 3 = [].
Proof.
  split; [exact exO_pattern|]. split; [exact exN_word|]. split; [reflexivity|]. split; [exact exO_run|].
  eexists. split; [left; reflexivity|]. split; [apply zin3_dec; reflexivity|]. split; [|split; [|reflexivity]].
  - intros (_ & _ & p & q & v & T & e & acc & [<-|[]] & R & (s & es & I1 & I2 & I3) & _).
    change (between exNw (5 # 2) 3) with (@nil (nat * Q)) in R. inversion R; subst.
    destruct I1 as [I1|[I1|[I1|[I1|[]]]]]; try discriminate. injection I1 as <-. destruct I2 as [I2|[]]. discriminate.
  - intros (_ & w1 & w2 & w3 & p & q & v & T & Ew & _ & _ & NE & _ & R & _ & ET).
    apply run_time in R. assert (IN : exists x, In x w2 /\ snd x = T).
    { rewrite R. clear - NE. assert (X : forall (l : list (nat * Q)) d, l <> [] -> exists x, In x l /\ snd x = last (map snd l) d).
      { induction l as [|a l IH]; intros d N; [congruence|]. destruct l; [exists a; cbn; auto|].
        destruct (IH d ltac:(discriminate)) as (x & I & E). exists x. split; [right; auto|]. rewrite E. reflexivity. }
      exact (X w2 _ NE). }
    destruct IN as (x & I & E). assert (I' : In x exNw) by (rewrite Ew; apply in_or_app; right; apply in_or_app; left; auto).
    rewrite <- E in ET. cbn in I'. repeat (destruct I' as [<-|I']; [cbn in ET; unfold Qeq in ET; cbn in ET; lia|]). contradiction.
Qed.

Example C50_case : exists T, tables_for 100 exAl exO exNap T /\ no_eps exO = true /\ uppers_after_reset exNap /\
  monaaNotNecessaryDollar 100 exAl vecC exO exNw = Ok exOz /\ at_pos exNw 2 (5 # 2) /\ event_matches exO exNw (5 # 2) 6.
Proof.
  exists (the_tables exNs exNb). split; [constructor; [exact exO_ap|exact (tables_with _ _ _ _ _ exN_sets exN_kmp)|apply exN_useful|exact exN_alloc]|].
  split; [reflexivity|]. split; [exact exN_uppers|]. split; [exact exO_run|]. split; [|exact exO_event].
  unfold at_pos. cbn. split; [lra|]. split; [intros _|]; unfold Qle, Qlt; cbn; lia.
Qed.

(* ---------- C50 refutations: the skips lose matches in this mode, too ---------- *)

(* The pattern a (c d)* b of C27: the Sunday sets lost the states after c, d.
   Nothing is reported. *)
Theorem C50_lost_states_refuted : pattern_ok exS /\ word_ok exSw /\ no_eps exS = true /\
  monaaNotNecessaryDollar 300 exAl vecC exS exSw = Ok [] /\ between exSw 0 5 <> [] /\ matches exS exSw 0 5.
Proof.
  destruct C30_lost_states_refuted as (A1 & A2 & A3 & _ & _ & A4). split; [exact A1|]. split; [exact A2|]. split; [exact A3|].
  split; [vm_compute; reflexivity|exact A4].
Qed.

(* An upper bound on a clock that is never reset: the shift beta(2) jumps over
   the match. *)
Theorem C50_complete_refuted : pattern_ok exK /\ 2 * clockSize exK <= 255 /\ word_ok exKw /\ no_eps exK = true /\ keeps_useful 1000 exKap /\
  monaaNotNecessaryDollar 1000 exAl vecC exK exKw = Ok [] /\ between exKw (39 # 2) 32 <> [] /\ matches exK exKw (39 # 2) 32.
Proof.
  destruct C30_complete_refuted as (A1 & A2 & A3 & A4 & A5 & _ & A6). do 5 (split; [assumption|]). split; [|exact A6].
  unfold monaaNotNecessaryDollar. rewrite (lax_ap exK exKap (po_wf _ A1) exK_ap), (tables_with _ _ _ _ _ exK_sets exK_kmp), A4.
  cbn [bind]. vm_compute. reflexivity.
Qed.
