(* Concrete patterns with unobservable transitions: cases for C48 and C57-C59, and
   refutations of C45, C58, C59 and C60. *)
From Coq Require Import QArith Lqa Bool List ZArith Arith Lia Sorted.
From Verif Require Import Num NumFacts Outcome Constraint Zone ZoneFacts TA Spec TAFacts WfDec Word Monaa MonaaFacts MonaaVec
  ZA Skip SkipFacts Sunday Kmp KmpSafe ApFacts Tables PropMonaa PropSkip PropModes PropModesEx EpsZone EpsZoneFacts EpsZoneOps EpsSpec EpsRun PropEps.
Import ListNotations.
Open Scope nat_scope.

Lemma eps_with : forall fuel al nz W A c sets beta, sunday_sets fuel A = Ok sets -> kmp fuel al A (length sets) = Ok beta -> no_eps A = false ->
  monaa fuel al nz W A c = eps_outer W A (the_tables sets beta) false nz fuel c 0 [] [].
Proof. intros fuel al nz W A c sets beta HS HK NE. unfold monaa. rewrite (tables_with _ _ _ _ _ HS HK). cbn [bind]. now rewrite NE. Qed.

(* ---------- a pattern whose unobservable step resets nothing ---------- *)

(* a, then silently exactly one later, then b strictly after that. *)
Definition exE : ta := mkTA
  [ (0, mkS false false [(97, [mkE (Some 1) [0] []])]);
    (1, mkS false false [(0, [mkE (Some 2) [] [mkC 0 Ge 1%Z; mkC 0 Le 1%Z]])]);
    (2, mkS false false [(98, [mkE (Some 3) [] [mkC 0 Gt 1%Z]])]);
    (3, mkS true false []) ] [0] [1%Z].
Definition exEw : tword := [(97, 10%Q); (98, 13%Q)].
Definition exEs : list (list nat) := Eval vm_compute in get [] (sunday_sets 100 exE).
Definition exEb : list (ptr * nat) := Eval vm_compute in get [] (kmp 100 exAl exE (length exEs)).
Definition exEz : list mat := Eval vm_compute in get [] (eps_outer vecC exE (the_tables exEs exEb) false 1 100 exEw 0 [] []).
Lemma exE_sets : sunday_sets 100 exE = Ok exEs.
Proof. vm_compute. reflexivity. Qed.
Lemma exE_kmp : kmp 100 exAl exE (length exEs) = Ok exEb.
Proof. vm_compute. reflexivity. Qed.
Lemma exE_wf : wf_ta exE.
Proof. apply wf_tab_ok. reflexivity. Qed.
Lemma exE_run : monaa 100 exAl 1 vecC exE exEw = Ok exEz.
Proof. refine (eq_trans (eps_with _ _ _ _ _ _ _ _ exE_sets exE_kmp eq_refl) _). vm_compute. reflexivity. Qed.
Lemma exE_inc : increasing 0 exEw.
Proof. cbn. repeat split; unfold Qlt; cbn; lia. Qed.
Lemma exE_ob : observable exEw.
Proof. intros c t H. cbn in H. destruct H as [H|[H|[]]]; injection H as <- <-; lia. Qed.
Lemma exE_nr : no_eps_reset exE.
Proof.
  intros p e (s & es & I1 & I2 & I3). cbn in I1. destruct I1 as [H|[H|[H|[H|[]]]]]; injection H as <- <-; cbn in I2;
    repeat (destruct I2 as [I2|I2]; [try discriminate; injection I2 as <-; cbn in I3; repeat (destruct I3 as [<-|I3]; [reflexivity|]); contradiction|]); contradiction.
Qed.

Example C57_case : monaa 100 exAl 1 vecC exE exEw = Ok exEz /\ wf_ta exE /\ nondecreasing 0 exEw /\ observable exEw /\ no_eps_reset exE /\
  exists z, In z exEz /\ zin 3 z (pairv 9 12).
Proof.
  split; [exact exE_run|]. split; [exact exE_wf|]. split; [apply increasing_nondecreasing, exE_inc|]. split; [exact exE_ob|]. split; [exact exE_nr|].
  eexists. split; [left; reflexivity|]. apply zin3_dec. reflexivity.
Qed.

Definition exErk (p : ptr) : nat := if p =? 1 then 1 else 0.
Example C58_case : tables 100 exAl exE = Ok (the_tables exEs exEb) /\ (forall p e q, is_edge exE p 0 e -> etgt e = Some q -> exErk q < exErk p) /\
  (forall p, exErk p <= 1) /\ length exEw + 1 < 100.
Proof.
  split; [apply tables_with; [exact exE_sets|exact exE_kmp]|]. split; [|split; [intros p; unfold exErk; destruct (p =? 1); lia|cbn; lia]].
  intros p e q (s & es & I1 & I2 & I3) Et. cbn in I1. destruct I1 as [H|[H|[H|[H|[]]]]]; injection H as <- <-; cbn in I2;
    repeat (destruct I2 as [I2|I2]; [try discriminate; injection I2 as <-; cbn in I3; repeat (destruct I3 as [<-|I3]; [cbn in Et; injection Et as <-; cbn; lia|]); contradiction|]); contradiction.
Qed.

Definition exEu : tword := [(97, 10%Q); (0, 11%Q)].
Lemma exE_match : eps_matches_by exE exEw 9 12 exEu.
Proof.
  split; [vm_compute; discriminate|]. split; [vm_compute; discriminate|].
  eexists [(97, 10%Q)], 98, 13%Q, [], 0, 2, _, _, (mkE (Some 3) [] [mkC 0 Gt 1%Z]), 3.
  split; [reflexivity|]. split; [intros x H; cbn in H; destruct H as [<-|[]]; vm_compute; reflexivity|].
  split; [vm_compute; discriminate|]. split; [left; auto|]. split; [reflexivity|]. split; [cbn; repeat split; unfold Qle; cbn; lia|]. split.
  - eapply run_cons with (e := mkE (Some 1) [0] []) (q := 1); [|reflexivity| |].
    + eexists. eexists. split; [left; reflexivity|]. split; [left; reflexivity|left; reflexivity].
    + intros g [].
    + eapply run_cons with (e := mkE (Some 2) [] [mkC 0 Ge 1%Z; mkC 0 Le 1%Z]) (q := 2); [|reflexivity| |apply run_nil].
      * eexists. eexists. split; [right; left; reflexivity|]. split; [left; reflexivity|left; reflexivity].
      * intros g [<-|[<-|[]]]; vm_compute; discriminate.
  - split; [eexists; eexists; split; [do 2 right; left; reflexivity|]; split; [left; reflexivity|left; reflexivity]|].
    split; [reflexivity|]. split; [eexists; split; [do 3 right; left; reflexivity|reflexivity]|].
    intros g [<-|[]]. vm_compute. reflexivity.
Qed.
Lemma exE_late : late exEw 9 exEu.
Proof.
  intros u1 s u2 H. assert (u1 = [(97, 10%Q)] /\ s = 11%Q) as [-> ->].
  { unfold exEu in H. destruct u1 as [|x [|y u1]]; cbn in H; injection H as; subst; auto; try discriminate.
    destruct u1; discriminate. }
  split; intros x Hx; cbn in Hx.
  - destruct Hx as [<-|[<-|[]]]; cbn; intros X; unfold Qle, Qlt in *; cbn in *; lia.
  - destruct Hx as [<-|[]]. vm_compute. reflexivity.
Qed.
Example C59_case : no_eps exE = false /\ 0 < length exEw /\ at_pos exEw 0 9 /\ eps_matches_by exE exEw 9 12 exEu /\ late exEw 9 exEu /\
  ~ eps_skipped exE exEw (the_tables exEs exEb) 0.
Proof.
  split; [reflexivity|]. split; [cbn; lia|]. split; [unfold at_pos; cbn; split; [lra|split; [lia|]]; reflexivity|].
  split; [exact exE_match|]. split; [exact exE_late|].
  intros SK. inversion SK; subst; try lia.
  - cbn in H. lia.
  - apply H1. cbn. auto.
Qed.

(* ---------- C45: resets on unobservable transitions ---------- *)

(* a, then silently reset x, then b when x is above 1. *)
Definition exR : ta := mkTA
  [ (0, mkS false false [(97, [mkE (Some 1) [] []])]);
    (1, mkS false false [(0, [mkE (Some 2) [0] []])]);
    (2, mkS false false [(98, [mkE (Some 3) [] [mkC 0 Gt 1%Z]])]);
    (3, mkS true false []) ] [0] [1%Z].
Definition exRw : tword := [(97, 10%Q); (98, (21 # 2)%Q)].
Definition exRs : list (list nat) := Eval vm_compute in get [] (sunday_sets 100 exR).
Definition exRb : list (ptr * nat) := Eval vm_compute in get [] (kmp 100 exAl exR (length exRs)).
Definition exRz : list mat := Eval vm_compute in get [] (eps_outer vecC exR (the_tables exRs exRb) false 1 100 exRw 0 [] []).
Lemma exR_sets : sunday_sets 100 exR = Ok exRs.
Proof. vm_compute. reflexivity. Qed.
Lemma exR_kmp : kmp 100 exAl exR (length exRs) = Ok exRb.
Proof. vm_compute. reflexivity. Qed.
Lemma exR_wf : wf_ta exR.
Proof. apply wf_tab_ok. reflexivity. Qed.
Lemma exR_run : monaa 100 exAl 1 vecC exR exRw = Ok exRz.
Proof. refine (eq_trans (eps_with _ _ _ _ _ _ _ _ exR_sets exR_kmp eq_refl) _). vm_compute. reflexivity. Qed.

Lemma exR_edges : forall p c e, is_edge exR p c e ->
  (p = 0 /\ c = 97 /\ e = mkE (Some 1) [] []) \/ (p = 1 /\ c = 0 /\ e = mkE (Some 2) [0] []) \/ (p = 2 /\ c = 98 /\ e = mkE (Some 3) [] [mkC 0 Gt 1%Z]).
Proof.
  intros p c e (s & es & I1 & I2 & I3). cbn in I1. destruct I1 as [H|[H|[H|[H|[]]]]]; injection H as <- <-; cbn in I2;
    repeat (destruct I2 as [I2|I2]; [injection I2 as <- <-; cbn in I3; destruct I3 as [<-|[]]; tauto|]); contradiction.
Qed.

(* x is reset at or after the event a at 10, and must be above 1 before 10.5. *)
Lemma exR_none : forall t t', ~ eps_matches exR exRw t t'.
Proof.
  intros t t' (u & M1 & M2 & pre & c & tau & post & p & q & v & T & e & acc & Ew & Hpre & Ht & Hp & Ob & Nd & R & He & Et & Ha & Hg).
  assert (Hq : q = 2 /\ e = mkE (Some 3) [] [mkC 0 Gt 1%Z]).
  { apply exR_edges in He. destruct He as [(-> & -> & ->)|[(-> & -> & ->)|(-> & -> & ->)]]; auto; exfalso;
      cbn in Et; injection Et as <-; destruct Ha as (s & I & F); cbn in I; repeat (destruct I as [I|I]; [try discriminate; injection I as <-; discriminate F|]); contradiction. }
  destruct Hq as [-> ->]. assert (p = 0) by (cbn in Hp; destruct Hp as [<-|[]]; auto). subst p.
  inversion R as [|? ? ? c1 t1 e1 u1 q1 ? ? ? I1 E1 G1 R1]; subst.
  apply exR_edges in I1. destruct I1 as [(_ & -> & ->)|[(X & _)|(X & _)]]; try discriminate. cbn in E1. injection E1 as <-.
  inversion R1 as [|? ? ? c2 t2 e2 u2 q2 ? ? ? I2 E2 G2 R2]; subst.
  apply exR_edges in I2. destruct I2 as [(X & _)|[(_ & -> & ->)|(X & _)]]; try discriminate. cbn in E2. injection E2 as <-.
  assert (T1 : (t1 == 10)%Q /\ (tau <= 21 # 2)%Q).
  { split.
    - assert (I : In (97, t1) (between exRw t t')) by (rewrite <- Ob; left; reflexivity).
      apply filter_In in I as [I _]. cbn in I. destruct I as [I|[I|[]]]; injection I; intros; subst; try discriminate; reflexivity.
    - assert (I : In (c, tau) exRw) by (rewrite Ew; apply in_or_app; right; now left).
      cbn in I. destruct I as [I|[I|[]]]; injection I; intros; subst; unfold Qle; cbn; lia. }
  inversion R2 as [|? ? ? c3 t3 e3 u3 q3 ? ? ? I3 E3 G3 R3]; subst.
  - specialize (Hg _ (or_introl eq_refl)). unfold holds, delay, reset_set in Hg. cbn in Hg, Nd.
    destruct Nd as (_ & N2 & N3 & _). destruct T1. change (inject_Z 1) with 1%Q in Hg. lra.
  - apply exR_edges in I3. destruct I3 as [(X & _)|[(X & _)|(_ & -> & ->)]]; try discriminate. cbn in E3. injection E3 as <-.
    inversion R3 as [|? ? ? c4 t4 e4 u4 q4 ? ? ? I4]; subst. apply exR_edges in I4. destruct I4 as [(X & _)|[(X & _)|(X & _)]]; discriminate.
Qed.

(* C45: monaa() reports a pair that is no match. *)
Theorem C45_reset_refuted : ~ (forall fuel al A w zs z t t', wf_ta A -> increasing 0 w -> observable w ->
  monaa fuel al (clockSize A) vecC A w = Ok zs -> In z zs -> zin 3 z (pairv t t') -> eps_matches A w t t').
Proof.
  intros H. apply (exR_none 9 (41 # 4)). apply (H 100 exAl exR exRw exRz (nth 0 exRz []) 9%Q (41 # 4)%Q).
  - exact exR_wf.
  - cbn. repeat split; unfold Qlt; cbn; lia.
  - intros c t I. cbn in I. destruct I as [I|[I|[]]]; injection I as <- <-; lia.
  - exact exR_run.
  - left. reflexivity.
  - apply zin3_dec. reflexivity.
Qed.

(* With the repaired line the same input gives no zone, and C45_fixed_partial applies. *)
Example C45_fixed_case : wf_ta exR /\ eps_outer vecC exR (the_tables exRs exRb) true (clockSize exR) 100 exRw 0 [] [] = Ok [] /\
  exists zs z, eps_outer vecC exR (the_tables exRs exRb) true (clockSize exR) 100 [(97, 10%Q); (98, 13%Q)] 0 [] [] = Ok zs /\ In z zs /\ zin 3 z (pairv 9 12).
Proof.
  split; [exact exR_wf|]. split; [vm_compute; reflexivity|]. eexists. eexists. split; [vm_compute; reflexivity|]. split; [left; reflexivity|]. apply zin3_dec. reflexivity.
Qed.

(* ---------- C60: zeroResetTime is static ---------- *)

(* The vector of initial reset times keeps the size of the first pattern that the
   process used; a second pattern with more clocks reads past its end. *)
Theorem C60_second_call_refuted : ~ (forall fuel al nz A w, wf_ta A -> increasing 0 w -> observable w -> monaa fuel al nz vecC A w <> UB).
Proof.
  intros H. apply (H 100 exAl 0 exR exRw).
  - exact exR_wf.
  - cbn. repeat split; unfold Qlt; cbn; lia.
  - intros c t I. cbn in I. destruct I as [I|[I|[]]]; injection I as <- <-; lia.
  - refine (eq_trans (eps_with _ _ _ _ _ _ _ _ exR_sets exR_kmp eq_refl) _). vm_compute. reflexivity.
Qed.

(* Without any reset: the guard x0 < 5 before the unobservable transition reads
   outside of the vector. *)
Definition exRg : ta := mkTA
  [ (0, mkS false false [(97, [mkE (Some 1) [] [mkC 0 Lt 5%Z]])]); (1, mkS false false [(0, [mkE (Some 2) [] []])]);
    (2, mkS false false [(98, [mkE (Some 3) [] []])]); (3, mkS true false []) ] [0] [5%Z].
Definition exRgs : list (list nat) := Eval vm_compute in get [] (sunday_sets 100 exRg).
Definition exRgb : list (ptr * nat) := Eval vm_compute in get [] (kmp 100 exAl exRg (length exRgs)).
Lemma exRg_sets : sunday_sets 100 exRg = Ok exRgs.
Proof. vm_compute. reflexivity. Qed.
Lemma exRg_kmp : kmp 100 exAl exRg (length exRgs) = Ok exRgb.
Proof. vm_compute. reflexivity. Qed.
Theorem C60_guard_refuted : wf_ta exRg /\ (forall p c e, is_edge exRg p c e -> eresets e = []) /\
  monaa 100 exAl 0 vecC exRg [(97, 1%Q); (98, 2%Q)] = UB /\ exists zs, monaa 100 exAl 1 vecC exRg [(97, 1%Q); (98, 2%Q)] = Ok zs /\ zs <> [].
Proof.
  split; [apply wf_tab_ok; reflexivity|]. split.
  - intros p c e (s & es & I1 & I2 & I3).
    assert (X : forallb (fun ps => forallb (fun ces => forallb (fun e => match eresets e with [] => true | _ => false end) (snd ces)) (next (snd ps))) (states exRg) = true) by reflexivity.
    rewrite forallb_forall in X. specialize (X _ I1). rewrite forallb_forall in X. specialize (X _ I2). rewrite forallb_forall in X. specialize (X _ I3).
    destruct (eresets e); [reflexivity|discriminate].
  - split; [refine (eq_trans (eps_with _ _ _ _ _ _ _ _ exRg_sets exRg_kmp eq_refl) _); vm_compute; reflexivity|].
    eexists. split; [refine (eq_trans (eps_with _ _ _ _ _ _ _ _ exRg_sets exRg_kmp eq_refl) _); vm_compute; reflexivity|discriminate].
Qed.

(* ---------- C59: an unobservable step at the time of the event before it ---------- *)

(* a, then silently at most 1 after the beginning, then b. *)
Definition exN : ta := mkTA
  [ (0, mkS false false [(97, [mkE (Some 1) [] []])]);
    (1, mkS false false [(0, [mkE (Some 2) [] [mkC 0 Le 1%Z]])]);
    (2, mkS false false [(98, [mkE (Some 3) [] []])]);
    (3, mkS true false []) ] [0] [1%Z].
Definition exNs : list (list nat) := Eval vm_compute in get [] (sunday_sets 100 exN).
Definition exNb : list (ptr * nat) := Eval vm_compute in get [] (kmp 100 exAl exN (length exNs)).
Definition exNz : list mat := Eval vm_compute in get [] (eps_outer vecC exN (the_tables exNs exNb) false 1 100 exEw 0 [] []).
Lemma exN_sets : sunday_sets 100 exN = Ok exNs.
Proof. vm_compute. reflexivity. Qed.
Lemma exN_kmp : kmp 100 exAl exN (length exNs) = Ok exNb.
Proof. vm_compute. reflexivity. Qed.
Lemma exN_run : monaa 100 exAl 1 vecC exN exEw = Ok exNz.
Proof. refine (eq_trans (eps_with _ _ _ _ _ _ _ _ exN_sets exN_kmp eq_refl) _). vm_compute. reflexivity. Qed.

Theorem C59_complete_refuted : ~ (forall fuel al A w T zs, wf_ta A -> increasing 0 w -> observable w -> no_eps_reset A ->
  tables fuel al A = Ok T -> monaa fuel al (clockSize A) vecC A w = Ok zs ->
  forall k t t', k < length w -> at_pos w k t -> (t < t')%Q -> eps_matches A w t t' -> ~ eps_skipped A w T k -> exists z, In z zs /\ zin 3 z (pairv t t')).
Proof.
  intros H. assert (X : exists z, In z exNz /\ zin 3 z (pairv 9 12)).
  { apply (H 100 exAl exN exEw (the_tables exNs exNb) exNz) with (k := 0).
    - apply wf_tab_ok. reflexivity.
    - exact exE_inc.
    - exact exE_ob.
    - intros p e (s & es & I1 & I2 & I3). cbn in I1. destruct I1 as [X|[X|[X|[X|[]]]]]; injection X as <- <-; cbn in I2;
        repeat (destruct I2 as [I2|I2]; [try discriminate; injection I2 as <-; cbn in I3; repeat (destruct I3 as [<-|I3]; [reflexivity|]); contradiction|]); contradiction.
    - apply tables_with; [exact exN_sets|exact exN_kmp].
    - exact exN_run.
    - cbn. lia.
    - unfold at_pos. cbn. split; [lra|split; [lia|]]. reflexivity.
    - reflexivity.
    - exists [(97, 10%Q); (0, 10%Q)].
      split; [vm_compute; discriminate|]. split; [vm_compute; discriminate|].
      eexists [(97, 10%Q)], 98, 13%Q, [], 0, 2, _, _, (mkE (Some 3) [] []), 3.
      split; [reflexivity|]. split; [intros x Hx; cbn in Hx; destruct Hx as [<-|[]]; vm_compute; reflexivity|].
      split; [vm_compute; discriminate|]. split; [left; auto|]. split; [reflexivity|]. split; [cbn; repeat split; unfold Qle; cbn; lia|]. split.
      + eapply run_cons with (e := mkE (Some 1) [] []) (q := 1); [|reflexivity| |].
        * eexists. eexists. split; [left; reflexivity|]. split; [left; reflexivity|left; reflexivity].
        * intros g [].
        * eapply run_cons with (e := mkE (Some 2) [] [mkC 0 Le 1%Z]) (q := 2); [|reflexivity| |apply run_nil].
          -- eexists. eexists. split; [right; left; reflexivity|]. split; [left; reflexivity|left; reflexivity].
          -- intros g [<-|[]]; vm_compute; discriminate.
      + split; [eexists; eexists; split; [do 2 right; left; reflexivity|]; split; [left; reflexivity|left; reflexivity]|].
        split; [reflexivity|]. split; [eexists; split; [do 3 right; left; reflexivity|reflexivity]|]. intros g [].
    - intros SK. inversion SK; subst; try lia; [cbn in *; lia|]. match goal with H : ~ In _ _ |- _ => apply H end. cbn. auto. }
  destruct X as (z & [<-|[]] & Z). specialize (Z 0 1 ltac:(lia) ltac:(lia)). vm_compute in Z. discriminate.
Qed.

(* ---------- C58: an unobservable cycle ---------- *)

Definition exL : ta := mkTA
  [ (0, mkS false false [(97, [mkE (Some 1) [] []])]);
    (1, mkS false false [(0, [mkE (Some 1) [] []]); (98, [mkE (Some 2) [] []])]);
    (2, mkS true false []) ] [0] [].
Definition exLs : list (list nat) := Eval vm_compute in get [] (sunday_sets 100 exL).
Definition exLb : list (ptr * nat) := Eval vm_compute in get [] (kmp 100 exAl exL (length exLs)).
Lemma exL_sets : sunday_sets 100 exL = Ok exLs.
Proof. vm_compute. reflexivity. Qed.
Lemma exL_kmp : kmp 100 exAl exL (length exLs) = Ok exLb.
Proof. vm_compute. reflexivity. Qed.

Lemma exL_wf : wf_ta exL.
Proof. apply wf_tab_ok. reflexivity. Qed.
Lemma exL_nr : no_eps_reset exL.
Proof.
  intros p e (s & es & I1 & I2 & I3). cbn in I1. destruct I1 as [H|[H|[H|[]]]]; injection H as <- <-; cbn in I2;
    repeat (destruct I2 as [I2|I2]; [try discriminate; injection I2 as <-; cbn in I3; repeat (destruct I3 as [<-|I3]; [reflexivity|]); contradiction|]); contradiction.
Qed.

(* The configurations at the first event and after it. *)
Definition exL0 : list econf := Eval vm_compute in get [] (eps_start vecC exL 0 exEw 0).
Definition exL1 : list econf := Eval vm_compute in get [] (obs_step exL 97 10 exL0).
Lemma exL_start : eps_start vecC exL 0 exEw 0 = Ok exL0.
Proof. vm_compute. reflexivity. Qed.
Lemma exL_obs : obs_step exL 97 10 exL0 = Ok exL1.
Proof. vm_compute. reflexivity. Qed.

Lemma exL_rounds : forall fuel cs, eps_rounds vecC exL false fuel exEw 1 exL1 cs = OutOfFuel.
Proof.
  intros fuel cs. pose proof (increasing_nondecreasing _ _ exE_inc) as ND.
  destruct (eps_start_spec exL exL_wf exEw ND 0 ltac:(cbn; lia)) as (c0 & E0 & C0 & _).
  assert (c0 = exL0) by (apply Ok_inj; rewrite <- E0; exact exL_start). subst c0.
  destruct (obs_step_spec exL exL_wf exEw ND (observable_ob _ exE_ob) false (or_intror exL_nr) 0 0 exL0 ltac:(lia) ltac:(cbn; lia) C0) as (c1 & E1 & C1 & _).
  assert (c1 = exL1) by (apply Ok_inj; rewrite <- E1; exact exL_obs). subst c1.
  destruct (C1 (nth 0 exL1 (mkEC 0 [] (IvZone [] 0))) (or_introl eq_refl)) as (N & E).
  apply (rounds_loop exL exEw false 0 1 1 (mkE (Some 1) [] []) exL_wf exE_inc exE_ob (or_intror exL_nr) ltac:(lia) ltac:(cbn; lia)) with (cfg := nth 0 exL1 (mkEC 0 [] (IvZone [] 0))) (N := N); auto.
  - eexists. eexists. split; [right; left; reflexivity|]. split; [left; reflexivity|left; reflexivity].
  - left. reflexivity.
Qed.

(* The tables are computed, and then the matching does not end on the word a b. *)
Theorem C58_terminates_refuted : exists A w T, wf_ta A /\ increasing 0 w /\ observable w /\ no_eps_reset A /\ tables 100 exAl A = Ok T /\
  forall fuel, eps_outer vecC A T false (clockSize A) fuel w 0 [] [] = OutOfFuel.
Proof.
  exists exL, exEw, (the_tables exLs exLb). split; [exact exL_wf|]. split; [exact exE_inc|]. split; [exact exE_ob|]. split; [exact exL_nr|].
  split; [apply tables_with; [exact exL_sets|exact exL_kmp]|]. intros [|f]; [reflexivity|].
  change (eps_outer vecC exL (the_tables exLs exLb) false (clockSize exL) (S f) exEw 0 [] []) with
    (do r <- eps_match vecC exL false (S f) exEw 0 exL0 [] [] ;
     let '(c, j, cs, ls, ans) := r in
     let (b, c) := cfetch vecC c j in
     let ls := if b then ls else cs in
     do n <- eps_greatest (the_tables exLs exLb) ls ;
     do c <- csetFront vecC c (0 + n - 1) ;
     eps_outer vecC exL (the_tables exLs exLb) false (clockSize exL) f c (0 + n) ls ans).
  replace (eps_match vecC exL false (S f) exEw 0 exL0 [] []) with (eps_match vecC exL false f exEw 1 exL1 exL0 []) by reflexivity.
  replace (eps_match vecC exL false f exEw 1 exL1 exL0 []) with (@OutOfFuel (ctype vecC * nat * list econf * list econf * list mat)); [reflexivity|].
  destruct f as [|f]; [reflexivity|].
  change (eps_match vecC exL false (S f) exEw 1 exL1 exL0 []) with
    (do cs <- eps_rounds vecC exL false (S f) exEw 1 exL1 exL1 ;
     do e <- cat vecC exEw 1 ;
     do ans <- eps_accept vecC exL (fst e) exEw 1 cs [] ;
     do cs' <- obs_step exL (fst e) (snd e) cs ;
     eps_match vecC exL false f exEw 2 cs' cs ans).
  rewrite exL_rounds. reflexivity.
Qed.

(* ---------- C48 ---------- *)

(* The begin in (0, 10), the end of a first step in (10, 13], and then: a guard, an
   event, a second unobservable step and an observation. *)
Definition exZ : izone := IvZone [((Fin 0, true), (Fin 10, false)); ((Fin (-10), false), (Fin 13, true)); ((Fin 0, false), (Fin 13, true))]%Q 2.
Definition exZr : list rtime := [RTime 10; RClock 1].
Definition exZo : list zop :=
  [OGuard [mkC 0 Ge 1%Z; mkC 1 Le 4%Z] exZr; OUpdate exZr; OGuardAt 13 [mkC 1 Lt 6%Z] exZr; OAlloc (Fin 14, true)%Q (Fin (-13), false)%Q; OGuard [mkC 1 Le 7%Z] exZr].
Example C48_case : iz_alloc (Fin 13, true)%Q (Fin (-10), false)%Q (iz_init bzero (Fin 10, false)%Q) = Ok exZ /\
  (exists z1 z2 z3 z4 z5, apply_op (nth 0 exZo (OUpdate [])) exZ = Ok z1 /\ apply_op (nth 1 exZo (OUpdate [])) z1 = Ok z2 /\ apply_op (nth 2 exZo (OUpdate [])) z2 = Ok z3 /\
     apply_op (nth 3 exZo (OUpdate [])) z3 = Ok z4 /\ apply_op (nth 4 exZo (OUpdate [])) z4 = Ok z5 /\ iz_sat z5 = true).
Proof.
  split; [vm_compute; reflexivity|]. do 5 eexists. do 5 (split; [vm_compute; reflexivity|]). vm_compute. reflexivity.
Qed.
