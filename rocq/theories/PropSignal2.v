(* C62, C63: where the automaton of signal mode is right. *)
From Coq Require Import QArith Lqa Bool List ZArith Arith Lia.
From Verif Require Import Num Outcome Interval TA Spec TAFacts Tre TreRun TreFacts TreBuild Signal SignalFacts SignalTerm SignalSpec
  SignalRep SignalBuild SignalTop SignalDur SignalWords SignalAut.
Import ListNotations.
Open Scope nat_scope.

Notation la := (Atom 97).
Notation lb := (Atom 98).

Lemma signal_result : forall b s1 s2 fuel al r n A m, injective al -> sigfrag r -> dur_ok b r -> pV (cls b) r ->
  toSignalTA s1 s2 fuel al r n = Ok (A, m) ->
  forall u, nonneg u -> (accepts A (stamps 0 u) <-> exists w, sig_words false r w /\ deq (merge_dw w) u).
Proof.
  intros b s1 s2 fuel al r n A m Inj F DU P E u N. rewrite (signal_no_separation s1 s2 stop stop) in E.
  pose proof (toSignal_spec r F fuel al n) as T. rewrite E in T. destruct T as (vss & V & FI).
  destruct (finish_spec al b r vss n Inj F DU P V) as (A' & m' & FI' & _ & _ & L). rewrite FI in FI'. injection FI' as <- <-.
  rewrite accepts_stamps. apply L. auto.
Qed.

Lemma signal_shape : forall b s1 s2 fuel al r n A m, injective al -> sigfrag r -> dur_ok b r -> pV (cls b) r ->
  toSignalTA s1 s2 fuel al r n = Ok (A, m) -> tinv al n m A /\ clockSize A <= 1.
Proof.
  intros b s1 s2 fuel al r n A m Inj F DU P E. rewrite (signal_no_separation s1 s2 stop stop) in E.
  pose proof (toSignal_spec r F fuel al n) as T. rewrite E in T. destruct T as (vss & V & FI).
  destruct (finish_spec al b r vss n Inj F DU P V) as (A' & m' & FI' & TI & C & _). rewrite FI in FI'. injection FI' as <- <-. auto.
Qed.

(* ================= C62 the language ================= *)

(* For expressions without conjunctions and empty words, in which only one
   letter is restricted or iterated, with integer bounds that are all closed or
   all open below: the words of the automaton are the words of the expression
   with equal neighbours merged. *)
Theorem C62_words_partial : forall s1 s2 fuel al r n A m, injective al -> sigfrag r -> closed_bounds r \/ open_bounds r ->
  toSignalTA s1 s2 fuel al r n = Ok (A, m) ->
  forall u, nonneg u -> (accepts A (stamps 0 u) <-> exists w, sig_words false r w /\ deq (merge_dw w) u).
Proof.
  intros s1 s2 fuel al r n A m Inj F [B|B] E u N.
  - apply (signal_result true s1 s2 fuel al r n A m); auto; [apply closed_dur|apply pV_closed]; auto.
  - apply (signal_result false s1 s2 fuel al r n A m); auto; [apply open_dur|apply pV_open]; auto.
Qed.

(* So every signal of the expression is accepted, and every accepted signal is
   one of the expression up to letters that last 0. *)
Theorem C62_signals_partial : forall s1 s2 fuel al r n A m, injective al -> sigfrag r -> closed_bounds r \/ open_bounds r ->
  toSignalTA s1 s2 fuel al r n = Ok (A, m) ->
  forall u, canonical u -> (sig_lang true r u -> accepts A (stamps 0 u)) /\ (accepts A (stamps 0 u) -> sig_lang false r u).
Proof.
  intros s1 s2 fuel al r n A m Inj F B E u C. assert (N : nonneg u) by (clear - C; induction u as [|[c d] u IH]; [constructor|]; destruct C as (C1 & _ & C2); constructor; [cbn; lra|apply IH; auto]).
  pose proof (C62_words_partial s1 s2 fuel al r n A m Inj F B E u N) as W. split.
  - intros L. apply W. apply sig_lang_merge in L as (w & S & D); auto; [|apply sig_words_positive]. exists w. split; auto. apply sig_words_weaken. auto.
  - intros L. apply W in L as (w & S & D). eapply merge_sig_lang; eauto.
Qed.

(* If every letter of the words lasts, the bounds are met as written. *)
Lemma words_strict : forall r w, sigfrag r -> sig_words false r w -> positive w -> sig_words true r w /\ w <> [].
Proof.
  induction r as [c| |r IH|r1 IH1 r2 IH2|r1 IH1 r2 IH2|r1 IH1 r2 IH2|r IH Iv]; intros w F S P; cbn [sigfrag] in F; try contradiction.
  - destruct S as (d & -> & D). inversion P; subst. split; [exists d; auto|discriminate].
  - destruct F as (F & _). destruct S as (us & NE & FU & ->).
    assert (X : Forall (fun u => sig_words true r u /\ u <> []) us).
    { clear NE. induction us as [|u us IHu]; [constructor|]. inversion FU; subst. cbn in P. apply Forall_app in P as (P1 & P2). constructor; [apply IH; auto|apply IHu; auto]. }
    split; [exists us; split; auto; split; auto; eapply Forall_impl; [|exact X]; intros a Ha; apply Ha|]. destruct us as [|u us]; [congruence|]. inversion X as [|? ? (_ & N) _]; subst. destruct u; [congruence|discriminate].
  - destruct F as (F1 & F2 & _). destruct S as (w1 & w2 & -> & S1 & S2). apply Forall_app in P as (P1 & P2). destruct (IH1 w1 F1 S1 P1) as (A & B). destruct (IH2 w2 F2 S2 P2) as (C & _).
    split; [exists w1, w2; auto|]. destruct w1; [congruence|discriminate].
  - destruct F as (F1 & F2). destruct S as [S|S]; [destruct (IH1 w F1 S P)|destruct (IH2 w F2 S P)]; split; auto; [left|right]; auto.
  - destruct F as (F & _). destruct S as (S & I). destruct (IH w F S P) as (A & B). split; auto. split; auto.
    assert (D : (0 < duration w)%Q).
    { destruct w as [|a w]; [congruence|]. inversion P as [|? ? Pa Pw]; subst. rewrite dur_cons. assert (0 <= duration w)%Q; [|lra].
      clear - Pw. induction Pw as [|x w X Pw IH]; [unfold duration, qsum; cbn; lra|]. rewrite dur_cons. lra. }
    destruct I as (I1 & I2). split; [|exact I2]. unfold lax, above in I1. cbn [lob fst snd] in I1. unfold above. destruct (fst (lob Iv)) as [| |l|]; auto.
    destruct (snd (lob Iv)); cbn in I1; auto. destruct (Qeq_bool l 0) eqn:Q; cbn in I1; auto. apply Qeq_bool_iff in Q. rewrite Q. auto.
Qed.

Lemma merge_adjd : forall w, adjd (letters w) -> merge_dw w = w.
Proof.
  induction w as [|[c d] w IH]; intros A; auto. cbn [merge_dw]. destruct A as (A1 & A2). rewrite IH by auto. destruct w as [|[c' d'] w]; auto.
  cbn in A1. apply Nat.eqb_neq in A1. rewrite A1. auto.
Qed.

(* If no word of the expression repeats a letter at once, exactly the signals
   of the expression are accepted. *)
Theorem C62_exact_partial : forall s1 s2 fuel al r n A m, injective al -> sigfrag r -> closed_bounds r \/ open_bounds r ->
  (forall w, sig_words false r w -> adjd (letters w)) ->
  toSignalTA s1 s2 fuel al r n = Ok (A, m) -> forall u, canonical u -> (accepts A (stamps 0 u) <-> sig_lang true r u).
Proof.
  intros s1 s2 fuel al r n A m Inj F B AD E u C. destruct (C62_signals_partial s1 s2 fuel al r n A m Inj F B E u C) as (X & _). split; auto. intros L.
  assert (PU : positive u) by (clear - C; induction u as [|[c d] u IH]; [constructor|]; destruct C as (C1 & _ & C2); constructor; [cbn; lra|apply IH; auto]).
  apply (C62_words_partial s1 s2 fuel al r n A m Inj F B E u) in L as (w & S & D); [|apply nonneg_positive; auto].
  rewrite (merge_adjd w (AD w S)) in D. exists w. split; [|intros x _; symmetry; apply sval_deq; auto].
  apply words_strict; auto. clear - D PU. revert PU. induction D as [|a b w u [_ E] D IH]; intros P; [constructor|]. inversion P; subst. constructor; [cbn in *; lra|apply IH; auto].
Qed.

(* ================= C63 a result ================= *)

(* If moreover what is iterated is free of restrictions and iterations and has
   fewer than 32 disjuncts, an automaton is returned. *)
Theorem C63_returns_partial : forall r, sigfrag r -> closed_bounds r \/ open_bounds r -> simple_plus r ->
  exists F, forall s1 s2 fuel al n, injective al -> F <= fuel -> exists A m, toSignalTA s1 s2 fuel al r n = Ok (A, m) /\ wf_ta A /\ clockSize A <= 1.
Proof.
  intros r F B S. destruct (no_and_ends r) as (G & HG).
  { clear B S. induction r as [c| |r IH|r1 IH1 r2 IH2|r1 IH1 r2 IH2|r1 IH1 r2 IH2|r IH Iv]; cbn in F |- *; try contradiction; auto.
    - apply IH, F.
    - destruct F as (F1 & F2 & _). rewrite IH1, IH2; auto.
    - destruct F as (F1 & F2). rewrite IH1, IH2; auto.
    - apply IH, F. }
  exists G. intros s1 s2 fuel al n Inj Le. specialize (HG s1 s2 fuel al n Le). rewrite (signal_no_separation s1 s2 stop stop) in HG |- *.
  assert (X : exists b, dur_ok b r /\ pV (cls b) r) by (destruct B as [B|B]; [exists true; split; [apply closed_dur|apply pV_closed]|exists false; split; [apply open_dur|apply pV_open]]; auto).
  destruct X as (b & DU & P). destruct (vchs_ok r F S) as (vss & V). destruct (finish_spec al b r vss n Inj F DU P V) as (A & m & FI & W & C & _).
  pose proof (toSignal_spec r F fuel al n) as T. destruct (toSignalTA stop stop fuel al r n) as [Y| | | |]; try congruence.
  - destruct T as (vss' & V' & FI'). assert (vss' = vss) as -> by congruence. exists A, m. split; [congruence|split; auto; eapply ti_wf; eauto].
  - specialize (T vss V). congruence.
  - specialize (T vss V). congruence.
  - specialize (T vss V). congruence.
Qed.

(* (a%(1,3))((b|cb)): open bounds, two runs. *)
Definition case1 : tre := Cat (Within la (interval_open 1 3)) (Alt lb (Cat (Plus (Atom 99)) lb)).
Example C62_case : sigfrag case1 /\ open_bounds case1 /\ simple_plus case1 /\ exists A m,
  toSignalTA stop stop 20 (fun k => k) case1 0 = Ok (A, m) /\ length (states A) = 10 /\
  accepts A (stamps 0 [(97, 2%Q); (99, 5%Q); (98, 1%Q)]) /\ ~ accepts A (stamps 0 [(97, 3%Q); (98, 1%Q)]).
Proof.
  assert (F : sigfrag case1).
  { cbn. repeat split; try discriminate; auto.
    - intros l [<-|[]]. exists 97. intros x [<-|[]]. auto.
    - exists 99. intros l [<-|[]] x [<-|[]]. auto.
    - right. intros l [<-|[<-|[]]]; cbn; repeat split; discriminate. }
  assert (O : open_bounds case1).
  { cbn. repeat split; auto.
    - exists 1%Z. split; [lia|reflexivity].
    - right. exists 3%Z. reflexivity. }
  split; [exact F|]. split; [exact O|]. split; [cbn; unfold no_within; cbn; repeat split; try lia|]. eexists _, _.
  split; [vm_compute; reflexivity|]. split; [reflexivity|].
  assert (W : forall u, nonneg u -> _) by exact (C62_words_partial stop stop 20 (fun k => k) case1 0 _ _ (fun i j H => H) F (or_intror O) ltac:(vm_compute; reflexivity)). split.
  - apply W; [repeat constructor; cbn; lra|]. exists [(97, 2%Q); (99, 5%Q); (98, 1%Q)]. split; [|repeat constructor].
    exists [(97, 2%Q)], [(99, 5%Q); (98, 1%Q)]. split; [reflexivity|]. split; [split; [exists 2%Q; split; [reflexivity|lra]|split; vm_compute; reflexivity]|].
    right. exists [(99, 5%Q)], [(98, 1%Q)]. split; [reflexivity|]. split; [|exists 1%Q; split; [reflexivity|lra]].
    exists [[(99, 5%Q)]]. split; [discriminate|]. split; [|reflexivity]. constructor; [|constructor]. exists 5%Q. split; [reflexivity|lra].
  - intros X. apply W in X as (w & S & D); [|repeat constructor; cbn; lra]. destruct S as (w1 & w2 & -> & ((d & -> & Hd) & (_ & I)) & S2).
    unfold below in I. cbn -[duration] in I. assert (DD : (duration [(97%nat, d)] == d)%Q) by (unfold duration, qsum; cbn; ring). rewrite DD in I. change (inject_Z 3) with 3%Q in I. cbn [app] in D. destruct S2 as [(d2 & -> & _)|S2].
    + cbn in D. inversion D as [|? ? ? ? [_ D1] _]; subst. cbn in D1. lra.
    + exfalso. destruct S2 as (x & y & -> & (us & NE & FU & ->) & (dy & -> & _)). destruct us as [|u us]; [congruence|]. inversion FU as [|? ? (d1 & -> & _) FU']; subst. cbn [concat app] in D.
      cbn [merge_dw] in D. destruct (merge_dw (concat us ++ [(98, dy)])) as [|[c' d'] t].
      * cbn in D. inversion D as [|? ? ? ? _ D']; subst. inversion D' as [|? ? ? ? [D1 _] _]; subst. discriminate.
      * destruct (99 =? c'); cbn in D; inversion D as [|? ? ? ? _ D']; subst; inversion D' as [|? ? ? ? [D1 _] _]; subst; discriminate.
Qed.

(* a%[2,3] a%[1,4] b: closed bounds, the letters a are merged. *)
Definition case2 : tre :=
  Cat (Cat (Within la (mkI (Fin 2, true) (Fin 3, true))) (Within la (mkI (Fin 1, true) (Fin 4, true)))) lb.
Example C62_case_closed : sigfrag case2 /\ closed_bounds case2 /\ exists A m,
  toSignalTA stop stop 20 (fun k => k) case2 0 = Ok (A, m) /\ length (states A) = 4 /\ accepts A (stamps 0 [(97, 7%Q); (98, 1%Q)]).
Proof.
  assert (F : sigfrag case2).
  { cbn. repeat split; try discriminate; auto; intros l [<-|[]]; exists 97; intros x [<-|[]]; auto. }
  assert (O : closed_bounds case2).
  { cbn. repeat split; auto; try (right; eexists; reflexivity); [exists 2%Z|exists 1%Z]; split; try lia; reflexivity. }
  split; [exact F|]. split; [exact O|]. eexists _, _. split; [vm_compute; reflexivity|]. split; [reflexivity|].
  apply (C62_signals_partial stop stop 20 (fun k => k) case2 0 _ _ (fun i j H => H) F (or_introl O) ltac:(vm_compute; reflexivity)); [cbn; repeat split; auto; lra|].
  apply sig_lang_merge; [cbn; repeat split; auto; lra|apply sig_words_positive|]. exists [(97, 3%Q); (97, 4%Q); (98, 1%Q)]. split; [|repeat constructor].
  exists [(97, 3%Q); (97, 4%Q)], [(98, 1%Q)]. split; [reflexivity|]. split; [|exists 1%Q; split; [reflexivity|lra]].
  exists [(97, 3%Q)], [(97, 4%Q)]. split; [reflexivity|]. split; (split; [eexists; split; [reflexivity|lra]|split; vm_compute; discriminate]).
Qed.

(* ab%(1,3): no letter is repeated; the bounds are met as written. *)
Definition case3 : tre := Cat la (Within lb (interval_open 1 3)).
Example C62_case_exact : sigfrag case3 /\ open_bounds case3 /\ (forall w, sig_words false case3 w -> adjd (letters w)) /\ exists A m,
  toSignalTA stop stop 20 (fun k => k) case3 0 = Ok (A, m) /\ sig_lang true case3 [(97, 2%Q); (98, 2%Q)].
Proof.
  split; [cbn; repeat split; try discriminate; auto; intros l [<-|[]]; exists 98; intros x [<-|[]]; auto|].
  split; [cbn; repeat split; auto; [exists 1%Z; split; [lia|reflexivity]|right; exists 3%Z; reflexivity]|].
  split; [intros w (w1 & w2 & -> & (d & -> & _) & (e & -> & _) & _); cbn; repeat split; discriminate|]. eexists _, _. split; [vm_compute; reflexivity|].
  exists [(97, 2%Q); (98, 2%Q)]. split; [|intros x _; reflexivity]. exists [(97, 2%Q)], [(98, 2%Q)]. split; [reflexivity|].
  split; [exists 2%Q; split; [reflexivity|lra]|]. split; [exists 2%Q; split; [reflexivity|lra]|split; vm_compute; reflexivity].
Qed.
