(* C62: repetitions of the empty expression in signal mode. *)
From Coq Require Import QArith Lqa Bool List ZArith Arith Lia.
From Verif Require Import Num Outcome Interval TA Spec TAFacts WfDec Tre TreRun Signal SignalSpec PropSignal.
Import ListNotations.
Open Scope nat_scope.

(* One or more times the empty signal is the empty signal, and before a letter it
   changes nothing.  The normal form makes a letter without durations from it:
   the automaton is empty. *)
Theorem C62_empty_plus_refuted : exists A m B k,
  sigTA (Plus Eps) = Ok (A, m) /\ sig_lang true (Plus Eps) [] /\ ~ accepts A [] /\
  sigTA (Cat (Plus Eps) lb) = Ok (B, k) /\ sig_lang true (Cat (Plus Eps) lb) [(98, 1%Q)] /\
  ~ accepts B (stamps 0 [(98, 1%Q)]).
Proof.
  eexists _, _, _, _. split; [vm_compute; reflexivity|]. split.
  - exists []. split; [|intros x _; reflexivity]. exists [[]]. split; [discriminate|]. split; [repeat constructor|reflexivity].
  - split; [intros (p & q & v & T & [] & _)|]. split; [vm_compute; reflexivity|]. split.
    + exists [(98, 1%Q)]. split; [|intros x _; reflexivity]. exists [], [(98, 1%Q)]. split; [reflexivity|]. split.
      * exists [[]]. split; [discriminate|]. split; [repeat constructor|reflexivity].
      * exists 1%Q. split; [reflexivity|reflexivity].
    + intros (p & q & v & T & [] & _).
Qed.

(* C63: a plus that the normal form leaves is undefined for every automaton that
   accepts a word with an event, and otherwise does nothing. *)
Theorem C63_plus_undefined : forall A w, wf_ta A -> accepts A w -> w <> [] -> sigPlusTA A = UB.
Proof.
  intros A w WA (p & q & v & T & Ip & R & Q) N. unfold sigPlusTA.
  assert (X : exists p c e r, is_edge A p c e /\ etgt e = Some r /\ accepting A r).
  { clear Ip. induction R as [|p v T c t e w r p' v' T' E1 E2 E3 R IH]; [congruence|]. destruct w as [|x w].
    - inversion R; subst. exists p, c, e, p'. auto.
    - apply IH; auto. discriminate. }
  destruct X as (p1 & c & e & r & (s & es & I1 & I2 & I3) & Et & Ac).
  assert (E : existsb (fun ps => existsb (fun ce => existsb (acc_tgt A) (snd ce)) (next (snd ps))) (states A) = true).
  { apply existsb_exists. exists (p1, s). split; auto. apply existsb_exists. exists (c, es). split; auto. apply existsb_exists. exists e. split; auto.
    unfold acc_tgt. rewrite Et. apply match_at_spec; auto. apply WA. }
  rewrite E. destruct (inits A); [contradiction|reflexivity].
Qed.
Theorem C63_plus_nothing : forall A B, wf_ta A -> sigPlusTA A = Ok B -> B = A /\ forall w, accepts A w -> w = [].
Proof.
  intros A B WA E. split.
  - unfold sigPlusTA in E. match type of E with (if ?b then _ else _) = _ => destruct b end; [discriminate|]. congruence.
  - intros w Aw. destruct w as [|x w]; auto. rewrite (C63_plus_undefined A (x :: w) WA Aw) in E; discriminate.
Qed.
Example C63_plus_case : exists A m, sigTA (Cat la lb) = Ok (A, m) /\ wf_ta A /\ accepts A [(97, 1%Q); (98, 2%Q)].
Proof.
  eexists _, _. split; [vm_compute; reflexivity|]. match goal with |- wf_ta ?A /\ _ => assert (WA : wf_ta A) by (apply wf_tab_ok; vm_compute; reflexivity) end.
  split; [exact WA|]. apply isMember_correct; [exact WA|vm_compute; reflexivity].
Qed.
