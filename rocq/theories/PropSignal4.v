(* C70: a run of signal mode from texts to printed lines, and a segment that it
   does not find. *)
From Coq Require Import QArith Lqa Bool List ZArith Arith Lia String.
From Verif Require Import Num Outcome Interval Zone TA Spec Word Monaa MonaaFacts Skip EpsZone PropMonaa Sunday Kmp SkipFacts PropSkip PropSkipEx PropModes PropModesEx Tre TreRun
  Text TextFacts Ans PropText Signal SignalSpec SignalRep SignalBuild SignalTop SignalDur Parse ParseSpec PropParse Main MainFacts PropMain PropSignal2 PropSignal3.
Import ListNotations.
Open Scope nat_scope.

(* Addresses for the copies of an automaton with 10 states. *)
Definition sgAl : alloc :=
  mkAl (fun p => 10 + p) (fun n => 20 + n) 23 (fun p => 24 + p) (fun p => 34 + p) (fun p q => 44 + 20 * (p - 10) + (q - 24)).
Definition sopt (s : list nat) : options := mkO false false false false false false true stdin_name [] s [].
Definition sgo (s input : list nat) : outcome shown := main sep0 sep0 dec0 200 (fun k => k) sgAl (world1 input) (sopt s).
Lemma sopt_run : forall s, s <> [] -> signal_run (sopt s) s.
Proof.
  intros s N. constructor; try reflexivity; auto.
  - intros [(X & _)|[(_ & X)|[(X & _)|(X & _)]]]; try discriminate; apply X; reflexivity.
  - destruct s; [congruence|reflexivity].
Qed.

(* monaa -s -e '(CAB%[5,20])|(AB%[0,1])' *)
Definition miss_s : list nat := str "(CAB%[5,20])|(AB%[0,1])".
Definition miss_input : list nat := flat_map (fun l => str l ++ [10]) ["C 1.0"; "A 2.0"; "B 10.0"; "C 11.0"; "A 12.0"]%string.
Definition miss_w : tword := [(67, 1.0%Q); (65, 2.0%Q); (66, 10.0%Q); (67, 11.0%Q); (65, 12.0%Q)].
Definition miss_r : tre := Alt (Cat (Atom 67) (Cat (Atom 65) (Within (Atom 66) (Interval.mkI (Fin 5, true) (Fin 20, true))))) (Cat (Atom 65) (Within (Atom 66) (Interval.mkI (Fin 0, true) (Fin 1, true)))).
Lemma miss_parse : parse miss_s = Ok (Some miss_r).
Proof. vm_compute. reflexivity. Qed.
Lemma miss_rendered : rendered miss_w miss_input.
Proof.
  assert (X : exists w, rendered w miss_input /\ w = miss_w); [|destruct X as (w & R & ->); exact R]. eexists. split.
  - unfold miss_input. cbn.
    apply (rend_line 67 (Decimal.D1 Decimal.Nil) (Decimal.D0 Decimal.Nil)); [reflexivity|discriminate|].
    apply (rend_line 65 (Decimal.D2 Decimal.Nil) (Decimal.D0 Decimal.Nil)); [reflexivity|discriminate|].
    apply (rend_line 66 (Decimal.D1 (Decimal.D0 Decimal.Nil)) (Decimal.D0 Decimal.Nil)); [reflexivity|discriminate|].
    apply (rend_line 67 (Decimal.D1 (Decimal.D1 Decimal.Nil)) (Decimal.D0 Decimal.Nil)); [reflexivity|discriminate|].
    apply (rend_line 65 (Decimal.D1 (Decimal.D2 Decimal.Nil)) (Decimal.D0 Decimal.Nil)); [reflexivity|discriminate|].
    apply rend_nil. constructor.
  - vm_compute. reflexivity.
Qed.
Lemma miss_frag : sigfrag miss_r.
Proof.
  cbn. repeat split; try discriminate; auto; try (intros l [<-|[]]; exists 66; intros x [<-|[]]; auto).
Qed.
Lemma miss_closed : closed_bounds miss_r.
Proof. cbn. repeat split; auto; try (right; eexists; reflexivity); [exists 5%Z|exists 0%Z]; split; try lia; reflexivity. Qed.

Definition missA : ta := Eval vm_compute in fst (PropMonaa.get (mkTA [] [] [], 0) (toSignalTA sep0 sep0 200 (fun k => k) miss_r 0)).
Lemma miss_ta : toSignalTA sep0 sep0 200 (fun k => k) miss_r 0 = Ok (missA, 10).
Proof. vm_compute. reflexivity. Qed.
Definition missS : list (list nat) := Eval vm_compute in PropMonaa.get [] (sunday_sets 200 missA).
Definition missB : list (ptr * nat) := [(0, 1); (1, 1); (2, 1); (3, 1); (4, 1); (5, 2); (6, 1); (7, 1); (8, 1); (9, 2)].
Lemma miss_sets : sunday_sets 200 missA = Ok missS.
Proof. vm_compute. reflexivity. Qed.
Lemma miss_kmp : kmp 200 sgAl missA (List.length missS) = Ok missB.
Proof. vm_cast_no_check (@eq_refl (outcome (list (ptr * nat))) (Ok missB)). Qed.
Definition missZ : list mat := Eval vm_compute in PropMonaa.get [] (outer_loop vecC missA (the_tables missS missB) MSignal 200 miss_w 0 [] []).
Lemma plain_of : forall fuel al nz W A c, no_eps A = true -> monaa fuel al nz W A c = monaa_plain fuel al W A c.
Proof. intros fuel al nz W A c NE. unfold monaa, monaa_plain. rewrite NE. reflexivity. Qed.
Lemma miss_plain : monaa_plain 200 sgAl vecC missA miss_w = Ok missZ.
Proof. refine (eq_trans (monaa_with _ _ _ _ _ _ _ miss_sets miss_kmp) _). vm_compute. reflexivity. Qed.
Lemma miss_monaa : monaa 200 sgAl (clockSize missA) lazyC missA (lopen miss_w) = Ok missZ.
Proof. refine (eq_trans (plain_of 200 sgAl (clockSize missA) lazyC missA (lopen miss_w) eq_refl) _). rewrite C36_signal. exact miss_plain. Qed.
Definition missP : printer := Eval vm_compute in fold_left pr_op (Clear :: map Push missZ) (mkPr false 0 []).
Lemma miss_from : word_from (world1 miss_input) (sopt miss_s) miss_input.
Proof. left. split; [|reflexivity]. split; [reflexivity|]. cbn. constructor. Qed.
Lemma miss_run : sgo miss_s miss_input = Ok (Printed missP).
Proof.
  unfold sgo. rewrite (signal_run_main _ _ _ _ _ _ _ (sopt miss_s) miss_s miss_r miss_input miss_w (sopt_run miss_s ltac:(discriminate)) miss_from miss_rendered miss_parse).
  rewrite miss_ta. cbn [bind fst]. rewrite miss_monaa. reflexivity.
Qed.

(* From 1 to 2.5 the signal is A for 1 and B for 0.5, as the second alternative
   says.  It is not reported: B goes on to 10, so that the first alternative
   matches from 0, and the KMP table excludes the second alternative then. *)
Theorem C70_missed_refuted : signal_run (sopt miss_s) miss_s /\ parse miss_s = Ok (Some miss_r) /\ sigfrag miss_r /\ closed_bounds miss_r /\
  word_from (world1 miss_input) (sopt miss_s) miss_input /\ rendered miss_w miss_input /\ increasing 0 miss_w /\ changing miss_w /\
  sgo miss_s miss_input = Ok (Printed missP) /\
  segment true miss_r miss_w 1 (5 # 2) /\ forall block, In block (pr_out missP) -> ~ Forall (fun q => sat_ineq q 1 (5 # 2)) block.
Proof.
  split; [apply sopt_run; discriminate|]. split; [exact miss_parse|]. split; [exact miss_frag|]. split; [exact miss_closed|].
  split; [exact miss_from|]. split; [exact miss_rendered|]. split; [cbn; repeat split; reflexivity|]. split; [cbn; repeat split; discriminate|].
  split; [exact miss_run|]. split.
  - exists [(65, 1%Q); (66, (1 # 2)%Q)]. split; [|split].
    + right. exists [(65, 1%Q)], [(66, (1 # 2)%Q)]. split; [reflexivity|]. split; [exists 1%Q; split; [reflexivity|lra]|].
      split; [exists (1 # 2)%Q; split; [reflexivity|reflexivity]|split; vm_compute; discriminate].
    + reflexivity.
    + intros y Y1 Y2. unfold letter_at. cbn [find miss_w snd option_map fst sval]. rewrite (qle_false y 1.0) by (change 1.0%Q with (10 # 10)%Q; lra).
      destruct (qle_cases y 2.0) as [(L & ->)|(L & ->)]; change 2.0%Q with (20 # 10)%Q in L.
      * rewrite qle_true by lra. reflexivity.
      * rewrite qle_false by lra. rewrite qle_true by lra. rewrite qle_true by (change 10.0%Q with (100 # 10)%Q; lra). reflexivity.
  - intros block [<-|[]] H. inversion H as [|? ? H0 _]; subst. destruct H0 as (_ & U). cbn in U. revert U. vm_compute. discriminate.
Qed.

(* What is printed: 0 <= t < 1, 7 <= t' <= 10 and 6 < t' - t <= 10; for instance
   from 0.5 to 8 the signal is C, A and B, each as the pattern says. *)
Example C70_case : exists block, In block (pr_out missP) /\ Forall (fun q => sat_ineq q (1 # 2) 8) block /\ segment true miss_r miss_w (1 # 2) 8.
Proof.
  eexists. split; [left; reflexivity|]. split.
  - repeat constructor; cbn; unfold sat_ineq; cbn; unfold Qle, Qlt; cbn; lia.
  - exists [(67, (1 # 2)%Q); (65, 1%Q); (66, 6%Q)]. split; [|split].
    + left. exists [(67, (1 # 2)%Q)], [(65, 1%Q); (66, 6%Q)]. split; [reflexivity|]. split; [exists (1 # 2)%Q; split; reflexivity|].
      exists [(65, 1%Q)], [(66, 6%Q)]. split; [reflexivity|]. split; [exists 1%Q; split; reflexivity|].
      split; [exists 6%Q; split; reflexivity|split; vm_compute; discriminate].
    + reflexivity.
    + intros y Y1 Y2. unfold letter_at. cbn [find miss_w snd option_map fst sval].
      destruct (qle_cases y 1.0) as [(L & ->)|(L & ->)]; change 1.0%Q with (10 # 10)%Q in L; [rewrite qle_true by lra; reflexivity|]. rewrite qle_false by lra.
      destruct (qle_cases y 2.0) as [(L' & ->)|(L' & ->)]; change 2.0%Q with (20 # 10)%Q in L'; [rewrite qle_true by lra; reflexivity|]. rewrite qle_false by lra.
      rewrite qle_true by lra. rewrite qle_true by (change 10.0%Q with (100 # 10)%Q; lra). reflexivity.
Qed.
