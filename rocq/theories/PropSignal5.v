(* C78: monaa -s returns. *)
From Coq Require Import QArith Lqa Bool List ZArith Arith Lia String.
From Verif Require Import Num Outcome Interval Zone TA Spec Word Monaa MonaaFacts Skip EpsZone PropMonaa Sunday Kmp KmpUB SkipFacts PropSkip PropSkipEx PropModes PropModesEx Tre TreRun TreFacts TreBuild TreMild
  ZATerm ZAFin PropTerm Text TextFacts Ans PropText Signal SignalFacts SignalTerm SignalSpec SignalRep SignalBuild SignalTop SignalDur SignalWords SignalAut SignalLast Parse ParseSpec ParseFacts PropParse Main MainFacts PropMain PropEvent PropSignal2 PropSignal3 PropSignal4.
Import ListNotations.
Open Scope nat_scope.

Lemma parse_letters : forall s r, parse s = Ok (Some r) -> forall c, In c (tatoms r) -> ParseSpec.letter c.
Proof.
  intros s r E c H. unfold parse in E. destruct (parse_form s) as [ts F S|ts rest c' F I N|ts rest a ds b F D V].
  - destruct (parse_sound ts [] [] [] r F rep_nil E) as (x & _ & T & ->). apply den_atoms in H. cbn [Datatypes.app] in T. rewrite <- T in S. eapply spelled_atoms; eauto. apply toks_atoms; auto.
  - destruct (parse_prefix ts [] TJam rest (Exit 2) F) as [K|K]; [reflexivity| |]; rewrite K in E; discriminate.
  - destruct (parse_prefix ts [] TOver rest UB F) as [K|K]; [reflexivity| |]; rewrite K in E; discriminate.
Qed.

(* The automaton of an expression of the fragment, from some fuel on. *)
Lemma signal_ready : forall r al0, injective al0 -> sigfrag r -> closed_bounds r \/ open_bounds r -> simple_plus r -> narrow r ->
  (forall c, In c (tatoms r) -> c < char_max) ->
  exists F A m, (forall s1 s2 fuel, F <= fuel -> toSignalTA s1 s2 fuel al0 r 0 = Ok (A, m)) /\ wf_ta A /\ no_eps A = true /\ returns_ok A (down al0 m).
Proof.
  intros r al0 Inj F B S N Ch. destruct (C63_returns_partial r F B S) as (G & HG).
  assert (X : exists b, dur_ok b r /\ pV (cls b) r) by (destruct B as [B|B]; [exists true; split; [apply closed_dur|apply pV_closed]|exists false; split; [apply open_dur|apply pV_open]]; auto).
  destruct X as (b & DU & P). destruct (vchs_ok r F S) as (vss & V). destruct (finish_spec al0 b r vss 0 Inj F DU P V) as (A & m & FI & TI & C & _).
  assert (EQ : forall s1 s2 fuel, G <= fuel -> toSignalTA s1 s2 fuel al0 r 0 = Ok (A, m)).
  { intros s1 s2 fuel Le. destruct (HG s1 s2 fuel al0 0 Inj Le) as (A' & m' & E & _). rewrite E. rewrite (signal_no_separation s1 s2 stop stop) in E.
    pose proof (toSignal_spec r F fuel al0 0) as T. rewrite E in T. destruct T as (vss' & V' & FI'). assert (vss' = vss) as -> by congruence. congruence. }
  exists G, A, m. split; [exact EQ|]. split; [eapply ti_wf; eauto|]. split; [exact (sig_no_eps stop stop G al0 r 0 A m Inj F B (EQ stop stop G (le_n _)))|].
  destruct (finish_neat al0 b r vss 0 A m Inj F DU P S N V FI) as (R & L & Lo). constructor.
  - lia.
  - intros p c e He. apply Ch. eapply L; eauto.
  - apply lonely_last. auto.
  - left. apply rising_idle; auto.
Qed.

(* monaa -s, from the texts: it prints the lines that a printer has or says that
   the pattern is empty, on all words of ASCII letters, with enough fuel.
   Missing: expressions outside the fragment; iterated expressions with more
   than one disjunct at the end (see C78_twice_refuted). *)
Theorem C78_returns_partial : forall sepA sepD dec al0 al W o s r input w,
  injective al0 -> (forall B m, wf_ta B -> alloc_ok al B m) -> signal_run o s -> parse s = Ok (Some r) ->
  sigfrag r -> closed_bounds r \/ open_bounds r -> simple_plus r -> narrow r ->
  word_from W o input -> rendered w input -> nondecreasing 0 w -> (forall c t, In (c, t) w -> c < char_max) ->
  exists fuel, (forall k, main sepA sepD dec (fuel + k) al0 al W o = Exit 10) \/ (forall k, exists p, main sepA sepD dec (fuel + k) al0 al W o = Ok (Printed p)).
Proof.
  intros sepA sepD dec al0 al W o s r input w Inj AO SR Ps F B S N Wf R ND HC.
  destruct (signal_ready r al0 Inj F B S N) as (G & A & m & E & WA & NE & RO).
  { intros c H. apply (parse_letters s r Ps) in H. unfold ParseSpec.letter in H. unfold char_max. lia. }
  destruct (C72_returns_signal_partial al A (down al0 m) w WA NE RO (fun m => AO A m WA) ND HC) as (f & [X|X]); exists (G + f).
  - left. intros k. rewrite (signal_run_main sepA sepD dec (G + f + k) al0 al W o s r input w SR Wf R Ps), E by lia. cbn [bind fst].
    rewrite (plain_of _ _ _ _ _ _ NE), C36_signal. replace (G + f + k) with (f + (G + k)) by lia. rewrite X. reflexivity.
  - right. intros k. rewrite (signal_run_main sepA sepD dec (G + f + k) al0 al W o s r input w SR Wf R Ps), E by lia. cbn [bind fst].
    rewrite (plain_of _ _ _ _ _ _ NE), C36_signal. replace (G + f + k) with (f + (G + k)) by lia. destruct (X (G + k)) as (zs & ->). cbn [bind]. eauto.
Qed.

(* monaa -s -e '(A|A)+': the durations of the single letter are three intervals,
   the three transitions are in one vector, and libmonaa/kmp_skip_value.hh:40-46
   appends to the vector while it iterates over it. *)
Definition twice_s : list nat := str "(A|A)+".
Definition twice_r : tre := Plus (Alt (Atom 65) (Atom 65)).
Definition twice_input : list nat := str "A 1.0" ++ [10].
Definition twice_w : tword := [(65, 1.0%Q)].
Lemma twice_rendered : rendered twice_w twice_input.
Proof.
  assert (X : exists w, rendered w twice_input /\ w = twice_w); [|destruct X as (w & R & ->); exact R]. eexists. split.
  - unfold twice_input. cbn. apply (rend_line 65 (Decimal.D1 Decimal.Nil) (Decimal.D0 Decimal.Nil)); [reflexivity|discriminate|]. apply rend_nil. constructor.
  - vm_compute. reflexivity.
Qed.
(* The run is undefined, however long it goes on. *)
Theorem C78_twice_refuted : signal_run (sopt twice_s) twice_s /\ parse twice_s = Ok (Some twice_r) /\ sigfrag twice_r /\ closed_bounds twice_r /\ simple_plus twice_r /\
  word_from (world1 twice_input) (sopt twice_s) twice_input /\ rendered twice_w twice_input /\ increasing 0 twice_w /\
  forall k, main sep0 sep0 dec0 (20 + k) (fun k => k) uAl (world1 twice_input) (sopt twice_s) = UB.
Proof.
  split; [apply sopt_run; discriminate|]. split; [vm_compute; reflexivity|]. split.
  { cbn. split; [split; discriminate|]. exists 65. intros l [<-|[<-|[]]] x [<-|[]]; auto. }
  split; [cbn; auto|]. split; [cbn; repeat split; lia|]. split; [left; split; [|reflexivity]; split; [reflexivity|]; cbn; constructor|].
  split; [exact twice_rendered|]. split; [cbn; repeat split; reflexivity|]. intros k. vm_compute. reflexivity.
Qed.

(* monaa -s -e '(A|A)+(B%[1,3])': the last letter has one interval; the three
   intervals of the first letter make that the same block is printed three times. *)
Definition tw_s : list nat := str "(A|A)+(B%[1,3])".
Definition tw_r : tre := Cat (Plus (Alt (Atom 65) (Atom 65))) (Within (Atom 66) (Interval.mkI (Fin 1, true) (Fin 3, true))).
Definition tw_input : list nat := flat_map (fun l => str l ++ [10]) ["A 1.0"; "B 4.0"; "C 5.0"]%string.
Definition tw_w : tword := [(65, 1.0%Q); (66, 4.0%Q); (67, 5.0%Q)].
Lemma tw_rendered : rendered tw_w tw_input.
Proof.
  assert (X : exists w, rendered w tw_input /\ w = tw_w); [|destruct X as (w & R & ->); exact R]. eexists. split.
  - unfold tw_input. cbn. apply (rend_line 65 (Decimal.D1 Decimal.Nil) (Decimal.D0 Decimal.Nil)); [reflexivity|discriminate|].
    apply (rend_line 66 (Decimal.D4 Decimal.Nil) (Decimal.D0 Decimal.Nil)); [reflexivity|discriminate|].
    apply (rend_line 67 (Decimal.D5 Decimal.Nil) (Decimal.D0 Decimal.Nil)); [reflexivity|discriminate|]. apply rend_nil. constructor.
  - vm_compute. reflexivity.
Qed.
Example C78_case : signal_run (sopt tw_s) tw_s /\ parse tw_s = Ok (Some tw_r) /\ sigfrag tw_r /\ closed_bounds tw_r /\ simple_plus tw_r /\ narrow tw_r /\
  word_from (world1 tw_input) (sopt tw_s) tw_input /\ rendered tw_w tw_input /\ nondecreasing 0 tw_w /\ (forall c t, In (c, t) tw_w -> c < char_max) /\
  (forall B m, wf_ta B -> alloc_ok uAl B m) /\
  exists p, main sep0 sep0 dec0 40 (fun k => k) uAl (world1 tw_input) (sopt tw_s) = Ok (Printed p) /\ pr_count p = 3.
Proof.
  split; [apply sopt_run; discriminate|]. split; [vm_compute; reflexivity|]. split.
  { cbn. repeat split; try discriminate; auto.
    - exists 65. intros l [<-|[<-|[]]] x [<-|[]]; auto.
    - intros l [<-|[]]. exists 66. intros x [<-|[]]; auto. }
  split; [cbn; repeat split; auto; try (right; eexists; reflexivity); exists 1%Z; split; try lia; reflexivity|]. split; [cbn; repeat split; lia|].
  split. { right. split; [left; exact Logic.I|]. intros l [<-|[]]. cbn. auto. }
  split; [left; split; [|reflexivity]; split; [reflexivity|]; cbn; constructor|].
  split; [exact tw_rendered|]. split; [cbn; repeat split; vm_compute; discriminate|]. split.
  { intros c t [E|[E|[E|[]]]]; injection E as <- _; vm_compute; lia. }
  split; [intros; apply uAl_ok; auto|]. eexists. split; [vm_compute; reflexivity|]. reflexivity.
Qed.
