(* C80 in signal mode: the printed text of monaa -s, character by character. *)
From Coq Require Import QArith Lqa Bool List ZArith Arith Lia String List.
From Verif Require Import Num NumFacts Outcome Interval Constraint Zone ZoneFacts TA Spec TAFacts Word WordFacts ZA Monaa MonaaFacts MonaaVec Skip EpsZone PropMonaa PropSkip PropModes Tre TreRun TreFacts TreBuild PropTre Text TextFacts PropText Ans Print PrintFacts PrintMicro PropMore Parse ParseSpec Main MainFacts PropMain PropPrint PropPrintMain Signal SignalSpec SignalRep SignalBuild SignalTop SignalDur SignalWords SignalAut PropSignal PropSignal2 PropSignal3 PropSignal4.
Import ListNotations.
Open Scope list_scope.
Open Scope nat_scope.

(* The pairs that satisfy one of the blocks of the text are those that satisfy
   one of the blocks that were computed. *)
Lemma text_exact : forall zs minus t t', (forall z, In z zs -> mgood 3 z) -> Forall mzone zs ->
  let p := fold_left pr_op (Clear :: map Push zs) (mkPr false 0 []) in
  (says (output minus p) t t' <-> exists b, In b (pr_out p) /\ Forall (fun q => sat_ineq q t t') b).
Proof.
  intros zs minus t t' G F p.
  assert (Ep : pr_out p = map print_zone zs).
  { destruct (C46_printer (Clear :: map Push zs) false) as [_ E]. unfold p. rewrite E. cbn [flat_map Datatypes.app]. clear. induction zs as [|z zs IH]; auto. cbn [map flat_map Datatypes.app]. rewrite IH. reflexivity. }
  destruct (C80_read minus p) as (l & Rl & N).
  { rewrite Ep. apply Forall_forall. intros b Hb. apply in_map_iff in Hb as (z & <- & Hz). apply zone_regular. auto. }
  assert (B : Forall (Forall (fun i => mnum (q_lo i) /\ mnum (q_up i))) (pr_out p)).
  { rewrite Ep. apply Forall_forall. intros b Hb. apply in_map_iff in Hb as (z & <- & Hz). rewrite Forall_forall in F. apply zone_mnum. auto. }
  unfold says. rewrite Rl. clear - N B. split.
  - intros (l' & b & [= <-] & Hb & S). induction N as [|x y xs l NX N IH]; [destruct Hb|]. inversion B; subst. destruct Hb as [->|Hb].
    + exists x. split; [left; auto|]. apply (near_block x b t t'); auto.
    + destruct IH as (c & Hc & Sc); auto. exists c. split; [right; auto|auto].
  - intros (b & Hb & S). exists l. induction N as [|x y xs l NX N IH]; [destruct Hb|]. inversion B; subst. destruct Hb as [->|Hb].
    + exists y. split; auto. split; [left; auto|]. apply (near_block b y t t'); auto.
    + destruct IH as (c & _ & Hc & Sc); auto. exists c. split; auto. split; [right; auto|auto].
Qed.

Section PrintSignal.
Context (sepA sepD : heap -> nat -> outcome heap) (dec : list nat -> Q) (fuel : nat) (al0 : nat -> ptr) (al : alloc) (W : world).
Notation run o := (main sepA sepD dec fuel al0 al W o).

(* For signals whose times have at most six decimals: what the text says is
   what was found.  Missing: expressions outside of the fragment of C62. *)
Theorem C80_signal_partial : forall o s r input w minus t t', injective al0 -> signal_run o s -> parse s = Ok (Some r) ->
  sigfrag r -> closed_bounds r \/ open_bounds r ->
  word_from W o input -> rendered w input -> nondecreasing 0 w -> (forall c t, In (c, t) w -> micro t) -> o_quiet o = false ->
  (prints minus (run o) t t' <-> exists A m, toSignalTA sepA sepD fuel al0 r 0 = Ok (A, m) /\
     exists zs z, monaa fuel al (clockSize A) vecC A w = Ok zs /\ In z zs /\ zin 3 z (pairv t t')).
Proof.
  intros o s r input w minus t t' Inj SR Ps F B Wf R ND MW Q. rewrite (signal_run_main sepA sepD dec fuel al0 al W o s r input w SR Wf R Ps).
  destruct (toSignalTA sepA sepD fuel al0 r 0) as [[A m]| | | |] eqn:T; try (split; [intros (p & E & _)|intros (A & m & E & _)]; discriminate). cbn [bind fst]. rewrite Q.
  destruct (sig_shape sepA sepD fuel al0 r 0 A m Inj F B T) as (TI & _). pose proof (sig_no_eps sepA sepD fuel al0 r 0 A m Inj F B T) as NEps.
  pose proof (ti_wf _ _ _ _ TI) as WA.
  assert (P1 : monaa fuel al (clockSize A) lazyC A (lopen w) = monaa_plain fuel al vecC A w) by (unfold monaa; rewrite NEps; apply C36_signal).
  assert (P2 : monaa fuel al (clockSize A) vecC A w = monaa_plain fuel al vecC A w) by (unfold monaa; rewrite NEps; reflexivity).
  rewrite P1. destruct (monaa_plain fuel al vecC A w) as [zs| | | |] eqn:M.
  2-5: split; [intros (p & E & _)|intros (A' & m' & E & zs & z & H & _); injection E as <- <-; rewrite P2 in H]; discriminate.
  cbn [bind]. pose proof (monaa_ok _ _ _ _ _ WA ND M) as OK.
  assert (MZ : Forall mzone zs).
  { unfold monaa_plain in M. destruct (tables fuel al A) as [Tb| | | |]; try discriminate. cbn [bind] in M. eapply (outer_m A Tb MSignal w); [discriminate|exact MW|constructor|exact M]. }
  assert (G : forall z, In z zs -> mgood 3 z) by (intros z Hz; destruct (OK z Hz) as (i & _ & _ & G & _); exact G).
  pose proof (text_exact zs minus t t' G MZ) as X. cbn zeta in X.
  assert (Ep : pr_out (fold_left pr_op (Clear :: map Push zs) (mkPr false 0 [])) = map print_zone zs).
  { destruct (C46_printer (Clear :: map Push zs) false) as [_ E]. rewrite E. cbn [flat_map Datatypes.app]. clear. induction zs as [|z zs IH]; auto. cbn [map flat_map Datatypes.app]. rewrite IH. reflexivity. }
  assert (Z : forall z, In z zs -> (Forall (fun q => sat_ineq q t t') (print_zone z) <-> zin 3 z (pairv t t'))).
  { intros z Hz. destruct (OK z Hz) as (i & _ & _ & Gz & C & _). apply C54_meaning; auto. apply (proj1 C). }
  split.
  - intros (p & E & S). injection E as <-. apply X in S as (b & Hb & S). rewrite Ep in Hb. apply in_map_iff in Hb as (z & <- & Hz). exists A, m. split; auto. exists zs, z. split; [congruence|]. split; auto. apply Z; auto.
  - intros (A' & m' & E & zs' & z & H & Hz & S). injection E as <- <-. rewrite P2 in H. injection H as <-. eexists. split; [reflexivity|]. apply X. exists (print_zone z). rewrite Ep. split; [apply in_map; auto|]. apply Z; auto.
Qed.

(* So whoever reads the text reads segments that the expression describes. *)
Theorem C80_segments_partial : forall o s r input w minus t t', injective al0 -> signal_run o s -> parse s = Ok (Some r) ->
  sigfrag r -> closed_bounds r \/ open_bounds r ->
  word_from W o input -> rendered w input -> nondecreasing 0 w -> (forall c t, In (c, t) w -> micro t) -> o_quiet o = false ->
  prints minus (run o) t t' -> (0 <= t)%Q /\ (t <= t')%Q /\ segment false r w t t'.
Proof.
  intros o s r input w minus t t' Inj SR Ps F B Wf R ND MW Q H. pose proof H as (p & E & _).
  apply (C80_signal_partial o s r input w minus t t' Inj SR Ps F B Wf R ND MW Q) in H as (A & m & T & zs & z & M & Hz & S).
  destruct (sig_shape sepA sepD fuel al0 r 0 A m Inj F B T) as (TI & _). pose proof (sig_no_eps sepA sepD fuel al0 r 0 A m Inj F B T) as NEps.
  unfold monaa in M. rewrite NEps in M. apply (C70_sound_partial sepA sepD fuel al0 r 0 A m Inj F B T); auto. eapply C33_sound; eauto. apply (ti_wf _ _ _ _ TI).
Qed.
End PrintSignal.

(* monaa -s -e '(CAB%[5,20])|(AB%[0,1])' of C70: the text, and a pair in it. *)
Definition miss_text : list nat := flat_map (fun l => PropParse.str l ++ [10])
  [" -0.000000       <= t <   1.000000"; "  7.000000       <= t' <=  10.000000"; "  6.000000        < t' - t <=  10.000000"; "============================="]%string.
Lemma miss_output : output (fun n => n =? 0) missP = miss_text.
Proof. vm_compute. reflexivity. Qed.
Example C80_signal_case : (forall c t, In (c, t) miss_w -> micro t) /\ prints (fun n => n =? 0) (sgo miss_s miss_input) (1 # 2) 8.
Proof.
  split.
  - assert (X : forall z, micro (z # 10)%Q) by (intros z; exists (z * 100000)%Z; unfold Qdiv, Qinv, Qeq; cbn; lia).
    intros c t H. cbn in H. repeat (destruct H as [E|H]; [injection E as <- <-; apply X|]). destruct H.
  - exists missP. split; [exact miss_run|]. rewrite miss_output. eexists. eexists. split; [vm_compute; reflexivity|]. split; [left; reflexivity|].
    repeat constructor; cbn; unfold sat_ineq; cbn; unfold Qle, Qlt; cbn; lia.
Qed.
