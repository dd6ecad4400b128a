(* C77: the message that the pattern matches nothing, in signal mode. *)
From Coq Require Import QArith Lqa Bool List ZArith Arith Lia String.
From Verif Require Import Num Outcome Interval Zone TA Spec Word Monaa MonaaFacts Skip EpsZone PropMonaa Sunday Kmp KmpUB KmpTerm SkipFacts PropSkip PropSkipEx PropModes PropModesEx Tre TreRun TreFacts TreBuild TreMild
  ZATerm ZAFin PropTerm Text TextFacts Ans PropText Signal SignalFacts SignalTerm SignalSpec SignalRep SignalBuild SignalTop SignalDur SignalWords SignalAut SignalLast Parse ParseSpec ParseFacts PropParse Main MainFacts PropMain PropEvent
  PropExact PropReal SignalKnown PropSignal2 PropSignal3 PropSignal4 PropSignal5.
Import ListNotations.
Open Scope list_scope.
Open Scope nat_scope.

Lemma signal_known : forall r al0, injective al0 -> sigfrag r -> closed_bounds r \/ open_bounds r -> simple_plus r -> narrow r -> all_within late r ->
  (forall c, In c (tatoms r) -> ParseSpec.letter c) ->
  exists F A m, (forall s1 s2 fuel, F <= fuel -> toSignalTA s1 s2 fuel al0 r 0 = Ok (A, m)) /\ wf_ta A /\ no_eps A = true /\ returns_ok A (down al0 m) /\
    SignalLast.rising al0 m A /\ (forall p c e, is_edge A p c e -> ParseSpec.letter c) /\ consts_known A.
Proof.
  intros r al0 Inj F B S N L Ch. destruct (signal_ready r al0 Inj F B S N) as (G & A & m & E & W & NE & RO); [intros c H; apply Ch in H; unfold ParseSpec.letter in H; unfold char_max; lia|].
  exists G, A, m. split; auto. split; auto. split; auto. split; auto.
  assert (X : exists b, dur_ok b r /\ pV (cls b) r) by (destruct B as [B|B]; [exists true; split; [apply closed_dur|apply pV_closed]|exists false; split; [apply open_dur|apply pV_open]]; auto).
  destruct X as (b & DU & P). pose proof (E stop stop G (le_n _)) as E0. pose proof (toSignal_spec r F G al0 0) as T. rewrite E0 in T. destruct T as (vss & V & FI).
  destruct (finish_neat al0 b r vss 0 A m Inj F DU P S N V FI) as (R & Le & _). split; auto. split; [intros p c e He; apply Ch; exact (Le p c e He)|].
  eapply finish_known; eauto.
Qed.

Lemma words_ne : forall r w, sigfrag r -> sig_words false r w -> w <> [].
Proof.
  induction r as [c| |r IH|r1 IH1 r2 IH2|r1 IH1 r2 IH2|r1 IH1 r2 IH2|r IH Iv]; intros w F S; cbn [sigfrag] in F; try contradiction.
  - destruct S as (d & -> & _). discriminate.
  - destruct F as (F & _). destruct S as (us & NE & FU & ->). destruct us as [|u us]; [congruence|]. inversion FU as [|? ? H1 _]; subst. pose proof (IH u F H1). destruct u; [congruence|discriminate].
  - destruct F as (F1 & _). destruct S as (w1 & w2 & -> & S1 & _). pose proof (IH1 w1 F1 S1). destruct w1; [congruence|discriminate].
  - destruct F as (F1 & F2). destruct S as [S|S]; auto.
  - destruct F as (F & _). destruct S as (S & _). auto.
Qed.
Lemma merge_ne : forall w, w <> [] -> merge_dw w <> [].
Proof. intros [|[c d] w] H; [congruence|]. cbn [merge_dw]. destruct (merge_dw w) as [|[c' d'] t]; [discriminate|]. destruct (c =? c'); discriminate. Qed.
Lemma positive_deq : forall u w, deq u w -> positive u -> positive w.
Proof. intros u w D. induction D as [|[c d] [c' d'] u w [E1 E2] D IH]; intros P; [constructor|]. inversion P; subst. constructor; [cbn in *; lra|apply IH; auto]. Qed.
Lemma stamps_increasing : forall u T, positive u -> increasing T (stamps T u).
Proof. induction u as [|[c d] u IH]; intros T P; [exact Logic.I|]. inversion P; subst. cbn in *. split; [lra|]. apply IH. auto. Qed.
Lemma delays_positive : forall w T, increasing T w -> positive (delays T w).
Proof. induction w as [|[c t] w IH]; intros T I; [constructor|]. destruct I as (I1 & I2). cbn [delays]. constructor; [cbn; lra|apply IH; auto]. Qed.
Lemma run_letters : forall A p v T w q v' T', Spec.run A p v T w q v' T' -> forall c t, In (c, t) w -> exists p0 e, is_edge A p0 c e.
Proof. intros A p v T w q v' T' R. induction R as [|p v T c t e w q p' v' T' He Et Sg R IH]; intros c0 t0 I; [destruct I|]. destruct I as [[= <- <-]|I]; eauto. Qed.

Section Empty.
Context (sepA sepD : heap -> nat -> outcome heap) (dec : list nat -> Q) (al0 : nat -> ptr) (al : alloc) (W : world).
Notation run fuel o := (main sepA sepD dec fuel al0 al W o).

(* A word of the expression, in which letters may last 0, but in which what is
   made of neighbours with the same letter lasts. *)
Definition lasting (r : tre) (w : dword) : Prop := sig_words false r w /\ positive (merge_dw w).

(* monaa -s exits with 10 exactly if the expression has no such word: the word
   that it reads plays no role.  Missing: expressions outside the fragment, and
   those with an upper bound 0 (see C77_zero_refuted). *)
Theorem C77_signal_partial : forall o s r input w,
  injective al0 -> (forall B m, wf_ta B -> alloc_ok al B m) -> signal_run o s -> parse s = Ok (Some r) ->
  sigfrag r -> closed_bounds r \/ open_bounds r -> simple_plus r -> narrow r -> all_within late r ->
  word_from W o input -> rendered w input -> nondecreasing 0 w -> (forall c t, In (c, t) w -> c < char_max) ->
  exists fuel, forall k,
    (run (fuel + k) o = Exit 10 <-> forall u, ~ lasting r u) /\
    ((exists p, run (fuel + k) o = Ok (Printed p)) <-> exists u, lasting r u).
Proof.
  intros o s r input w Inj AO SR Ps F B S N L Wf R ND HC.
  destruct (signal_known r al0 Inj F B S N L (parse_letters s r Ps)) as (G & A & m & E & WA & NE & [RK RC RL RI] & Ri & Le & CK).
  pose proof (C62_words_partial sepA sepD G al0 r 0 A m Inj F B (E sepA sepD G (le_n _))) as LW.
  assert (X : forall f, G <= f -> run f o = do zs <- monaa_plain f al vecC A w ; Ok (Printed (fold_left pr_op (Clear :: map Push zs) (mkPr (o_quiet o) 0 [])))).
  { intros f Hf. rewrite (signal_run_main sepA sepD dec f al0 al W o s r input w SR Wf R Ps), E by lia. cbn [bind fst]. rewrite (plain_of _ _ _ _ _ _ NE), C36_signal. reflexivity. }
  destruct (tables_end al A (down al0 m) WA (fun m => AO A m WA) RK RC (no_eps_tau A NE) RL RI) as (f & [H|(Tb & H)]).
  - exists (G + f). intros k. replace (G + f + k) with (f + (G + k)) by lia.
    assert (Ex : run (f + (G + k)) o = Exit 10) by (rewrite X by lia; unfold monaa_plain; rewrite H; reflexivity).
    assert (HS : sunday_sets f A = Exit 10).
    { specialize (H 0). rewrite Nat.add_0_r in H. unfold tables in H. destruct (sunday_sets f A) as [sets| | |n|]; cbn [bind] in H; try congruence.
      destruct (kmp_no_ub f al A (List.length sets) WA (AO _ _ WA) ltac:(lia) RC RL) as [(beta & Bt)|Bt]; rewrite Bt in H; discriminate. }
    assert (No : forall u, ~ lasting r u).
    { intros u (SW & PU). assert (NU : nonneg (merge_dw u)) by (apply merge_nonneg; eapply sig_words_nonneg; eauto).
      assert (Ac : accepts A (stamps 0 (merge_dw u))) by (apply (LW _ NU); exists u; split; auto; apply deq_refl).
      destruct Ac as (p & q & v & T & Hp & Rn & Aq).
      apply (sunday_exit f A 10 WA ltac:(lia)) with (2 := HS) (4 := Rn) (5 := Aq); auto.
      - apply (keeps_useful_acyclic f A (down al0 m) WA ltac:(lia)). intros p0 c e q0 He Et. destruct (Ri p0 c e q0 He Et) as (i & j & -> & -> & Lt).
        unfold down. rewrite !(place_al al0 Inj) by lia. lia.
      - apply stamps_increasing. auto.
      - pose proof (merge_ne u (words_ne r u F SW)) as MN. destruct (merge_dw u) as [|[c d] t]; [congruence|discriminate].
      - intros c t Hc. destruct (run_letters _ _ _ _ _ _ _ _ Rn c t Hc) as (p0 & e & He). apply Le in He. unfold ParseSpec.letter in He. unfold char_max. lia. }
    split; [split; auto|]. rewrite Ex. split; [intros (p & Ep); discriminate|]. intros (u & U). destruct (No u U).
  - exists (G + f + List.length w). intros k.
    assert (Ep : exists p, run (G + f + List.length w + k) o = Ok (Printed p)).
    { destruct (C32_terminates_signal (G + f + List.length w + k) al A w Tb WA ND HC) as (zs & Mz); [replace (G + f + List.length w + k) with (f + (G + List.length w + k)) by lia; apply H|lia|].
      eexists. rewrite X, Mz by lia. reflexivity. }
    assert (Yes : exists u, lasting r u).
    { specialize (H 0). rewrite Nat.add_0_r in H. unfold tables in H. apply bind_Ok in H as (sets & HS & _).
      destruct (C26_attained f A sets WA ltac:(lia) CK HS) as (u & Inc & Ac & _). apply accepts_alang in Ac.
      pose proof (delays_positive u 0 Inc) as PD. apply accepts_stamps in Ac. apply (LW _ (nonneg_positive _ PD)) in Ac as (x & SW & D).
      exists x. split; auto. eapply positive_deq; [apply deq_sym; exact D|exact PD]. }
    split; [|split; auto]. destruct Ep as (p & Ep). rewrite Ep. split; [discriminate|]. intros No. destruct Yes as (u & U). destruct (No u U).
Qed.

(* If no word of the expression repeats a letter at once: exactly if the
   expression describes no signal. *)
Corollary C77_signal_exact_partial : forall o s r input w,
  injective al0 -> (forall B m, wf_ta B -> alloc_ok al B m) -> signal_run o s -> parse s = Ok (Some r) ->
  sigfrag r -> closed_bounds r \/ open_bounds r -> simple_plus r -> narrow r -> all_within late r -> (forall u, sig_words false r u -> adjd (letters u)) ->
  word_from W o input -> rendered w input -> nondecreasing 0 w -> (forall c t, In (c, t) w -> c < char_max) ->
  exists fuel, forall k, run (fuel + k) o = Exit 10 <-> forall u, ~ sig_words true r u.
Proof.
  intros o s r input w Inj AO SR Ps F B S N L AD Wf R ND HC. destruct (C77_signal_partial o s r input w Inj AO SR Ps F B S N L Wf R ND HC) as (fuel & H).
  exists fuel. intros k. rewrite (proj1 (H k)). split; intros No u.
  - intros SW. apply (No u). split; [apply sig_words_weaken; auto|]. apply merge_positive. eapply sig_words_positive; eauto.
  - intros (SW & P). rewrite (merge_adjd u (AD u SW)) in P. apply (No u). apply words_strict; auto.
Qed.
End Empty.

(* monaa -s -e 'A(B%[0,0])': B cannot last.  Still monaa does not say so: the
   greatest constant is 0, and the zone automaton forgets that B ends at once. *)
Definition zero_s : list nat := str "A(B%[0,0])".
Definition zero_r : tre := Cat (Atom 65) (Within (Atom 66) (Interval.mkI (Fin 0, true) (Fin 0, true))).
Theorem C77_zero_refuted : signal_run (sopt zero_s) zero_s /\ parse zero_s = Ok (Some zero_r) /\ sigfrag zero_r /\ closed_bounds zero_r /\ simple_plus zero_r /\ narrow zero_r /\
  word_from (world1 tw_input) (sopt zero_s) tw_input /\ rendered tw_w tw_input /\ (forall u, sig_words false zero_r u -> adjd (letters u)) /\
  (forall u, ~ lasting zero_r u) /\ (forall u, ~ sig_words true zero_r u) /\
  forall k, exists p, main sep0 sep0 dec0 (40 + k) (fun k => k) uAl (world1 tw_input) (sopt zero_s) = Ok (Printed p).
Proof.
  split; [apply sopt_run; discriminate|]. split; [vm_compute; reflexivity|]. split.
  { cbn. repeat split; try discriminate; auto. intros l [<-|[]]. exists 66. intros x [<-|[]]; auto. }
  split; [cbn; repeat split; auto; try (right; eexists; reflexivity); exists 0%Z; split; try lia; reflexivity|]. split; [cbn; auto|]. split; [left; cbn; auto|].
  split; [left; split; [|reflexivity]; split; [reflexivity|]; cbn; constructor|]. split; [exact tw_rendered|].
  assert (X : forall u, sig_words false zero_r u -> exists d e, u = [(65, d); (66, e)] /\ (e <= 0)%Q).
  { intros u (w1 & w2 & -> & (d & -> & _) & ((e & -> & _) & _ & Y)). exists d, e. split; auto. cbn in Y. unfold below, duration, qsum in Y. cbn in Y. lra. }
  split; [intros u SW; destruct (X u SW) as (d & e & -> & _); cbn; repeat split; auto|].
  assert (Y : forall u, sig_words false zero_r u -> positive u -> False).
  { intros u SW P. destruct (X u SW) as (d & e & -> & Le). inversion P as [|? ? _ P2]; subst. inversion P2; subst. cbn in *. lra. }
  split; [intros u (SW & P); apply (Y u SW); destruct (X u SW) as (d & e & -> & _); exact P|].
  split; [intros u SW; apply (Y u); [apply sig_words_weaken; auto|eapply sig_words_positive; eauto]|].
  intros k. eexists. vm_compute. reflexivity.
Qed.

(* Of the two patterns the first describes nothing, and the second something
   that is not in the word. *)
Definition never_s : list nat := str "(A%[3,5])%[1,2]".
Definition never_r : tre := Within (Within (Atom 65) (Interval.mkI (Fin 3, true) (Fin 5, true))) (Interval.mkI (Fin 1, true) (Fin 2, true)).
Definition other_s : list nat := str "C(B%[1,3])".
Definition other_r : tre := Cat (Atom 67) (Within (Atom 66) (Interval.mkI (Fin 1, true) (Fin 3, true))).
Example C77_signal_case :
  (word_from (world1 tw_input) (sopt never_s) tw_input /\ word_from (world1 tw_input) (sopt other_s) tw_input /\ rendered tw_w tw_input /\ nondecreasing 0 tw_w /\ (forall c t, In (c, t) tw_w -> c < char_max)) /\
  (signal_run (sopt never_s) never_s /\ parse never_s = Ok (Some never_r) /\ sigfrag never_r /\ closed_bounds never_r /\ simple_plus never_r /\ narrow never_r /\ all_within late never_r /\
   (forall u, sig_words false never_r u -> adjd (letters u)) /\ (forall u, ~ lasting never_r u) /\
   main sep0 sep0 dec0 40 (fun k => k) uAl (world1 tw_input) (sopt never_s) = Exit 10) /\
  (signal_run (sopt other_s) other_s /\ parse other_s = Ok (Some other_r) /\ sigfrag other_r /\ closed_bounds other_r /\ simple_plus other_r /\ narrow other_r /\ all_within late other_r /\
   lasting other_r [(67, 1%Q); (66, 2%Q)] /\
   exists p, main sep0 sep0 dec0 40 (fun k => k) uAl (world1 tw_input) (sopt other_s) = Ok (Printed p) /\ pr_count p = 0).
Proof.
  split.
  { split; [left; split; [|reflexivity]; split; [reflexivity|]; cbn; constructor|]. split; [left; split; [|reflexivity]; split; [reflexivity|]; cbn; constructor|].
    split; [exact tw_rendered|]. split; [cbn; repeat split; vm_compute; discriminate|]. intros c t [E|[E|[E|[]]]]; injection E as <- _; vm_compute; lia. }
  split.
  - split; [apply sopt_run; discriminate|]. split; [vm_compute; reflexivity|].
    split. { cbn. split; [split; [discriminate|]|]; intros l [<-|[]]; exists 65; intros x [<-|[]]; auto. }
    split; [cbn; repeat split; auto; try (right; eexists; reflexivity); [exists 3%Z|exists 1%Z]; split; try lia; reflexivity|]. split; [cbn; auto|]. split; [left; cbn; auto|].
    split; [cbn; repeat split; try (eexists; reflexivity); right; eexists; (split; [reflexivity|lra])|].
    split; [intros u (((d & -> & _) & _) & _); cbn; auto|].
    split; [|vm_compute; reflexivity]. intros u (((( d & -> & _) & Y1 & _) & _ & Y2) & _). cbn in Y1, Y2. unfold above, below, duration, qsum in *. cbn in *. lra.
  - split; [apply sopt_run; discriminate|]. split; [vm_compute; reflexivity|].
    split. { cbn. repeat split; try discriminate; auto. intros l [<-|[]]. exists 66. intros x [<-|[]]; auto. }
    split; [cbn; repeat split; auto; try (right; eexists; reflexivity); exists 1%Z; split; try lia; reflexivity|]. split; [cbn; auto|]. split; [left; cbn; auto|].
    split; [cbn; repeat split; try (eexists; reflexivity); right; eexists; (split; [reflexivity|lra])|].
    split. { split; [|repeat constructor; cbn; lra]. exists [(67, 1%Q)], [(66, 2%Q)]. split; auto. split; [exists 1%Q; split; [auto|lra]|].
      split; [exists 2%Q; split; [auto|lra]|]. split; unfold above, below, duration, qsum; cbn; lra. }
    eexists. split; [vm_compute; reflexivity|]. reflexivity.
Qed.
