(* C70: signal mode from the texts to the printed lines. *)
From Coq Require Import QArith Lqa Bool List ZArith Arith Lia.
From Verif Require Import Num Outcome Interval Zone ZoneFacts TA Spec TAFacts Word Monaa MonaaFacts MonaaVec Skip EpsZone PropMonaa PropSkip PropModes Tre TreRun TreFacts TreBuild PropTre
  Text TextFacts Ans PropText Signal SignalSpec SignalRep SignalBuild SignalTop SignalDur SignalWords SignalAut PropSignal2 Parse ParseSpec Main MainFacts PropMain.
Import ListNotations.
Open Scope nat_scope.

(* ---------------- what a match is, without automata ---------------- *)

(* doc/input_formats.md: in signal mode the letter of an event holds up to its
   time.  The letter at time y is that of the first event at y or later. *)
Definition letter_at (w : tword) (y : Q) : option nat := option_map fst (find (fun e => Qle_bool y (snd e)) w).

(* The signal of w from t to t' is one that the expression describes. *)
Definition segment (strict : bool) (r : tre) (w : tword) (t t' : Q) : Prop :=
  exists u, sig_words strict r u /\ (duration u == t' - t)%Q /\ forall y, (t < y)%Q -> (y <= t')%Q -> sval u (y - t) = letter_at w y.

(* The letter changes at every event. *)
Fixpoint changing (w : tword) : Prop :=
  match w with
  | (c, _) :: w' => match w' with (c', _) :: _ => c <> c' | [] => True end /\ changing w'
  | [] => True
  end.

(* ---------------- the word of a segment ---------------- *)

Lemma sval_letter : forall w T y, nondecreasing T w -> sval (delays T w) (y - T) = letter_at w y.
Proof.
  unfold letter_at. induction w as [|[c d] w IH]; intros T y ND; auto. cbn [delays sval find snd]. destruct ND as (N1 & N2).
  replace (Qle_bool (y - T) (d - T)) with (Qle_bool y d) by (apply eq_iff_eq_true; rewrite !Qle_bool_iff; split; lra).
  destruct (Qle_bool y d); auto. rewrite <- (IH d y N2). apply sval_eq. ring.
Qed.

Lemma ahead_all : forall w T, nondecreasing T w -> forall x, In x w -> (T <= snd x)%Q.
Proof.
  induction w as [|[c d] w IH]; intros T ND x Hx; [destruct Hx|]. destruct ND as (N1 & N2). destruct Hx as [<-|Hx]; [exact N1|].
  specialize (IH d N2 x Hx). lra.
Qed.
Lemma nd_app : forall w1 T w2, nondecreasing T (w1 ++ w2) -> nondecreasing (last (map snd w1) T) w2 /\ nondecreasing T w1.
Proof.
  induction w1 as [|[c d] w1 IH]; intros T w2 ND; [split; [exact ND|exact Logic.I]|]. destruct ND as (N1 & N2). destruct (IH d w2 N2) as (H1 & H2).
  cbn [map snd]. rewrite last_cons. split; auto. split; auto.
Qed.

(* The events between t and t', and the next one moved to t'. *)
Definition cut (w : tword) (t t' : Q) (c : nat) : tword := between w t t' ++ [(c, t')].
Lemma between_pre : forall pre c tau post t t', nondecreasing 0 (pre ++ (c, tau) :: post) -> (t' <= tau)%Q ->
  between (pre ++ (c, tau) :: post) t t' = between pre t t'.
Proof.
  intros pre c tau post t t' ND L. unfold between. rewrite filter_app. cbn [filter snd]. rewrite (proj2 (Qle_bool_iff t' tau)) by auto. rewrite andb_false_r.
  destruct (nd_app _ _ _ ND) as (N & _). destruct N as (_ & N). pose proof (ahead_all _ _ N) as H. clear - H L.
  replace (filter _ post) with (@nil (nat * Q)); [apply app_nil_r|]. symmetry. induction post as [|x post IH]; auto. cbn [filter].
  rewrite (proj2 (Qle_bool_iff t' (snd x))) by (specialize (H x (or_introl eq_refl)); lra). rewrite andb_false_r. apply IH. intros y Hy. apply H. right. auto.
Qed.
Lemma cut_letter : forall pre c tau post t t' y, nondecreasing 0 (pre ++ (c, tau) :: post) -> (forall x, In x pre -> (snd x < t')%Q) -> (t' <= tau)%Q ->
  (t < y)%Q -> (y <= t')%Q -> letter_at (cut (pre ++ (c, tau) :: post) t t' c) y = letter_at (pre ++ (c, tau) :: post) y.
Proof.
  intros pre c tau post t t' y ND HP HT H1 H2. unfold cut. rewrite between_pre by auto. clear ND. unfold letter_at. induction pre as [|x pre IH].
  - cbn. rewrite !(proj2 (Qle_bool_iff _ _)) by lra. reflexivity.
  - cbn [app find between filter]. assert (HX : (snd x < t')%Q) by (apply HP; left; auto).
    destruct (qle_cases t' (snd x)) as [(X & _)|(_ & ->)]; [lra|]. cbn [negb]. rewrite andb_true_r.
    destruct (qle_cases (snd x) t) as [(X & ->)|(X & ->)]; cbn [negb].
    + rewrite (qle_false y (snd x)) by lra. apply IH. intros z Hz. apply HP. right. auto.
    + cbn [app find]. destruct (Qle_bool y (snd x)); auto. apply IH. intros z Hz. apply HP. right. auto.
Qed.
Lemma between_nd : forall w T t t', nondecreasing T w -> nondecreasing t (between w t t').
Proof.
  assert (X : forall w T t t', nondecreasing T w -> (t <= T)%Q -> nondecreasing T (between w t t')).
  { induction w as [|[c d] w IH]; intros T t t' ND L; [exact Logic.I|]. destruct ND as (N1 & N2). unfold between. cbn [filter]. fold (between w t t'). destruct (_ && _).
    - split; auto. apply IH; auto. lra.
    - specialize (IH d t t' N2 ltac:(lra)). destruct (between w t t') as [|[c' d'] l]; auto. destruct IH as (I1 & I2). split; auto. lra. }
  induction w as [|[c d] w IH]; intros T t t' ND; [exact Logic.I|]. destruct ND as (N1 & N2). unfold between. cbn [filter snd]. fold (between w t t').
  destruct (qle_cases d t) as [(L & ->)|(L & ->)]; cbn [negb andb]; [eapply IH; eauto|]. destruct (Qle_bool t' d); cbn [negb]; [eapply IH; eauto|].
  split; [cbn; lra|]. apply X; auto. lra.
Qed.
Lemma between_last : forall w t t' x, In x (between w t t') -> (t < snd x)%Q /\ (snd x < t')%Q.
Proof.
  intros w t t' x H. apply filter_In in H as (_ & H). apply andb_prop in H as (H1 & H2).
  destruct (qle_cases (snd x) t) as [(_ & E)|(L & _)]; [rewrite E in H1; discriminate|]. destruct (qle_cases t' (snd x)) as [(_ & E)|(L' & _)]; [rewrite E in H2; discriminate|]. auto.
Qed.
Lemma nd_snoc : forall w T c t', nondecreasing T w -> (T <= t')%Q -> (forall x, In x w -> (snd x <= t')%Q) -> nondecreasing T (w ++ [(c, t')]).
Proof.
  induction w as [|[a d] w IH]; intros T c t' ND L H; cbn; [auto|]. destruct ND as (N1 & N2). split; auto. apply IH; auto; [apply (H (a, d)); left; auto|intros x Hx; apply H; right; auto].
Qed.
Lemma cut_nd : forall w t t' c T, nondecreasing T w -> (t <= t')%Q -> nondecreasing t (cut w t t' c).
Proof.
  intros w t t' c T ND L. apply nd_snoc; auto; [eapply between_nd; eauto|]. intros x Hx. apply between_last in Hx. lra.
Qed.
Lemma delays_nonneg : forall w T, nondecreasing T w -> nonneg (delays T w).
Proof. induction w as [|[c d] w IH]; intros T ND; [constructor|]. destruct ND as (N1 & N2). constructor; [cbn; lra|apply IH; auto]. Qed.
Lemma delays_dur : forall w T, (duration (delays T w) == last (map snd w) T - T)%Q.
Proof.
  induction w as [|[c d] w IH]; intros T; [unfold duration, qsum; cbn; ring|]. cbn [delays map snd]. rewrite dur_cons, IH, last_cons. cbn [snd]. ring.
Qed.
Lemma cut_dur : forall w t t' c, (duration (delays t (cut w t t' c)) == t' - t)%Q.
Proof. intros. rewrite delays_dur. unfold cut. rewrite map_app. cbn [map snd]. rewrite last_last. ring. Qed.

(* A match of the automaton is a cut that it accepts. *)
Lemma signal_cut : forall A w t t', signal_matches A w t t' <->
  (0 <= t)%Q /\ (t <= t')%Q /\ exists pre c tau post, w = pre ++ (c, tau) :: post /\ (forall x, In x pre -> (snd x < t')%Q) /\ (t' <= tau)%Q /\
    lang_of A (delays t (cut w t t' c)).
Proof.
  intros A w t t'. unfold signal_matches, cut. split; intros (H1 & H2 & H3); (split; [auto|split; auto]).
  - destruct H3 as (pre & c & tau & post & p & q & v & T & e & acc & Ew & Hpre & Htau & Hp & R & He & Et & Ha & Sg).
    exists pre, c, tau, post. split; auto. split; auto. split; auto. rewrite delays_app.
    exists p, acc. eexists. split; auto. split; [|exact Ha]. eapply drun_app; [eapply run_drun, R|].
    rewrite <- (run_end _ _ _ _ _ _ _ _ R). cbn [delays]. econstructor; eauto. constructor.
  - destruct H3 as (pre & c & tau & post & Ew & Hpre & Htau & p & acc & v & Hp & R & Ha). rewrite delays_app in R.
    destruct (drun_snoc _ _ _ _ _ _ R) as (u0 & c0 & d & q & v0 & e & Eu & R0 & He & Et & Sg & Ev); [cbn; destruct (delays t (between w t t')); discriminate|].
    cbn [delays] in Eu. apply app_inj_tail in Eu as [Eu Ec]. injection Ec as <- <-. subst u0.
    destruct (drun_run _ _ _ _ _ _ R0 t (between w t t') eq_refl) as (T & R1).
    exists pre, c, tau, post, p, q, v0, T, e, acc. rewrite (run_end _ _ _ _ _ _ _ _ R1). repeat split; auto. rewrite <- (run_end _ _ _ _ _ _ _ _ R1). auto.
Qed.

Lemma increasing_nd : forall w T, increasing T w -> nondecreasing T w.
Proof. induction w as [|[c d] w IH]; intros T I; [exact Logic.I|]. destruct I as (I1 & I2). split; [lra|apply IH; auto]. Qed.

(* The word of a cut is canonical if the letters change. *)
Lemma cut_canonical : forall pre c tau post t t', increasing 0 (pre ++ (c, tau) :: post) -> changing (pre ++ (c, tau) :: post) ->
  (forall x, In x pre -> (snd x < t')%Q) -> (t' <= tau)%Q -> (t < t')%Q -> canonical (delays t (cut (pre ++ (c, tau) :: post) t t' c)).
Proof.
  intros pre c tau post t t' Inc Ch HP HT L. unfold cut. rewrite between_pre by (auto; apply increasing_nd; auto).
  assert (X : forall pre T s, increasing T (pre ++ (c, tau) :: post) -> changing (pre ++ (c, tau) :: post) -> (forall x, In x pre -> (snd x < t')%Q) -> (t <= s)%Q -> (s < t')%Q -> (pre = [] \/ (s <= T)%Q \/ s = t) ->
    canonical (delays s (between pre t t' ++ [(c, t')])) /\
    match pre with x :: _ => (s <= T)%Q -> exists d u, delays s (between pre t t' ++ [(c, t')]) = (fst x, d) :: u | [] => exists d u, delays s (between pre t t' ++ [(c, t')]) = (c, d) :: u end).
  { clear - HT. induction pre as [|[a d] pre IH]; intros T s Inc Ch HP L1 L2 HS.
    - split; [cbn; repeat split; auto; lra|cbn; eauto].
    - destruct Inc as (I1 & I2). destruct Ch as (C1 & C2). assert (HX : (d < t')%Q) by (apply (HP (a, d)); left; auto).
      assert (HP' : forall x, In x pre -> (snd x < t')%Q) by (intros x Hx; apply HP; right; auto).
      unfold between. cbn [filter snd]. fold (between pre t t'). rewrite (qle_false t' d) by auto. cbn [negb]. rewrite andb_true_r.
      destruct (qle_cases d t) as [(LL & ->)|(LL & ->)]; cbn [negb].
      + destruct HS as [HS|[HS| ->]]; [discriminate|lra|]. split; [apply (IH d t); auto|intros; lra].
      + cbn [app delays]. destruct (IH d d I2 C2 HP' ltac:(lra) HX ltac:(right; left; lra)) as (D1 & D2). split; [|intros _; eexists _, _; reflexivity].
        cbn [canonical]. split; [destruct HS as [HS|[HS| ->]]; [discriminate|lra|lra]|]. split; auto.
        destruct pre as [|[a' d'] pre].
        * destruct D2 as (d2 & u & ->). exact C1.
        * destruct (D2 ltac:(lra)) as (d2 & u & ->). exact C1. }
  apply (X pre 0%Q t); auto; lra.
Qed.

Lemma sval_past : forall u x, nonneg u -> (duration u < x)%Q -> sval u x = None.
Proof.
  induction u as [|[c d] u IH]; intros x N L; auto. inversion N as [|? ? Hd N']; subst. cbn [snd] in Hd. rewrite dur_cons in L. cbn [snd] in L. cbn [sval].
  assert (0 <= duration u)%Q. { clear - N'. induction N' as [|y u Y N IH]; [unfold duration, qsum; cbn; lra|]. rewrite dur_cons. lra. }
  rewrite qle_false by lra. apply IH; auto. lra.
Qed.
Lemma sval_here : forall u x, (0 < x)%Q -> (x <= duration u)%Q -> sval u x <> None.
Proof.
  induction u as [|[c d] u IH]; intros x P L; [unfold duration, qsum in L; cbn in L; lra|]. rewrite dur_cons in L. cbn [snd] in L. cbn [sval].
  destruct (qle_cases x d) as [(_ & ->)|(X & ->)]; [discriminate|]. apply IH; lra.
Qed.
Lemma find_split : forall w y, letter_at w y <> None -> exists pre c tau post, w = pre ++ (c, tau) :: post /\ (forall x, In x pre -> (snd x < y)%Q) /\ (y <= tau)%Q.
Proof.
  unfold letter_at. induction w as [|[c d] w IH]; intros y H; [destruct H; reflexivity|]. cbn [find snd] in H. destruct (qle_cases y d) as [(L & E)|(L & E)]; rewrite E in H.
  - exists [], c, d, w. split; auto. split; [intros x []|auto].
  - destruct (IH y H) as (pre & c0 & tau & post & -> & H1 & H2). exists ((c, d) :: pre), c0, tau, post. split; auto. split; auto. intros x [<-|Hx]; auto.
Qed.

(* ================= C70 ================= *)

Section Frag.
Context (s1 s2 : heap -> nat -> outcome heap) (fuel0 : nat) (al0 : nat -> ptr) (r : tre) (n : nat) (A : ta) (m : nat).
Context (Inj : injective al0) (F : sigfrag r) (B : closed_bounds r \/ open_bounds r) (E : toSignalTA s1 s2 fuel0 al0 r n = Ok (A, m)).

Lemma sig_shape : tinv al0 n m A /\ clockSize A <= 1.
Proof.
  clear - Inj F B E. destruct B as [B'|B'].
  - apply (signal_shape true s1 s2 fuel0 al0 r n A m); auto; [apply closed_dur|apply pV_closed]; auto.
  - apply (signal_shape false s1 s2 fuel0 al0 r n A m); auto; [apply open_dur|apply pV_open]; auto.
Qed.
Lemma sig_no_eps : no_eps A = true.
Proof.
  destruct sig_shape as (T & _). unfold no_eps. apply forallb_forall. intros [p s] H. cbn.
  destruct (assoc 0 (next s)) as [es|] eqn:Es; auto. apply assoc_In in Es.
  destruct es as [|e es]; [exfalso; eapply (ti_full _ _ _ _ T); eauto|]. exfalso.
  apply (ti_obs _ _ _ _ T p 0 e); auto. exists s, (e :: es). repeat split; auto. left. auto.
Qed.

(* A match is a segment of the expression, where letters may last 0. *)
Theorem C70_sound_partial : forall w t t', nondecreasing 0 w -> signal_matches A w t t' -> (0 <= t)%Q /\ (t <= t')%Q /\ segment false r w t t'.
Proof.
  intros w t t' ND M. apply signal_cut in M as (H0 & H1 & pre & c & tau & post & Ew & HP & HT & L). split; auto. split; auto.
  pose proof (cut_nd w t t' c 0 ND H1) as NC. pose proof (delays_nonneg _ _ NC) as NN.
  unfold lang_of in L. rewrite <- accepts_stamps in L. apply (C62_words_partial s1 s2 fuel0 al0 r n A m Inj F B E _ NN) in L as (u & S & D).
  exists u. split; auto. split.
  - rewrite <- (merge_dur u), (deq_dur _ _ D). apply cut_dur.
  - intros y Y1 Y2. rewrite <- merge_sval; [|eapply sig_words_nonneg; eauto|lra]. rewrite (sval_deq _ _ D), (sval_letter _ _ _ NC). rewrite Ew in ND |- *. apply cut_letter; auto.
Qed.

(* A segment of the expression is a match, if the letter changes at every event. *)
Theorem C70_complete_partial : forall w t t', increasing 0 w -> changing w -> (0 <= t)%Q -> (t < t')%Q -> segment true r w t t' -> signal_matches A w t t'.
Proof.
  intros w t t' Inc Ch H0 H1 (u & S & D & V). pose proof (sig_words_positive _ _ S) as P. pose proof (nonneg_positive _ P) as N.
  destruct (find_split w t') as (pre & c & tau & post & Ew & HP & HT).
  { rewrite <- (V t') by lra. apply sval_here; lra. }
  apply signal_cut. split; auto. split; [lra|]. exists pre, c, tau, post. split; auto. split; auto. split; auto.
  pose proof (increasing_nd _ _ Inc) as ND. pose proof (cut_nd w t t' c 0 ND ltac:(lra)) as NC. pose proof (delays_nonneg _ _ NC) as NN.
  unfold lang_of. rewrite <- accepts_stamps. apply (C62_words_partial s1 s2 fuel0 al0 r n A m Inj F B E _ NN).
  exists u. split; [apply sig_words_weaken; auto|]. apply canonical_unique.
  - apply merge_canonical. auto.
  - rewrite Ew in *. apply cut_canonical; auto.
  - intros x X. rewrite merge_sval by auto. destruct (Qlt_le_dec (t' - t) x) as [L|L].
    + rewrite !sval_past; auto; [rewrite cut_dur|rewrite D]; auto.
    + rewrite (sval_eq u x (t + x - t)%Q) by ring. rewrite V by lra.
      rewrite (sval_eq _ x (t + x - t)%Q) by ring. rewrite (sval_letter _ _ _ NC). rewrite Ew in ND |- *. symmetry. apply cut_letter; auto; lra.
Qed.
End Frag.

(* The options of a run in signal mode on a textual word with the pattern s. *)
Record signal_run (o : options) (s : list nat) : Prop := mkSR {
  sr_version : o_version o = false; sr_help : o_help o = false; sr_valid : ~ option_error o;
  sr_automaton : o_automaton o = []; sr_pattern : pattern_text o = s; sr_given : s <> [];
  sr_text : o_binary o = false; sr_signal : o_signal o = true }.

Section Run.
Context (sepA sepD : heap -> nat -> outcome heap) (dec : list nat -> Q) (fuel : nat) (al0 : nat -> ptr) (al : alloc) (W : world).
Notation run o := (main sepA sepD dec fuel al0 al W o).

Lemma signal_run_main : forall o s r input w, signal_run o s -> word_from W o input -> rendered w input -> parse s = Ok (Some r) ->
  run o = do X <- toSignalTA sepA sepD fuel al0 r 0 ; do zs <- monaa fuel al (clockSize (fst X)) lazyC (fst X) (lopen w) ;
          Ok (Printed (fold_left pr_op (Clear :: map Push zs) (mkPr (o_quiet o) 0 []))).
Proof.
  intros o s r input w [V H NE A P G T E] Wf Re Ps.
  destruct (run_main sepA sepD dec fuel al0 al W o V H) as [(X & _)|(_ & wf & F & _ & R)]; [intros (_ & X); congruence|contradiction|].
  rewrite R. unfold main_pattern. rewrite A, P, E, Ps. cbn [empty bind]. destruct (toSignalTA sepA sepD fuel al0 r 0) as [X| | |n|]; cbn [bind]; auto.
  unfold main_word. rewrite T.
  assert (I : (do input <- (if str_eqb wf stdin_name then Ok (w_stdin W) else match w_file W wf with Some s => Ok s | None => Exit 1 end) ; text_word input) = text_word input).
  { destruct F as [(F & ->)|(F & N)].
    - replace (str_eqb stdin_name stdin_name) with true by reflexivity. destruct Wf as [(_ & ->)|(wf & K & _)]; [reflexivity|]. destruct (word_name_stdin _ _ K F).
    - apply str_eqb_no in N. rewrite N. destruct Wf as [(K & _)|(wf' & K & L)]; [destruct (word_name_stdin _ _ F K)|].
      rewrite (word_name_unique _ _ _ F K), L. reflexivity. }
  rewrite I, (C39_wellformed w input Re). reflexivity.
Qed.

(* A printed block, when the automaton has no unobservable transitions. *)
Lemma printed_signal : forall A w zs block, wf_ta A -> no_eps A = true -> nondecreasing 0 w ->
  monaa fuel al (clockSize A) lazyC A (lopen w) = Ok zs -> In block (pr_out (fold_left pr_op (Clear :: map Push zs) (mkPr false 0 []))) ->
  (forall t t', Forall (fun q => sat_ineq q t t') block -> signal_matches A w t t') /\ (exists t t', Forall (fun q => sat_ineq q t t') block).
Proof.
  intros A w zs block WA NEps ND M Hb. destruct (C46_printer (Clear :: map Push zs) false) as [_ E]. rewrite E in Hb. cbn [flat_map Datatypes.app] in Hb.
  apply in_flat_map in Hb as (o & Ho & Hb). apply in_map_iff in Ho as (z & <- & Hz). destruct Hb as [<-|[]].
  assert (M' : monaa_plain fuel al lazyC A (lopen w) = Ok zs) by (unfold monaa in M; rewrite NEps in M; exact M). rewrite C36_signal in M'.
  destruct (monaa_ok _ _ _ _ _ WA ND M' z Hz) as (i & _ & _ & G & C & _). split.
  - intros t t' S. apply C54_meaning in S; auto; [|apply (proj1 C)]. eapply C33_sound; eauto.
  - destruct (C31_nonempty_signal _ _ _ _ _ z WA ND M' Hz) as (t & t' & Z). exists t, t'. apply C54_meaning; auto. apply (proj1 C).
Qed.

(* Whatever signal mode prints for an expression of the fragment is, from the
   texts on, a segment of the signal that the expression describes; every block
   has a solution. *)
Theorem C70_printed_partial : forall o s r input w p block, injective al0 -> signal_run o s -> parse s = Ok (Some r) ->
  sigfrag r -> closed_bounds r \/ open_bounds r ->
  word_from W o input -> rendered w input -> nondecreasing 0 w -> o_quiet o = false -> run o = Ok (Printed p) -> In block (pr_out p) ->
  (forall t t', Forall (fun q => sat_ineq q t t') block -> (0 <= t)%Q /\ (t <= t')%Q /\ segment false r w t t') /\
  (exists t t', Forall (fun q => sat_ineq q t t') block).
Proof.
  intros o s r input w p block Inj SR Ps F B Wf R ND Q E Hb. rewrite (signal_run_main o s r input w SR Wf R Ps) in E.
  destruct (toSignalTA sepA sepD fuel al0 r 0) as [[A m]| | | |] eqn:T; try discriminate. cbn [bind fst] in E. rewrite Q in E.
  destruct (monaa fuel al (clockSize A) lazyC A (lopen w)) as [zs| | | |] eqn:M; try discriminate. cbn [bind] in E. injection E as <-.
  destruct (sig_shape sepA sepD fuel al0 r 0 A m Inj F B T) as (TI & _). pose proof (sig_no_eps sepA sepD fuel al0 r 0 A m Inj F B T) as NEps.
  destruct (printed_signal A w zs block (ti_wf _ _ _ _ TI) NEps ND M Hb) as (S & N). split; auto.
  intros t t' Sa. apply (C70_sound_partial sepA sepD fuel al0 r 0 A m Inj F B T); auto.
Qed.

(* What is printed covers every segment of the expression that begins where no
   table makes the search skip. *)
Theorem C70_found_partial : forall o s r input w p, injective al0 -> signal_run o s -> parse s = Ok (Some r) ->
  sigfrag r -> closed_bounds r \/ open_bounds r ->
  word_from W o input -> rendered w input -> increasing 0 w -> changing w -> o_quiet o = false -> run o = Ok (Printed p) ->
  forall A m T k t t', toSignalTA sepA sepD fuel al0 r 0 = Ok (A, m) -> tables fuel al A = Ok T ->
    k < length w -> at_pos w k t -> (t < t')%Q -> segment true r w t t' -> ~ skipped A w T k ->
    exists block, In block (pr_out p) /\ Forall (fun q => sat_ineq q t t') block.
Proof.
  intros o s r input w p Inj SR Ps F B Wf R Inc Ch Q E A m T k t t' TA0 HT Lk AP L Sg NS. rewrite (signal_run_main o s r input w SR Wf R Ps) in E.
  rewrite TA0 in E. cbn [bind fst] in E. rewrite Q in E.
  destruct (monaa fuel al (clockSize A) lazyC A (lopen w)) as [zs| | | |] eqn:M; try discriminate. cbn [bind] in E.
  assert (Ep : p = fold_left pr_op (Clear :: map Push zs) (mkPr false 0 [])) by congruence. clear E. subst p.
  destruct (sig_shape sepA sepD fuel al0 r 0 A m Inj F B TA0) as (TI & _). pose proof (sig_no_eps sepA sepD fuel al0 r 0 A m Inj F B TA0) as NEps.
  assert (M' : monaa_plain fuel al lazyC A (lopen w) = Ok zs) by (unfold monaa in M; rewrite NEps in M; exact M). rewrite C36_signal in M'.
  pose proof (C70_complete_partial sepA sepD fuel al0 r 0 A m Inj F B TA0 w t t' Inc Ch (proj1 AP) L Sg) as MM.
  destruct (C34_examined fuel al A w T zs (ti_wf _ _ _ _ TI) Inc HT M' k t t' Lk AP L MM NS) as (z & Hz & Z).
  destruct (C46_printer (Clear :: map Push zs) false) as [_ Eo]. exists (print_zone z). split.
  - rewrite Eo. cbn [flat_map Datatypes.app]. apply in_flat_map. exists (Push z). split; [apply in_map; auto|left; auto].
  - destruct (monaa_ok _ _ _ _ _ (ti_wf _ _ _ _ TI) (increasing_nd _ _ Inc) M' z Hz) as (i & _ & _ & G & C & _). apply C54_meaning; auto. apply (proj1 C).
Qed.
End Run.
