(* C83: the word is read from the file while matching. *)
From Coq Require Import QArith Bool List ZArith Arith Lia.
From Verif Require Import Num Outcome Zone TA Spec Word WordFacts Skip SkipFacts Monaa MonaaSim MonaaFacts EpsZone Tre Signal Parse Text TextFacts Ans Main Stream
  Online PropMonaa PropModes PropEpsSim PropText PropMain PropOnline PropTerm.
Import ListNotations.
Open Scope nat_scope.

Section Sim.
  Variable get : getter.
  Hypothesis G0 : get [] = (None, []).

  (* The file [s] holds the events of [w] and then ends. *)
  Inductive yields : list nat -> tword -> Prop :=
  | y_end : forall s, get s = (None, []) -> yields s []
  | y_event : forall s e s' w, get s = (Some e, s') -> yields s' w -> yields s (e :: w).

  Definition same_state (c : fdeque) (d : lazy) : Prop :=
    ffront c = lfront d /\ fN c = lN d /\ fbuf c = lbuf d /\ yields (fbytes c) (lrest d).

  Lemma skip_yields : forall k s w, yields s w -> yields (file_skip get k s) (skipn k w).
  Proof.
    induction k as [|k IH]; intros s w Y; cbn [file_skip]; [exact Y|]. inversion Y as [s' E|s' e s'' w' E Y']; subst; rewrite E; cbn [snd skipn]; auto.
    rewrite <- (@skipn_nil event k). apply IH, y_end, G0.
  Qed.
  Lemma read_yields : forall k c d, same_state c d -> fst (file_read get k c) = fst (lazy_read k d) /\ same_state (snd (file_read get k c)) (snd (lazy_read k d)).
  Proof.
    induction k as [|k IH]; intros c d S; cbn [file_read lazy_read]; [auto|]. destruct S as (S1 & S2 & S3 & S4).
    inversion S4 as [s' E Ew|s' e s'' w' E Y' Ew]; subst; rewrite E; cbn [fst snd].
    - split; auto. split; [exact S1|]. cbn. split; [congruence|]. split; auto. apply y_end, G0.
    - apply IH. split; cbn; auto. split; auto. split; [congruence|exact Y'].
  Qed.
  Lemma fetch_yields : forall c d n, same_state c d -> fst (file_fetch get c n) = fst (lazy_fetch d n) /\ same_state (snd (file_fetch get c n)) (snd (lazy_fetch d n)).
  Proof.
    intros c d n S. pose proof S as (S1 & S2 & S3 & S4). unfold file_fetch, lazy_fetch, fbeyond, beyondN. rewrite S1, S2, S3.
    destruct ((n <? lfront d) || match lN d with Some k => k <=? n | None => false end); [auto|]. apply read_yields; auto.
  Qed.
  Definition fileR (c : ctype (fileC get)) (f a : nat) (w : tword) : Prop := exists d, same_state c d /\ lazyR d f a w.
  Lemma file_sim : csim (fileC get) fileR.
  Proof.
    destruct lazy_sim as [L1 L2 L3 L4]. split; intros c f a w n (d & S & R) Hn; cbn [fileC cfetch cat csetFront lazyC] in *.
    - intros H. destruct (L1 d f a w n R Hn H) as (d' & E & R'). destruct (fetch_yields c d n S) as (E1 & S'). rewrite E in E1, S'. cbn [fst snd] in *.
      exists (snd (file_fetch get c n)). split; [rewrite <- E1; apply surjective_pairing|]. exists d'. auto.
    - intros H. destruct (L2 d f a w n R Hn H) as (d' & E & R'). destruct (fetch_yields c d n S) as (E1 & S'). rewrite E in E1, S'. cbn [fst snd] in *.
      exists (snd (file_fetch get c n)). split; [rewrite <- E1; apply surjective_pairing|]. exists d'. auto.
    - intros H. destruct (L3 d f a w n R Hn H) as (e & E & E'). exists e. split; auto. rewrite <- E'. destruct S as (S1 & S2 & S3 & _).
      unfold file_at, lazy_at, fbeyond, beyondN. rewrite S1, S2, S3. reflexivity.
    - destruct (L4 d f a w n R Hn) as (d' & E & R'). destruct S as (S1 & S2 & S3 & S4). unfold file_setFront. unfold lazy_setFront in E. rewrite S1, S2, S3.
      destruct (n <? lfront d); [discriminate|]. apply Ok_inj in E. subst d'. eexists. split; [reflexivity|]. eexists. split; [|exact R'].
      split; cbn; auto. split; auto. split; auto. apply skip_yields; auto.
  Qed.
  Lemma file_open : forall s w, yields s w -> fileR (fopen s) 0 0 w.
  Proof. intros s w Y. exists (lopen w). split; [|apply lazy_open]. split; cbn; auto. Qed.

  Lemma file_event : forall fuel al A s w, yields s w -> monaaDollar fuel al (fileC get) A (fopen s) = monaaDollar fuel al lazyC A (lopen w).
  Proof.
    intros fuel al A s w Y. rewrite C36_online_offline. unfold monaaDollar. destruct (make_ap A) as [Ap| | | |]; cbn [bind]; auto.
    destruct (tables fuel al Ap) as [T| | | |] eqn:E; cbn [bind]; auto. destruct (no_eps A); auto. destruct (tables_ok _ _ _ _ E) as (T1 & T2 & _).
    apply (outer_sim (fileC get) fileR file_sim A T MDollar T1 T2 fuel (fopen s) 0 0 w 0 [] []); [apply file_open, Y|lia].
  Qed.
  Lemma file_optional : forall fuel al A s w, yields s w -> monaaNotNecessaryDollar fuel al (fileC get) A (fopen s) = monaaNotNecessaryDollar fuel al lazyC A (lopen w).
  Proof.
    intros fuel al A s w Y. rewrite C36_optional. unfold monaaNotNecessaryDollar. destruct (tables fuel al _) as [T| | | |] eqn:E; cbn [bind]; auto. destruct (no_eps A); auto.
    destruct (tables_ok _ _ _ _ E) as (T1 & T2 & _). apply (outer_sim (fileC get) fileR file_sim A T MOptional T1 T2 fuel (fopen s) 0 0 w 0 [] []); [apply file_open, Y|lia].
  Qed.
  Lemma file_signal : forall fuel al nz A s w, yields s w -> monaa fuel al nz (fileC get) A (fopen s) = monaa fuel al nz lazyC A (lopen w).
  Proof.
    intros fuel al nz A s w Y. rewrite C36_monaa. unfold monaa. destruct (tables fuel al A) as [T| | | |] eqn:E; cbn [bind]; auto. destruct (tables_ok _ _ _ _ E) as (T1 & T2 & _). destruct (no_eps A).
    - apply (outer_sim (fileC get) fileR file_sim A T MSignal T1 T2 fuel (fopen s) 0 0 w 0 [] []); [apply file_open, Y|lia].
    - apply (eps_outer_sim (fileC get) fileR file_sim A T false nz T1 T2 fuel (fopen s) 0 0 w 0 [] []); [apply file_open, Y|lia].
  Qed.
End Sim.

Lemma text_yields : forall fuel s w, read_word fuel s = Ok w -> yields get_text s w.
Proof.
  induction fuel as [|k IH]; intros s w H; [discriminate|]. cbn [read_word] in H. destruct (getOne s) as [[[e|] s']| | | |] eqn:E; cbn [bind] in H; try discriminate.
  - destruct (read_word k s') as [w'| | | |] eqn:E'; try discriminate. cbn [bind] in H. apply Ok_inj in H. subst w. apply y_event with (s' := s'); [unfold get_text; rewrite E; reflexivity|auto].
  - apply Ok_inj in H. subst w. apply y_end. unfold get_text. rewrite E. f_equal. unfold getOne in E. destruct (skip s) as [|c t]; [congruence|].
    destruct (scan_lf (skip t)); congruence.
Qed.
Lemma binary_yields : forall dec fuel s w, read_binary dec fuel s = Ok w -> yields (get_binary dec) s w.
Proof.
  intros dec. induction fuel as [|k IH]; intros s w H; [discriminate|]. cbn [read_binary] in H. destruct (getOneBinary dec s) as [[e|] s'] eqn:E; cbn [bind] in H.
  - destruct (read_binary dec k s') as [w'| | | |] eqn:E'; try discriminate. cbn [bind] in H. apply Ok_inj in H. subst w. eapply y_event; [exact E|auto].
  - apply Ok_inj in H. subst w. apply y_end. unfold get_binary. rewrite E. f_equal. unfold getOneBinary in E. destruct s as [|c t]; [congruence|].
    destruct (length t <? 8); congruence.
Qed.

(* Reading from the file on demand gives what reading the whole file first gives. *)
Theorem C83_text : forall fuel al A s w, text_word s = Ok w ->
  monaaDollar fuel al (fileC get_text) A (fopen s) = monaaDollar fuel al lazyC A (lopen w) /\
  monaaNotNecessaryDollar fuel al (fileC get_text) A (fopen s) = monaaNotNecessaryDollar fuel al lazyC A (lopen w) /\
  forall nz, monaa fuel al nz (fileC get_text) A (fopen s) = monaa fuel al nz lazyC A (lopen w).
Proof.
  intros fuel al A s w H. apply text_yields in H. split; [|split; [|intros nz]]; [apply file_event|apply file_optional|apply file_signal]; auto.
Qed.
Theorem C83_binary : forall dec fuel al A s w, binary_word dec s = Ok w ->
  monaaDollar fuel al (fileC (get_binary dec)) A (fopen s) = monaaDollar fuel al lazyC A (lopen w) /\
  monaaNotNecessaryDollar fuel al (fileC (get_binary dec)) A (fopen s) = monaaNotNecessaryDollar fuel al lazyC A (lopen w) /\
  forall nz, monaa fuel al nz (fileC (get_binary dec)) A (fopen s) = monaa fuel al nz lazyC A (lopen w).
Proof.
  intros dec fuel al A s w H. apply binary_yields in H. split; [|split; [|intros nz]]; [apply file_event|apply file_optional|apply file_signal]; auto.
Qed.

Lemma text_or : forall s, (exists w, text_word s = Ok w) \/ text_word s = Throw.
Proof.
  intros s. pose proof (C39_terminates s) as T. unfold text_word in *. revert T. generalize (S (length s)) as k. intros k. revert s.
  induction k as [|k IH]; intros s T; [exfalso; apply T; reflexivity|]. cbn [read_word] in *. unfold getOne in *. destruct (skip s) as [|c t]; [left; eexists; reflexivity|].
  destruct (scan_lf (skip t)) as [q r|r|]; cbn [bind] in *; [| |right; reflexivity];
  (match goal with |- context [read_word k ?x] => destruct (IH x) as [[w E]|E] end; [intros E; apply T; rewrite E; reflexivity| |]; rewrite E; cbn [bind]; [left; eexists; reflexivity|right; reflexivity]).
Qed.
Lemma binary_or : forall dec s, exists w, binary_word dec s = Ok w.
Proof.
  intros dec s. unfold binary_word. assert (X : forall k s, length s < k -> exists w, read_binary dec k s = Ok w); [|apply X; auto].
  clear. induction k as [|k IH]; intros s L; [lia|]. cbn [read_binary]. unfold getOneBinary. destruct s as [|c t]; [eexists; reflexivity|]. destruct (length t <? 8); [eexists; reflexivity|].
  cbn [length] in L. destruct (IH (skipn 8 t)) as [w E]; [rewrite skipn_length; lia|]. rewrite E. eexists. reflexivity.
Qed.

(* The command: reading while matching makes no difference, on every input that the
   model of %lf covers. *)
Theorem C83_main : forall sepA sepD dec fuel al0 al W o,
  (o_binary o = false -> forall s, s = w_stdin W \/ (exists f, w_file W f = Some s) -> text_word s <> Throw) ->
  main_stream sepA sepD dec fuel al0 al W o = main sepA sepD dec fuel al0 al W o.
Proof.
  intros sepA sepD dec fuel al0 al W o H. unfold main_stream, main. destruct (positional (o_pos o) (o_automaton o) (o_expression o) (o_input o)) as [tre wf].
  destruct (o_version o); auto. destruct ((empty (o_automaton o) && empty tre) || o_help o); auto. destruct ((o_ascii o && o_binary o) || (o_signal o && o_event o)); auto.
  destruct (negb (empty (o_automaton o)) && negb (empty tre)); auto. destruct (main_pattern sepA sepD fuel al0 W o tre) as [A| | | |]; cbn [bind]; auto.
  unfold main_word. change (if str_eqb wf stdin_name then Ok (w_stdin W) else match w_file W wf with Some s => Ok s | None => Exit 1 end) with (main_file W o wf).
  destruct (main_file W o wf) as [s| | | |] eqn:F; cbn [bind]; auto. destruct (o_binary o).
  - destruct (binary_or dec s) as [w E]. rewrite E. cbn [bind]. destruct (C83_binary dec fuel al A s w E) as (E1 & _ & E2). destruct (o_signal o); [rewrite E2|rewrite E1]; reflexivity.
  - destruct (text_or s) as [[w E]|E].
    + rewrite E. cbn [bind]. destruct (C83_text fuel al A s w E) as (E1 & _ & E2). destruct (o_signal o); [rewrite E2|rewrite E1]; reflexivity.
    + exfalso. apply (H eq_refl s); auto. unfold main_file in F. destruct (str_eqb wf stdin_name); [left; apply Ok_inj in F; auto|right]. exists wf.
      destruct (w_file W wf); [apply Ok_inj in F; congruence|discriminate].
Qed.

(* ---------- WordVector ---------- *)

Lemma into_event : forall t ws1 c ws2 l r, spaces ws1 -> space c = false -> spaces ws2 -> lit_ok l -> follows r ->
  getOne_into t (ws1 ++ c :: ws2 ++ lit_chars l ++ r) = Ok (Some (c, lit_value l), skip r).
Proof.
  intros t ws1 c ws2 l r H1 Hc H2 Hl F. unfold getOne_into. rewrite skip_spaces, skip_nospace by auto.
  rewrite skip_spaces, lit_head, scan_lf_ok by auto. reflexivity.
Qed.
Lemma vector_skip : forall fuel t s, vector_read fuel t (skip s) = vector_read fuel t s.
Proof. intros [|k] t s; auto. cbn [vector_read]. unfold getOne_into. rewrite skip_skip. auto. Qed.

(* It reads the same word as LazyDeque from a text in the format. *)
Theorem C83_vector : forall w s, rendered w s -> vector_word s = Ok w /\ text_word s = Ok w.
Proof.
  intros w s R. split; [|apply C39_wellformed, R]. unfold vector_word. assert (X : forall fuel t, length s < fuel -> vector_read fuel t s = Ok w); [|apply X; auto].
  induction R as [ws H|ws1 c ws2 l H1 Hc H2 Hl|ws1 c ws2 l ws3 w s H1 Hc H2 Hl H3 N3 R IH]; intros fuel t L;
    (destruct fuel as [|k]; [lia|]); cbn [vector_read].
  - unfold getOne_into. rewrite <- (app_nil_r ws), skip_spaces by auto. reflexivity.
  - pose proof (into_event t ws1 c ws2 l [] H1 Hc H2 Hl Logic.I) as E. rewrite app_nil_r in E. rewrite E. cbn [bind skip].
    rewrite app_length in L. cbn [length] in L. destruct k as [|k]; [lia|]. reflexivity.
  - rewrite into_event; auto.
    + cbn [bind snd]. rewrite vector_skip. assert (E : vector_read k (lit_value l) (ws3 ++ s) = Ok w).
      { rewrite <- vector_skip, skip_spaces, vector_skip by auto. apply IH.
        rewrite !app_length in L. cbn [length] in L. rewrite !app_length in L. lia. }
      rewrite E. reflexivity.
    + destruct ws3 as [|x ws3]; [congruence|]. inversion H3. cbn. auto.
Qed.
(* Not from other texts: on "a 1\nb\n" (no number in the last line). *)
Theorem C83_vector_refuted : vector_word [97; 32; 49; 10; 98; 10] = Ok [(97, 1%Q); (98, 1%Q)] /\ text_word [97; 32; 49; 10; 98; 10] = Ok [(97, 1%Q); (98, 0%Q)].
Proof. split; vm_compute; reflexivity. Qed.

(* ---------- an open pipe ---------- *)

Lemma sign_more : forall s b r t, sign s = (b, r) -> r <> [] -> sign (s ++ t) = (b, r ++ t).
Proof.
  intros [|c s] b r t E N; cbn [sign Datatypes.app] in *; [injection E as <- <-; congruence|]. destruct (c =? 45); [injection E as <- <-; auto|].
  destruct (c =? 43); injection E as <- <-; auto.
Qed.
Lemma digits_more : forall s d r t, scan_digits s = (d, r) -> r <> [] -> scan_digits (s ++ t) = (d, r ++ t).
Proof.
  induction s as [|c s IH]; intros d r t E N; cbn [scan_digits Datatypes.app] in *; [injection E as <- <-; congruence|].
  destruct (digit c) as [D|]; [|injection E as <- <-; auto]. destruct (scan_digits s) as [d' r'] eqn:E'. injection E as <- <-. rewrite (IH d' r' t eq_refl N). reflexivity.
Qed.
Lemma exp_more : forall m s q r t, scan_exp m s = Number q r -> r <> [] -> scan_exp m (s ++ t) = Number q (r ++ t).
Proof.
  intros m [|c s] q r t E N; cbn [scan_exp Datatypes.app] in *; [injection E as <- <-; congruence|]. destruct ((c =? 101) || (c =? 69)); [|injection E as <- <-; auto].
  destruct (sign s) as [b s1] eqn:E1. destruct (scan_digits s1) as [d s2] eqn:E2. destruct d eqn:Ed; try discriminate; (assert (N2 : s2 <> []) by (injection E as _ <-; auto));
    (assert (N1 : s1 <> []) by (intros ->; discriminate)); rewrite (sign_more _ _ _ t E1 N1), (digits_more _ _ _ t E2 N2); injection E as <- <-; reflexivity.
Qed.
Lemma exp_number : forall m s r, scan_exp m s <> NoNumber r.
Proof.
  intros m [|c s] r; cbn [scan_exp]; [discriminate|]. destruct ((c =? 101) || (c =? 69)); [|discriminate]. destruct (sign s) as [b s1]. destruct (scan_digits s1) as [d s2]. destruct d; discriminate.
Qed.
Lemma lf_more : forall s x t, scan_lf s = x -> (forall q r, x = Number q r -> r <> [] -> scan_lf (s ++ t) = Number q (r ++ t)) /\
  (forall r, x = NoNumber r -> r <> [] -> scan_lf (s ++ t) = NoNumber (r ++ t)).
Proof.
  intros s x t E. unfold scan_lf in *. destruct (sign s) as [b s1] eqn:E1. destruct (scan_digits s1) as [d s2] eqn:E2. destruct s2 as [|c s2].
  { split; intros; destruct d; subst x; try discriminate; congruence. }
  assert (N1 : s1 <> []) by (intros ->; discriminate). rewrite (sign_more _ _ _ t E1 N1), (digits_more _ _ _ t E2) by discriminate. cbn [Datatypes.app].
  destruct (c =? 46).
  - destruct (scan_digits s2) as [f s3] eqn:E3. split.
    + intros q r -> N. assert (N3 : s3 <> []). { intros ->. cbn [scan_exp] in E. destruct d; destruct f; congruence. }
      rewrite (digits_more _ _ _ t E3 N3). destruct d; destruct f; try discriminate; apply exp_more; auto.
    + intros r -> N. assert (N3 : s3 <> []). { intros ->. cbn [scan_exp] in E. destruct d; destruct f; congruence. }
      rewrite (digits_more _ _ _ t E3 N3). destruct d; destruct f; try (exfalso; eapply exp_number; exact E). congruence.
  - assert (K : forall m, (forall q r, scan_exp m (c :: s2) = Number q r -> r <> [] -> scan_exp m (c :: s2 ++ t) = Number q (r ++ t)) /\
                          (forall r, scan_exp m (c :: s2) = NoNumber r -> r <> [] -> scan_exp m (c :: s2 ++ t) = NoNumber (r ++ t))).
    { intros m. split; [intros q r; apply (exp_more m (c :: s2))|intros r X; exfalso; eapply exp_number; exact X]. }
    subst x. destruct d as [|d|d|d|d|d|d|d|d|d|d]; try apply K.
    + destruct (existsb (Nat.eqb c) [105; 73; 110; 78]); split; intros; try discriminate. match goal with X : NoNumber _ = NoNumber _ |- _ => injection X as <- end; reflexivity.
    + destruct d; try apply K. destruct ((c =? 120) || (c =? 88)); [split; intros; discriminate|apply K].
Qed.
Lemma skip_more : forall s t, skip s <> [] -> skip (s ++ t) = skip s ++ t.
Proof. induction s as [|c s IH]; intros t N; cbn [skip Datatypes.app] in *; [congruence|]. destruct (space c); auto. Qed.

(* What the program has is what it would read whatever comes next. *)
Theorem C83_kept : forall s e r t, getOne_live s = Got e r -> getOne (s ++ t) = Ok (Some e, r ++ t).
Proof.
  intros s e r t H. unfold getOne_live in H. destruct (getOne s) as [[[e'|] [|b r']]| | | |] eqn:E; try discriminate. injection H as -> <-.
  unfold getOne in *. destruct (skip s) as [|c u] eqn:S; [discriminate|]. rewrite skip_more, S by congruence. cbn [Datatypes.app].
  destruct (skip u) as [|x u'] eqn:U; [discriminate|]. rewrite skip_more, U by congruence. rewrite <- U in *.
  destruct (scan_lf (skip u)) as [q r0|r0|] eqn:L; try discriminate.
  - assert (N : r0 <> []) by (intros ->; discriminate). rewrite (proj1 (lf_more _ _ t L) q r0 eq_refl N). apply Ok_inj in E. injection E as <- E.
    rewrite skip_more by congruence. rewrite E. reflexivity.
  - assert (N : r0 <> []) by (intros ->; discriminate). rewrite (proj2 (lf_more _ _ t L) r0 eq_refl N). apply Ok_inj in E. injection E as <- E. subst r0. reflexivity.
Qed.

(* An event does not arrive with its line, however the line ends: only when the first
   character of the next one is there. *)
Theorem C83_available : forall ws1 c ws2 l ws3, spaces ws1 -> space c = false -> spaces ws2 -> lit_ok l -> spaces ws3 ->
  getOne_live (ws1 ++ c :: ws2 ++ lit_chars l ++ ws3) = Waits /\
  (ws3 <> [] -> forall b r, space b = false -> getOne_live (ws1 ++ c :: ws2 ++ lit_chars l ++ ws3 ++ b :: r) = Got (c, lit_value l) (b :: r)).
Proof.
  intros ws1 c ws2 l ws3 H1 Hc H2 Hl H3. unfold getOne_live. split.
  - rewrite getOne_event; auto; [|destruct ws3 as [|x ws3]; [exact Logic.I|inversion H3; cbn; auto]]. rewrite <- (app_nil_r ws3), skip_spaces by auto. reflexivity.
  - intros N b r Hb. rewrite getOne_event; auto; [|destruct ws3 as [|x ws3]; [congruence|inversion H3; cbn; auto]]. rewrite skip_spaces, skip_nospace by auto. reflexivity.
Qed.

Lemma live_skip : forall s, getOne_live (skip s) = getOne_live s.
Proof. intros. unfold getOne_live. rewrite getOne_skip. reflexivity. Qed.
Lemma arrived_skip : forall k s, arrived k (skip s) = arrived k s.
Proof. intros [|k] s; auto. cbn [arrived]. rewrite live_skip. reflexivity. Qed.
Lemma rendered_skip : forall w s, rendered w s -> match w with [] => skip s = [] | _ => exists b r, skip s = b :: r end.
Proof.
  intros w s [ws H|ws1 c ws2 l H1 Hc H2 Hl|ws1 c ws2 l ws3 w' s' H1 Hc H2 Hl H3 N3 R].
  - rewrite <- (app_nil_r ws), skip_spaces by auto. reflexivity.
  - eexists _, _. rewrite skip_spaces, skip_nospace by auto. reflexivity.
  - eexists _, _. rewrite skip_spaces, skip_nospace by auto. reflexivity.
Qed.

(* When the text of a word has come and the pipe is open, its last event is missing. *)
Theorem C83_arrived : forall w s, rendered w s -> forall fuel, length s < fuel -> arrived fuel s = length w - 1.
Proof.
  intros w s R. induction R as [ws H|ws1 c ws2 l H1 Hc H2 Hl|ws1 c ws2 l ws3 w s H1 Hc H2 Hl H3 N3 R IH]; intros fuel L;
    (destruct fuel as [|k]; [lia|]); cbn [arrived length].
  - unfold getOne_live, getOne. rewrite <- (app_nil_r ws), skip_spaces by auto. reflexivity.
  - destruct (C83_available ws1 c ws2 l [] H1 Hc H2 Hl (Forall_nil _)) as [E _]. rewrite app_nil_r in E. rewrite E. reflexivity.
  - assert (F : follows (ws3 ++ s)) by (destruct ws3 as [|x ws3]; [congruence|inversion H3; cbn; auto]).
    unfold getOne_live. rewrite getOne_event by auto. rewrite skip_spaces by auto. pose proof (rendered_skip w s R) as K. destruct w as [|e w].
    + rewrite K. reflexivity.
    + destruct K as (b & r & K). rewrite K. rewrite <- K. rewrite arrived_skip, IH; [cbn [length]; lia|]. rewrite !app_length in L. cbn [length] in L. rewrite !app_length in L. lia.
Qed.

(* What was reported when the text of p and one more event has come does not depend on
   that event: no match that ends in the last line is reported in time. *)
Theorem C83_lag_refuted : forall fuel al A p e e' s s', rendered (p ++ [e]) s -> rendered (p ++ [e']) s' ->
  let reports w s := emitted (before (arrived (S (length s)) s) (fst (t_monaaDollar fuel al lazyC A (lopen w)))) in
  forall x x', reports (p ++ e :: x) s = reports (p ++ e' :: x') s'.
Proof.
  intros fuel al A p e e' s s' R R' reports x x'. unfold reports. rewrite (C83_arrived _ _ R), (C83_arrived _ _ R') by lia. rewrite !app_length. cbn [length].
  replace (length p + 1 - 1) with (length p) by lia. f_equal. apply (C81_causal fuel al A p (e :: x) (e' :: x')).
Qed.

(* A binary record is there as soon as its nine bytes are, whatever follows. *)
Theorem C83_record : forall dec c b t, length b = 8 -> getOneBinary dec (c :: b ++ t) = (Some (c, dec b), t).
Proof.
  intros dec c b t L. unfold getOneBinary. destruct (Nat.ltb_spec (length (b ++ t)) 8) as [X|_]; [rewrite app_length in X; lia|].
  rewrite firstn_app, skipn_app, L, Nat.sub_diag, firstn_all2, skipn_all2, app_nil_r by lia. reflexivity.
Qed.

(* "b 1\nb 2\n": the match of the pattern of C81_case is reported when both events were
   read, but with an open pipe only the first one is there. *)
Definition two_lines : list nat := [98; 32; 49; 10; 98; 32; 50; 10].
Lemma two_rendered : rendered [(98, lit_value (mkLit None (Decimal.D1 Decimal.Nil) None None)); (98, lit_value (mkLit None (Decimal.D2 Decimal.Nil) None None))] two_lines.
Proof.
  change two_lines with ([] ++ 98 :: [32] ++ lit_chars (mkLit None (Decimal.D1 Decimal.Nil) None None) ++ [10] ++
    ([] ++ 98 :: [32] ++ lit_chars (mkLit None (Decimal.D2 Decimal.Nil) None None) ++ [10] ++ [])).
  apply rend_cons; try (repeat constructor; fail); try discriminate; [split; [left; discriminate|exact Logic.I]|].
  apply rend_cons; try (repeat constructor; fail); try discriminate. split; [left; discriminate|exact Logic.I].
Qed.
Example C83_case : text_word two_lines = Ok [(98, 1%Q); (98, 2%Q)] /\ arrived (S (length two_lines)) two_lines = 1 /\
  let reports k := emitted (before k (fst (t_monaaDollar 40 uAl lazyC late (lopen [(98, 1%Q); (98, 2%Q)])))) in
  reports 1 = [] /\ length (reports 2) = 1.
Proof.
  split; [vm_compute; reflexivity|]. split; [vm_compute; reflexivity|]. cbv zeta. rewrite late_run. vm_compute. auto.
Qed.
