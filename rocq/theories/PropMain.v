(* The program: C67 (exit statuses), C68 (from the text of a pattern and of a
   word to the printed lines), C69 (tre2ta). *)
From Coq Require Import QArith Lqa Bool List ZArith Arith Lia Sorted Permutation Ascii String.
From Verif Require Import Num NumFacts Outcome Interval IntervalFacts Constraint Zone ZoneFacts TA Spec TAFacts WfDec Word Monaa MonaaFacts MonaaVec Skip SkipFacts
  EpsZone PropMonaa Sunday Kmp KmpRun KmpSafe ApFacts Tables PropSkip PropSkipEx Tre TreRun TreFacts TreBuild TreLang PropTre TreConsts Text TextFacts BoostFacts Ans PropText Signal Parse ParseSpec ParseFacts PropParse Main MainFacts.
Import ListNotations.
Open Scope nat_scope.

(* ================= C67 the command line and the exit statuses ================= *)

(* doc/man.md, Synopsis: the pattern is the value of -e or the first argument
   that is not empty, unless -f is given; the word is read from the value of -i
   or the first remaining argument, else from standard input. *)
Fixpoint split_first (l : list (list nat)) : list nat * list (list nat) :=
  match l with
  | [] => ([], [])
  | [] :: l => split_first l
  | s :: l => (s, l)
  end.
Definition pattern_text (o : options) : list nat :=
  match o_automaton o, o_expression o with
  | [], [] => fst (split_first (o_pos o))
  | _, e => e
  end.
Definition remaining (o : options) : list (list nat) :=
  match o_automaton o, o_expression o with
  | [], [] => snd (split_first (o_pos o))
  | _, _ => o_pos o
  end.
Definition word_name (o : options) (name : list nat) : Prop :=
  o_input o <> stdin_name /\ name = o_input o \/
  o_input o = stdin_name /\ name <> stdin_name /\
    (exists before after, remaining o = before ++ name :: after /\ Forall (eq stdin_name) before).
Definition word_stdin (o : options) : Prop := o_input o = stdin_name /\ Forall (eq stdin_name) (remaining o).

(* The combinations that doc/options.md excludes. *)
Definition option_error (o : options) : Prop :=
  o_ascii o = true /\ o_binary o = true \/ o_signal o = true /\ o_event o = true \/
  o_automaton o <> [] /\ o_expression o <> [] \/ o_automaton o <> [] /\ o_signal o = true.
Definition no_pattern (o : options) : Prop := o_automaton o = [] /\ pattern_text o = [].

Lemma str_eqb_iff : forall a b, str_eqb a b = true <-> a = b.
Proof. intros a b. unfold str_eqb. destruct (list_eq_dec Nat.eq_dec a b); split; auto; discriminate. Qed.
Lemma str_eqb_no : forall a b, str_eqb a b = false <-> a <> b.
Proof. intros a b. unfold str_eqb. destruct (list_eq_dec Nat.eq_dec a b); split; auto; try discriminate; congruence. Qed.

Lemma positional_given : forall pos au tre wf, empty au && empty tre = false ->
  fst (positional pos au tre wf) = tre /\
  (wf <> stdin_name /\ snd (positional pos au tre wf) = wf \/
   wf = stdin_name /\ snd (positional pos au tre wf) <> stdin_name /\
     (exists a b, pos = a ++ snd (positional pos au tre wf) :: b /\ Forall (eq stdin_name) a) \/
   wf = stdin_name /\ snd (positional pos au tre wf) = stdin_name /\ Forall (eq stdin_name) pos).
Proof.
  induction pos as [|s pos IH]; intros au tre wf E; cbn [positional]; [cbn [fst snd]; split; auto; destruct (str_eqb wf stdin_name) eqn:K|].
  - apply str_eqb_iff in K. subst. right. right. auto.
  - apply str_eqb_no in K. auto.
  - rewrite E. destruct (str_eqb wf stdin_name) eqn:K.
    + apply str_eqb_iff in K. subst wf. destruct (IH au tre s E) as (H1 & H2). split; auto.
      destruct H2 as [(H2 & H3)|[(H2 & H3 & a & b & H4 & H5)|(H2 & H3 & H4)]]; right.
      * left. split; auto. rewrite H3. split; auto. exists [], pos. auto.
      * left. split; auto. split; auto. exists (s :: a), b. rewrite H4 at 1. split; auto.
      * right. split; auto.
    + destruct (IH au tre wf E) as (H1 & H2). split; auto. apply str_eqb_no in K. destruct H2 as [H2|[(H2 & _)|(H2 & _)]]; [auto|congruence|congruence].
Qed.

Lemma positional_spec : forall o, let p := positional (o_pos o) (o_automaton o) (o_expression o) (o_input o) in
  fst p = pattern_text o /\ (no_pattern o \/ word_stdin o /\ snd p = stdin_name \/ word_name o (snd p) /\ snd p <> stdin_name).
Proof.
  intros o. cbn zeta.
  assert (G : forall pos au tre wf, empty au && empty tre = false -> pattern_text o = tre -> remaining o = pos -> o_input o = wf ->
    fst (positional pos au tre wf) = pattern_text o /\
    (no_pattern o \/ word_stdin o /\ snd (positional pos au tre wf) = stdin_name \/
      word_name o (snd (positional pos au tre wf)) /\ snd (positional pos au tre wf) <> stdin_name)).
  { intros pos au tre wf E P R I. destruct (positional_given pos au tre wf E) as (H1 & H2). split; [congruence|]. right.
    destruct H2 as [(H2 & H3)|[(H2 & H3 & H4)|(H2 & H3 & H4)]].
    - right. split; [left; rewrite H3, I; auto|congruence].
    - right. split; auto. right. rewrite R, I. auto.
    - left. split; auto. split; congruence. }
  destruct (o_automaton o) as [|a au] eqn:EA; [destruct (o_expression o) as [|c e] eqn:EE|].
  - assert (S : forall pos, (split_first pos = ([], []) /\ positional pos [] [] (o_input o) = ([], o_input o)) \/
      exists s l, split_first pos = (s, l) /\ s <> [] /\ positional pos [] [] (o_input o) = positional l [] s (o_input o)).
    { induction pos as [|[|c s] pos IH]; [auto|exact IH|]. right. exists (c :: s), pos. split; auto. split; [discriminate|reflexivity]. }
    destruct (S (o_pos o)) as [(E1 & E2)|(s & l & E1 & E2 & E3)].
    + rewrite E2. cbn [fst snd]. unfold pattern_text, no_pattern. rewrite EA, EE, E1. split; auto. left. unfold pattern_text. rewrite EA, EE, E1. auto.
    + rewrite E3. apply G; auto.
      * destruct s; [congruence|reflexivity].
      * unfold pattern_text. rewrite EA, EE, E1. reflexivity.
      * unfold remaining. rewrite EA, EE, E1. reflexivity.
  - apply G; auto; unfold pattern_text, remaining; rewrite EA, EE; reflexivity.
  - apply G; auto; unfold pattern_text, remaining; rewrite EA; reflexivity.
Qed.

(* An integer of a pattern text that does not fit an int is undefined
   behaviour, see C64. *)
Definition numbers_fit (s : list nat) : Prop := forall a ds b, s = a ++ ds ++ b -> Forall decimal ds -> (value 0 ds <= 2147483647)%Z.

Section Statuses.
Context (sepA sepD : heap -> nat -> outcome heap) (dec : list nat -> Q) (fuel : nat) (al0 : nat -> ptr) (al : alloc) (W : world).
Notation run o := (main sepA sepD dec fuel al0 al W o).

Theorem C67_version : forall o, o_version o = true -> run o = Ok Version.
Proof. intros o E. unfold main. destruct (positional _ _ _ _). now rewrite E. Qed.

Lemma empty_iff : forall s, empty s = true <-> s = [].
Proof. intros [|c s]; split; auto; discriminate. Qed.

Lemma run_usage : forall o, o_version o = false -> o_help o = true \/ no_pattern o -> run o = Ok Usage.
Proof.
  intros o V H. unfold main. destruct (positional_spec o) as (P & _). cbn zeta in P. destruct (positional _ _ _ _) as [tre wf]. cbn [fst] in P. subst tre.
  rewrite V. destruct H as [->|(-> & ->)]; [rewrite orb_true_r|]; reflexivity.
Qed.
Theorem C67_usage : forall o, o_version o = false -> o_help o = true -> run o = Ok Usage.
Proof. intros o V H. apply run_usage; auto. Qed.

(* Contradicting options: status 1. *)
Lemma run_main : forall o, o_version o = false -> o_help o = false -> ~ no_pattern o ->
  (option_error o /\ run o = Exit 1) \/
  (~ option_error o /\ exists wf, (word_stdin o /\ wf = stdin_name \/ word_name o wf /\ wf <> stdin_name) /\
    (o_automaton o <> [] -> pattern_text o = []) /\
    run o = do A <- main_pattern sepA sepD fuel al0 W o (pattern_text o) ;
            do w <- main_word dec W o wf ;
            do zs <- (if o_signal o then monaa fuel al (clockSize A) lazyC A (lopen w) else monaaDollar fuel al lazyC A (lopen w)) ;
            Ok (Printed (fold_left pr_op (Clear :: map Push zs) (mkPr (o_quiet o) 0 [])))).
Proof.
  intros o V H N. unfold main. destruct (positional_spec o) as (P & Q). cbn zeta in P, Q. destruct (positional _ _ _ _) as [tre wf]. cbn [fst snd] in P, Q. subst tre.
  rewrite V, H, orb_false_r. destruct Q as [Q|Q]; [contradiction|].
  destruct (empty (o_automaton o) && empty (pattern_text o)) eqn:E1.
  { apply andb_true_iff in E1 as [A B]. apply empty_iff in A. apply empty_iff in B. destruct N. split; auto. }
  assert (PA : o_automaton o <> [] -> pattern_text o = o_expression o).
  { intros X. unfold pattern_text. destruct (o_automaton o); [congruence|reflexivity]. }
  destruct ((o_ascii o && o_binary o) || (o_signal o && o_event o)) eqn:E2.
  { left. split; [|reflexivity]. apply orb_true_iff in E2 as [E|E]; apply andb_true_iff in E as [A B]; unfold option_error; auto. }
  apply orb_false_iff in E2 as [E2 E3]. destruct (negb (empty (o_automaton o)) && negb (empty (pattern_text o))) eqn:E4.
  { left. split; [|reflexivity]. apply andb_true_iff in E4 as [A B]. apply negb_true_iff in A. apply negb_true_iff in B.
    right. right. left. split; intros X; [rewrite X in A; discriminate|]. rewrite PA in B; [rewrite X in B; discriminate|]. intros Y. rewrite Y in A. discriminate. }
  destruct (empty (o_automaton o)) eqn:EA.
  - right. apply empty_iff in EA. split.
    { intros [(A & B)|[(A & B)|[(A & B)|(A & B)]]]; try congruence; rewrite A, B in *; discriminate. }
    exists wf. split; auto. split; [intros X; congruence|reflexivity].
  - assert (A : o_automaton o <> []) by (intros X; rewrite X in EA; discriminate).
    cbn [negb andb] in E4. apply negb_false_iff, empty_iff in E4. destruct (o_signal o) eqn:ES.
    + left. split; [right; right; right; auto|]. unfold main_pattern. rewrite EA, ES. reflexivity.
    + right. split.
      { intros [(X & Y)|[(X & Y)|[(X & Y)|(X & Y)]]]; try congruence; [rewrite X, Y in *; discriminate|]. rewrite PA in E4; auto. }
      exists wf. split; auto.
Qed.

Theorem C67_option_error : forall o, o_version o = false -> o_help o = false -> ~ no_pattern o -> option_error o -> run o = Exit 1.
Proof. intros o V H N E. destruct (run_main o V H N) as [(_ & R)|(X & _)]; [auto|contradiction]. Qed.

(* A pattern that is not in the grammar: status 2. *)
Theorem C67_parse_error : forall o, o_version o = false -> o_help o = false -> ~ option_error o -> o_automaton o = [] -> pattern_text o <> [] ->
  numbers_fit (pattern_text o) -> (forall x, ~ spells (toks x) (pattern_text o)) -> run o = Exit 2.
Proof.
  intros o V H NE A P F N. destruct (run_main o V H) as [(X & _)|(_ & wf & _ & _ & R)]; [intros (_ & X); congruence|contradiction|].
  rewrite R. unfold main_pattern. rewrite A. cbn [empty]. destruct (C64_errors (pattern_text o)) as [([r|] & E)|[(E & _)|(E & a & ds & b & X & Y & Z)]].
  - destruct (C64_sound _ _ E) as (x & S & _). destruct (N x S).
  - rewrite E. reflexivity.
  - rewrite E. reflexivity.
  - specialize (F a ds b X Y). lia.
Qed.

(* A word file that cannot be opened: status 1, after the pattern was read. *)
Theorem C67_word_file : forall o A, o_version o = false -> o_help o = false -> ~ no_pattern o -> ~ option_error o ->
  main_pattern sepA sepD fuel al0 W o (pattern_text o) = Ok A -> (forall wf, word_name o wf -> w_file W wf = None) -> ~ word_stdin o -> run o = Exit 1.
Proof.
  intros o A V H N NE P F S. destruct (run_main o V H N) as [(X & _)|(_ & wf & [(X & _)|(X & Y)] & _ & R)]; [contradiction|contradiction|].
  rewrite R, P. cbn [bind]. unfold main_word. apply str_eqb_no in Y. rewrite Y, (F wf X). reflexivity.
Qed.

(* Every other status there is. *)
Theorem C67_statuses : forall o n, run o = Exit n ->
  n = 1 /\ (option_error o \/ exists wf, word_name o wf /\ w_file W wf = None) \/
  n = 2 /\ o_automaton o = [] /\ (forall x, ~ spells (toks x) (pattern_text o)) \/
  n = 10.
Proof.
  intros o n E. destruct (o_version o) eqn:V; [rewrite (C67_version o V) in E; discriminate|].
  destruct (o_help o) eqn:H; [rewrite (C67_usage o V H) in E; discriminate|].
  assert (D : no_pattern o \/ ~ no_pattern o).
  { unfold no_pattern. destruct (o_automaton o), (pattern_text o); auto; right; intros [A B]; discriminate. }
  destruct D as [D|D]; [rewrite (run_usage o V (or_intror D)) in E; discriminate|].
  destruct (run_main o V H D) as [(X & R)|(_ & wf & WF & _ & R)]; rewrite R in E; [injection E as <-; auto|]. clear R D V H.
  destruct (main_pattern sepA sepD fuel al0 W o (pattern_text o)) as [A| | |k|] eqn:P; cbn [bind] in E; try discriminate.
  - destruct (main_word dec W o wf) as [w| | |k|] eqn:Wd; cbn [bind] in E; try discriminate.
    + right. right. destruct (o_signal o).
      * destruct (monaa fuel al (clockSize A) lazyC A (lopen w)) as [zs| | |k|] eqn:M; cbn [bind] in E; try discriminate.
        injection E as <-. exact (ten_monaa _ _ _ _ _ _ M).
      * destruct (monaaDollar fuel al lazyC A (lopen w)) as [zs| | |k|] eqn:M; cbn [bind] in E; try discriminate.
        injection E as <-. exact (ten_dollar _ _ _ _ _ M).
    + injection E as <-. unfold main_word in Wd. destruct WF as [(_ & ->)|(WN & NS)].
      * replace (str_eqb stdin_name stdin_name) with true in Wd by reflexivity. cbn [bind] in Wd. right. right.
        destruct (o_binary o); [exact (ten_binary _ _ _ Wd)|exact (ten_text _ _ Wd)].
      * apply str_eqb_no in NS. rewrite NS in Wd. destruct (w_file W wf) as [s|] eqn:F; cbn [bind] in Wd.
        -- right. right. destruct (o_binary o); [exact (ten_binary _ _ _ Wd)|exact (ten_text _ _ Wd)].
        -- injection Wd as <-. left. eauto.
  - injection E as <-. unfold main_pattern in P. destruct (empty (o_automaton o)) eqn:EA.
    + apply empty_iff in EA. destruct (parse (pattern_text o)) as [[r|]| | |j|] eqn:Ps; cbn [bind] in P; try discriminate.
      * right. right. destruct (o_signal o).
        -- destruct (toSignalTA sepA sepD fuel al0 r 0) as [X| | |j|] eqn:T; cbn [bind] in P; try discriminate. injection P as <-. exact (ten_signal _ _ _ _ _ _ _ T).
        -- destruct (toEventTA al0 r 0) as [X| | |j|] eqn:T; cbn [bind] in P; try discriminate. injection P as <-. exact (ten_event _ _ _ _ T).
      * injection P as <-. right. left. split; auto. split; auto. intros x S. destruct (C64_complete _ _ S) as (r & X). congruence.
      * injection P as <-. right. left. destruct (C64_errors (pattern_text o)) as [(r & X)|[(X & c & I & L)|(X & _)]]; try congruence.
        assert (j = 2) by congruence. subst j. split; auto. split; auto. intros x S. destruct (C64_complete _ _ S) as (r & Y). congruence.
    + destruct (o_signal o) eqn:ES.
      * injection P as <-. left. split; auto. left. right. right. right. split; auto. intros X. rewrite X in EA. discriminate.
      * destruct (w_dot W (o_automaton o)) as [D|] eqn:Dt; try discriminate.
        destruct (parseBoostTA (fst D) (snd D)) as [G| | |j|] eqn:B; cbn [bind] in P; try discriminate. injection P as <-. right. right. exact (ten_dot _ _ _ B).
Qed.
End Statuses.

(* ---------------- cases ---------------- *)

Definition cmd (pos : list (list nat)) : options := mkO false false false false false false false stdin_name [] [] pos.
Definition world1 (input : list nat) : world := mkW input (fun _ => None) (fun _ => None).
Definition sep0 (H : heap) (a : nat) : outcome heap := UB.
Definition dec0 (l : list nat) : Q := 0.
Notation go pos input := (main sep0 sep0 dec0 200 (fun k => k) exAl (world1 input) (cmd pos)).

Example C67_cases : forall input,
  option_error (mkO false false false true true false false stdin_name [] [] [str "a$"]) /\
  (* -ab a$ *)
  main sep0 sep0 dec0 200 (fun k => k) exAl (world1 input) (mkO false false false true true false false stdin_name [] [] [str "a$"]) = Exit 1 /\
  (* a| *)
  go [str "a|"] input = Exit 2 /\
  (* a$ with a file that is not there *)
  word_name (cmd [str "a$"; str "none"]) (str "none") /\ go [str "a$"; str "none"] input = Exit 1 /\
  (* -e a$ stdin *)
  word_stdin (mkO false false false false false false false stdin_name [] (str "a$") [str "stdin"]).
Proof.
  intros input. split; [left; auto|]. split; [reflexivity|]. split; [reflexivity|]. split.
  { right. split; [reflexivity|]. split; [discriminate|]. exists [], []. split; [reflexivity|constructor]. }
  split; [reflexivity|]. split; [reflexivity|]. repeat constructor.
Qed.

(* doc/man.md knows the statuses 0, 1 and 2.  The pattern $ ends with 10. *)
Theorem C67_status_refuted : spells (toks (XAtom 36)) (str "$") /\ forall input w, text_word input = Ok w -> go [str "$"] input = Exit 10.
Proof.
  split; [cbn; apply sp_letter; [unfold letter; auto|constructor]|]. intros input w E. unfold main.
  replace (positional _ _ _ _) with (str "$", stdin_name) by reflexivity. cbn [o_version o_automaton o_help o_ascii o_binary o_signal o_event o_quiet cmd].
  replace (main_pattern _ _ _ _ _ _ _) with (Ok (fst (match toEventTA (fun k => k) (Atom 36) 0 with Ok X => X | _ => (mkTA [] [] [], 0) end))) by reflexivity.
  unfold main_word. cbn [w_stdin world1]. replace (str_eqb stdin_name stdin_name) with true by reflexivity. cbn [bind o_binary cmd]. rewrite E. reflexivity.
Qed.

(* doc/options.md: exactly one of -e and -f must be given.  A command line with
   neither and no argument is not an error: the usage is shown, status 0. *)
Theorem C67_missing_pattern_refuted : forall sepA sepD dec fuel al0 al W o, o_version o = false -> no_pattern o ->
  main sepA sepD dec fuel al0 al W o = Ok Usage.
Proof. intros. apply run_usage; auto. Qed.

(* A parse error in the guard of an automaton is not status 2 but an exception
   that nobody catches. *)
Theorem C67_guard_error_refuted : forall input, main sep0 sep0 dec0 200 (fun k => k) exAl
  (mkW input (fun _ => None) (fun _ => Some ([mkTV 1 true false false; mkTV 2 false true false], [mkTE 1 2 97 (Some (str "{x0 ? 1}")) None])))
  (mkO false false false false false false false stdin_name (str "p.dot") [] []) = Throw.
Proof. intros input. vm_compute. reflexivity. Qed.

(* ================= C68 from texts to printed lines ================= *)

(* A tree and a text that the parser is known to read as that tree (C65, C66). *)
Definition meant (x : sx) (s : list nat) : Prop :=
  spells (toks (paren x)) s \/ usual 0 x /\ left_items x /\ spells (toks x) s.
(* A restriction has an upper bound. *)
Fixpoint bounded (r : restr) : Prop := match r with RGe _ | RGt _ => False | RPar r => bounded r | _ => True end.
(* The empty word is a match. *)
Fixpoint nul (x : sx) : bool :=
  match x with
  | XAtom _ => false
  | XStar _ => true
  | XPar y | XPlus y | XIn y _ => nul y
  | XCat y z | XAnd y z => nul y && nul z
  | XOr y z => nul y || nul z
  end.
(* A star, or a choice of which one is. *)
Fixpoint bare (x : sx) : bool :=
  match x with
  | XAtom _ | XCat _ _ | XAnd _ _ | XIn _ _ => false
  | XStar _ => true
  | XPar y | XPlus y => bare y
  | XOr y z => bare y || bare z
  end.
(* Some end of the pattern is not an operand of &. *)
Fixpoint solid (x : sx) : bool :=
  match x with
  | XAtom _ => true
  | XAnd _ _ => false
  | XPar y | XPlus y | XStar y | XIn y _ => solid y
  | XCat y z => solid z || (solid y && nul z)
  | XOr y z => solid y || solid z
  end.
(* No star stands directly below a repetition, a restriction or &, or directly
   behind &; what may match nothing is not restricted to a time that is not 0;
   every restriction has an upper bound. *)
Fixpoint starsafe (x : sx) : Prop :=
  match x with
  | XAtom _ => True
  | XPar y => starsafe y
  | XPlus y | XStar y => starsafe y /\ bare y = false
  | XCat y z => starsafe y /\ starsafe z /\ (bare z = false \/ solid y = true)
  | XOr y z => starsafe y /\ starsafe z
  | XAnd y z => starsafe y /\ starsafe z /\ bare y = false /\ bare z = false
  | XIn y r => starsafe y /\ bare y = false /\ (nul y = true -> rin r 0%Q) /\ bounded r
  end.
Fixpoint restrictions (x : sx) : nat :=
  match x with
  | XAtom _ => 0
  | XPar y | XPlus y | XStar y => restrictions y
  | XCat y z | XOr y z | XAnd y z => restrictions y + restrictions z
  | XIn y _ => S (restrictions y)
  end.
Fixpoint atoms (x : sx) : list nat :=
  match x with
  | XAtom c => [c]
  | XPar y | XPlus y | XStar y | XIn y _ => atoms y
  | XCat y z | XOr y z | XAnd y z => atoms y ++ atoms z
  end.

(* The options of a run in event mode on a textual word with the pattern s. *)
Record event_run (o : options) (s : list nat) : Prop := mkER {
  er_version : o_version o = false; er_help : o_help o = false; er_valid : ~ option_error o;
  er_automaton : o_automaton o = []; er_pattern : pattern_text o = s; er_given : s <> [];
  er_text : o_binary o = false; er_event : o_signal o = false }.
Definition word_from (W : world) (o : options) (input : list nat) : Prop :=
  word_stdin o /\ input = w_stdin W \/ exists wf, word_name o wf /\ w_file W wf = Some input.

Lemma word_name_unique : forall o a b, word_name o a -> word_name o b -> a = b.
Proof.
  intros o a b [(H1 & H2)|(H1 & H2 & p & q & E & F)] [(K1 & K2)|(K1 & K2 & p' & q' & E' & F')]; try congruence.
  rewrite E in E'. clear E H1 K1. revert p' E' F'. induction p as [|x p IH]; intros [|y p'] E F'; cbn in E; injection E as E1 E2.
  - congruence.
  - inversion F'; subst; congruence.
  - inversion F; subst; congruence.
  - apply IH with (p' := p'); auto; [inversion F; auto|inversion F'; auto].
Qed.
Lemma word_name_stdin : forall o a, word_name o a -> word_stdin o -> False.
Proof.
  intros o a [(H1 & H2)|(H1 & H2 & p & q & E & F)] (K1 & K2); try congruence. rewrite E in K2. apply Forall_app in K2 as [_ K2]. inversion K2; subst. congruence.
Qed.

Section Run.
Context (sepA sepD : heap -> nat -> outcome heap) (dec : list nat -> Q) (fuel : nat) (al0 : nat -> ptr) (al : alloc) (W : world).
Notation run o := (main sepA sepD dec fuel al0 al W o).

Lemma event_run_main : forall o s r input, event_run o s -> word_from W o input -> parse s = Ok (Some r) ->
  run o = do X <- toEventTA al0 r 0 ; do p <- main_event fuel al (o_quiet o) (fst X) input ; Ok (Printed p).
Proof.
  intros o s r input [V H NE A P G T E] Wf Ps.
  destruct (run_main sepA sepD dec fuel al0 al W o V H) as [(X & _)|(_ & wf & F & _ & R)]; [intros (_ & X); congruence|contradiction|].
  rewrite R. unfold main_pattern. rewrite A, P, E, Ps. cbn [empty bind]. destruct (toEventTA al0 r 0) as [X| | |n|]; cbn [bind]; auto.
  unfold main_event, main_word. rewrite T.
  assert (I : (do input <- (if str_eqb wf stdin_name then Ok (w_stdin W) else match w_file W wf with Some s => Ok s | None => Exit 1 end) ; text_word input) = text_word input).
  { destruct F as [(F & ->)|(F & N)].
    - replace (str_eqb stdin_name stdin_name) with true by reflexivity. destruct Wf as [(_ & ->)|(wf & K & _)]; [reflexivity|]. destruct (word_name_stdin _ _ K F).
    - apply str_eqb_no in N. rewrite N. destruct Wf as [(K & _)|(wf' & K & L)]; [destruct (word_name_stdin _ _ F K)|].
      rewrite (word_name_unique _ _ _ F K), L. reflexivity. }
  rewrite I. destruct (text_word input) as [w| | |n|]; cbn [bind]; auto. destruct (monaaDollar fuel al lazyC (fst X) (lopen w)); reflexivity.
Qed.

Theorem C68_sound : forall o s r input w p block, injective al0 -> event_run o s -> parse s = Ok (Some r) -> ok r -> nclocks r <= 256 ->
  word_from W o input -> rendered w input -> nondecreasing 0 w -> o_quiet o = false -> run o = Ok (Printed p) -> In block (pr_out p) ->
  (forall t t', Forall (fun q => sat_ineq q t t') block ->
     (0 <= t)%Q /\ (t <= t')%Q /\ tre_lang r (delays t (between w t t' ++ [(dollar, t')]))) /\
  (exists t t', Forall (fun q => sat_ineq q t t') block).
Proof.
  intros o s r input w p block Inj ER Ps O K Wf R ND Q E Hb. rewrite (event_run_main o s r input ER Wf Ps) in E.
  destruct (toEventTA al0 r 0) as [[A m]| | | |] eqn:T; try discriminate. cbn [bind fst] in E. rewrite Q in E.
  destruct (main_event fuel al false A input) as [p'| | | |] eqn:M; try discriminate. cbn [bind] in E. injection E as <-.
  pose proof (ti_wf _ _ _ _ (bu_inv _ _ _ _ _ (toEventTA_inv _ _ _ _ _ Inj O K T))) as WA.
  destruct (C56_sound fuel al A input w p' block WA R ND M Hb) as (S & N). split; auto.
  intros t t' F. apply (C42_matches al0 r 0 A m w t t' Inj O K T). auto.
Qed.

Lemma meant_parse : forall x s, meant x s -> parse s = Ok (Some (den x)).
Proof.
  intros x s [S|(U & L & S)]; unfold parse; rewrite (lex_spells _ _ S).
  - rewrite <- (paren_den x). apply (parse_rn (paren x) [] (proj2 (paren_rn x))).
  - apply (parse_rn x [] (proj1 (usual_rn x 0 U L))).
Qed.

Lemma spelled_atoms : forall ts s, spells ts s -> forall c, In (TAtom c) ts -> letter c.
Proof.
  intros ts s H. induction H; intros a I; try contradiction; auto; destruct I as [I|I]; auto; try discriminate.
  - injection I as <-. auto.
  - subst t. discriminate.
Qed.
Lemma toks_atoms : forall x c, In c (atoms x) -> In (TAtom c) (toks x).
Proof.
  induction x; cbn [atoms toks]; intros a I; try (rewrite !in_app_iff; cbn [In]);
    try (apply in_app_iff in I as [I|I]); auto; try (destruct I as [<-|[]]; left; auto).
Qed.
Lemma paren_atoms : forall x, atoms (paren x) = atoms x.
Proof. induction x; cbn [paren atoms]; congruence. Qed.
Lemma meant_atoms : forall x s c, meant x s -> In c (atoms x) -> letter c.
Proof.
  intros x s c [S|(_ & _ & S)] I; eapply spelled_atoms; eauto; apply toks_atoms; auto. rewrite paren_atoms. auto.
Qed.

Lemma bounded_int : forall r, bounded r -> int_bounds (rden r).
Proof.
  induction r as [lc a b rc|z|z|z|z|z|r IH]; cbn; intros H; try contradiction; auto; unfold int_bounds, zbound; cbn.
  - exists a, b. auto.
  - exists 0%Z, z. auto.
  - exists 0%Z, z. auto.
  - exists z, z. auto.
Qed.
Lemma mkPlus_cases : forall r, mkPlus r = Plus r \/ exists r1, r = Plus r1 /\ mkPlus r = r.
Proof. intros [c| |r|r1 r2|r1 r2|r1 r2|r Iv]; cbn; eauto. Qed.
Lemma contain_rin : forall r, rin r 0%Q -> contain (rden r) 0 = true.
Proof. intros r H. apply contain_iin. apply rden_rin. exact H. Qed.
Lemma starsafe_ok : forall x, starsafe x -> (forall c, In c (atoms x) -> letter c) ->
  ok (den x) /\ flag (den x) = (if bare x then InitFlag else NoFlag) /\ nullable (den x) = nul x /\ simple (den x) = solid x /\ nclocks (den x) <= restrictions x.
Proof.
  induction x as [c|y IH|y IH|y IH|y IHy z IHz|y IHy z IHz|y IHy z IHz|y IH r]; cbn [starsafe atoms den restrictions bare nul solid]; intros S A.
  - cbn. specialize (A c (or_introl eq_refl)). repeat split; auto. intros ->. unfold letter in A. lia.
  - apply IH; auto.
  - destruct S as [S Sb]. destruct (IH S A) as (H1 & H2 & H3 & H5 & H4). rewrite Sb in *. destruct (mkPlus_cases (den y)) as [->|(r1 & E & ->)]; [|auto]. cbn. repeat split; auto.
  - destruct S as [S Sb]. destruct (IH S A) as (H1 & H2 & H3 & H5 & H4). rewrite Sb in *. unfold mkStar.
    destruct (mkPlus_cases (den y)) as [->|(r1 & E & ->)]; cbn; rewrite ?H2; repeat split; auto.
  - destruct S as (S1 & S2 & Sb). destruct IHy as (H1 & H2 & H3 & H5 & H4); auto; [intros; apply A, in_app_iff; auto|].
    destruct IHz as (K1 & K2 & K3 & K5 & K4); auto; [intros; apply A, in_app_iff; auto|]. cbn. rewrite H3, K2, K3, H5, K5. repeat split; auto; [|lia].
    destruct (bare z); auto. destruct Sb as [Sb|Sb]; [discriminate|]. rewrite Sb. auto.
  - destruct S as [S1 S2]. destruct IHy as (H1 & H2 & H3 & H5 & H4); auto; [intros; apply A, in_app_iff; auto|].
    destruct IHz as (K1 & K2 & K3 & K5 & K4); auto; [intros; apply A, in_app_iff; auto|]. cbn. rewrite H2, H3, K2, K3, H5, K5. repeat split; auto; [|lia].
    destruct (bare y), (bare z); auto.
  - destruct S as (S1 & S2 & B1 & B2). destruct IHy as (H1 & H2 & H3 & H5 & H4); auto; [intros; apply A, in_app_iff; auto|].
    destruct IHz as (K1 & K2 & K3 & K5 & K4); auto; [intros; apply A, in_app_iff; auto|]. rewrite B1 in H2. rewrite B2 in K2. cbn. rewrite H2, H3, K2, K3. repeat split; auto. lia.
  - destruct S as (S1 & B1 & N1 & S2). destruct IH as (H1 & H2 & H3 & H5 & H4); auto. rewrite B1 in H2. cbn. rewrite H2, H3, H5.
    assert (C : nul y && contain (rden r) 0 = nul y) by (destruct (nul y); auto; rewrite contain_rin; auto). rewrite C.
    repeat split; auto; [intros N; apply contain_rin; auto|apply bounded_int; auto|lia].
Qed.

(* For the patterns in which * stands where it is harmless (starsafe) that the parser is known to read as they are
   meant: a pair of times that satisfies a printed block is a match of the
   pattern in the word that was read, in the sense of the documentation alone.
   No block is unsatisfiable. *)
Theorem C68_meant_partial : forall x o s input w p block, injective al0 -> event_run o s -> meant x s -> starsafe x -> restrictions x <= 256 ->
  word_from W o input -> rendered w input -> nondecreasing 0 w -> o_quiet o = false -> run o = Ok (Printed p) -> In block (pr_out p) ->
  (forall t t', Forall (fun q => sat_ineq q t t') block ->
     (0 <= t)%Q /\ (t <= t')%Q /\ sem x (delays t (between w t t' ++ [(dollar, t')]))) /\
  (exists t t', Forall (fun q => sat_ineq q t t') block).
Proof.
  intros x o s input w p block Inj ER M S K Wf R ND Q E Hb. destruct (starsafe_ok x S (fun c => meant_atoms x s c M)) as (H1 & H2 & H3 & _ & H4).
  destruct (C68_sound o s (den x) input w p block Inj ER (meant_parse x s M) H1 ltac:(lia) Wf R ND Q E Hb) as (A & B). split; auto.
  intros t t' F. destruct (A t t' F) as (A1 & A2 & A3). split; auto. split; auto. apply den_sem. auto.
Qed.

(* A pattern without $ reports nothing, whatever the word: the end of a match
   is the event $. *)
Lemma sem_atoms : forall x u c d, sem x u -> In (c, d) u -> In c (atoms x).
Proof.
  induction x as [c|y IH|y IH|y IH|y IHy z IHz|y IHy z IHz|y IHy z IHz|y IH r]; cbn [sem atoms]; intros u a d S I.
  - destruct S as (e & ->). destruct I as [[= <- _]|[]]. left. auto.
  - eauto.
  - destruct S as (us & _ & F & ->). apply in_concat in I as (v & Hv & I). rewrite Forall_forall in F. eauto.
  - destruct S as (us & F & ->). apply in_concat in I as (v & Hv & I). rewrite Forall_forall in F. eauto.
  - destruct S as (u1 & u2 & -> & S1 & S2). apply in_app_iff in I as [I|I]; apply in_app_iff; eauto.
  - destruct S as [S|S]; apply in_app_iff; eauto.
  - destruct S as [S _]. apply in_app_iff. eauto.
  - destruct S as [S _]. eauto.
Qed.
Theorem C68_no_dollar : forall x o s input w p, injective al0 -> event_run o s -> meant x s -> starsafe x -> restrictions x <= 256 ->
  ~ In dollar (atoms x) ->
  word_from W o input -> rendered w input -> nondecreasing 0 w -> o_quiet o = false -> run o = Ok (Printed p) -> pr_out p = [].
Proof.
  intros x o s input w p Inj ER M S K ND Wf R NW Q E. destruct (pr_out p) as [|b l] eqn:Ep; auto. exfalso.
  destruct (C68_meant_partial x o s input w p b Inj ER M S K Wf R NW Q E) as (A & t & t' & F); [rewrite Ep; left; auto|].
  destruct (A t t' F) as (_ & _ & X). apply ND. rewrite delays_app in X.
  eapply sem_atoms; [exact X|]. apply in_app_iff. right. cbn [delays]. left. reflexivity.
Qed.

(* Nothing is missed, under the conditions of C42_reported_complete_partial. *)
Theorem C68_complete_partial : forall x o s input w p A Ap T, injective al0 -> event_run o s -> meant x s -> starsafe x -> bare x = false -> 2 * restrictions x <= 255 ->
  word_from W o input -> rendered w input -> word_ok w -> o_quiet o = false -> run o = Ok (Printed p) ->
  main_pattern sepA sepD fuel al0 W o s = Ok A -> StronglySorted le (inits A) -> tables_for fuel al A Ap T -> uppers_after_reset Ap ->
  forall t t', between w t t' <> [] -> (0 <= t)%Q -> (t <= t')%Q -> sem x (delays t (between w t t' ++ [(dollar, t')])) ->
  exists block, In block (pr_out p) /\ Forall (fun q => sat_ineq q t t') block.
Proof.
  intros x o s input w p A Ap T Inj ER M S BA K Wf R WO Q E MP SO TF UR t t' NB H0 H1 Sm.
  destruct (starsafe_ok x S (fun c => meant_atoms x s c M)) as (O & FL & NU & _ & KC). rewrite BA in FL.
  pose proof (meant_parse x s M) as Ps. rewrite (event_run_main o s (den x) input ER Wf Ps) in E.
  unfold main_pattern in MP. rewrite (er_automaton _ _ ER), (er_event _ _ ER), Ps in MP. cbn [empty bind] in MP.
  destruct (toEventTA al0 (den x) 0) as [[A' m]| | | |] eqn:TE; try discriminate. cbn [bind fst] in MP, E. injection MP as ->.
  rewrite Q in E. unfold main_event in E. rewrite (C39_wellformed w input R) in E. cbn [bind] in E.
  destruct (monaaDollar fuel al lazyC A (lopen w)) as [zs| | | |] eqn:Mn; try discriminate. cbn [bind] in E.
  assert (Ep : p = fold_left pr_op (Clear :: map Push zs) (mkPr false 0 [])) by congruence. clear E. subst p.
  pose proof Mn as Mv. rewrite C36_online_offline in Mv.
  destruct (C42_reported_complete_partial fuel al0 al (den x) A m Ap T w zs Inj O FL ltac:(lia) WO TE SO TF UR Mv t t' NB H0 H1) as (z & Hz & Z).
  { apply den_sem. auto. }
  pose proof (ti_wf _ _ _ _ (bu_inv _ _ _ _ _ (toEventTA_inv _ _ _ _ _ Inj O ltac:(lia) TE))) as WA.
  pose proof (increasing_nondecreasing _ _ (wo_inc _ WO)) as ND.
  destruct (monaaDollar_ok _ _ _ _ _ WA ND Mv z Hz) as (i & _ & _ & G & C & _).
  exists (print_zone z). split.
  - destruct (C46_printer (Clear :: map Push zs) false) as [_ EP]. rewrite EP. cbn [flat_map Datatypes.app].
    apply in_flat_map. exists (Push z). split; [apply in_map; auto|left; auto].
  - apply C54_meaning; auto. apply (proj1 C).
Qed.
End Run.

(* ================= C69 tre2ta ================= *)

(* The last argument is the pattern; without arguments, the value of -e. *)
Definition tre2ta_text (e : list nat) (pos : list (list nat)) : list nat := last pos e.
Lemma last_fold : forall (pos : list (list nat)) e, fold_left (fun _ s => s) pos e = last pos e.
Proof.
  induction pos as [|s pos IH]; intros e; auto. cbn [fold_left]. rewrite IH. destruct pos as [|s' pos]; auto.
  change (last (s :: s' :: pos) e) with (last (s' :: pos) e). clear. revert s'. induction pos as [|x pos IH]; intros s'; auto. apply IH.
Qed.

Lemma spelled_ints : forall ts s, spells ts s -> forall z, In (TInt z) ts -> (0 <= z <= 2147483647)%Z.
Proof.
  assert (V : forall ds acc, (0 <= acc)%Z -> Forall decimal ds -> (0 <= value acc ds)%Z).
  { induction ds as [|d ds IH]; intros acc A F; cbn [value]; auto. inversion F as [|? ? D F']; subst. apply IH; auto. unfold decimal in D. lia. }
  intros ts s H. induction H; intros z I; try contradiction; auto; destruct I as [I|I]; auto; try discriminate.
  - subst t. discriminate.
  - injection I as <-. split; auto. apply V; auto. lia.
Qed.
Fixpoint rints (r : restr) : list Z :=
  match r with RRange _ a b _ => [a; b] | RLt z | RLe z | REq z | RGe z | RGt z => [z] | RPar r => rints r end.
Fixpoint ints (x : sx) : list Z :=
  match x with
  | XAtom _ => []
  | XPar y | XPlus y | XStar y => ints y
  | XCat y z | XOr y z | XAnd y z => ints y ++ ints z
  | XIn y r => ints y ++ rints r
  end.
Lemma toks_rints : forall r z, In z (rints r) -> In (TInt z) (rtoks r).
Proof.
  induction r as [lc a b rc|c|c|c|c|c|r IH]; cbn [rints rtoks]; intros z I; try (destruct I as [<-|[]]; right; left; reflexivity).
  - destruct I as [<-|[<-|[]]]; cbn; auto.
  - rewrite !in_app_iff. auto.
Qed.
Lemma toks_ints : forall x z, In z (ints x) -> In (TInt z) (toks x).
Proof.
  induction x as [c|y IH|y IH|y IH|y IHy z IHz|y IHy z IHz|y IHy z IHz|y IH r]; cbn [ints toks]; intros a I; try contradiction;
    rewrite !in_app_iff; try (apply in_app_iff in I as [I|I]); auto. right. right. apply toks_rints. auto.
Qed.
Lemma paren_ints : forall x, ints (paren x) = ints x.
Proof. induction x; cbn [paren ints]; congruence. Qed.
Lemma meant_ints : forall x s z, meant x s -> In z (ints x) -> (0 <= z <= 2147483647)%Z.
Proof.
  intros x s z [S|(_ & _ & S)] I; eapply spelled_ints; eauto; apply toks_ints; auto. rewrite paren_ints. auto.
Qed.
Lemma den_bounds : forall (P : Z -> Prop) x, P 0%Z -> (forall z, In z (ints x) -> P z) -> bounds_in P (den x).
Proof.
  intros P x P0. induction x as [c|y IH|y IH|y IH|y IHy z IHz|y IHy z IHz|y IHy z IHz|y IH r]; cbn [ints den bounds_in]; intros A; auto.
  - destruct (mkPlus_cases (den y)) as [->|(r1 & E & ->)]; cbn [bounds_in]; auto.
  - unfold mkStar. cbn [bounds_in]. split; auto. destruct (mkPlus_cases (den y)) as [->|(r1 & E & ->)]; cbn [bounds_in]; auto.
  - split; [apply IHy|apply IHz]; intros; apply A, in_app_iff; auto.
  - split; [apply IHy|apply IHz]; intros; apply A, in_app_iff; auto.
  - split; [apply IHy|apply IHz]; intros; apply A, in_app_iff; auto.
  - split; [apply IH; intros; apply A, in_app_iff; auto|].
    assert (R : forall z, In z (rints r) -> P z) by (intros; apply A, in_app_iff; auto). clear A IH.
    induction r as [lc a b rc|c|c|c|c|c|r IH]; cbn [rden rints] in *; auto; unfold zbound; cbn [lob upb fst]; rewrite ?int_of_inject; split; intros z E;
      try (injection E as <-); try discriminate; auto using in_eq; try (apply R; cbn; auto).
Qed.

(* The graph that tre2ta prints, read again with any order of the vertices,
   accepts the words of the pattern. *)
Theorem C69_language_partial : forall al0 x e pos out, injective al0 -> meant x (tre2ta_text e pos) -> starsafe x -> restrictions x <= 256 ->
  tre2ta_text e pos <> [] -> tre2ta al0 false false e pos = Ok out ->
  exists vs es, out = Graph (vs, es) /\
    forall vs', Permutation vs vs' -> exists G, parseBoostTA vs' es = Ok G /\ wf_graph G /\
      forall al1, inj_on al1 (map bv_id (bverts G)) -> forall w, accepts (convBoostTA al1 G) w <-> sem x (delays 0 w).
Proof.
  intros al0 x e pos out Inj M S K NE E. unfold tre2ta in E. rewrite last_fold in E. fold (tre2ta_text e pos) in E.
  destruct (tre2ta_text e pos) as [|c0 s0] eqn:Es; [congruence|]. rewrite <- Es in *. replace (empty (tre2ta_text e pos)) with false in E by (rewrite Es; reflexivity).
  cbn [orb] in E. rewrite (meant_parse x _ M) in E. cbn [bind] in E.
  destruct (starsafe_ok x S (fun c => meant_atoms x _ c M)) as (O & FL & NU & _ & KC).
  destruct (toEventTA al0 (den x) 0) as [[A m]| | | |] eqn:T; try discriminate. cbn [bind fst] in E.
  pose proof (toEventTA_inv _ _ _ _ _ Inj O ltac:(lia) T) as B. pose proof (bu_inv _ _ _ _ _ B) as TI.
  assert (Pr : printable_ta A).
  { intros p c ed He. pose proof He as (s & es & H1 & H2 & H3). pose proof (wf_edges _ (ti_wf _ _ _ _ TI) p s c es ed H1 H2 H3) as (_ & W2 & W3).
    rewrite (bu_clocks _ _ _ _ _ B) in W2, W3. split; [|split].
    - apply Forall_forall. intros g Hg. rewrite Forall_forall in W3. split; [specialize (W3 g Hg); cbn in W3; lia|].
      eapply (toEventTA_consts int_range al0 (den x) 0 A m); eauto. apply den_bounds; [unfold int_range, int_min, int_max; lia|].
      intros z Hz. pose proof (meant_ints x _ z M Hz). unfold int_range, int_min, int_max. lia.
    - eapply Forall_impl; [|exact W2]. cbn. intros; lia.
    - apply (ti_tgt _ _ _ _ TI p c ed He). }
  destruct (C55_round_trip A (ti_wf _ _ _ _ TI) Pr) as (vs & es & EP & RT). rewrite EP in E. cbn [bind] in E. injection E as <-.
  exists vs, es. split; auto. intros vs' Pm. destruct (RT vs' Pm) as (G & E1 & E2 & E3). exists G. split; auto. split; auto.
  intros al1 I1 w. rewrite (E3 al1 I1 w), accepts_alang. change (lang_of A (delays 0 w) <-> sem x (delays 0 w)). rewrite (bu_lang _ _ _ _ _ B). apply den_sem.
Qed.
(* A text that is not in the grammar: status 2; no text: the usage. *)
Theorem C69_statuses : forall al0 e pos, numbers_fit (tre2ta_text e pos) ->
  (tre2ta_text e pos = [] /\ tre2ta al0 false false e pos = Ok Usage2) \/
  (tre2ta_text e pos <> [] /\ (forall x, ~ spells (toks x) (tre2ta_text e pos)) /\ tre2ta al0 false false e pos = Exit 2) \/
  (exists x, spells (toks x) (tre2ta_text e pos)).
Proof.
  intros al0 e pos F. unfold tre2ta. rewrite last_fold. fold (tre2ta_text e pos). destruct (tre2ta_text e pos) as [|c0 s0] eqn:Es; [auto|]. rewrite <- Es in *.
  replace (empty (tre2ta_text e pos)) with false by (rewrite Es; reflexivity). cbn [orb]. right.
  destruct (C64_errors (tre2ta_text e pos)) as [([r|] & E)|[(E & _)|(E & a & ds & b & X & Y & Z)]].
  - right. destruct (C64_sound _ _ E) as (x & Sx & _). eauto.
  - left. split; [congruence|]. rewrite E. split; [|reflexivity]. intros x Sx. destruct (C64_complete _ _ Sx) as (r & E'). congruence.
  - left. split; [congruence|]. rewrite E. split; [|reflexivity]. intros x Sx. destruct (C64_complete _ _ Sx) as (r & E'). congruence.
  - specialize (F a ds b X Y). lia.
Qed.

(* tre2ta '(ab)%(2,10)', as in doc/tre2ta_man.md. *)
Definition exD : sx := XIn (XPar (XCat (XAtom 97) (XAtom 98))) (RRange false 2 10 false).
Lemma exD_meant : meant exD (str "(ab)%(2,10)").
Proof.
  right. split; [cbn; lia|]. split; [cbn; auto|]. cbn.
  do 4 (first [apply sp_letter; [unfold letter; lia|] | match goal with |- spells (?t :: _) (?c :: _) => apply (sp_punct t [c]); [reflexivity|intros [|]; discriminate|] end]).
  apply (sp_punct TWithin [37]); [reflexivity|intros [|]; discriminate|]. apply (sp_punct TLp [40]); [reflexivity|intros [|]; discriminate|].
  apply (sp_int [50]); [discriminate|repeat constructor; unfold decimal; lia|cbn; lia|cbn; unfold decimal; lia|].
  apply (sp_punct TComma [44]); [reflexivity|intros [|]; discriminate|].
  apply (sp_int [49; 48]); [discriminate|repeat constructor; unfold decimal; lia|cbn; lia|cbn; unfold decimal; lia|].
  apply (sp_punct TRp [41]); [reflexivity|intros [|]; discriminate|]. constructor.
Qed.
Example C69_case : starsafe exD /\ restrictions exD <= 256 /\
  exists out, tre2ta (fun k => k) false false (str "c") [str "a|b"; str "(ab)%(2,10)"] = Ok out /\ out =
    Graph ([mkTV 1 true false false; mkTV 2 false false false; mkTV 3 false true false],
           [mkTE 1 2 97 None None; mkTE 2 3 98 (Some (str "{x0 < 10, x0 > 2}")) None]) /\
  sem exD (delays 0 [(97, 1%Q); (98, 3%Q)]).
Proof.
  split; [cbn; intuition discriminate|]. split; [cbn; lia|]. eexists. split; [vm_compute; reflexivity|]. split; [vm_compute; reflexivity|].
  cbn. split; [exists [(97, (1 - 0)%Q)], [(98, (3 - 1)%Q)]; repeat split; eauto|]. unfold duration; cbn. split; reflexivity.
Qed.

(* ---------------- C68 on the documented examples ---------------- *)

(* examples/getting_started/timed_word.txt *)
Definition doc_word : list nat :=
  flat_map (fun l => str l ++ [10]) ["A 0.5"; "B 0.8"; "C 1.5"; "A 2.0"; "B 3.2"; "A 3.5"; "C 4.6"]%string.
Definition doc_tword : tword := [(65, 0.5%Q); (66, 0.8%Q); (67, 1.5%Q); (65, 2.0%Q); (66, 3.2%Q); (65, 3.5%Q); (67, 4.6%Q)].
Lemma doc_text : text_word doc_word = Ok doc_tword.
Proof. vm_compute. reflexivity. Qed.

(* (AB)$ *)
Definition exAB : sx := XCat (XPar (XCat (XAtom 65) (XAtom 66))) (XAtom 36).
Lemma exAB_meant : meant exAB (str "(AB)$").
Proof.
  right. split; [cbn; lia|]. split; [cbn; auto|]. cbn.
  repeat first [apply sp_end | apply sp_letter; [unfold letter; lia|] |
    match goal with |- spells (?t :: _) (?c :: _) => apply (sp_punct t [c]); [reflexivity|intros [|]; discriminate|] end].
Qed.
Definition exABta : ta := Eval vm_compute in fst (PropMonaa.get (mkTA [] [] [], 0) (toEventTA (fun k => k) (den exAB) 0)).
Lemma exAB_ta : toEventTA (fun k => k) (den exAB) 0 = Ok (exABta, 6).
Proof. vm_compute. reflexivity. Qed.
Definition exABap : ta := Eval vm_compute in PropMonaa.get exABta (make_ap exABta).
Definition exABs : list (list nat) := Eval vm_compute in PropMonaa.get [] (sunday_sets 200 exABap).
Definition exABb : list (ptr * nat) := Eval vm_compute in PropMonaa.get [] (kmp 200 exAl exABap (List.length exABs)).
Lemma exAB_ap : make_ap exABta = Ok exABap.
Proof. vm_compute. reflexivity. Qed.
Lemma exAB_sets : sunday_sets 200 exABap = Ok exABs.
Proof. vm_compute. reflexivity. Qed.
Lemma exAB_kmp : kmp 200 exAl exABap (List.length exABs) = Ok exABb.
Proof. vm_compute. reflexivity. Qed.
Definition exABz : outcome (list mat) := Eval vm_compute in outer_loop vecC exABta (the_tables exABs exABb) MDollar 200 doc_tword 0 [] [].
Lemma exAB_run : monaaDollar 200 exAl vecC exABta doc_tword = exABz.
Proof. refine (eq_trans (monaaDollar_with _ _ _ _ _ _ _ _ exAB_ap exAB_sets exAB_kmp eq_refl) _). vm_compute. reflexivity. Qed.

Lemma exAB_event : event_run (cmd [str "(AB)$"]) (str "(AB)$").
Proof. constructor; try reflexivity; try discriminate. intros [(X & _)|[(X & _)|[(X & _)|(X & _)]]]; try discriminate; apply X; reflexivity. Qed.
Lemma exAB_from : word_from (world1 doc_word) (cmd [str "(AB)$"]) doc_word.
Proof. left. split; [|reflexivity]. split; [reflexivity|]. cbn. constructor. Qed.

(* monaa '(AB)$' prints what examples/integrated_test.sh expects. *)
Definition lines (b : list ineq) := map (fun q => (q_lo q, q_lole q, q_var q, q_uple q, q_up q)) b.
Example C68_documented : exists p, go [str "(AB)$"] doc_word = Ok (Printed p) /\ pr_count p = 2 /\
  map lines (pr_out p) =
    [ [ (Fin (-0)%Q, true, 0, false, Fin 0.5%Q); (Fin 0.8%Q, false, 1, true, Fin 1.5%Q); (Fin 0.30%Q, false, 2, true, Fin 1.5%Q) ];
      [ (Fin 1.5%Q, true, 0, false, Fin 2.0%Q); (Fin 3.2%Q, false, 1, true, Fin 3.5%Q); (Fin 1.20%Q, false, 2, true, Fin 2.00%Q) ] ].
Proof.
  rewrite (event_run_main _ _ _ _ _ _ _ (cmd [str "(AB)$"]) (str "(AB)$") (den exAB) doc_word exAB_event exAB_from (meant_parse _ _ exAB_meant)).
  rewrite exAB_ta. cbn [bind fst]. unfold main_event. rewrite doc_text. cbn [bind].
  rewrite C36_online_offline, exAB_run. unfold exABz. cbn [bind]. eexists. split; [reflexivity|]. split; reflexivity.
Qed.

(* The other hypotheses of C68 hold for it. *)
Lemma rend_line : forall c i f w s, space c = false -> i <> Decimal.Nil -> rendered w s ->
  rendered ((c, lit_value (mkLit None i (Some f) None)) :: w) (c :: 32 :: lit_chars (mkLit None i (Some f) None) ++ 10 :: s).
Proof.
  intros c i f w s C I R. apply (rend_cons [] c [32] (mkLit None i (Some f) None) [10] w s); try (repeat constructor; fail); auto; [|discriminate].
  split; [left; exact I|exact Logic.I].
Qed.
Lemma doc_rendered : exists w, rendered w doc_word /\ w = doc_tword.
Proof.
  eexists. split.
  - unfold doc_word. cbn.
    apply (rend_line 65 (Decimal.D0 Decimal.Nil) (Decimal.D5 Decimal.Nil)); [reflexivity|discriminate|].
    apply (rend_line 66 (Decimal.D0 Decimal.Nil) (Decimal.D8 Decimal.Nil)); [reflexivity|discriminate|].
    apply (rend_line 67 (Decimal.D1 Decimal.Nil) (Decimal.D5 Decimal.Nil)); [reflexivity|discriminate|].
    apply (rend_line 65 (Decimal.D2 Decimal.Nil) (Decimal.D0 Decimal.Nil)); [reflexivity|discriminate|].
    apply (rend_line 66 (Decimal.D3 Decimal.Nil) (Decimal.D2 Decimal.Nil)); [reflexivity|discriminate|].
    apply (rend_line 65 (Decimal.D3 Decimal.Nil) (Decimal.D5 Decimal.Nil)); [reflexivity|discriminate|].
    apply (rend_line 67 (Decimal.D4 Decimal.Nil) (Decimal.D6 Decimal.Nil)); [reflexivity|discriminate|].
    apply rend_nil. constructor.
  - vm_compute. reflexivity.
Qed.
Lemma exAB_alloc : alloc_ok exAl exABap (List.length exABs).
Proof. apply alloc_okb_ok. vm_compute. reflexivity. Qed.
Lemma exAB_useful : keeps_useful 200 exABap.
Proof.
  apply (keeps_useful_acyclic 200 exABap (fun p => 9 - p)).
  - apply wf_tab_ok. reflexivity.
  - vm_compute. lia.
  - apply rankb_ok. reflexivity.
Qed.
Example C68_case : rendered doc_tword doc_word /\ word_ok doc_tword /\ starsafe exAB /\ bare exAB = false /\ 2 * restrictions exAB <= 255 /\
  main_pattern sep0 sep0 200 (fun k => k) (world1 doc_word) (cmd [str "(AB)$"]) (str "(AB)$") = Ok exABta /\
  StronglySorted le (inits exABta) /\ tables_for 200 exAl exABta exABap (the_tables exABs exABb) /\ uppers_after_reset exABap /\
  between doc_tword 1.75%Q 3.3%Q <> [] /\ sem exAB (delays 1.75%Q (between doc_tword 1.75%Q 3.3%Q ++ [(dollar, 3.3%Q)])).
Proof.
  split; [destruct doc_rendered as (w & R & ->); exact R|]. split.
  { split; [cbn; repeat split; reflexivity|]. intros c t H. cbn in H. unfold char_max, dollar.
    repeat (destruct H as [[= <- <-]|H]; [lia|]). destruct H. }
  split; [cbn; auto 10|]. split; [reflexivity|]. split; [cbn; lia|]. split; [vm_compute; reflexivity|]. split; [repeat constructor|]. split.
  { constructor; [exact exAB_ap|exact (tables_with _ _ _ _ _ exAB_sets exAB_kmp)|exact exAB_useful|exact exAB_alloc]. }
  split.
  { exists (fun _ _ => False). split; [auto|]. intros p c e q (s & es & I1 & I2 & I3) Et. split; [|intros x []].
    intros g Hg _. assert (X : forallb (fun ps => forallb (fun ce => forallb (fun e => match eguard e with [] => true | _ => false end) (snd ce)) (next (snd ps))) (states exABap) = true) by reflexivity.
    rewrite forallb_forall in X. specialize (X _ I1). rewrite forallb_forall in X. specialize (X _ I2). rewrite forallb_forall in X. specialize (X _ I3).
    destruct (eguard e); [destruct Hg|discriminate]. }
  split; [vm_compute; discriminate|].
  change (between doc_tword 1.75%Q 3.3%Q ++ [(dollar, 3.3%Q)]) with [(65, 2.0%Q); (66, 3.2%Q); (dollar, 3.3%Q)]. cbn [delays sem exAB].
  eexists [_; _], [_]. split; [reflexivity|]. split; [|eexists; reflexivity]. eexists [_], [_]. split; [reflexivity|]. split; eexists; reflexivity.
Qed.

(* monaa -e '(((AB)%(0,1)C)&(A(BC)%(1,20)))$' on timed_word2.txt: doc/TRE.md
   shows a block with 1.5 <= t < 2 and 4.2 < t'.  Whatever is printed, the pair
   (1.5, 5) is in no block: from 1.5 on, A and B take 1.4. *)
Definition doc_word2 : list nat := flat_map (fun l => str l ++ [10]) ["A 0.5"; "B 0.8"; "C 1.5"; "A 2.0"; "B 2.9"; "C 4.2"]%string.
Definition doc_tword2 : tword := [(65, 0.5%Q); (66, 0.8%Q); (67, 1.5%Q); (65, 2.0%Q); (66, 2.9%Q); (67, 4.2%Q)].
Lemma doc_rendered2 : exists w, rendered w doc_word2 /\ w = doc_tword2.
Proof.
  eexists. split.
  - unfold doc_word2. cbn.
    apply (rend_line 65 (Decimal.D0 Decimal.Nil) (Decimal.D5 Decimal.Nil)); [reflexivity|discriminate|].
    apply (rend_line 66 (Decimal.D0 Decimal.Nil) (Decimal.D8 Decimal.Nil)); [reflexivity|discriminate|].
    apply (rend_line 67 (Decimal.D1 Decimal.Nil) (Decimal.D5 Decimal.Nil)); [reflexivity|discriminate|].
    apply (rend_line 65 (Decimal.D2 Decimal.Nil) (Decimal.D0 Decimal.Nil)); [reflexivity|discriminate|].
    apply (rend_line 66 (Decimal.D2 Decimal.Nil) (Decimal.D9 Decimal.Nil)); [reflexivity|discriminate|].
    apply (rend_line 67 (Decimal.D4 Decimal.Nil) (Decimal.D2 Decimal.Nil)); [reflexivity|discriminate|].
    apply rend_nil. constructor.
  - vm_compute. reflexivity.
Qed.
Definition exAnd : sx := XCat (XPar (XAnd
  (XPar (XCat (XIn (XPar (XCat (XAtom 65) (XAtom 66))) (RRange false 0 1 false)) (XAtom 67)))
  (XPar (XCat (XAtom 65) (XIn (XPar (XCat (XAtom 66) (XAtom 67))) (RRange false 1 20 false)))))) (XAtom 36).
Lemma exAnd_meant : meant exAnd (str "(((AB)%(0,1)C)&(A(BC)%(1,20)))$").
Proof.
  right. split; [cbn; lia|]. split; [cbn; auto 10|].
  match goal with |- spells ?t ?s => let t' := eval vm_compute in t in let s' := eval vm_compute in s in change (spells t' s') end.
  repeat first [apply sp_end | apply sp_letter; [unfold letter; lia|] |
    match goal with |- spells (?t :: _) (?c :: _) => apply (sp_punct t [c]); [reflexivity|intros [|]; discriminate|] end |
    match goal with |- spells (TInt ?z :: _) (?c :: 44 :: _) => apply (sp_int [c]) | |- spells (TInt ?z :: _) (?c :: 41 :: _) => apply (sp_int [c])
      | |- spells (TInt ?z :: _) (?c :: ?d :: 41 :: _) => apply (sp_int [c; d]) end;
    [discriminate|repeat constructor; unfold decimal; lia|cbn; lia|cbn; unfold decimal; lia|]].
Qed.
Theorem C68_documented_conjunction_refuted : forall sepA sepD dec fuel al0 al p block, injective al0 ->
  main sepA sepD dec fuel al0 al (world1 doc_word2) (cmd [str "(((AB)%(0,1)C)&(A(BC)%(1,20)))$"]) = Ok (Printed p) -> In block (pr_out p) ->
  ~ Forall (fun q => sat_ineq q 1.5%Q 5%Q) block.
Proof.
  intros sepA sepD dec fuel al0 al p block Inj E Hb F. destruct doc_rendered2 as (w & R & ->).
  destruct (C68_meant_partial sepA sepD dec fuel al0 al (world1 doc_word2) exAnd (cmd [str "(((AB)%(0,1)C)&(A(BC)%(1,20)))$"]) (str "(((AB)%(0,1)C)&(A(BC)%(1,20)))$")
    doc_word2 doc_tword2 p block Inj) as (A & _); auto.
  - constructor; try reflexivity; try discriminate. intros [(X & _)|[(X & _)|[(X & _)|(X & _)]]]; try discriminate; apply X; reflexivity.
  - exact exAnd_meant.
  - cbn. intuition discriminate.
  - cbn. lia.
  - left. split; [|reflexivity]. split; [reflexivity|]. cbn. constructor.
  - cbn. repeat split; unfold Qle; cbn; lia.
  - destruct (A _ _ F) as (_ & _ & S). clear A.
    change (between doc_tword2 1.5%Q 5%Q ++ [(dollar, 5%Q)]) with [(65, 2.0%Q); (66, 2.9%Q); (67, 4.2%Q); (dollar, 5%Q)] in S. cbn [delays sem exAnd rin] in S.
    destruct S as (u1 & u2 & Eu & ((u3 & u4 & E1 & ((u5 & u6 & E2 & (d5 & ->) & (d6 & ->)) & D) & (d4 & ->)) & _) & (d2 & ->)). subst u3 u1. cbn in Eu.
    injection Eu as <- <- <- <-. destruct D as [_ D]. unfold duration, Qlt in D. cbn in D. discriminate.
Qed.

(* doc/man.md: monaa -e '(ab)%(2,10)' on a log.  Nothing is ever reported. *)
Theorem C68_documented_without_dollar_refuted : forall sepA sepD dec fuel al0 al input w p, injective al0 -> rendered w input -> nondecreasing 0 w ->
  main sepA sepD dec fuel al0 al (world1 input) (mkO false false false false false false false stdin_name [] (str "(ab)%(2,10)") []) = Ok (Printed p) -> pr_out p = [].
Proof.
  intros sepA sepD dec fuel al0 al input w p Inj R ND E.
  refine (C68_no_dollar sepA sepD dec fuel al0 al (world1 input) exD (mkO false false false false false false false stdin_name [] (str "(ab)%(2,10)") [])
    (str "(ab)%(2,10)") input w p Inj _ exD_meant _ _ _ _ R ND eq_refl E).
  - constructor; try reflexivity; try discriminate. intros [(X & _)|[(X & _)|[(X & _)|(X & _)]]]; try discriminate; apply X; reflexivity.
  - cbn. intuition discriminate.
  - cbn. lia.
  - cbn. unfold dollar. intros [X|[X|[]]]; discriminate.
  - left. split; [|reflexivity]. split; [reflexivity|constructor].
Qed.
