(* Reading the text of a timed regular expression. *)
From Coq Require Import QArith Lqa Bool List ZArith Arith Lia Ascii String.
From Verif Require Import Num Outcome Interval IntervalFacts TA Tre Parse ParseSpec ParseFacts.
Import ListNotations.
Open Scope nat_scope.

(* The texts of the examples. *)
Definition str (s : string) : list nat := map nat_of_ascii (list_ascii_of_string s).
Arguments str s%string.

(* The parser prints what test/tre_driver_test.cc:31-125 expects. *)
Definition reads (s out : string) : Prop := option_map show (match parse (str s) with Ok r => r | _ => None end) = Some (str out).
Arguments reads s%string out%string.
Example driver_tests :
  reads "(b*(ab*ab*)*)|(a*(ba*ba*)*)"
        "(((@|(b+))(@|((a((@|(b+))(a(@|(b+)))))+)))|((@|(a+))(@|((b((@|(a+))(b(@|(a+)))))+))))" /\
  reads "(aba)%(1,2)" "((a(ba))%((1, 0),(2, 0)))" /\
  reads "(aba)%[2,4]" "((a(ba))%((2, 1),(4, 1)))" /\
  reads "(aba)%(2,4]" "((a(ba))%((2, 0),(4, 1)))" /\
  reads "(aba)%[2,4)" "((a(ba))%((2, 1),(4, 0)))" /\
  reads "(aba)%(< 3)" "((a(ba))%((0, 1),(3, 0)))" /\
  reads "(aba)%(<= 3)" "((a(ba))%((0, 1),(3, 1)))" /\
  reads "(aba)%(= 3)" "((a(ba))%((3, 1),(3, 1)))" /\
  reads "(aba)%(>= 3)" "((a(ba))%((3, 1),(inf, 0)))" /\
  reads "(aba)%(> 3)" "((a(ba))%((3, 0),(inf, 0)))".
Proof. repeat split; vm_compute; reflexivity. Qed.

(* ================= C64 the grammar ================= *)

(* An accepted text is spelled from a tree of the documented grammar, and the
   expression read denotes the words of that tree. *)
Theorem C64_sound : forall s r, parse s = Ok (Some r) ->
  exists x, spells (toks x) s /\ forall u, tre_lang r u <-> sem x u.
Proof.
  intros s r E. unfold parse in E. destruct (parse_form s) as [ts F S|ts rest c F I N|ts rest a ds b F D V].
  - destruct (parse_sound ts [] [] [] r F rep_nil E) as (x & _ & T & ->). exists x. rewrite T. split; auto. apply den_sem.
  - destruct (parse_prefix ts [] TJam rest (Exit 2) F) as [K|K]; [reflexivity| |]; rewrite K in E; discriminate.
  - destruct (parse_prefix ts [] TOver rest UB F) as [K|K]; [reflexivity| |]; rewrite K in E; discriminate.
Qed.

(* Every text spelled from a tree of the grammar is accepted. *)
Theorem C64_complete : forall s x, spells (toks x) s -> exists r, parse s = Ok (Some r).
Proof.
  intros s x S. unfold parse. rewrite (lex_spells _ _ S). destruct (rn_exists x) as (y & E & R). rewrite <- E.
  exists (den y). apply (parse_rn y [] R).
Qed.

(* What else can happen: exit status 2 on a character outside the alphabet,
   undefined behaviour on a number that does not fit an int. *)
Theorem C64_errors : forall s,
  (exists r, parse s = Ok r) \/
  (parse s = Exit 2 /\ exists c, In c s /\ ~ legal c) \/
  (parse s = UB /\ exists a ds b, s = a ++ ds ++ b /\ Forall decimal ds /\ (2147483647 < value 0 ds)%Z).
Proof.
  intros s. unfold parse. destruct (parse_form s) as [ts F S|ts rest c F I N|ts rest a ds b F E D V].
  - left. apply parse_plain. auto.
  - destruct (parse_prefix ts [] TJam rest (Exit 2) F) as [K|K]; [reflexivity| |]; rewrite K; eauto 8.
  - destruct (parse_prefix ts [] TOver rest UB F) as [K|K]; [reflexivity| |]; rewrite K; eauto 12.
Qed.

(* So a text over the alphabet with numbers that fit is accepted or rejected
   according to the grammar. *)
Theorem C64_decides : forall s, Forall legal s ->
  (forall a ds b, s = a ++ ds ++ b -> Forall decimal ds -> (value 0 ds <= 2147483647)%Z) ->
  ((exists x, spells (toks x) s) /\ (exists r, parse s = Ok (Some r))) \/
  ((forall x, ~ spells (toks x) s) /\ parse s = Ok None).
Proof.
  intros s Lg Sm. destruct (C64_errors s) as [([r|] & E)|[(_ & c & I & N)|(_ & a & ds & b & E & D & V)]].
  - left. destruct (C64_sound s r E) as (x & S & _). eauto.
  - right. split; auto. intros x S. destruct (C64_complete s x S) as (r & E'). rewrite E in E'. discriminate.
  - rewrite Forall_forall in Lg. destruct (N (Lg c I)).
  - specialize (Sm a ds b E D). lia.
Qed.

(* ((a|b)%[1,2])+ c, with blanks, and something after the line. *)
Definition exX : sx := XCat (XPlus (XPar (XIn (XPar (XOr (XAtom 97) (XAtom 98))) (RRange true 1 2 true)))) (XAtom 99).
Lemma exX_spelled : spells (toks exX) (str "((a|b) %[1, 02])+ c" ++ 10 :: str "xx!").
Proof.
  assert (L : forall t c ts s, punct t = Some [c] -> t <> TLt -> t <> TGt -> spells ts s -> spells (t :: ts) (c :: s)).
  { intros t c ts s P N N' S. apply (sp_punct t [c] ts s P); auto. intros [->| ->]; congruence. }
  assert (D : forall c ts s, letter c -> spells ts s -> spells (TAtom c :: ts) (c :: s)) by (intros; apply sp_letter; auto).
  assert (B : forall ts s, spells ts s -> spells ts (32 :: s)) by (intros; apply sp_blank; auto).
  assert (N1 : forall s ts, ~ starts decimal s -> spells ts s -> spells (TInt 1 :: ts) (49 :: s)).
  { intros s ts N S. apply (sp_int [49] ts s); auto; [discriminate|repeat constructor|cbn; lia]. }
  assert (N2 : forall s ts, ~ starts decimal s -> spells ts s -> spells (TInt 2 :: ts) (48 :: 50 :: s)).
  { intros s ts N S. apply (sp_int [48; 50] ts s); auto; [discriminate|repeat constructor; unfold decimal; lia|cbn; lia]. }
  cbn. repeat first
    [ apply sp_newline
    | apply B
    | apply L; [reflexivity|discriminate|discriminate|]
    | apply D; [unfold letter; lia|]
    | apply N1; [cbn; unfold decimal; lia|]
    | apply N2; [cbn; unfold decimal; lia|] ].
Qed.
Example C64_case : exists r, parse (str "((a|b) %[1, 02])+ c" ++ 10 :: str "xx!") = Ok (Some r) /\
  show r = str "((((a|b)%((1, 1),(2, 1)))+)c)" /\ (exists x, spells (toks x) (str "((a|b) %[1, 02])+ c" ++ 10 :: str "xx!")) /\
  parse (str "a%(1,2") = Ok None /\ parse (str "") = Ok None /\ parse (str "a#") = Exit 2 /\ parse (str ")#") = Ok None.
Proof.
  eexists. split; [vm_compute; reflexivity|]. split; [vm_compute; reflexivity|]. split; [exists exX; apply exX_spelled|].
  repeat split; vm_compute; reflexivity.
Qed.

(* A number that does not fit an int, as in a%(0,2147483648), is undefined
   behaviour rather than an error. *)
Theorem C64_number_refuted : ~ (forall s, parse s <> UB).
Proof. intros H. apply (H (str "a%(0,2147483648)")). vm_compute. reflexivity. Qed.

(* The events of an expression are letters of its text. *)
Lemma sem_letters : forall x u c d, sem x u -> In (c, d) u -> In (TAtom c) (toks x).
Proof.
  induction x as [a|x IH|x IH|x IH|x IHx y IHy|x IHx y IHy|x IHx y IHy|x IH r]; intros u c d S I; cbn [sem toks] in *.
  - destruct S as [d' ->]. destruct I as [I|[]]. injection I as -> _. left. reflexivity.
  - apply in_or_app. right. apply in_or_app. left. eapply IH; eauto.
  - destruct S as (us & _ & F & ->). apply in_concat in I as (v & Iv & I). rewrite Forall_forall in F. apply in_or_app. left. eapply IH; eauto.
  - destruct S as (us & F & ->). apply in_concat in I as (v & Iv & I). rewrite Forall_forall in F. apply in_or_app. left. eapply IH; eauto.
  - destruct S as (u1 & u2 & -> & S1 & S2). apply in_or_app. apply in_app_or in I as [I|I]; eauto.
  - apply in_or_app. destruct S as [S|S]; [left; eauto|right; right; eauto].
  - apply in_or_app. left. destruct S. eauto.
  - apply in_or_app. left. destruct S. eauto.
Qed.
Lemma spells_letters : forall ts s c, spells ts s -> In (TAtom c) ts -> letter c /\ In c s.
Proof.
  induction 1 as [|s|b ts s B S IH|b ts s L S IH|t cs ts s P N S IH|ds ts s N D V E S IH]; intros I; try (destruct I; fail).
  - destruct (IH I). split; auto. right. auto.
  - destruct I as [I|I]; [injection I as ->; split; auto; left; reflexivity|]. destruct (IH I). split; auto. right. auto.
  - destruct I as [->|I]; [discriminate|]. destruct (IH I). split; auto. apply in_or_app. auto.
  - destruct I as [I|I]; [discriminate|]. destruct (IH I). split; auto. apply in_or_app. auto.
Qed.
Theorem C64_letters : forall s r u c d, parse s = Ok (Some r) -> tre_lang r u -> In (c, d) u -> letter c /\ In c s.
Proof.
  intros s r u c d E L I. destruct (C64_sound s r E) as (x & S & X). apply X in L. eapply spells_letters; [exact S|]. eapply sem_letters; eauto.
Qed.
(* doc/TRE.md:9 says that a blank is an event: no expression has such an event, and
   blanks in front of a text are ignored. *)
Theorem C64_blank_refuted : (forall s, parse (32 :: s) = parse s) /\
  ~ (exists s r u d, parse s = Ok (Some r) /\ tre_lang r u /\ In (32, d) u).
Proof.
  split; [reflexivity|]. intros (s & r & u & d & E & L & I). destruct (C64_letters s r u 32 d E L I) as [K _]. unfold letter in K. lia.
Qed.
Example C64_blank_case : parse (str "a b") = Ok (Some (Cat (Atom 97) (Atom 98))) /\ parse (str "ab") = Ok (Some (Cat (Atom 97) (Atom 98))).
Proof. split; vm_compute; reflexivity. Qed.

(* ================= C65 precedences ================= *)

(* a b | c is read as a(b|c): the word c is not in the language, the word ac is. *)
Definition exP : sx := XOr (XCat (XAtom 97) (XAtom 98)) (XAtom 99).
Theorem C65_precedence_refuted : exists s r, usual 0 exP /\ spells (toks exP) s /\ parse s = Ok (Some r) /\
  (sem exP [(99, 1%Q)] /\ ~ tre_lang r [(99, 1%Q)]) /\
  (~ sem exP [(97, 1%Q); (99, 1%Q)] /\ tre_lang r [(97, 1%Q); (99, 1%Q)]).
Proof.
  exists (str "ab|c"), (Cat (Atom 97) (Alt (Atom 98) (Atom 99))). split; [cbn; lia|]. split.
  { cbn. apply sp_letter; [unfold letter; lia|]. apply sp_letter; [unfold letter; lia|].
    apply (sp_punct TOr [124]); [reflexivity|intros [|]; discriminate|]. apply sp_letter; [unfold letter; lia|]. constructor. }
  split; [vm_compute; reflexivity|]. split; split.
  - cbn. right. eauto.
  - cbn. intros (u1 & u2 & E & (d & ->) & [(e & ->)|(e & ->)]); discriminate.
  - cbn. intros [(u1 & u2 & E & (d & ->) & (e & ->))|(d & E)]; discriminate.
  - cbn. exists [(97, 1%Q)], [(99, 1%Q)]. split; auto. split; eauto.
Qed.

(* Also & and | : a & b | c is read as a & (b | c). *)
Example C65_and_or : reads "a&b|c" "(a&(b|c))" /\ reads "ab|cd" "(a(b|(cd)))" /\ reads "ab+" "(a(b+))" /\
  reads "ab%(1,2)" "(a(b%((1, 0),(2, 0))))" /\ reads "(ab)|c&d" "((ab)|(c&d))".
Proof. repeat split; vm_compute; reflexivity. Qed.

(* a & b | c is read as a & (b | c): no word at all instead of the letter c. *)
Definition exPA : sx := XOr (XAnd (XAtom 97) (XAtom 98)) (XAtom 99).
Theorem C65_conjunction_refuted : exists s r, usual 0 exPA /\ spells (toks exPA) s /\ parse s = Ok (Some r) /\
  sem exPA [(99, 1%Q)] /\ forall u, ~ tre_lang r u.
Proof.
  exists (str "a&b|c"), (And (Atom 97) (Alt (Atom 98) (Atom 99))). split; [cbn; lia|]. split.
  { cbn. apply sp_letter; [unfold letter; lia|]. apply (sp_punct TAnd [38]); [reflexivity|intros [|]; discriminate|]. apply sp_letter; [unfold letter; lia|].
    apply (sp_punct TOr [124]); [reflexivity|intros [|]; discriminate|]. apply sp_letter; [unfold letter; lia|]. constructor. }
  split; [vm_compute; reflexivity|]. split; [cbn; right; eauto|]. intros u. cbn. intros ((d & ->) & [(e & E)|(e & E)]); discriminate.
Qed.

(* When every left operand of | and & is a single item the usual reading is the
   one taken.  Missing: left operands that are bare concatenations or
   conjunctions (both refuted above). *)
Theorem C65_usual_partial : forall x s, usual 0 x -> left_items x -> spells (toks x) s ->
  exists r, parse s = Ok (Some r) /\ forall u, tre_lang r u <-> sem x u.
Proof.
  intros x s U L S. unfold parse. rewrite (lex_spells _ _ S). exists (den x).
  split; [apply (parse_rn x [] (proj1 (usual_rn x 0 U L)))|apply den_sem].
Qed.
Example C65_case : let x := XOr (XAtom 97) (XAnd (XPar (XCat (XAtom 98) (XStar (XAtom 99)))) (XCat (XAtom 98) (XAtom 99))) in
  usual 0 x /\ left_items x /\ spells (toks x) (str "a|(bc*)&bc").
Proof.
  cbn. repeat split; auto; try lia.
  repeat first [apply sp_end | apply sp_letter; [unfold letter; lia|] |
    match goal with |- spells (?t :: _) (?c :: _) => apply (sp_punct t [c]); [reflexivity|intros [|]; discriminate|] end].
Qed.

(* Exactly how texts are read: postfix operators first, and concatenation, & and |
   alike from the right.  [rightmost true y]: y is such a tree; [false]: and has
   no binary operation outside of parentheses. *)
Fixpoint rightmost (b : bool) (x : sx) : Prop :=
  match x with
  | XAtom _ => True
  | XPar y => rightmost true y
  | XPlus y | XStar y | XIn y _ => rightmost false y
  | XCat y z | XOr y z | XAnd y z => b = true /\ rightmost false y /\ rightmost true z
  end.
Theorem C65_exact : forall x s, spells (toks x) s ->
  exists y r, toks y = toks x /\ rightmost true y /\ parse s = Ok (Some r) /\ forall u, tre_lang r u <-> sem y u.
Proof.
  intros x s S. unfold parse. rewrite (lex_spells _ _ S). destruct (rn_exists x) as (y & E & R). exists y, (den y).
  split; [exact E|]. split; [|split; [rewrite <- E; apply (parse_rn y [] R)|apply den_sem]].
  assert (K : forall y l, rn l y -> rightmost (match l with Rn => true | Post => false end) y).
  { clear. induction y as [c|y IH|y IH|y IH|y IHy z IHz|y IHy z IHz|y IHy z IHz|y IH q]; intros l H; cbn [rn rightmost] in *; auto;
      try exact (IH _ H); destruct H as (-> & H1 & H2); (split; [reflexivity|split; [exact (IHy _ H1)|exact (IHz _ H2)]]). }
  exact (K y Rn R).
Qed.
(* The tree of a b | c that is taken. *)
Example C65_exact_case : toks exP = toks (XCat (XAtom 97) (XOr (XAtom 98) (XAtom 99))) /\ rightmost true (XCat (XAtom 97) (XOr (XAtom 98) (XAtom 99))) /\ ~ rightmost true exP /\ ~ rightmost true exPA.
Proof. cbn. repeat split; auto; intros (_ & (H & _) & _); discriminate. Qed.

(* Independently of precedences: the word language only depends on the tree
   the parser is known to take, and two spellings of one tree are read alike. *)
Theorem C65_spelling_independent : forall ts s s', spells ts s -> spells ts s' -> parse s = parse s'.
Proof. intros ts s s' S S'. unfold parse. rewrite (lex_spells _ _ S), (lex_spells _ _ S'). reflexivity. Qed.

(* ================= C66 parentheses ================= *)

(* Written out with parentheses around every operation, every tree is read as
   it is meant. *)
Theorem C66_parenthesised : forall x s, spells (toks (paren x)) s ->
  exists r, parse s = Ok (Some r) /\ forall u, tre_lang r u <-> sem x u.
Proof.
  intros x s S. unfold parse. rewrite (lex_spells _ _ S). exists (den x). split; [|apply den_sem].
  rewrite <- (paren_den x). apply (parse_rn (paren x) [] (proj2 (paren_rn x))).
Qed.

(* The tree that C65_precedence_refuted is about, with parentheses. *)
Example C66_case : spells (toks (paren exP)) (str "((ab)|c)") /\
  exists r, parse (str "((ab)|c)") = Ok (Some r) /\ tre_lang r [(99, 1%Q)] /\ ~ tre_lang r [(97, 1%Q); (99, 1%Q)].
Proof.
  split.
  - cbn. repeat first [apply sp_end | apply sp_letter; [unfold letter; lia|] |
      match goal with |- spells (?t :: _) (?c :: _) => apply (sp_punct t [c]); [reflexivity|intros [|]; discriminate|] end].
  - eexists. split; [vm_compute; reflexivity|]. split; cbn.
    + right. eauto.
    + intros [(u1 & u2 & E & (d & ->) & (e & ->))|(d & E)]; discriminate.
Qed.
