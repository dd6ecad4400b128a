(* Model of monaa/main.cc and monaa/tre2ta.cc, after boost::program_options has
   read the command line. *)
From Coq Require Import QArith Bool List ZArith Arith.
From Verif Require Import Num Outcome Zone TA Word Monaa Skip EpsZone Tre Signal Parse Text Ans.
Import ListNotations.
Open Scope nat_scope.

(* What the option parser leaves behind, monaa/main.cc:31-48: which flags were
   given, the values of -i, -f and -e (their default values when not given) and
   the positional arguments.  Strings are lists of characters. *)
Record options : Type := mkO {
  o_help : bool; o_quiet : bool; o_version : bool; o_ascii : bool; o_binary : bool; o_event : bool; o_signal : bool;
  o_input : list nat; o_automaton : list nat; o_expression : list nat; o_pos : list (list nat) }.

Definition stdin_name : list nat := [115; 116; 100; 105; 110].
Definition str_eqb (a b : list nat) : bool := if list_eq_dec Nat.eq_dec a b then true else false.
Definition empty (s : list nat) : bool := match s with [] => true | _ => false end.

(* The loop over the positional arguments, monaa/main.cc:50-57: the pattern and
   the name of the word file. *)
Fixpoint positional (pos : list (list nat)) (au tre wf : list nat) : list nat * list nat :=
  match pos with
  | [] => (tre, wf)
  | s :: l =>
      if empty au && empty tre then positional l au s wf
      else if str_eqb wf stdin_name then positional l au tre s
      else positional l au tre wf
  end.

(* The rest of the world: standard input, what fopen finds, and what
   boost::read_graphviz makes of an automaton file (None: an exception, because
   it does not exist or is not in the DOT syntax). *)
Record world : Type := mkW {
  w_stdin : list nat; w_file : list nat -> option (list nat); w_dot : list nat -> option (list tvert * list tedge) }.

(* What is on standard output when the process ends with status 0. *)
Inductive shown : Type :=
| Version | Usage
| Printed : printer -> shown.

Section Main.
Context (sepA sepD : heap -> nat -> outcome heap) (dec : list nat -> Q) (fuel : nat) (al0 : nat -> ptr) (al : alloc) (W : world).

(* The pattern, monaa/main.cc:103-124. *)
Definition main_pattern (o : options) (tre : list nat) : outcome ta :=
  if empty (o_automaton o) then
    do r <- parse tre ;
    match r with
    | None => Exit 2
    | Some r =>
        do X <- (if o_signal o then toSignalTA sepA sepD fuel al0 r 0 else toEventTA al0 r 0) ;
        Ok (fst X)
    end
  else if o_signal o then Exit 1
  else
    match w_dot W (o_automaton o) with
    | None => Throw
    | Some D => do G <- parseBoostTA (fst D) (snd D) ; Ok (convBoostTA al0 G)
    end.

(* The word, monaa/main.cc:126-133 and 136. *)
Definition main_word (o : options) (wf : list nat) : outcome tword :=
  do input <- (if str_eqb wf stdin_name then Ok (w_stdin W)
               else match w_file W wf with Some s => Ok s | None => Exit 1 end) ;
  if o_binary o then binary_word dec input else text_word input.

(* main, monaa/main.cc:59-143.  [Exit n]: the process ends with status n;
   [Throw]: an exception is not caught.  The whole word is read before the
   matching starts; that the matching reads it piecemeal makes no difference to
   a run that ends normally (C36). *)
Definition main (o : options) : outcome shown :=
  let (tre, wf) := positional (o_pos o) (o_automaton o) (o_expression o) (o_input o) in
  if o_version o then Ok Version
  else if (empty (o_automaton o) && empty tre) || o_help o then Ok Usage
  else if (o_ascii o && o_binary o) || (o_signal o && o_event o) then Exit 1
  else if negb (empty (o_automaton o)) && negb (empty tre) then Exit 1
  else
    do A <- main_pattern o tre ;
    do w <- main_word o wf ;
    do zs <- (if o_signal o then monaa fuel al (clockSize A) lazyC A (lopen w) else monaaDollar fuel al lazyC A (lopen w)) ;
    Ok (Printed (fold_left pr_op (Clear :: map Push zs) (mkPr (o_quiet o) 0 []))).

(* The process: [None] is a command line that boost::program_options refuses
   with an exception (an unknown option, a missing value), monaa/main.cc:46-47. *)
Definition process (o : option options) : outcome shown :=
  match o with Some o => main o | None => Throw end.
End Main.

(* ---------------- tre2ta ---------------- *)

(* main of tre2ta, monaa/tre2ta.cc:41-94: the last positional argument takes
   precedence over -e.  The result is what is printed; where it is printed is
   not modelled. *)
Inductive shown2 : Type :=
| Version2 | Usage2
| Graph : list tvert * list tedge -> shown2.
Definition tre2ta (al0 : nat -> ptr) (o_help o_version : bool) (o_expression : list nat) (o_pos : list (list nat)) : outcome shown2 :=
  let tre := fold_left (fun _ s => s) o_pos o_expression in
  if o_version then Ok Version2
  else if empty tre || o_help then Ok Usage2
  else
    do r <- parse tre ;
    match r with
    | None => Exit 2
    | Some r =>
        do X <- toEventTA al0 r 0 ;
        do G <- print_ta (fst X) ;
        Ok (Graph G)
    end.
