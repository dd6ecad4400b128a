(* Model of reading the word from a file while matching: class LazyDeque on a FILE
   (libmonaa/lazy_deque.hh), the constructor of WordVector
   (libmonaa/word_container.hh:91-102), main with the file in place of the word, and
   fscanf on a pipe that is still open. *)
From Coq Require Import QArith Bool List ZArith Arith.
From Verif Require Import Num Outcome TA Word Monaa Skip EpsZone Tre Signal Parse Text Ans Main.
Import ListNotations.
Open Scope nat_scope.

(* getElem: the pair it fills ([None] is EOF) and the bytes that are left. *)
Definition getter : Type := list nat -> option event * list nat.

(* LazyDeque with its file, libmonaa/lazy_deque.hh:29-47. *)
Record fdeque : Type := mkF { ffront : nat; fN : option nat; fbuf : tword; fbytes : list nat }.
Definition fopen (s : list nat) : fdeque := mkF 0 None [] s.
Definition fbeyond (d : fdeque) (n : nat) : bool := match fN d with Some k => k <=? n | None => false end.

Section File.
  Variable get : getter.

  (* libmonaa/lazy_deque.hh:48-55. *)
  Definition file_at (d : fdeque) (n : nat) : outcome event :=
    if (n <? ffront d) || fbeyond d n then Throw
    else match nth_error (fbuf d) (n - ffront d) with Some e => Ok e | None => Throw end.

  (* The loop of setFront, libmonaa/lazy_deque.hh:69-72: the answer is ignored. *)
  Fixpoint file_skip (k : nat) (s : list nat) : list nat :=
    match k with O => s | S k => file_skip k (snd (get s)) end.
  Definition file_setFront (d : fdeque) (n : nat) : outcome fdeque :=
    if n <? ffront d then Throw
    else
      let eraseSize := Nat.min (n - ffront d) (length (fbuf d)) in
      Ok (mkF n (fN d) (skipn eraseSize (fbuf d)) (file_skip (n - ffront d - eraseSize) (fbytes d))).

  (* The loop of fetch, libmonaa/lazy_deque.hh:81-88. *)
  Fixpoint file_read (k : nat) (d : fdeque) : bool * fdeque :=
    match k with
    | O => (true, d)
    | S k' =>
        match get (fbytes d) with
        | (None, s) => (false, mkF (ffront d) (Some (ffront d + length (fbuf d))) (fbuf d) s)
        | (Some e, s) => file_read k' (mkF (ffront d) (fN d) (fbuf d ++ [e]) s)
        end
    end.
  Definition file_fetch (d : fdeque) (n : nat) : bool * fdeque :=
    if (n <? ffront d) || fbeyond d n then (false, d)
    else file_read (S (n - ffront d) - length (fbuf d)) d.

  Definition fileC : cont := mkCont fdeque file_fetch file_at file_setFront.
End File.

(* getOne and getOneBinary.  What the model of %lf leaves out ends the text. *)
Definition get_text : getter := fun s => match getOne s with Ok r => r | _ => (None, []) end.
Definition get_binary (dec : list nat -> Q) : getter := getOneBinary dec.

(* WordVector::WordVector on a text: one variable for all events, so a line without a
   number keeps the time of the event before it. *)
Definition getOne_into (t : Q) (s : list nat) : outcome (option event * list nat) :=
  match skip s with
  | [] => Ok (None, [])
  | c :: r =>
      match scan_lf (skip r) with
      | Number q r => Ok (Some (c, q), skip r)
      | NoNumber r => Ok (Some (c, t), r)
      | Unmodelled => Throw
      end
  end.
Fixpoint vector_read (fuel : nat) (t : Q) (s : list nat) : outcome tword :=
  match fuel with
  | O => OutOfFuel
  | S k =>
      do r <- getOne_into t s ;
      match r with
      | (None, _) => Ok []
      | (Some e, s') => do w <- vector_read k (snd e) s' ; Ok (e :: w)
      end
  end.
Definition vector_word (s : list nat) : outcome tword := vector_read (S (length s)) 0 s.

(* main, monaa/main.cc:59-143, with the file instead of the word that is in it. *)
Section Main.
Context (sepA sepD : heap -> nat -> outcome heap) (dec : list nat -> Q) (fuel : nat) (al0 : nat -> ptr) (al : alloc) (W : world).
Definition main_file (o : options) (wf : list nat) : outcome (list nat) :=
  if str_eqb wf stdin_name then Ok (w_stdin W) else match w_file W wf with Some s => Ok s | None => Exit 1 end.
Definition main_stream (o : options) : outcome shown :=
  let (tre, wf) := positional (o_pos o) (o_automaton o) (o_expression o) (o_input o) in
  if o_version o then Ok Version
  else if (empty (o_automaton o) && empty tre) || o_help o then Ok Usage
  else if (o_ascii o && o_binary o) || (o_signal o && o_event o) then Exit 1
  else if negb (empty (o_automaton o)) && negb (empty tre) then Exit 1
  else
    do A <- main_pattern sepA sepD fuel al0 W o tre ;
    do s <- main_file o wf ;
    let C := fileC (if o_binary o then get_binary dec else get_text) in
    do zs <- (if o_signal o then monaa fuel al (clockSize A) C A (fopen s) else monaaDollar fuel al C A (fopen s)) ;
    Ok (Printed (fold_left pr_op (Clear :: map Push zs) (mkPr (o_quiet o) 0 []))).
End Main.

(* fscanf(file, " %c %lf\n", ...), libmonaa/lazy_deque.hh:12-14, on a pipe that stays
   open after the bytes [s]: the white space at the end of the format reads on until
   it meets another character, and a number is read until a character that is not
   part of it.  [Waits]: all bytes were read and the call asks for more. *)
Inductive live : Type := Waits : live | Got : event -> list nat -> live.
Definition getOne_live (s : list nat) : live :=
  match getOne s with
  | Ok (Some e, (_ :: _) as r) => Got e r
  | _ => Waits
  end.
(* How many events the program has when the bytes [s] have come. *)
Fixpoint arrived (fuel : nat) (s : list nat) : nat :=
  match fuel with
  | O => 0
  | S k => match getOne_live s with Waits => 0 | Got _ r => S (arrived k r) end
  end.
