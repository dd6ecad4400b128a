(* Model of the containers of the input: libmonaa/word_container.hh and
   libmonaa/lazy_deque.hh. *)
From Coq Require Import QArith Bool List ZArith Arith.
From Verif Require Import Num Outcome TA.
Import ListNotations.
Open Scope nat_scope.

(* WordContainer<Container>, libmonaa/word_container.hh:14-71: the operations
   the algorithms use.  fetch may change the container and never throws. *)
Record cont : Type := mkCont {
  ctype : Type;
  cfetch : ctype -> nat -> bool * ctype;
  cat : ctype -> nat -> outcome event;
  csetFront : ctype -> nat -> outcome ctype
}.

(* WordVector, libmonaa/word_container.hh:83-102: the whole word is in memory;
   std::vector::operator[] outside of it is undefined. *)
Definition vec_at (w : tword) (n : nat) : outcome event :=
  match nth_error w n with Some e => Ok e | None => UB end.
Definition vecC : cont :=
  mkCont tword (fun w n => (n <? length w, w)) vec_at (fun w _ => Ok w).

(* class LazyDeque, libmonaa/lazy_deque.hh:29-91.  [lN] is N ([None] is the
   maximum of size_t), [lbuf] the deque, [lrest] what getElem will still read
   from the file before it answers EOF. *)
Record lazy : Type := mkL { lfront : nat; lN : option nat; lbuf : tword; lrest : tword }.

Definition lopen (w : tword) : lazy := mkL 0 None [] w.

Definition beyondN (d : lazy) (n : nat) : bool :=
  match lN d with Some k => k <=? n | None => false end.

(* LazyDeque::operator[], libmonaa/lazy_deque.hh:48-55. *)
Definition lazy_at (d : lazy) (n : nat) : outcome event :=
  if (n <? lfront d) || beyondN d n then Throw
  else match nth_error (lbuf d) (n - lfront d) with Some e => Ok e | None => Throw end.

(* LazyDeque::setFront, libmonaa/lazy_deque.hh:60-73.  What getElem answers is
   ignored there. *)
Definition lazy_setFront (d : lazy) (n : nat) : outcome lazy :=
  if n <? lfront d then Throw
  else
    let eraseSize := Nat.min (n - lfront d) (length (lbuf d)) in
    let readTimes := n - lfront d - eraseSize in
    Ok (mkL n (lN d) (skipn eraseSize (lbuf d)) (skipn readTimes (lrest d))).

(* The reading loop of fetch, libmonaa/lazy_deque.hh:81-88. *)
Fixpoint lazy_read (k : nat) (d : lazy) : bool * lazy :=
  match k with
  | O => (true, d)
  | S k' =>
      match lrest d with
      | [] => (false, mkL (lfront d) (Some (lfront d + length (lbuf d))) (lbuf d) [])
      | e :: r => lazy_read k' (mkL (lfront d) (lN d) (lbuf d ++ [e]) r)
      end
  end.

(* LazyDeque::fetch, libmonaa/lazy_deque.hh:74-90.  allocTimes is an int; a
   negative one makes no turn. *)
Definition lazy_fetch (d : lazy) (n : nat) : bool * lazy :=
  if (n <? lfront d) || beyondN d n then (false, d)
  else lazy_read (S (n - lfront d) - length (lbuf d)) d.

(* LazyDeque::size, libmonaa/lazy_deque.hh:57; [None] = unknown. *)
Definition lazy_size (d : lazy) : option nat := lN d.

Definition lazyC : cont := mkCont lazy lazy_fetch lazy_at lazy_setFront.
