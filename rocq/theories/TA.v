(* Model of libmonaa/timed_automaton.hh. *)
From Coq Require Import QArith Bool List ZArith Arith.
From Verif Require Import Num Constraint Zone.
Import ListNotations.
Open Scope nat_scope.

(* A state is identified by its address; nullptr is [None]. *)
Definition ptr : Type := nat.

(* Alphabet is char.  Character 0 marks an unobservable transition; '$' is 36;
   CHAR_MAX is 127. *)
Definition dollar : nat := 36.
Definition char_max : nat := 127.

(* struct TATransition, libmonaa/timed_automaton.hh:42-49. *)
Record edge : Type := mkE { etgt : option ptr; eresets : list nat; eguard : list constr }.

(* struct TAState, libmonaa/timed_automaton.hh:19-37.  [next] is the
   unordered_map in its (arbitrary) iteration order. *)
Record tastate : Type := mkS { isMatch : bool; zeroDur : bool; next : list (nat * list edge) }.

(* struct TimedAutomaton, libmonaa/timed_automaton.hh:54-60 and
   libmonaa/common_types.hh:13-22. *)
Record ta : Type := mkTA { states : list (ptr * tastate); inits : list ptr; maxC : list Z }.

(* Dereferencing a state pointer; [None] is a dangling or null pointer, whose
   dereference is undefined in the code. *)
Fixpoint assoc {B} (k : nat) (l : list (nat * B)) : option B :=
  match l with
  | [] => None
  | (k', b) :: t => if k =? k' then Some b else assoc k t
  end.

Definition deref (A : ta) (p : ptr) : option tastate := assoc p (states A).

(* next.find(c), with the empty vector when the key is absent. *)
Definition next_find (s : tastate) (c : nat) : list edge :=
  match assoc c (next s) with Some es => es | None => [] end.

Definition edges_at (A : ta) (p : ptr) (c : nat) : list edge :=
  match deref A p with Some s => next_find s c | None => [] end.

Definition match_at (A : ta) (p : ptr) : bool :=
  match deref A p with Some s => isMatch s | None => false end.

(* TimedAutomaton::clockSize, libmonaa/timed_automaton.hh:95. *)
Definition clockSize (A : ta) : nat := length (maxC A).

(* A timed word: characters with absolute time stamps. *)
Definition event : Type := (nat * Q)%type.
Definition tword : Type := list event.

(* One step of TimedAutomaton::isMember for one configuration,
   libmonaa/timed_automaton.hh:110-135: [d] is the time difference added to the
   clocks. *)
Definition qnth (l : list Q) (x : nat) : Q := nth x l 0%Q.
Definition lreset (l : list Q) (xs : list nat) : list Q :=
  fold_left (fun l x => set_nth l x 0%Q) xs l.

Definition member_step (A : ta) (c : nat) (d : Q) (conf : ptr * list Q) : list (ptr * list Q) :=
  let v := map (fun q => (q + d)%Q) (snd conf) in
  flat_map (fun e =>
    if forallb (fun g => satisfy g (qnth v (cx g))) (eguard e)
    then match etgt e with
         | Some t => [(t, lreset v (eresets e))]
         | None => []
         end
    else []) (edges_at A (fst conf) c).

Fixpoint member_loop (A : ta) (last : Q) (w : tword) (confs : list (ptr * list Q)) : list (ptr * list Q) :=
  match w with
  | [] => confs
  | (c, t) :: w' => member_loop A t w' (flat_map (member_step A c (t - last)%Q) confs)
  end.

(* TimedAutomaton::isMember, libmonaa/timed_automaton.hh:102-142.  The first
   event adds w[0].second itself, i.e. the difference with 0. *)
Definition isMember (A : ta) (w : tword) : bool :=
  existsb (fun conf => match_at A (fst conf))
    (member_loop A 0%Q w (map (fun p => (p, repeat 0%Q (clockSize A))) (inits A))).

(* TimedAutomaton::deepCopy, libmonaa/timed_automaton.hh:68-93.  [fresh]
   gives the address of the copy of each state; old2new of an unknown target
   default-inserts a null pointer.  (old2new of an unknown initial state would
   likewise push a null initial state; [option] keeps it visible.) *)
Definition mem (x : nat) (l : list nat) : bool := existsb (Nat.eqb x) l.
Definition old2new (A : ta) (fresh : ptr -> ptr) (p : ptr) : option ptr :=
  if mem p (map fst (states A)) then Some (fresh p) else None.

Definition copy_edge (A : ta) (fresh : ptr -> ptr) (e : edge) : edge :=
  mkE (match etgt e with Some t => old2new A fresh t | None => None end) (eresets e) (eguard e).

Definition copy_state (A : ta) (fresh : ptr -> ptr) (s : tastate) : tastate :=
  mkS (isMatch s) (zeroDur s)
      (map (fun ce => (fst ce, map (copy_edge A fresh) (snd ce))) (next s)).

Definition deepCopy (A : ta) (fresh : ptr -> ptr) : ta :=
  mkTA (map (fun ps => (fresh (fst ps), copy_state A fresh (snd ps))) (states A))
       (flat_map (fun p => match old2new A fresh p with Some q => [q] | None => [] end) (inits A))
       (maxC A).

(* ---------------- well-formedness (preconditions) ---------------- *)

Definition wf_edge (A : ta) (e : edge) : Prop :=
  (forall t, etgt e = Some t -> In t (map fst (states A))) /\
  Forall (fun x => x < clockSize A) (eresets e) /\
  Forall (fun g => cx g < clockSize A) (eguard e).

Record wf_ta (A : ta) : Prop := {
  wf_nodup : NoDup (map fst (states A));
  wf_keys : forall p s, In (p, s) (states A) -> NoDup (map fst (next s));
  wf_edges : forall p s c es e, In (p, s) (states A) -> In (c, es) (next s) -> In e es -> wf_edge A e;
  wf_inits : forall p, In p (inits A) -> In p (map fst (states A))
}.
