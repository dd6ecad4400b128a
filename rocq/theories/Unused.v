(* Model of the public helpers that the program itself does not call:
   updateConstraint of libmonaa/monaa.hh and removeUnreachableStates of
   monaa/tre.cc (its only call is commented out, monaa/tre.cc:191). *)
From Coq Require Import QArith Bool List ZArith Arith.
From Verif Require Import Num Outcome Constraint Zone TA Tre.
Import ListNotations.
Open Scope nat_scope.

(* updateConstraint, libmonaa/monaa.hh:105-140.  The lower bound is not negated
   here, unlike everywhere else in this file; the constant of the constraint is
   not read, only its order. *)
Definition updateConstraint (up lo : bound) (o : cmp) (v : num) : bound * bound :=
  match o with
  | Gt =>
      if nltb (fst lo) v then (up, (v, false))
      else if neqb (fst lo) v then (up, (fst lo, false)) else (up, lo)
  | Ge => if nltb (fst lo) v then (up, (v, true)) else (up, lo)
  | Lt =>
      if nltb v (fst up) then ((v, false), lo)
      else if neqb (fst up) v then ((fst up, false), lo) else (up, lo)
  | Le => if nltb v (fst up) then ((v, true), lo) else (up, lo)
  end.

(* std::transform of a range to the beginning of a vector, monaa/tre.cc:141-143:
   one write per element, undefined behind the end of the vector. *)
Fixpoint transform_to {X} (src dst : list X) : outcome (list X) :=
  match src, dst with
  | [], _ => Ok dst
  | _ :: _, [] => UB
  | x :: src', _ :: dst' => do r <- transform_to src' dst' ; Ok (x :: r)
  end.

(* The targets of the transitions of the new states, monaa/tre.cc:157-163.  A
   null target is dereferenced in the next turn, undefined here at once. *)
Definition targets (s : tastate) : list (option ptr) := flat_map (fun ce => map etgt (snd ce)) (next s).
Fixpoint not_null (l : list (option ptr)) : outcome (list ptr) :=
  match l with
  | [] => Ok []
  | None :: _ => UB
  | Some q :: t => do r <- not_null t ; Ok (q :: r)
  end.
Fixpoint next_states (A : ta) (new : list ptr) : outcome (list ptr) :=
  match new with
  | [] => Ok []
  | p :: t =>
      match deref A p with
      | None => UB
      | Some s => do l <- not_null (targets s) ; do r <- next_states A t ; Ok (l ++ r)
      end
  end.

Fixpoint nodupb (l : list nat) : bool :=
  match l with [] => true | x :: t => negb (mem x t) && nodupb t end.

(* The loop of monaa/tre.cc:147-174.  A sorted vector is the list of its
   elements, the set operations and std::binary_search use membership only.
   std::unique (165) does not shorten the vector: if there was a repetition, its
   end is unspecified and what std::set_difference (168) is given need not be
   sorted, undefined here. *)
Fixpoint reach_loop (fuel : nat) (A : ta) (seen new : list ptr) : outcome (list ptr) :=
  match fuel with
  | 0 => OutOfFuel
  | S f =>
      match new with
      | [] => Ok seen
      | _ :: _ =>
          let seen' := seen ++ new in
          do nx <- next_states A new ;
          if nodupb nx then reach_loop f A seen' (filter (fun p => negb (mem p seen')) nx) else UB
      end
  end.

(* The rest of removeUnreachableStates after the vector of the initial states is
   there, monaa/tre.cc:144-184: the states that the binary search finds go. *)
Definition unreachable_from (fuel : nat) (A : ta) (start : list ptr) : outcome ta :=
  do seen <- reach_loop fuel A start start ;
  Ok (mkTA (filter (fun ps => negb (mem (fst ps) seen)) (states A)) (inits A) (maxC A)).

(* removeUnreachableStates, monaa/tre.cc:138-185: the vector written to is
   empty. *)
Definition removeUnreachableStates (fuel : nat) (A : ta) : outcome ta :=
  do start <- transform_to (inits A) [] ;
  unreachable_from fuel A start.

(* The class ConstraintMaker, libmonaa/constraint.hh:71-88: the four operators
   of the interface to write constraints. *)
Definition mk_lt (x : nat) (c : Z) : constr := mkC x Lt c.
Definition mk_le (x : nat) (c : Z) : constr := mkC x Le c.
Definition mk_gt (x : nat) (c : Z) : constr := mkC x Gt c.
Definition mk_ge (x : nat) (c : Z) : constr := mkC x Ge c.
