(* Model of libmonaa/constraint.hh. *)
From Coq Require Import QArith Bool List ZArith.
From Verif Require Import Num.
Import ListNotations.
Open Scope Q_scope.

(* Constraint::Order, libmonaa/constraint.hh:17. *)
Inductive cmp : Type := Lt | Le | Ge | Gt.

(* struct Constraint, libmonaa/constraint.hh:16-21.  The clock is an uint8_t in
   the code (modelled as a nat; the code's wrap-around is modelled where clock
   arithmetic happens), the constant an int (modelled as Z, overflow of int is
   not modelled). *)
Record constr : Type := mkC { cx : nat; codr : cmp; cc : Z }.

(* Constraint::satisfy, libmonaa/constraint.hh:23-35 (finite argument). *)
Definition satisfy (g : constr) (d : Q) : bool :=
  match codr g with
  | Lt => Qltb d (inject_Z (cc g))
  | Le => Qle_bool d (inject_Z (cc g))
  | Gt => Qltb (inject_Z (cc g)) d
  | Ge => Qle_bool (inject_Z (cc g)) d
  end.

(* ::Order, libmonaa/constraint.hh:11. *)
Inductive ord3 : Type := OLT | OEQ | OGT.

(* Constraint::operator(), libmonaa/constraint.hh:37-45, on the value of its
   clock (val.at(x) throws when the clock is missing: [None]). *)
Definition constr_call (g : constr) (val : list Q) : option ord3 :=
  match nth_error val (cx g) with
  | None => None
  | Some d =>
      Some (if satisfy g d then OEQ
            else match codr g with
                 | Lt | Le => OGT
                 | Ge | Gt => OLT
                 end)
  end.

(* widen, libmonaa/constraint.hh:95-102. *)
Definition widen (guard : list constr) : list constr :=
  filter (fun g => match codr g with Ge | Gt => false | _ => true end) guard.
