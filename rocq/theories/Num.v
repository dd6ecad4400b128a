(* Model of the numbers used by MONAA.
   C++ [double] is modelled as an exact rational extended with the two
   infinities and NaN.  Rounding is NOT modelled (see DESIGN.md, trusted base):
   every finite double is a rational, and sums/differences are taken exactly.
   Infinities and NaN follow IEEE 754. *)
From Coq Require Import QArith Lqa Bool List ZArith.
Import ListNotations.
Open Scope Q_scope.

Inductive num : Type :=
| NaN : num
| MInf : num
| Fin : Q -> num
| PInf : num.

(* IEEE 754 addition, used by Bounds addition: libmonaa/common_types.hh and
   libmonaa/zone.hh:18-22. *)
Definition nadd (a b : num) : num :=
  match a, b with
  | NaN, _ => NaN
  | _, NaN => NaN
  | Fin x, Fin y => Fin (x + y)
  | PInf, MInf => NaN
  | MInf, PInf => NaN
  | PInf, _ => PInf
  | _, PInf => PInf
  | MInf, _ => MInf
  | _, MInf => MInf
  end.

(* IEEE 754 negation. *)
Definition nopp (a : num) : num :=
  match a with
  | NaN => NaN
  | MInf => PInf
  | PInf => MInf
  | Fin x => Fin (- x)
  end.

Definition Qltb (a b : Q) : bool := negb (Qle_bool b a).

(* IEEE 754 [<]: false as soon as one side is NaN. *)
Definition nltb (a b : num) : bool :=
  match a, b with
  | NaN, _ => false
  | _, NaN => false
  | Fin x, Fin y => Qltb x y
  | MInf, MInf => false
  | MInf, _ => true
  | _, MInf => false
  | _, PInf => match a with PInf => false | _ => true end
  | PInf, Fin _ => false
  end.

(* IEEE 754 [==]. *)
Definition neqb (a b : num) : bool :=
  match a, b with
  | Fin x, Fin y => Qeq_bool x y
  | MInf, MInf => true
  | PInf, PInf => true
  | _, _ => false
  end.

(* Bounds = std::pair<double,bool>; the flag is true for a non-strict bound.
   libmonaa/zone.hh:16 *)
Definition bound : Type := (num * bool)%type.

(* operator+ on Bounds, libmonaa/zone.hh:18-22. *)
Definition badd (a b : bound) : bound := (nadd (fst a) (fst b), snd a && snd b).

(* std::pair's C++20 operator< (lexicographic through <=>; an unordered first
   component makes every comparison false). *)
Definition bltb (a b : bound) : bool :=
  if neqb (fst a) (fst b) then negb (snd a) && snd b else nltb (fst a) (fst b).

(* std::pair's C++20 operator>=. *)
Definition bgeb (a b : bound) : bool :=
  if neqb (fst a) (fst b) then implb (snd b) (snd a) else nltb (fst b) (fst a).

(* std::pair's operator==. *)
Definition beqb (a b : bound) : bool :=
  neqb (fst a) (fst b) && Bool.eqb (snd a) (snd b).

(* std::min(a,b) returns b when b<a, otherwise a; std::max(a,b) returns b when
   a<b, otherwise a. *)
Definition bmin (a b : bound) : bound := if bltb b a then b else a.
Definition bmax (a b : bound) : bound := if bltb a b then b else a.

Definition bzero : bound := (Fin 0, true).
Definition binf : bound := (PInf, false).

(* ---- Specification side: what an upper bound says about a value. ---- *)

(* [d] respects the upper bound [b]. *)
Definition below (b : bound) (d : Q) : Prop :=
  match fst b with
  | Fin q => if snd b then d <= q else d < q
  | PInf => True
  | MInf => False
  | NaN => False
  end.

(* Bounds that are neither -infinity nor NaN. *)
Definition good (b : bound) : Prop :=
  match fst b with
  | Fin _ => True
  | PInf => True
  | _ => False
  end.

(* [a] is at least as tight as [b]: every value respecting [a] respects [b].
   (infinity,true) and (infinity,false) say the same thing. *)
Definition ble (a b : bound) : Prop :=
  match fst a, fst b with
  | MInf, _ => True
  | _, PInf => True
  | Fin x, Fin y => if snd a && negb (snd b) then x < y else x <= y
  | _, _ => False
  end.
