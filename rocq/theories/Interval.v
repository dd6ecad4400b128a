(* Model of libmonaa/interval.hh. *)
From Coq Require Import QArith Qround Bool List ZArith Arith.
From Verif Require Import Num Outcome.
Import ListNotations.
Open Scope nat_scope.

(* struct Interval, libmonaa/interval.hh:15-19.  The lower bound is stored as
   (value, closed?), the upper bound likewise. *)
Record interval : Type := mkI { lob : bound; upb : bound }.

(* Constructors, libmonaa/interval.hh:26-52. *)
Definition interval_default : interval := mkI bzero binf.
Definition interval_from (lower : Z) : interval := mkI (Fin (inject_Z lower), false) binf.
Definition interval_open (lower upper : Z) : interval :=
  mkI (Fin (inject_Z lower), false) (Fin (inject_Z upper), false).

(* IEEE <=. *)
Definition nleb (a b : num) : bool := nltb a b || neqb a b.

(* Interval::contain, libmonaa/interval.hh:89-94. *)
Definition contain (I : interval) (value : Q) : bool :=
  (if snd (lob I) then nleb (fst (lob I)) (Fin value) else nltb (fst (lob I)) (Fin value)) &&
  (if snd (upb I) then nleb (Fin value) (fst (upb I)) else nltb (Fin value) (fst (upb I))).

(* operator&&, libmonaa/interval.hh:98-102. *)
Definition iand (l r : interval) : interval :=
  mkI (bmax (lob l) (lob r)) (bmin (upb l) (upb r)).

(* std::pair's operator>. *)
Definition bgtb (a b : bound) : bool := bltb b a.

(* land(set, interval), libmonaa/interval.hh:118-129.  The intervals are
   modelled as values: sharing of one Interval object between two places (the
   elements are shared_ptr) is not modelled. *)
Definition land1 (left : list interval) (r : interval) : list interval :=
  filter (fun I => negb (bgtb (lob I) (upb I))) (map (fun I => iand I r) left).

(* land(set, set), libmonaa/interval.hh:145-161. *)
Definition land (left right : list interval) : list interval :=
  flat_map (fun r => land1 left r) right.

(* operator+, libmonaa/interval.hh:168-172. *)
Definition iadd (l r : interval) : interval :=
  mkI (badd (lob l) (lob r)) (badd (upb l) (upb r)).

(* operator+= on sets, libmonaa/interval.hh:188-200. *)
Definition isum (left right : list interval) : list interval :=
  flat_map (fun l => map (fun r => iadd l r) right) left.

(* Bounds{b.first * i, b.second}. *)
Definition bscale (i : Z) (b : bound) : bound :=
  (match fst b with
   | Fin q => Fin (inject_Z i * q)
   | a => a
   end, snd b).

Definition iscale (i : Z) (I : interval) : interval := mkI (bscale i (lob I)) (bscale i (upb I)).

(* Interval::plus, libmonaa/interval.hh:70-87.  The conversion of an infinite or
   NaN quotient to int is undefined; reserve with a negative argument throws. *)
Definition iplus (I : interval) : outcome (list interval) :=
  match fst (upb I) with
  | PInf | MInf => Ok [I]
  | NaN => UB
  | Fin u =>
      match fst (lob I) with
      | Fin l =>
          if Qeq_bool (u - l) 0 then UB
          else
            let m := Qceiling (l / (u - l)) in
            if (m + 1 <? 0)%Z then Throw
            else Ok (map (fun i => iscale (Z.of_nat i) I) (seq 1 (Z.to_nat m - 1))
                     ++ [mkI (bscale m (lob I)) binf])
      | _ => UB
      end
  end.

Fixpoint omap {T U} (f : T -> outcome U) (l : list T) : outcome (list U) :=
  match l with
  | [] => Ok []
  | x :: t => bind (f x) (fun y => bind (omap f t) (fun r => Ok (y :: r)))
  end.

(* The elements of l selected by the bits of the mask. *)
Fixpoint select {T} (mask : list bool) (l : list T) : list T :=
  match mask, l with
  | b :: m, x :: t => if b then x :: select m t else select m t
  | _, _ => []
  end.

(* All masks of n bits in the order of the counter i, bit j first:
   libmonaa/interval.hh:222-230. *)
Fixpoint masks (n : nat) : list (list bool) :=
  match n with
  | O => [[]]
  | S k => flat_map (fun m => [false :: m; true :: m]) (masks k)
  end.

(* plus on a set, libmonaa/interval.hh:203-240.  The loop starts with i = 1,
   skipping the empty subset. *)
Definition plus_set (intervals : list interval) : outcome (list interval) :=
  if 32 <=? length intervals then Throw
  else
    bind (omap iplus intervals) (fun ps =>
      match ps with
      | [p] => Ok p
      | _ =>
          Ok (flat_map (fun mask =>
                 fold_left isum (select mask ps) [mkI bzero bzero])
              (tl (masks (length intervals))))
      end).

(* ---------------- specification ---------------- *)

Open Scope Q_scope.
(* Value [d] is above the lower bound. *)
Definition above (b : bound) (d : Q) : Prop :=
  match fst b with
  | Fin q => if snd b then q <= d else q < d
  | MInf => True
  | _ => False
  end.

(* Membership of a value in an interval, and in a union of intervals. *)
Definition iin (I : interval) (d : Q) : Prop := above (lob I) d /\ below (upb I) d.
Definition iins (l : list interval) (d : Q) : Prop := exists I, In I l /\ iin I d.

Definition qsum (l : list Q) : Q := fold_right Qplus 0 l.

(* Sums of one or more values satisfying P. *)
Definition kleene_plus (P : Q -> Prop) (d : Q) : Prop :=
  exists l, l <> [] /\ (forall x, In x l -> P x) /\ qsum l == d.

(* Bounds an Interval of the program can have: a finite lower bound, an upper
   bound that is finite or +infinity. *)
Definition wf_interval (I : interval) : Prop :=
  (exists l, fst (lob I) = Fin l) /\ good (upb I).
