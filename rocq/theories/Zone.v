(* Model of libmonaa/zone.hh: difference bound matrices. *)
From Coq Require Import QArith Bool List ZArith Arith.
From Verif Require Import Num Constraint.
Import ListNotations.

(* Eigen::Matrix<Bounds,Dynamic,Dynamic>, libmonaa/zone.hh:45, as a list of
   rows.  Reading outside the matrix is undefined in the code; the theorems
   only speak about indices inside. *)
Definition mat : Type := list (list bound).

Definition mget (m : mat) (i j : nat) : bound := nth j (nth i m []) binf.

Fixpoint set_nth {A} (l : list A) (i : nat) (a : A) : list A :=
  match l, i with
  | [], _ => []
  | _ :: t, O => a :: t
  | h :: t, S k => h :: set_nth t k a
  end.

Definition setrow (m : mat) (i : nat) (r : list bound) : mat := set_nth m i r.
Definition mset (m : mat) (i j : nat) (b : bound) : mat :=
  set_nth m i (set_nth (nth i m []) j b).

Definition zip_with {A B C} (f : A -> B -> C) (l : list A) (k : list B) : list C :=
  map (fun p => f (fst p) (snd p)) (combine l k).

(* struct Zone, libmonaa/zone.hh:43-46. *)
Record zone : Type := mkZone { zval : mat; zM : bound }.

Definition fill (n : nat) (b : bound) : mat := repeat (repeat b n) n.

(* Zone::zero, libmonaa/zone.hh:68-76.  The static cache is not modelled: it
   only avoids refilling a matrix of the same size.  M is a value-initialised
   pair. *)
Definition zone_zero (size : nat) : zone := mkZone (fill size bzero) (Fin 0, false).

(* Zone::universal, libmonaa/zone.hh:78-89. *)
Definition zone_universal (size : nat) : zone :=
  mkZone (mset (fill (S size) binf) 0 0 bzero) (Fin 0, false).

(* ClockVariables is uint8_t: x++ wraps around, so the argument -1 (255)
   designates the constant 0.  libmonaa/zone.hh:98-100. *)
Definition cv_succ (x : nat) : nat := (x + 1) mod 256.
Definition cv_none : nat := 255.

(* One row assignment of Zone::close1, libmonaa/zone.hh:108-109; value(i,x) is
   read before the row is assigned. *)
Definition close_row (x : nat) (m : mat) (i : nat) : mat :=
  setrow m i
    (zip_with bmin (nth i m [])
       (map (fun b => badd b (mget m i x)) (nth x m []))).

(* Zone::close1, libmonaa/zone.hh:106-114. *)
Definition close1 (m : mat) (x : nat) : mat :=
  fold_left (close_row x) (seq 0 (length m)) m.

(* Zone::tighten, libmonaa/zone.hh:98-104. *)
Definition tighten (m : mat) (x y : nat) (c : bound) : mat :=
  let x' := cv_succ x in
  let y' := cv_succ y in
  let m1 := mset m x' y' (bmin (mget m x' y') c) in
  close1 (close1 m1 x') y'.

(* Zone::reset, libmonaa/zone.hh:117-124. *)
Definition reset (m : mat) (x : nat) : mat :=
  let x' := cv_succ x in
  let n := length m in
  let m1 := mset m 0 x' bzero in
  let m2 := mset m1 x' 0 bzero in
  let m3 := fold_left (fun m i => mset m i x' (mget m i 0)) (seq 1 (n - 1)) m2 in
  fold_left (fun m j => mset m x' j (mget m 0 j)) (seq 1 (n - 1)) m3.

(* Zone::elapse, libmonaa/zone.hh:126-133. *)
Definition elapse (m : mat) : mat :=
  let m1 := map (fun r => set_nth r 0 binf) m in
  set_nth m1 0 (map (fun b => (fst b, false)) (nth 0 m1 [])).

(* Zone::canonize, libmonaa/zone.hh:138-142. *)
Definition canonize (m : mat) : mat :=
  fold_left close1 (seq 0 (length m)) m.

(* (value + value.transpose()).minCoeff(), libmonaa/zone.hh:149. *)
Definition min_sym (m : mat) : bound :=
  let n := length m in
  let cells := flat_map (fun j => map (fun i => badd (mget m i j) (mget m j i)) (seq 0 n)) (seq 0 n) in
  match cells with
  | [] => bzero
  | c :: t => fold_left bmin t c
  end.

(* Zone::isSatisfiable, libmonaa/zone.hh:147-150: canonizes in place and
   answers. *)
Definition isSatisfiable (m : mat) : bool * mat :=
  let m' := canonize m in (bgeb (min_sym m') bzero, m').

(* Zone::abstractize, libmonaa/zone.hh:156-164. *)
Definition abstractize (M : bound) (m : mat) : mat :=
  map (map (fun b => if bgeb b M then binf else b)) m.

(* Zone::makeUnsat, libmonaa/zone.hh:169-171. *)
Definition makeUnsat (m : mat) : mat := mset m 0 0 (MInf, false).

(* The conversion of a double to int in ConstraintMaker's operators: undefined
   for infinities and NaN ([None]); truncation towards zero otherwise. *)
Definition num_to_int (a : num) : option Z :=
  match a with
  | Fin q => Some (Z.quot (Qnum q) (Zpos (Qden q)))
  | _ => None
  end.

(* One clock of Zone::makeGuard, libmonaa/zone.hh:178-198. *)
Definition makeGuard1 (M : bound) (m : mat) (i : nat) : option (list constr) :=
  let lb := mget m 0 (S i) in
  let ub := mget m (S i) 0 in
  let lo :=
    if nltb (Fin 0) (fst lb) || (neqb (fst lb) (Fin 0) && negb (snd lb))
    then match num_to_int (fst lb) with
         | None => None
         | Some c => Some [mkC i (if snd lb then Ge else Gt) c]
         end
    else Some [] in
  let up :=
    if bltb ub M
    then match num_to_int (fst ub) with
         | None => None
         | Some c => Some [mkC i (if snd ub then Le else Lt) c]
         end
    else Some [] in
  match lo, up with
  | Some l, Some u => Some (l ++ u)
  | _, _ => None
  end.

(* Zone::makeGuard, libmonaa/zone.hh:174-200; [None] = undefined conversion. *)
Definition makeGuard (z : zone) : option (list constr) :=
  let m := abstractize (zM z) (canonize (zval z)) in
  fold_left (fun acc i => match acc, makeGuard1 (zM z) m i with
                          | Some a, Some g => Some (a ++ g)
                          | _, _ => None
                          end) (seq 0 (length m - 1)) (Some []).

Fixpoint list_eqb {A} (e : A -> A -> bool) (l k : list A) : bool :=
  match l, k with
  | [], [] => true
  | a :: l', b :: k' => e a b && list_eqb e l' k'
  | _, _ => false
  end.

(* Zone::operator==, libmonaa/zone.hh:202-205. *)
Definition zone_eqb (m z : mat) : bool :=
  list_eqb (list_eqb beqb) m (mset z 0 0 (mget m 0 0)).

(* Zone::intersectionAssign, libmonaa/zone.hh:207-210: the result of cwiseMin is
   discarded. *)
Definition intersectionAssign (m z : mat) : mat :=
  let _ := zip_with (zip_with bmin) m z in m.

(* Zone::cutVars, libmonaa/zone.hh:54-66. *)
Definition cutVars (m : mat) (from to : nat) : mat :=
  let k := (to - from + 1)%nat in
  (bzero :: map (fun j => mget m 0 (from + 1 + j)) (seq 0 k)) ::
  map (fun i => mget m (from + 1 + i) 0 ::
                map (fun j => mget m (from + 1 + i) (from + 1 + j)) (seq 0 k)) (seq 0 k).

(* ------------------------------------------------------------------ *)
(* Specification vocabulary.                                           *)

(* A clock valuation; index 0 of the matrix is the constant 0. *)
Definition valuation : Type := nat -> Q.
Definition ev (v : valuation) (i : nat) : Q :=
  match i with O => 0%Q | S k => v k end.

(* [m] is an n x n matrix. *)
Definition square (n : nat) (m : mat) : Prop :=
  length m = n /\ Forall (fun r => length r = n) m.

(* The set of valuations denoted by the matrix. *)
Definition zin (n : nat) (m : mat) (v : valuation) : Prop :=
  forall i j, (i < n)%nat -> (j < n)%nat -> below (mget m i j) (ev v i - ev v j)%Q.

(* No entry is -infinity or NaN. *)
Definition mgood (n : nat) (m : mat) : Prop :=
  forall i j, (i < n)%nat -> (j < n)%nat -> good (mget m i j).

(* The triangle inequality and non-negative diagonal: the matrix is canonical
   and consistent. *)
Definition canonical (n : nat) (m : mat) : Prop :=
  (forall i, (i < n)%nat -> ble bzero (mget m i i)) /\
  (forall i j k, (i < n)%nat -> (j < n)%nat -> (k < n)%nat ->
     ble (mget m i j) (badd (mget m i k) (mget m k j))).
