(* The operations of libmonaa/zone.hh with the rounding of doubles: every sum of
   two doubles is followed by [rnd].  Otherwise the text is that of Zone.v. *)
From Coq Require Import QArith Bool List ZArith Arith.
From Verif Require Import Num Constraint Zone TA ZA Round.
Import ListNotations.

Section Rnd.
  Variable rnd : Q -> Q.

  (* Zone::close1, libmonaa/zone.hh:106-114. *)
  Definition close_row_r (x : nat) (m : mat) (i : nat) : mat :=
    setrow m i
      (zip_with bmin (nth i m [])
         (map (fun b => badd_r rnd b (mget m i x)) (nth x m []))).
  Definition close1_r (m : mat) (x : nat) : mat :=
    fold_left (close_row_r x) (seq 0 (length m)) m.

  (* Zone::tighten, libmonaa/zone.hh:98-104. *)
  Definition tighten_r (m : mat) (x y : nat) (c : bound) : mat :=
    let x' := cv_succ x in
    let y' := cv_succ y in
    let m1 := mset m x' y' (bmin (mget m x' y') c) in
    close1_r (close1_r m1 x') y'.

  (* Zone::canonize, libmonaa/zone.hh:138-142. *)
  Definition canonize_r (m : mat) : mat :=
    fold_left close1_r (seq 0 (length m)) m.

  (* Zone::isSatisfiable, libmonaa/zone.hh:147-150. *)
  Definition min_sym_r (m : mat) : bound :=
    let n := length m in
    let cells := flat_map (fun j => map (fun i => badd_r rnd (mget m i j) (mget m j i)) (seq 0 n)) (seq 0 n) in
    match cells with
    | [] => bzero
    | c :: t => fold_left bmin t c
    end.
  Definition isSatisfiable_r (m : mat) : bool * mat :=
    let m' := canonize_r m in (bgeb (min_sym_r m') bzero, m').

  (* As [tighten_guard] and [succ_zone], libmonaa/ta2za.cc (see ZA.v). *)
  Definition tighten_guard1_r (m : mat) (g : constr) : mat :=
    match codr g with
    | Lt => tighten_r m (cx g) cv_none (Fin (inject_Z (cc g)), false)
    | Le => tighten_r m (cx g) cv_none (Fin (inject_Z (cc g)), true)
    | Gt => tighten_r m cv_none (cx g) (Fin (inject_Z (- cc g)), false)
    | Ge => tighten_r m cv_none (cx g) (Fin (inject_Z (- cc g)), true)
    end.
  Definition tighten_guard_r (m : mat) (gs : list constr) : mat := fold_left tighten_guard1_r gs m.
  Definition succ_zone_r (M : bound) (now : mat) (e : edge) : option mat :=
    let (sat, m) := isSatisfiable_r (tighten_guard_r now (eguard e)) in
    if sat then Some (canonize_r (abstractize M (fold_left reset (eresets e) m))) else None.
End Rnd.
