(* Model of what PrintContainer::push_back writes to the standard output,
   libmonaa/ans_vec.hh:97-111, character by character. *)
From Coq Require Import QArith Bool List ZArith Arith Decimal.
From Verif Require Import Num Outcome Zone TA Text Ans.
Import ListNotations.
Open Scope nat_scope.

(* Six decimals: the number of millionths nearest to q, the even one of two. *)
Definition millionths (q : Q) : Z :=
  let n := (Qnum q * 1000000)%Z in
  let d := Zpos (Qden q) in
  let f := (n / d)%Z in
  match (2 * (n mod d) ?= d)%Z with
  | Datatypes.Lt => f
  | Datatypes.Gt => (f + 1)%Z
  | Datatypes.Eq => if Z.even f then f else (f + 1)%Z
  end.

Definition digit_of (k : Z) (u : Decimal.uint) : Decimal.uint :=
  match k with
  | 0%Z => D0 u | 1%Z => D1 u | 2%Z => D2 u | 3%Z => D3 u | 4%Z => D4 u
  | 5%Z => D5 u | 6%Z => D6 u | 7%Z => D7 u | 8%Z => D8 u | _ => D9 u
  end.
(* The last [n] decimal digits of z. *)
Fixpoint last_digits (n : nat) (z : Z) (u : Decimal.uint) : Decimal.uint :=
  match n with O => u | S k => last_digits k (z / 10) (digit_of (z mod 10) u) end.

(* %*s and %*lf: blanks on the left. *)
Definition pad (n : nat) (s : list nat) : list nat := repeat 32 (n - length s) ++ s.

(* %10lf in the C locale.  The sign of a zero is not part of the model of
   doubles; [minus] says whether a zero is printed with a sign.  (NaN does not
   occur in what is printed, C80_printed.) *)
Definition lf (minus : bool) (a : num) : list nat :=
  match a with
  | Fin q =>
      let z := Z.abs (millionths q) in
      (if (Qnum q <? 0)%Z || (minus && (Qnum q =? 0)%Z) then [45] else []) ++
      uint_chars (N.to_uint (Z.to_N (z / 1000000))) ++ [46] ++ uint_chars (last_digits 6 (z mod 1000000) Nil)
  | PInf => [105; 110; 102]
  | MInf => [45; 105; 110; 102]
  | NaN => [110; 97; 110]
  end.
Definition op_chars (closed : bool) : list nat := if closed then [60; 61] else [60].
(* t, t' and t' - t *)
Definition var_chars (v : nat) : list nat :=
  match v with 0 => [116] | 1 => [116; 39] | _ => [116; 39; 32; 45; 32; 116] end.

(* printf("%10lf %8s t %s %10lf\n", ...), libmonaa/ans_vec.hh:101-109. *)
Definition line_chars (m1 m2 : bool) (i : ineq) : list nat :=
  pad 10 (lf m1 (q_lo i)) ++ [32] ++ pad 8 (op_chars (q_lole i)) ++ [32] ++ var_chars (q_var i) ++ [32] ++ op_chars (q_uple i) ++ [32] ++
  pad 10 (lf m2 (q_up i)) ++ [10].

(* The lines from number n on; [minus] gives the signs of the zeros. *)
Fixpoint lines_chars (minus : nat -> bool) (n : nat) (b : list ineq) : list nat :=
  match b with
  | [] => []
  | i :: t => line_chars (minus (2 * n)) (minus (2 * n + 1)) i ++ lines_chars minus (S n) t
  end.
(* puts("============================="), libmonaa/ans_vec.hh:110. *)
Definition rule_chars : list nat := repeat 61 29 ++ [10].
Fixpoint blocks_chars (minus : nat -> bool) (n : nat) (l : list (list ineq)) : list nat :=
  match l with
  | [] => []
  | b :: t => lines_chars minus n b ++ rule_chars ++ blocks_chars minus (n + length b) t
  end.
(* The standard output. *)
Definition output (minus : nat -> bool) (p : printer) : list nat := blocks_chars minus 0 (pr_out p).
