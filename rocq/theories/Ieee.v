(* The eight bytes of a double (IEEE 754 binary64, the low byte first), which
   getOneBinary reads with fread, libmonaa/lazy_deque.hh:16-23.  An instance of
   the parameter [dec] of Text.v and Main.v. *)
From Coq Require Import QArith Bool List ZArith Arith.
Import ListNotations.
Open Scope Z_scope.

(* The bytes as one number. *)
Fixpoint little (l : list nat) : Z := match l with [] => 0 | b :: t => Z.of_nat b + 256 * little t end.

(* Sign, exponent and fraction: 1, 11 and 52 bits. *)
Definition sign_bit (n : Z) : bool := negb (n / 2 ^ 63 =? 0).
Definition exp_bits (n : Z) : Z := (n / 2 ^ 52) mod 2 ^ 11.
Definition frac_bits (n : Z) : Z := n mod 2 ^ 52.

(* m * 2^e as a decimal fraction. *)
Definition scaled (m e : Z) : Q :=
  match e with
  | Z0 => m # 1
  | Zpos k => (m * 2 ^ Zpos k) # 1
  | Zneg k => (m * 5 ^ Zpos k) # (Pos.pow 10 k)
  end.

(* The value; that infinities and NaN (exponent 2047) give 0 here is not what
   the program does. *)
Definition dec64 (l : list nat) : Q :=
  let n := little l in
  let E := exp_bits n in
  let m := if E =? 0 then frac_bits n else frac_bits n + 2 ^ 52 in
  let q := scaled m (Z.max E 1 - 1075) in
  if E =? 2047 then 0%Q else if sign_bit n then (- q)%Q else q.
