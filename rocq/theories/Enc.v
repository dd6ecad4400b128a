(* The eight bytes of a double that ascii2bin writes, fwrite(&timestamp,
   sizeof(double), 1, ofile), utils/ascii2bin.c:36.  An instance of the parameter
   [enc] of Bin.v. *)
From Coq Require Import QArith Bool List ZArith Arith.
From Verif Require Import Num Outcome Round.
Import ListNotations.
Open Scope nat_scope.

(* The low [k] bytes of a number, the lowest one first. *)
Fixpoint le_bytes (k : nat) (n : Z) : list nat := match k with O => [] | S k => Z.to_nat (n mod 256) :: le_bytes k (n / 256) end.

(* The number is rounded by fscanf before, as in Round.v.  With z * 2^e the
   first bit of z is the last one of the exponent, unless the number is
   subnormal; if z was rounded up to 2^53, it is carried over.  The sign of a zero
   is not part of the model of doubles; here it is +. *)
Definition enc64 (q : Q) : list nat :=
  let e := last_place q in
  let z := nearest (q / Qpower 2 e) in
  if (z =? 0)%Z then le_bytes 8 0 else le_bytes 8 (Z.abs z + 2 ^ 52 * (e + 1074) + (if (z <? 0)%Z then 2 ^ 63 else 0))%Z.
