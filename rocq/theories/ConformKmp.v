(* test/kmp_skip_value_test.cc, run on the model. *)
From Coq Require Import List ZArith.
From Verif Require Import Outcome TA Skip PropTerm Conform.
Import ListNotations.

Example kmp_test : kmp 500 uAl fixT 2 = Ok [(0, 1); (1, 1); (2, 2); (3, 2)].
Proof. vm_compute. reflexivity. Qed.
