(* The integrated tests of the project, examples/integrated_test.sh, run on the
   model of main and of the output stream (the one for (AB)$ is C80_documented). *)
From Coq Require Import QArith Bool List ZArith Arith String.
From Verif Require Import Num Outcome TA Text Ans Main PropParse PropMain PropTerm Print PropPrintMain PropSkipEx Conform.
Import ListNotations.
Open Scope list_scope.
Open Scope nat_scope.

(* What a run writes on standard output (no zero is negative here) *)
Definition written (W : world) (o : options) : outcome (list nat) :=
  do s <- main sep0 sep0 dec0 200 (fun k => k) uAl W o ;
  match s with Printed p => Ok (output (fun _ => false) p) | _ => UB end.

(* monaa -f small.dot < small.txt, :17-23 *)
Definition small_world : world :=
  mkW (lines ["h       0.1"; "l       0.3"; "l       0.5"; "h       0.7"]%string) (fun _ => None)
      (fun f => if list_eq_dec Nat.eq_dec f (str "small.dot") then Some small_dot else None).
Example small_output :
  written small_world (mkO false false false false false false false stdin_name (str "small.dot") [] []) =
  Ok (lines ["  0.300000       <= t <   0.500000"; "  0.700000        < t' <   1.500000"; "  0.200000        < t' - t <   1.000000";
             "============================="]%string).
Proof. vm_compute. reflexivity. Qed.

(* monaa '(A(B|C)%(1,20))$' < getting_started/timed_word.txt, :62-82 *)
Example alt_output :
  written (world1 doc_word) (cmd [str "(A(B|C)%(1,20))$"]) =
  Ok (lines ["  1.500000       <= t <   2.000000"; "  3.200000        < t' <=   3.500000"; "  1.200000        < t' - t <=   2.000000";
             "=============================";
             "  3.200000       <= t <   3.500000"; "  4.600000        < t' <=        inf"; "  1.100000        < t' - t <=        inf";
             "============================="]%string).
Proof. vm_compute. reflexivity. Qed.

(* monaa '((A(B|C))+%(1,20))$', :84-112 *)
Example plus_output :
  written (world1 doc_word) (cmd [str "((A(B|C))+%(1,20))$"]) =
  Ok (lines ["  1.500000       <= t <   2.000000"; "  3.200000        < t' <=   3.500000"; "  1.200000        < t' - t <=   2.000000";
             "=============================";
             "  1.500000       <= t <   2.000000"; "  4.600000        < t' <=        inf"; "  2.600000        < t' - t <=        inf";
             "=============================";
             "  3.200000       <= t <   3.500000"; "  4.600000        < t' <=        inf"; "  1.100000        < t' - t <=        inf";
             "============================="]%string).
Proof. vm_compute. reflexivity. Qed.
