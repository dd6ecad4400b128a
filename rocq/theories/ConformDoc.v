(* The commands of doc/getting_started.md, doc/TRE.md and doc/TA.md, run on the
   model, with the output the documents show.  ('(AB)$' is C80_documented, the
   commands that are integrated tests as well are in ConformMain.v, and the
   conjunction of doc/TRE.md is C68_documented_conjunction_refuted.) *)
From Coq Require Import QArith Bool List ZArith Arith String.
From Verif Require Import Num Outcome TA Text Ans Main PropParse PropMain PropTerm Print PropPrintMain PropSkipEx Conform ConformMain.
Import ListNotations.
Open Scope list_scope.
Open Scope nat_scope.

(* monaa -e '(A(B)%(1,20))$', doc/getting_started.md:73-82 *)
Example restricted_output :
  written (world1 doc_word) (cmd [str "(A(B)%(1,20))$"]) =
  Ok (lines ["  1.500000       <= t <   2.000000"; "  3.200000        < t' <=   3.500000"; "  1.200000        < t' - t <=   2.000000";
             "============================="]%string).
Proof. vm_compute. reflexivity. Qed.

(* monaa -e '((A(B|C))*%(1,20))$', doc/getting_started.md:134-151 and
   examples/integrated_test.sh:114-143 *)
Example star_output :
  written (world1 doc_word) (cmd [str "((A(B|C))*%(1,20))$"]) =
  Ok (lines ["  1.500000       <= t <   2.000000"; "  3.200000        < t' <=   3.500000"; "  1.200000        < t' - t <=   2.000000";
             "=============================";
             "  1.500000       <= t <   2.000000"; "  4.600000        < t' <=        inf"; "  2.600000        < t' - t <=        inf";
             "=============================";
             "  3.200000       <= t <   3.500000"; "  4.600000        < t' <=        inf"; "  1.100000        < t' - t <=        inf";
             "============================="]%string).
Proof. vm_compute. reflexivity. Qed.

(* monaa -e 'ABC($)%(1,20)', doc/TRE.md:58-67 *)
Example terminate_output :
  written (world1 doc_word2) (cmd [str "ABC($)%(1,20)"]) =
  Ok (lines ["  1.500000       <= t <   2.000000"; "  5.200000        < t' <  24.200000"; "  3.200000        < t' - t <  22.700000";
             "============================="]%string).
Proof. vm_compute. reflexivity. Qed.

(* examples/TA/untimed.dot and examples/TA/timed.dot *)
Definition untimed_dot : list tvert * list tedge :=
  ([mkTV 1 true false false; mkTV 2 false false false; mkTV 3 false true false],
   [mkTE 1 2 65 None None; mkTE 2 1 66 None None; mkTE 2 1 67 None None; mkTE 2 3 36 None None]).
Definition timed_dot : list tvert * list tedge :=
  ([mkTV 1 true false false; mkTV 2 false false false; mkTV 3 false true false],
   [mkTE 1 2 65 (gd "{x0 < 1}") (Some (str "{0}")); mkTE 2 1 66 (gd "{x0 < 1}") (Some (str "{0}"));
    mkTE 2 1 67 (gd "{x0 < 1}") (Some (str "{0}")); mkTE 2 3 36 (gd "{x0 > 1}") None]).
Definition doc_world : world :=
  mkW doc_word (fun _ => None)
      (fun f => if list_eq_dec Nat.eq_dec f (str "untimed.dot") then Some untimed_dot
                else if list_eq_dec Nat.eq_dec f (str "timed.dot") then Some timed_dot else None).
Definition with_automaton (f : string) : options := mkO false false false false false false false stdin_name (str f) [] [].

(* monaa -f untimed.dot, doc/TA.md:77-97; the zeros are negative there *)
Definition written_minus (W : world) (o : options) : outcome (list nat) :=
  do s <- main sep0 sep0 dec0 200 (fun k => k) uAl W o ;
  match s with Printed p => Ok (output (fun _ => true) p) | _ => UB end.
Example untimed_output :
  written_minus doc_world (with_automaton "untimed.dot") =
  Ok (lines [" -0.000000       <= t <   0.500000"; "  0.500000        < t' <=   0.800000"; " -0.000000        < t' - t <=   0.800000";
         "=============================";
         "  1.500000       <= t <   2.000000"; "  2.000000        < t' <=   3.200000"; " -0.000000        < t' - t <=   1.700000";
         "=============================";
         "  1.500000       <= t <   2.000000"; "  3.500000        < t' <=   4.600000"; "  1.500000        < t' - t <=   3.100000";
         "=============================";
         "  3.200000       <= t <   3.500000"; "  3.500000        < t' <=   4.600000"; " -0.000000        < t' - t <=   1.400000";
         "============================="]%string).
Proof. vm_compute. reflexivity. Qed.

(* monaa -f timed.dot, doc/TA.md:126-138 *)
Example timed_output :
  written doc_world (with_automaton "timed.dot") =
  Ok (lines ["  1.500000       <= t <   2.000000"; "  3.000000        < t' <=   3.200000"; "  1.000000        < t' - t <=   1.700000";
             "=============================";
             "  3.200000       <= t <   3.500000"; "  4.500000        < t' <=   4.600000"; "  1.000000        < t' - t <=   1.400000";
             "============================="]%string).
Proof. vm_compute. reflexivity. Qed.
