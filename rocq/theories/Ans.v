(* Model of libmonaa/ans_vec.hh: the containers of reported zones, and of the
   part of monaa/main.cc that runs the matching and prints. *)
From Coq Require Import QArith Bool List ZArith Arith.
From Verif Require Import Num Outcome Zone TA Word Monaa Skip Text.
Import ListNotations.
Open Scope nat_scope.

(* What is done with a container. *)
Inductive ans_op (Z : Type) : Type :=
| Push : Z -> ans_op Z
| Clear : ans_op Z
| Reserve : nat -> ans_op Z.
Arguments Push {Z} _.
Arguments Clear {Z}.
Arguments Reserve {Z} _.

(* AnsVec, libmonaa/ans_vec.hh:52-60: a std::vector. *)
Definition vec_op {Z} (v : list Z) (o : ans_op Z) : list Z :=
  match o with Push z => v ++ [z] | Clear => [] | Reserve _ => v end.

(* IntContainer, libmonaa/ans_vec.hh:62-74.  The counter is a std::size_t; its
   wrap-around is not modelled. *)
Definition int_op {Z} (n : nat) (o : ans_op Z) : nat :=
  match o with Push _ => S n | Clear => 0 | Reserve _ => n end.

(* One printed inequality: lo (<= or <) variable (<= or <) up.  The variable is
   0 for t, 1 for t' and 2 for t' - t.  The decimal rendering by %10lf is in
   Print.v. *)
Record ineq : Type := mkIneq { q_lo : num; q_lole : bool; q_var : nat; q_uple : bool; q_up : num }.

(* PrintContainer::push_back, libmonaa/ans_vec.hh:97-111. *)
Definition print_zone (z : mat) : list ineq :=
  [ mkIneq (nopp (fst (mget z 0 1))) (snd (mget z 0 1)) 0 (snd (mget z 1 0)) (fst (mget z 1 0));
    mkIneq (nopp (fst (mget z 0 2))) (snd (mget z 0 2)) 1 (snd (mget z 2 0)) (fst (mget z 2 0));
    mkIneq (nopp (fst (mget z 1 2))) (snd (mget z 1 2)) 2 (snd (mget z 2 1)) (fst (mget z 2 1)) ].

(* PrintContainer, libmonaa/ans_vec.hh:84-118: the counter and what was printed,
   one block per zone. *)
Record printer : Type := mkPr { pr_quiet : bool; pr_count : nat; pr_out : list (list ineq) }.
Definition pr_op (p : printer) (o : ans_op mat) : printer :=
  match o with
  | Push z => mkPr (pr_quiet p) (S (pr_count p)) (if pr_quiet p then pr_out p else pr_out p ++ [print_zone z])
  | Clear => mkPr (pr_quiet p) 0 (pr_out p)
  | Reserve _ => p
  end.

(* The end of main, monaa/main.cc:125-143, in event mode on a textual word, for
   the automaton built from the pattern.  ans.clear() and the push_back of every
   zone are the calls that monaaDollar makes on its container. *)
Definition main_event (fuel : nat) (al : alloc) (quiet : bool) (A : ta) (input : list nat) : outcome printer :=
  do w <- text_word input ;
  do zs <- monaaDollar fuel al lazyC A (lopen w) ;
  Ok (fold_left pr_op (Clear :: map Push zs) (mkPr quiet 0 [])).
