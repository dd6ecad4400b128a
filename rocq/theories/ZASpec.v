(* Specification vocabulary for zone automata as finite graphs: edges, paths and
   reachability.  Independent of the functions of the model. *)
From Coq Require Import List Arith.
From Verif Require Import Num Zone TA ZA.
Import ListNotations.

(* State i exists and is owned by some shared_ptr. *)
Definition alive (Z : za) (i : nat) : Prop := exists s, nth_error (zsts Z) i = Some s /\ zlive s = true.

(* An edge with character c from i to j; both ends alive. *)
Definition zedge (Z : za) (i c j : nat) : Prop :=
  exists s, nth_error (zsts Z) i = Some s /\ zlive s = true /\ In (c, j) (znx s) /\ alive Z j.

(* A path spelling a list of characters. *)
Inductive zpath (Z : za) : nat -> list nat -> nat -> Prop :=
| zp_nil : forall i, zpath Z i [] i
| zp_cons : forall i c j w k, zedge Z i c j -> zpath Z j w k -> zpath Z i (c :: w) k.

Definition zaccepting (Z : za) (i : nat) : Prop := exists s, nth_error (zsts Z) i = Some s /\ zacc s = true.

(* Every index mentioned exists, initial states are alive, characters are
   below CHAR_MAX (the size of the array next). *)
Record za_wf (Z : za) : Prop := {
  zwf_init : forall i, In i (zinit Z) -> alive Z i;
  zwf_edge : forall i s c j, nth_error (zsts Z) i = Some s -> In (c, j) (znx s) ->
               c < char_max /\ j < length (zsts Z)
}.

(* Nothing has been destroyed yet. *)
Definition all_alive (Z : za) : Prop := forall s, In s (zsts Z) -> zlive s = true.

(* The state can be reached from an initial state / can reach an accepting one. *)
Definition zreachable (Z : za) (j : nat) : Prop := exists i w, In i (zinit Z) /\ zpath Z i w j.
Definition zproductive (Z : za) (i : nat) : Prop := exists w k, zpath Z i w k /\ zaccepting Z k.
