(* What running a piece of C++ code can lead to. *)

Inductive outcome (T : Type) : Type :=
| Ok : T -> outcome T          (* normal return *)
| UB : outcome T               (* undefined behaviour *)
| Throw : outcome T            (* an exception leaves the function *)
| Exit : nat -> outcome T      (* the process calls exit *)
| OutOfFuel : outcome T.       (* the loop did not finish within the fuel *)

Arguments Ok {T} _.
Arguments UB {T}.
Arguments Throw {T}.
Arguments Exit {T} _.
Arguments OutOfFuel {T}.

Definition bind {T U} (o : outcome T) (f : T -> outcome U) : outcome U :=
  match o with
  | Ok t => f t
  | UB => UB
  | Throw => Throw
  | Exit n => Exit n
  | OutOfFuel => OutOfFuel
  end.

Notation "'do' x <- o ; f" := (bind o (fun x => f)) (at level 200, x pattern, o at level 100, f at level 200).
