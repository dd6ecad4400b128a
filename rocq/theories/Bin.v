(* Model of utils/ascii2bin.c, which makes binary timed words of texts. *)
From Coq Require Import QArith Bool List ZArith Arith.
From Verif Require Import Num Outcome TA Spec Text Main.
Import ListNotations.
Open Scope nat_scope.

(* fscanf(ifile, " %d\n", &N), utils/ascii2bin.c:31: [None] if nothing is
   assigned.  A number that is not an int is undefined (C11 7.21.6.2, 10). *)
Definition scan_d (s : list nat) : outcome (option Z * list nat) :=
  let '(neg, s1) := sign (skip s) in
  let '(d, s2) := scan_digits s1 in
  match d with
  | Decimal.Nil => Ok (None, s2)
  | _ => let z := Z.of_int (if neg : bool then Decimal.Neg d else Decimal.Pos d) in
         if (int_min <=? z)%Z && (z <=? int_max)%Z then Ok (Some z, skip s2) else UB
  end.

(* fwrite(&N, sizeof(int), 1, ofile), utils/ascii2bin.c:32: four bytes, the low
   one first. *)
Definition int_bytes (z : Z) : list nat := map (fun k => Z.to_nat (z / 256 ^ Z.of_nat k mod 256)) (seq 0 4).

(* The variables event and timestamp, utils/ascii2bin.c:10-11; [None] while they
   are indeterminate. *)
Record vars : Type := mkV { v_event : option nat; v_time : option Q }.

(* fscanf(ifile, " %c %lf\n", &event, &timestamp), utils/ascii2bin.c:34: what is
   not there leaves the variables as they were.  [Throw] as in Text.getOne. *)
Definition scan_event (v : vars) (s : list nat) : outcome (vars * list nat) :=
  match skip s with
  | [] => Ok (v, [])
  | c :: t =>
      match scan_lf (skip t) with
      | Number q r => Ok (mkV (Some c) (Some q), skip r)
      | NoNumber r => Ok (mkV (Some c) (v_time v), r)
      | Unmodelled => Throw
      end
  end.

Section Bin.
  (* The eight bytes of a double. *)
  Variable enc : Q -> list nat.

  (* The two calls of fwrite, utils/ascii2bin.c:35-36.  An indeterminate value is
     undefined here. *)
  Definition put_event (v : vars) : outcome (list nat) :=
    match v_event v, v_time v with Some c, Some q => Ok (c :: enc q) | _, _ => UB end.

  (* The loop, utils/ascii2bin.c:33-37. *)
  Fixpoint put_events (n : nat) (v : vars) (s : list nat) : outcome (list nat) :=
    match n with
    | O => Ok []
    | S k =>
        do r <- scan_event v s ;
        do b <- put_event (fst r) ;
        do t <- put_events k (fst r) (snd r) ;
        Ok (b ++ t)
    end.

  (* utils/ascii2bin.c:31-37: from the text to the bytes.  With N indeterminate
     the program is undefined. *)
  Definition convert (s : list nat) : outcome (list nat) :=
    do r <- scan_d s ;
    match r with
    | (None, _) => UB
    | (Some N, s1) => do t <- put_events (Z.to_nat N) (mkV None None) s1 ; Ok (int_bytes N ++ t)
    end.

  (* The options, utils/ascii2bin.c:14-29, in their order. *)
  Inductive bopt : Type := InFile : list nat -> bopt | OutFile : list nat -> bopt.

  (* fopen in the order of the options; [outs] are the files that were opened for
     writing, which exist and are empty from then on.  [can] says which files can
     be opened for writing. *)
  Fixpoint opened (file : list nat -> option (list nat)) (can : list nat -> bool) (l : list bopt) (i : option (list nat)) (o : option (list nat)) (outs : list (list nat))
    : outcome (option (list nat) * option (list nat) * list (list nat)) :=
    match l with
    | [] => Ok (i, o, outs)
    | InFile p :: t =>
        match file p with
        | Some _ => opened file can t (Some p) o outs
        | None => if existsb (str_eqb p) outs then opened file can t (Some p) o outs else Exit 1
        end
    | OutFile p :: t => if can p then opened file can t i (Some p) (p :: outs) else Exit 1
    end.

  (* main: where the bytes go ([None]: the standard output) and the bytes. *)
  Definition ascii2bin (W : world) (can : list nat -> bool) (l : list bopt) : outcome (option (list nat) * list nat) :=
    do r <- opened (w_file W) can l None None [] ;
    let '(i, o, outs) := r in
    let s := match i with
             | None => w_stdin W
             | Some p => if existsb (str_eqb p) outs then [] else match w_file W p with Some s => s | None => [] end
             end in
    do b <- convert s ;
    Ok (o, b).
End Bin.
