(* The matching loops of libmonaa/monaa.hh with the rounding of doubles: every
   sum and difference of two doubles is followed by [rnd].  Otherwise the text is
   that of Monaa.v; the skip values are those of exact numbers. *)
From Coq Require Import QArith Qabs Bool List ZArith Arith.
From Verif Require Import Num Outcome Constraint Zone TA Word ZA Monaa Skip.
Import ListNotations.
Open Scope nat_scope.

(* ---------------- rounding to the nearest double ---------------- *)

(* The nearest integer, the even one of two. *)
Definition nearest (q : Q) : Z :=
  let n := Qnum q in
  let d := Zpos (Qden q) in
  let f := (n / d)%Z in
  match (2 * (n mod d) ?= d)%Z with
  | Datatypes.Lt => f
  | Datatypes.Gt => (f + 1)%Z
  | Datatypes.Eq => if Z.even f then f else (f + 1)%Z
  end.

(* The place of the last bit: 53 bits, not below 2^-1074. *)
Definition last_place (q : Q) : Z :=
  let L := (Z.log2 (Z.abs (Qnum q)) - Z.log2 (Zpos (Qden q)))%Z in
  Z.max ((if Qle_bool (Qpower 2 L) (Qabs q) then L else L - 1) - 52) (-1074).

(* IEEE 754 binary64, to nearest; overflow to infinity is not modelled.  A
   number that is a double is returned as it is. *)
Definition rnd64 (q : Q) : Q :=
  let e := last_place q in
  let r := (inject_Z (nearest (q / Qpower 2 e)) * Qpower 2 e)%Q in
  if Qeq_bool q r then q else Qred r.

Section Rnd.
  Variable rnd : Q -> Q.

  (* double + double. *)
  Definition nadd_r (a b : num) : num :=
    match a, b with
    | Fin x, Fin y => Fin (rnd (x + y))
    | _, _ => nadd a b
    end.
  Definition badd_r (a b : bound) : bound := (nadd_r (fst a) (fst b), snd a && snd b).

  (* isValidConstraint, libmonaa/monaa.hh:100-103. *)
  Definition valid_r (up lo : bound) : bool := bgeb (badd_r up lo) bzero.

  (* As [acc_guard1], libmonaa/monaa.hh:881-945. *)
  Definition acc_guard1_r (rst : list Q) (b : six) (g : constr) : six :=
    let c := inject_Z (cc g) in
    let r := qnth rst (cx g) in
    if is_reset rst (cx g) then
      match codr g with
      | Lt | Le =>
          let ue' := bmin (ue b) (bnd (rnd (c + r)) (is_le (codr g))) in
          let ud' := bmin (ud b) (badd_r ue' (lb b)) in
          let ub' := bmin (ub b) (badd_r (ld b) ue') in
          mk6 ub' (lb b) ue' (le6 b) ud' (ld b)
      | Gt | Ge =>
          let le' := bmin (le6 b) (bnd (rnd (- c - r)) (is_ge (codr g))) in
          let ld' := bmin (ld b) (badd_r (ub b) le') in
          let lb' := bmin (lb b) (badd_r le' (ud b)) in
          mk6 (ub b) lb' (ue b) le' (ud b) ld'
      end
    else
      match codr g with
      | Lt | Le =>
          let ud' := bmin (ud b) (bnd c (is_le (codr g))) in
          let ue' := bmin (ue b) (badd_r ud' (ub b)) in
          let lb' := bmin (lb b) (badd_r (le6 b) ud') in
          mk6 (ub b) lb' ue' (le6 b) ud' (ld b)
      | Gt | Ge =>
          let ld' := bmin (ld b) (bnd (- c) (is_ge (codr g))) in
          let ub' := bmin (ub b) (badd_r ld' (ue b)) in
          let le' := bmin (le6 b) (badd_r (lb b) ld') in
          mk6 ub' (lb b) (ue b) le' (ud b) ld'
      end.

  (* As [six_init] and [acc_edge], libmonaa/monaa.hh:864-965. *)
  Definition six_init_r (cfg : iconf) (upEnd loEnd : bound) : six :=
    mk6 (iup cfg) (ilo cfg) upEnd loEnd (badd_r upEnd (ilo cfg)) (bmin (badd_r loEnd (iup cfg)) bzero).
  Definition acc_edge_r (cfg : iconf) (upEnd loEnd : bound) (e : edge) : option mat :=
    let b := fold_left (acc_guard1_r (irst cfg)) (eguard e) (six_init_r cfg upEnd loEnd) in
    if valid_r (ub b) (lb b) && valid_r (ue b) (le6 b) && valid_r (ud b) (ld b)
    then Some (ans_zone b) else None.

  (* As [step_guard] and [step_edge], libmonaa/monaa.hh:974-1026. *)
  Fixpoint step_guard_r (rst : list Q) (t : Q) (gs : list constr) (up lo : bound) : option (bound * bound) :=
    match gs with
    | [] => Some (up, lo)
    | g :: gs' =>
        let c := inject_Z (cc g) in
        if is_reset rst (cx g) then
          if satisfy g (rnd (t - qnth rst (cx g))) then step_guard_r rst t gs' up lo else None
        else
          match codr g with
          | Lt | Le => step_guard_r rst t gs' up (bmin lo (bnd (rnd (c - t)) (is_le (codr g))))
          | Gt | Ge => step_guard_r rst t gs' (bmin up (bnd (rnd (t - c)) (is_ge (codr g)))) lo
          end
    end.
  Definition step_edge_r (cfg : iconf) (t : Q) (e : edge) : option iconf :=
    match etgt e with
    | None => None
    | Some q =>
        match step_guard_r (irst cfg) t (eguard e) (iup cfg) (ilo cfg) with
        | None => None
        | Some (up, lo) =>
            if valid_r up lo
            then Some (mkI q (fold_left (fun r x => set_nth r x t) (eresets e) (irst cfg)) up lo)
            else None
        end
    end.
  Definition step_confs_r (A : ta) (c : nat) (t : Q) (cs : list iconf) : list iconf :=
    flat_map (fun cfg => flat_map (fun e => opt_list (step_edge_r cfg t e)) (edges_at A (ist cfg) c)) cs.

  (* As [hit_zone], [opt_edge] and [opt_edges], libmonaa/monaa.hh:1489-1523. *)
  Definition hit_zone_r (cfg : iconf) (t : Q) : option mat :=
    let b := mk6 (iup cfg) (ilo cfg) (bnd t true) (bnd t true)
                 (badd_r (bnd t true) (ilo cfg)) (bmin (badd_r (bnd t true) (iup cfg)) bzero) in
    if valid_r (ub b) (lb b) && valid_r (ue b) (le6 b) && valid_r (ud b) (ld b)
    then Some (ans_zone b) else None.
  Definition opt_edge_r (A : ta) (cfg : iconf) (t : Q) (e : edge) : option (iconf * option mat) :=
    match step_edge_r cfg t e with
    | None => None
    | Some cfg' =>
        if match_at A (ist cfg') then
          match hit_zone_r cfg' t with Some z => Some (cfg', Some z) | None => None end
        else Some (cfg', None)
    end.
  Definition opt_edges_r (A : ta) (c : nat) (t : Q) (cs : list iconf) : list (iconf * option mat) :=
    flat_map (fun cfg => flat_map (fun e => opt_list (opt_edge_r A cfg t e)) (edges_at A (ist cfg) c)) cs.
  Definition event_confs_r (M : mode) (A : ta) (c : nat) (t : Q) (cs : list iconf) : list iconf :=
    match M with MOptional => map fst (opt_edges_r A c t cs) | _ => step_confs_r A c t cs end.
  Definition event_zones_r (M : mode) (A : ta) (c : nat) (t : Q) (cs : list iconf) : list mat :=
    match M with MOptional => flat_map (fun x => opt_list (snd x)) (opt_edges_r A c t cs) | _ => [] end.

  Section Run.
    Variable W : cont.
    Variable A : ta.
    Variable T : skips.
    Variable M : mode.

    (* As [acc_confs], libmonaa/monaa.hh:851-967 and 1029-1145. *)
    Definition acc_confs_r (fin : bool) (l : nat) (c : ctype W) (j : nat) (cs : list iconf) (ans : list mat) : outcome (list mat) :=
      fold_out (fun cfg ans =>
        fold_out (fun e ans =>
          if match etgt e with Some q => match_at A q | None => false end then
            do up <- (if fin then Ok (PInf, true) else do e <- cat W c j ; Ok (bnd (snd e) true)) ;
            do lo <- low_end W c j ;
            Ok (ans ++ opt_list (acc_edge_r cfg up lo e))
          else Ok ans) (edges_at A (ist cfg) l) ans) cs ans.

    (* As [match_loop], libmonaa/monaa.hh:845-1027. *)
    Fixpoint match_loop_r (fuel : nat) (c : ctype W) (j : nat) (cs ls : list iconf) (ans : list mat)
        : outcome (ctype W * nat * list iconf * list iconf * list mat) :=
      match cs with
      | [] => Ok (c, j, cs, ls, ans)
      | _ =>
          let (b, c) := cfetch W c j in
          if b then
            match fuel with
            | O => OutOfFuel
            | S f =>
                do e <- cat W c j ;
                do ans' <- acc_confs_r false (acc_letter M (fst e)) c j cs ans ;
                match_loop_r f c (S j) (event_confs_r M A (fst e) (snd e) cs) cs (ans' ++ event_zones_r M A (fst e) (snd e) cs)
            end
          else Ok (c, j, cs, ls, ans)
      end.

    (* As [outer_loop], libmonaa/monaa.hh:776-1155. *)
    Fixpoint outer_loop_r (fuel : nat) (c : ctype W) (i : nat) (ls : list iconf) (ans : list mat) : outcome (list mat) :=
      let (b, c) := cfetch W c (i + sk_m T - 1) in
      if b then
        match fuel with
        | O => OutOfFuel
        | S f =>
            do ci <- sunday_shift W T fuel c i ;
            match snd ci with
            | None => Ok ans
            | Some i =>
                let (b, c) := cfetch W (fst ci) i in
                if b then
                  do cs <- start_confs W A c i ;
                  do r <- match_loop_r fuel c i cs ls ans ;
                  let '(c, j, cs, ls, ans) := r in
                  let (b, c) := cfetch W c j in
                  do la <- (if b then Ok (ls, ans)
                            else match M with
                                 | MSignal => Ok (cs, ans)
                                 | _ => do ans' <- acc_confs_r true dollar c j cs ans ; Ok (cs, ans')
                                 end) ;
                  do n <- greatest T (fst la) ;
                  do c <- csetFront W c (i + n - 1) ;
                  outer_loop_r f c (i + n) (fst la) (snd la)
                else Ok ans
            end
        end
      else Ok ans.
  End Run.

  (* As in Skip.v. *)
  Definition monaaDollar_r (fuel : nat) (al : alloc) (W : cont) (A : ta) (c : ctype W) : outcome (list mat) :=
    do Ap <- make_ap A ;
    do T <- tables fuel al Ap ;
    if no_eps A then outer_loop_r W A T MDollar fuel c 0 [] [] else Ok [].
  Definition monaa_plain_r (fuel : nat) (al : alloc) (W : cont) (A : ta) (c : ctype W) : outcome (list mat) :=
    do T <- tables fuel al A ;
    outer_loop_r W A T MSignal fuel c 0 [] [].
  Definition monaaNotNecessaryDollar_r (fuel : nat) (al : alloc) (W : cont) (A : ta) (c : ctype W) : outcome (list mat) :=
    do T <- tables fuel al (make_ap_lax A) ;
    if no_eps A then outer_loop_r W A T MOptional fuel c 0 [] [] else Ok [].
End Rnd.
