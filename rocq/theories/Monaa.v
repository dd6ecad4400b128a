(* Model of the timed FJS algorithm, libmonaa/monaa.hh: the matching loops of
   monaaDollar (702-1158), of monaa without unobservable transitions (151-468)
   and of monaaNotNecessaryDollar (1169-1661).  The three texts are the same up
   to the differences recorded in [mode]. *)
From Coq Require Import QArith Bool List ZArith Arith.
From Verif Require Import Num Outcome Constraint Zone TA Word ZA.
Import ListNotations.
Open Scope nat_scope.

(* monaaDollar, monaa, monaaNotNecessaryDollar. *)
Inductive mode : Type := MDollar | MSignal | MOptional.

(* isValidConstraint, libmonaa/monaa.hh:100-103. *)
Definition isValidConstraint (up lo : bound) : bool := bgeb (badd up lo) bzero.

(* struct IntervalInternalState, libmonaa/monaa.hh:85-97.  Times are finite. *)
Record iconf : Type := mkI { ist : ptr; irst : list Q; iup : bound; ilo : bound }.

(* if (resetTime[x]): a double is true unless it is zero. *)
Definition is_reset (rst : list Q) (x : nat) : bool := negb (Qeq_bool (qnth rst x) 0).

Definition bnd (q : Q) (b : bool) : bound := (Fin q, b).
Definition is_le (o : cmp) : bool := match o with Le => true | _ => false end.
Definition is_ge (o : cmp) : bool := match o with Ge => true | _ => false end.

(* upper/lower Begin, End and Delta constraints, libmonaa/monaa.hh:864-877. *)
Record six : Type := mk6 { ub : bound; lb : bound; ue : bound; le6 : bound; ud : bound; ld : bound }.

(* One constraint of the guard of an accepting edge,
   libmonaa/monaa.hh:881-945 and 1059-1123. *)
Definition acc_guard1 (rst : list Q) (b : six) (g : constr) : six :=
  let c := inject_Z (cc g) in
  let r := qnth rst (cx g) in
  if is_reset rst (cx g) then
    match codr g with
    | Lt | Le =>
        let ue' := bmin (ue b) (bnd (c + r) (is_le (codr g))) in
        let ud' := bmin (ud b) (badd ue' (lb b)) in
        let ub' := bmin (ub b) (badd (ld b) ue') in
        mk6 ub' (lb b) ue' (le6 b) ud' (ld b)
    | Gt | Ge =>
        let le' := bmin (le6 b) (bnd (- c - r) (is_ge (codr g))) in
        let ld' := bmin (ld b) (badd (ub b) le') in
        let lb' := bmin (lb b) (badd le' (ud b)) in
        mk6 (ub b) lb' (ue b) le' (ud b) ld'
    end
  else
    match codr g with
    | Lt | Le =>
        let ud' := bmin (ud b) (bnd c (is_le (codr g))) in
        let ue' := bmin (ue b) (badd ud' (ub b)) in
        let lb' := bmin (lb b) (badd (le6 b) ud') in
        mk6 (ub b) lb' ue' (le6 b) ud' (ld b)
    | Gt | Ge =>
        let ld' := bmin (ld b) (bnd (- c) (is_ge (codr g))) in
        let ub' := bmin (ub b) (badd ld' (ue b)) in
        let le' := bmin (le6 b) (badd (lb b) ld') in
        mk6 ub' (lb b) (ue b) le' (ud b) ld'
    end.

(* The zone that is reported, libmonaa/monaa.hh:957-963: Zone::zero(3) with six
   entries overwritten. *)
Definition ans_zone (b : six) : mat :=
  [ [bzero; lb b; le6 b]; [ub b; bzero; ld b]; [ue b; ud b; bzero] ].

Definition six_init (cfg : iconf) (upEnd loEnd : bound) : six :=
  mk6 (iup cfg) (ilo cfg) upEnd loEnd (badd upEnd (ilo cfg)) (bmin (badd loEnd (iup cfg)) bzero).

(* One accepting edge, libmonaa/monaa.hh:864-965 and 1042-1143. *)
Definition acc_edge (cfg : iconf) (upEnd loEnd : bound) (e : edge) : option mat :=
  let b := fold_left (acc_guard1 (irst cfg)) (eguard e) (six_init cfg upEnd loEnd) in
  if isValidConstraint (ub b) (lb b) && isValidConstraint (ue b) (le6 b) && isValidConstraint (ud b) (ld b)
  then Some (ans_zone b) else None.

(* The guard of a usual transition, libmonaa/monaa.hh:984-1009. *)
Fixpoint step_guard (rst : list Q) (t : Q) (gs : list constr) (up lo : bound) : option (bound * bound) :=
  match gs with
  | [] => Some (up, lo)
  | g :: gs' =>
      let c := inject_Z (cc g) in
      if is_reset rst (cx g) then
        if satisfy g (t - qnth rst (cx g)) then step_guard rst t gs' up lo else None
      else
        match codr g with
        | Lt | Le => step_guard rst t gs' up (bmin lo (bnd (c - t) (is_le (codr g))))
        | Gt | Ge => step_guard rst t gs' (bmin up (bnd (t - c) (is_ge (codr g)))) lo
        end
  end.

(* One usual transition, libmonaa/monaa.hh:974-1026. *)
Definition step_edge (cfg : iconf) (t : Q) (e : edge) : option iconf :=
  match etgt e with
  | None => None
  | Some q =>
      match step_guard (irst cfg) t (eguard e) (iup cfg) (ilo cfg) with
      | None => None
      | Some (up, lo) =>
          if isValidConstraint up lo
          then Some (mkI q (fold_left (fun r x => set_nth r x t) (eresets e) (irst cfg)) up lo)
          else None
      end
  end.

Definition opt_list {X} (o : option X) : list X := match o with Some x => [x] | None => [] end.

(* libmonaa/monaa.hh:966-1027. *)
Definition step_confs (A : ta) (c : nat) (t : Q) (cs : list iconf) : list iconf :=
  flat_map (fun cfg => flat_map (fun e => opt_list (step_edge cfg t e)) (edges_at A (ist cfg) c)) cs.

(* The zone reported by monaaNotNecessaryDollar when an event leads to an
   accepting state, libmonaa/monaa.hh:1489-1523.  lowerEndConstraint is
   {t, true}. *)
Definition hit_zone (cfg : iconf) (t : Q) : option mat :=
  let b := mk6 (iup cfg) (ilo cfg) (bnd t true) (bnd t true)
               (badd (bnd t true) (ilo cfg)) (bmin (badd (bnd t true) (iup cfg)) bzero) in
  if isValidConstraint (ub b) (lb b) && isValidConstraint (ue b) (le6 b) && isValidConstraint (ud b) (ld b)
  then Some (ans_zone b) else None.

(* An edge into an accepting state whose zone is not valid is left by
   [continue]: the configuration is not added, libmonaa/monaa.hh:1505-1511. *)
Definition opt_edge (A : ta) (cfg : iconf) (t : Q) (e : edge) : option (iconf * option mat) :=
  match step_edge cfg t e with
  | None => None
  | Some cfg' =>
      if match_at A (ist cfg') then
        match hit_zone cfg' t with Some z => Some (cfg', Some z) | None => None end
      else Some (cfg', None)
  end.

Definition opt_edges (A : ta) (c : nat) (t : Q) (cs : list iconf) : list (iconf * option mat) :=
  flat_map (fun cfg => flat_map (fun e => opt_list (opt_edge A cfg t e)) (edges_at A (ist cfg) c)) cs.

(* The configurations after an event and the zones reported for it. *)
Definition event_confs (M : mode) (A : ta) (c : nat) (t : Q) (cs : list iconf) : list iconf :=
  match M with MOptional => map fst (opt_edges A c t cs) | _ => step_confs A c t cs end.
Definition event_zones (M : mode) (A : ta) (c : nat) (t : Q) (cs : list iconf) : list mat :=
  match M with MOptional => flat_map (fun x => opt_list (snd x)) (opt_edges A c t cs) | _ => [] end.

(* The label of the accepting edges tried before the event (c, t):
   libmonaa/monaa.hh:854, 275 and 1322. *)
Definition acc_letter (M : mode) (c : nat) : nat := match M with MSignal => c | _ => dollar end.

(* The skip values: getM, operator[] of SundaySkipValue ([None]: the index is
   outside of the array), the set endChars, and operator[] of KMPSkipValue
   composed with ptrConv.at ([None]: std::out_of_range). *)
Record skips : Type := mkSk { sk_m : nat; sk_delta : nat -> option nat; sk_end : list nat; sk_beta : ptr -> option nat }.

Section Run.
  Variable W : cont.
  Variable A : ta.
  Variable T : skips.
  Variable M : mode.

  (* lowerEndConstraint, libmonaa/monaa.hh:867-868 and 1045-1046. *)
  Definition low_end (c : ctype W) (j : nat) : outcome bound :=
    if 0 <? j then do e <- cat W c (j - 1) ; Ok (bnd (- snd e) false) else Ok bzero.

  (* The accepting edges of the configurations, libmonaa/monaa.hh:851-967
     ([fin] = false) and 1029-1145 ([fin] = true).  A null target or one that is
     not accepting is skipped; [l] is the label of the edges.  In monaa:
     libmonaa/monaa.hh:271-391; in monaaNotNecessaryDollar: 1318-1436 and
     1533-1651. *)
  Definition acc_confs (fin : bool) (l : nat) (c : ctype W) (j : nat) (cs : list iconf) (ans : list mat) : outcome (list mat) :=
    fold_out (fun cfg ans =>
      fold_out (fun e ans =>
        if match etgt e with Some q => match_at A q | None => false end then
          do up <- (if fin then Ok (PInf, true) else do e <- cat W c j ; Ok (bnd (snd e) true)) ;
          do lo <- low_end c j ;
          Ok (ans ++ opt_list (acc_edge cfg up lo e))
        else Ok ans) (edges_at A (ist cfg) l) ans) cs ans.

  (* The matching loop, libmonaa/monaa.hh:845-1027.  The result: container, j,
     CStates, LastStates, ans.  A moved-from vector is empty.  Fuel: one unit
     per event read. *)
  Fixpoint match_loop (fuel : nat) (c : ctype W) (j : nat) (cs ls : list iconf) (ans : list mat)
      : outcome (ctype W * nat * list iconf * list iconf * list mat) :=
    match cs with
    | [] => Ok (c, j, cs, ls, ans)
    | _ =>
        let (b, c) := cfetch W c j in
        if b then
          match fuel with
          | O => OutOfFuel
          | S f =>
              do e <- cat W c j ;
              do ans' <- acc_confs false (acc_letter M (fst e)) c j cs ans ;
              match_loop f c (S j) (event_confs M A (fst e) (snd e) cs) cs (ans' ++ event_zones M A (fst e) (snd e) cs)
          end
        else Ok (c, j, cs, ls, ans)
    end.

  (* The Sunday shift, libmonaa/monaa.hh:808-824.  [Ok (c, None)]: tooLarge.
     Fuel: one unit per shift. *)
  Fixpoint sunday_loop (fuel : nat) (c : ctype W) (i : nat) : outcome (ctype W * option nat) :=
    do e <- cat W c (i + sk_m T - 1) ;
    if mem (fst e) (sk_end T) then Ok (c, Some i)
    else
      let (b, c) := cfetch W c (i + sk_m T) in
      if b then
        do e <- cat W c (i + sk_m T) ;
        match sk_delta T (fst e) with
        | None => UB
        | Some d =>
            match fuel with
            | O => OutOfFuel
            | S f =>
                do c <- csetFront W c (i + d - 1) ;
                let (b, c) := cfetch W c (i + d + sk_m T - 1) in
                if b then sunday_loop f c (i + d) else Ok (c, None)
            end
        end
      else Ok (c, None).

  Definition sunday_shift (fuel : nat) (c : ctype W) (i : nat) : outcome (ctype W * option nat) :=
    if 1 <? sk_m T then
      let (b, c) := cfetch W c (i + sk_m T - 1) in
      if b then sunday_loop fuel c i else Ok (c, Some i)
    else Ok (c, Some i).

  (* The initial configurations, libmonaa/monaa.hh:829-842. *)
  Definition start_confs (c : ctype W) (i : nat) : outcome (list iconf) :=
    do e <- cat W c i ;
    do lo <- (if 0 <? i then do e <- cat W c (i - 1) ; Ok (bnd (- snd e) true) else Ok bzero) ;
    Ok (map (fun p => mkI p (repeat 0%Q (clockSize A)) (bnd (snd e) false) lo) (inits A)).

  (* The KMP-type skip value, libmonaa/monaa.hh:1147-1151. *)
  Definition greatest (ls : list iconf) : outcome nat :=
    fold_out (fun cfg n => match sk_beta T (ist cfg) with
                           | Some k => Ok (if k <? n then n else k)
                           | None => Throw
                           end) ls 1.

  (* The outer loop, libmonaa/monaa.hh:776-1155 (monaa: 204-459, where nothing is
     tried at the end of the word).  Fuel: one unit per turn (also given to the
     inner loops). *)
  Fixpoint outer_loop (fuel : nat) (c : ctype W) (i : nat) (ls : list iconf) (ans : list mat) : outcome (list mat) :=
    let (b, c) := cfetch W c (i + sk_m T - 1) in
    if b then
      match fuel with
      | O => OutOfFuel
      | S f =>
          do ci <- sunday_shift fuel c i ;
          match snd ci with
          | None => Ok ans
          | Some i =>
              let (b, c) := cfetch W (fst ci) i in
              if b then
                do cs <- start_confs c i ;
                do r <- match_loop fuel c i cs ls ans ;
                let '(c, j, cs, ls, ans) := r in
                let (b, c) := cfetch W c j in
                do la <- (if b then Ok (ls, ans)
                          else match M with
                               | MSignal => Ok (cs, ans)
                               | _ => do ans' <- acc_confs true dollar c j cs ans ; Ok (cs, ans')
                               end) ;
                do n <- greatest (fst la) ;
                do c <- csetFront W c (i + n - 1) ;
                outer_loop f c (i + n) (fst la) (snd la)
              else Ok ans
          end
      end
    else Ok ans.
End Run.
