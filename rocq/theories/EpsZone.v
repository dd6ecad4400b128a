(* Model of libmonaa/intermediate_zone.hh and of the branch of monaa that is
   taken when the pattern has unobservable transitions, libmonaa/monaa.hh:469-690. *)
From Coq Require Import QArith Bool List ZArith Arith.
From Verif Require Import Num Outcome Constraint Zone TA Word ZA Monaa Skip.
Import ListNotations.
Open Scope nat_scope.

(* class IntermediateZone, libmonaa/intermediate_zone.hh:9-21.  With useInterval:
   the cells (lowerBound, upperBound) of [intervals] and newestClock.  Without:
   the matrix, isAllocated and newestClock.  Clocks are natural numbers here and
   uint8_t in the code. *)
Inductive izone : Type :=
| IvZone : list (bound * bound) -> nat -> izone
| MatZone : mat -> list bool -> nat -> izone.

Definition initialClock : nat := 1.

Definition newestClock (z : izone) : nat := match z with IvZone _ k => k | MatZone _ _ k => k end.

(* The constructor from an interval, libmonaa/intermediate_zone.hh:26-31. *)
Definition iz_init (lo up : bound) : izone := IvZone [((nopp (fst lo), snd lo), up)] initialClock.

(* std::find(isAllocated.begin(), isAllocated.end(), false). *)
Fixpoint first_free (l : list bool) : option nat :=
  match l with
  | [] => None
  | b :: t => if b then option_map S (first_free t) else Some 0
  end.

(* conservativeResize and the fills, libmonaa/intermediate_zone.hh:109-121. *)
Definition grow (m : mat) : mat := map (fun r => r ++ [binf]) m ++ [repeat binf (length m) ++ [bzero]].

(* (value.row(i) + value.col(k).transpose()).minCoeff(),
   libmonaa/intermediate_zone.hh:141. *)
Definition min_via (m : mat) (i k : nat) : bound :=
  match map (fun x => badd (mget m i x) (mget m x k)) (seq 0 (length m)) with
  | [] => bzero
  | c :: t => fold_left bmin t c
  end.

(* The two loops at the end of alloc, libmonaa/intermediate_zone.hh:134-148. *)
Definition close_col (k : nat) (m : mat) (i : nat) : mat := mset m i k (bmin (mget m i k) (min_via m i k)).
Definition close_line (k : nat) (m : mat) (xj : nat * nat) : mat :=
  mset m k (snd xj) (bmin (mget m k (snd xj)) (badd (mget m k (fst xj)) (mget m (fst xj) (snd xj)))).
Definition alloc_close (k : nat) (m : mat) : mat :=
  let n := length m in
  fold_left (close_line k) (list_prod (seq 0 n) (seq 0 n)) (fold_left (close_col k) (seq 0 n) m).

(* The matrix made of three intervals and a new clock,
   libmonaa/intermediate_zone.hh:83-102. *)
Definition iv_matrix (i0 i1 i2 : bound * bound) (up lo : bound) : mat :=
  [ [bzero; fst i0; fst i1; lo];
    [snd i0; bzero; fst i2; binf];
    [snd i1; snd i2; bzero; bzero];
    [up; binf; binf; bzero] ].

(* IntermediateZone::alloc, libmonaa/intermediate_zone.hh:62-150.  Only one or
   three intervals occur. *)
Definition iz_alloc (up lo : bound) (z : izone) : outcome izone :=
  match z with
  | IvZone [i0] _ => Ok (IvZone [i0; (lo, up); (bmin (badd (snd i0) lo) bzero, badd up (fst i0))] 2)
  | IvZone [i0; i1; i2] _ => Ok (MatZone (alloc_close 3 (iv_matrix i0 i1 i2 up lo)) (repeat true 4) 3)
  | IvZone _ _ => UB
  | MatZone m al p =>
      let '(m, al, k) := match first_free al with
                         | Some k => (m, al, k)
                         | None => (grow m, al ++ [false], length m)
                         end in
      let m := mset (mset (mset (mset m k 0 up) 0 k lo) k p binf) p k bzero in
      Ok (MatZone (alloc_close k m) (set_nth al k true) k)
  end.

(* IntermediateZone::tighten(x, y, c) in interval mode,
   libmonaa/intermediate_zone.hh:205-260.  intervals[1] and intervals[2] do not
   exist when there is one interval. *)
Definition iv_tighten (x y : nat) (c : bound) (ivs : list (bound * bound)) : outcome (list (bound * bound)) :=
  match ivs with
  | [(l0, u0)] =>
      match x, y with
      | 0, 1 => Ok [(bmin l0 c, u0)]
      | 1, 0 => Ok [(l0, bmin u0 c)]
      | 0, 2 | 2, 0 | 1, 2 | 2, 1 => UB
      | _, _ => Ok ivs
      end
  | [(l0, u0); (l1, u1); (l2, u2)] =>
      match x, y with
      | 0, 1 => let l0 := bmin l0 c in Ok [(l0, u0); (bmin l1 (badd l0 l2), u1); (l2, bmin u2 (badd u1 l0))]
      | 1, 0 => let u0 := bmin u0 c in Ok [(l0, u0); (l1, bmin u1 (badd u2 u0)); (bmin l2 (badd u0 l1), u2)]
      | 0, 2 => let l1 := bmin l1 c in Ok [(bmin l0 (badd l1 u2), u0); (l1, u1); (bmin l2 (badd l1 u0), u2)]
      | 2, 0 => let u1 := bmin u1 c in Ok [(l0, bmin u0 (badd u1 l2)); (l1, u1); (l2, bmin u2 (badd u1 l0))]
      | 1, 2 => let l2 := bmin l2 c in Ok [(l0, bmin u0 (badd u1 l2)); (bmin l1 (badd l2 l0), u1); (l2, u2)]
      | 2, 1 => let u2 := bmin u2 c in Ok [(bmin l0 (badd l1 u2), u0); (l1, bmin u1 (badd u2 u0)); (l2, u2)]
      | _, _ => Ok ivs
      end
  | _ => UB
  end.

(* The same in matrix mode, libmonaa/intermediate_zone.hh:261-269. *)
Definition mat_tighten (m : mat) (p x y : nat) (c : bound) : mat :=
  let m1 := mset m x y (bmin (mget m x y) c) in
  if beqb (mget m1 x y) c && negb (p =? initialClock) then close1 (close1 m1 x) y else m1.

Definition iz_tighten (x y : nat) (c : bound) (z : izone) : outcome izone :=
  match z with
  | IvZone ivs p => do ivs <- iv_tighten x y c ivs ; Ok (IvZone ivs p)
  | MatZone m al p =>
      if (x <? length m) && (y <? length m) then Ok (MatZone (mat_tighten m p x y c) al p) else UB
  end.

(* boost::variant<double, ClockVariables>. *)
Inductive rtime : Type := RTime (q : Q) | RClock (k : nat).

(* tighten(newestClock, guard, reset), libmonaa/intermediate_zone.hh:272-304, for
   a clock that was reset at a known time or at the time of a clock of the zone. *)
Definition iz_guard1 (g : constr) (r : rtime) (z : izone) : outcome izone :=
  let p := newestClock z in
  let c := inject_Z (cc g) in
  match r with
  | RTime t =>
      match codr g with
      | Lt => iz_tighten p 0 (bnd (c + t) false) z
      | Le => iz_tighten p 0 (bnd (c + t) true) z
      | Gt => iz_tighten 0 p (bnd (- c - t) false) z
      | Ge => iz_tighten 0 p (bnd (- c - t) true) z
      end
  | RClock k =>
      match codr g with
      | Lt => iz_tighten p k (bnd c false) z
      | Le => iz_tighten p k (bnd c true) z
      | Gt => iz_tighten k p (bnd (- c) false) z
      | Ge => iz_tighten k p (bnd (- c) true) z
      end
  end.

(* A reset time; the vector is indexed without a check. *)
Definition rget (rst : list rtime) (x : nat) : outcome rtime :=
  match nth_error rst x with Some r => Ok r | None => UB end.

(* tighten(constraints, resetTime), libmonaa/intermediate_zone.hh:306-320. *)
Definition iz_guard (gs : list constr) (rst : list rtime) (z : izone) : outcome izone :=
  fold_out (fun g z => do r <- rget rst (cx g) ; iz_guard1 g r z) gs z.

(* What makes the zone unsatisfiable, libmonaa/intermediate_zone.hh:332-341. *)
Definition iz_unsat (z : izone) : izone :=
  match z with
  | IvZone ((l0, u0) :: t) p => IvZone (((MInf, false), u0) :: t) p
  | IvZone [] p => IvZone [] p
  | MatZone m al p => MatZone (makeUnsat m) al p
  end.

(* tighten(constraints, resetTime, t), libmonaa/intermediate_zone.hh:322-358. *)
Definition iz_guard1_at (t : Q) (g : constr) (r : rtime) (z : izone) : outcome izone :=
  let c := inject_Z (cc g) in
  match r with
  | RTime q => Ok (if satisfy g (t - q) then z else iz_unsat z)
  | RClock k =>
      match codr g with
      | Lt => iz_tighten 0 k (bnd (c - t) false) z
      | Le => iz_tighten 0 k (bnd (c - t) true) z
      | Gt => iz_tighten k 0 (bnd (t - c) false) z
      | Ge => iz_tighten k 0 (bnd (t - c) true) z
      end
  end.
Definition iz_guard_at (t : Q) (gs : list constr) (rst : list rtime) (z : izone) : outcome izone :=
  fold_out (fun g z => do r <- rget rst (cx g) ; iz_guard1_at t g r z) gs z.

(* IntermediateZone::deallocate, libmonaa/intermediate_zone.hh:372-379. *)
Definition deallocate (m : mat) (x : nat) : mat :=
  mset (set_nth (map (fun r => set_nth r x binf) m) x (repeat binf (length m))) x x bzero.

(* IntermediateZone::update, libmonaa/intermediate_zone.hh:152-175. *)
Definition kept (n p : nat) (rst : list rtime) : list bool :=
  fold_left (fun a r => match r with RClock k => set_nth a k true | RTime _ => a end) rst
    (set_nth (set_nth (set_nth (repeat false n) 0 true) initialClock true) p true).
Definition iz_update (rst : list rtime) (z : izone) : outcome izone :=
  match z with
  | IvZone _ _ => Ok z
  | MatZone m _ p =>
      let n := length m in
      if forallb (fun r => match r with RClock k => k <? n | RTime _ => true end) rst
      then let a := kept n p rst in
           Ok (MatZone (fold_left (fun m x => if nth x a false then m else deallocate m x) (seq 1 (n - 1)) m) a p)
      else UB
  end.

(* IntermediateZone::isSatisfiableCanonized, libmonaa/intermediate_zone.hh:360-370. *)
Definition iz_sat (z : izone) : bool :=
  match z with
  | IvZone ivs _ => forallb (fun i => bgeb (badd (snd i) (fst i)) bzero) ivs
  | MatZone m _ _ => bgeb (min_sym m) bzero
  end.

(* IntermediateZone::toAns, libmonaa/intermediate_zone.hh:177-197. *)
Definition iz_ans (z : izone) : mat :=
  match z with
  | IvZone [i0; i1; i2] _ => ans_zone (mk6 (snd i0) (fst i0) (snd i1) (fst i1) (snd i2) (fst i2))
  | IvZone _ _ => fill 3 bzero
  | MatZone m _ p => ans_zone (mk6 (mget m 1 0) (mget m 0 1) (mget m p 0) (mget m 0 p) (mget m p 1) (mget m 1 p))
  end.

(* ---------------- monaa with unobservable transitions ---------------- *)

(* struct InternalState, libmonaa/monaa.hh:63-83. *)
Record econf : Type := mkEC { est : ptr; erst : list rtime; ez : izone }.

(* tmpResetTime[x] = r for the clocks of an edge. *)
Definition rset (r : rtime) (xs : list nat) (rst : list rtime) : outcome (list rtime) :=
  if forallb (fun x => x <? length rst) xs then Ok (fold_left (fun l x => set_nth l x r) xs rst) else UB.

Definition has_eps (A : ta) (p : ptr) : bool :=
  match deref A p with Some s => match assoc 0 (next s) with Some _ => true | None => false end | None => false end.

Section RunEps.
  Variable W : cont.
  Variable A : ta.
  Variable T : skips.
  (* [fx = false]: the code, where the clock given to resets on unobservable
     transitions is the variable newClock, which stays 0 (libmonaa/monaa.hh:597).
     [fx = true]: the variable gets the result of alloc.  Only the theorems whose
     name says so are about [true]. *)
  Variable fx : bool.
  (* The length of the static vector zeroResetTime, libmonaa/monaa.hh:78-79: the
     number of clocks of the pattern of the first call in the process. *)
  Variable nz : nat.

  (* One transition at a time up to the event j, libmonaa/monaa.hh:596-601 and
     631-635. *)
  Definition end_zone (c : ctype W) (j : nat) (cfg : econf) (e : edge) : outcome izone :=
    do u <- cat W c j ;
    do lo <- low_end W c j ;
    do z <- iz_alloc (bnd (snd u) true) lo (ez cfg) ;
    iz_guard (eguard e) (erst cfg) z.

  (* libmonaa/monaa.hh:591-611. *)
  Definition eps_edge (c : ctype W) (j : nat) (cfg : econf) (e : edge) : outcome (list econf) :=
    match etgt e with
    | None => Ok []
    | Some q =>
        do z <- end_zone c j cfg e ;
        if iz_sat z then
          do r <- rset (RClock (if fx then newestClock z else 0)) (eresets e) (erst cfg) ;
          do z <- iz_update r z ;
          Ok [mkEC q r z]
        else Ok []
    end.
  Definition eps_step (c : ctype W) (j : nat) (cs : list econf) : outcome (list econf) :=
    fold_out (fun cfg acc => fold_out (fun e acc => do l <- eps_edge c j cfg e ; Ok (acc ++ l)) (edges_at A (est cfg) 0) acc) cs [].

  (* The loop while (!CurrEpsilonConf.empty()), libmonaa/monaa.hh:582-616.  Fuel:
     one unit per turn. *)
  Fixpoint eps_rounds (fuel : nat) (c : ctype W) (j : nat) (cur cs : list econf) : outcome (list econf) :=
    match cur with
    | [] => Ok cs
    | _ =>
        match fuel with
        | O => OutOfFuel
        | S f => do nx <- eps_step c j cur ; eps_rounds f c j nx (cs ++ nx)
        end
    end.
  Definition eps_close (fuel : nat) (c : ctype W) (j : nat) (cs : list econf) : outcome (list econf) :=
    eps_rounds fuel c j (filter (fun cfg => has_eps A (est cfg)) cs) cs.

  (* libmonaa/monaa.hh:619-642. *)
  Definition eps_accept (l : nat) (c : ctype W) (j : nat) (cs : list econf) (ans : list mat) : outcome (list mat) :=
    fold_out (fun cfg ans =>
      fold_out (fun e ans =>
        if match etgt e with Some q => match_at A q | None => false end then
          do z <- end_zone c j cfg e ;
          Ok (if iz_sat z then ans ++ [iz_ans z] else ans)
        else Ok ans) (edges_at A (est cfg) l) ans) cs ans.

  (* libmonaa/monaa.hh:644-670. *)
  Definition obs_edge (t : Q) (cfg : econf) (e : edge) : outcome (list econf) :=
    match etgt e with
    | None => Ok []
    | Some q =>
        do z <- iz_guard_at t (eguard e) (erst cfg) (ez cfg) ;
        if iz_sat z then
          do r <- rset (RTime t) (eresets e) (erst cfg) ;
          do z <- iz_update r z ;
          Ok [mkEC q r z]
        else Ok []
    end.
  Definition obs_step (l : nat) (t : Q) (cs : list econf) : outcome (list econf) :=
    fold_out (fun cfg acc => fold_out (fun e acc => do k <- obs_edge t cfg e ; Ok (acc ++ k)) (edges_at A (est cfg) l) acc) cs [].

  (* The matching loop, libmonaa/monaa.hh:570-671. *)
  Fixpoint eps_match (fuel : nat) (c : ctype W) (j : nat) (cs ls : list econf) (ans : list mat)
      : outcome (ctype W * nat * list econf * list econf * list mat) :=
    match cs with
    | [] => Ok (c, j, cs, ls, ans)
    | _ =>
        let (b, c) := cfetch W c j in
        if b then
          match fuel with
          | O => OutOfFuel
          | S f =>
              do cs <- eps_close fuel c j cs ;
              do e <- cat W c j ;
              do ans <- eps_accept (fst e) c j cs ans ;
              do cs' <- obs_step (fst e) (snd e) cs ;
              eps_match f c (S j) cs' cs ans
          end
        else Ok (c, j, cs, ls, ans)
    end.

  (* The initial configurations, libmonaa/monaa.hh:555-567. *)
  Definition eps_start (c : ctype W) (i : nat) : outcome (list econf) :=
    do e <- cat W c i ;
    do lo <- (if 0 <? i then do e <- cat W c (i - 1) ; Ok (bnd (snd e) true) else Ok bzero) ;
    Ok (map (fun p => mkEC p (repeat (RClock initialClock) nz) (iz_init lo (bnd (snd e) false))) (inits A)).

  (* libmonaa/monaa.hh:675-679. *)
  Definition eps_greatest (ls : list econf) : outcome nat :=
    fold_out (fun cfg n => match sk_beta T (est cfg) with
                           | Some k => Ok (if k <? n then n else k)
                           | None => Throw
                           end) ls 1.

  (* The outer loop, libmonaa/monaa.hh:505-683. *)
  Fixpoint eps_outer (fuel : nat) (c : ctype W) (i : nat) (ls : list econf) (ans : list mat) : outcome (list mat) :=
    let (b, c) := cfetch W c (i + sk_m T - 1) in
    if b then
      match fuel with
      | O => OutOfFuel
      | S f =>
          do ci <- sunday_shift W T fuel c i ;
          match snd ci with
          | None => Ok ans
          | Some i =>
              let (b, c) := cfetch W (fst ci) i in
              if b then
                do cs <- eps_start c i ;
                do r <- eps_match fuel c i cs ls ans ;
                let '(c, j, cs, ls, ans) := r in
                let (b, c) := cfetch W c j in
                let ls := if b then ls else cs in
                do n <- eps_greatest ls ;
                do c <- csetFront W c (i + n - 1) ;
                eps_outer f c (i + n) ls ans
              else Ok ans
          end
      end
    else Ok ans.
End RunEps.

(* monaa, libmonaa/monaa.hh:151-692. *)
Definition monaa (fuel : nat) (al : alloc) (nz : nat) (W : cont) (A : ta) (c : ctype W) : outcome (list mat) :=
  do T <- tables fuel al A ;
  if no_eps A then outer_loop W A T MSignal fuel c 0 [] [] else eps_outer W A T false nz fuel c 0 [] [].
