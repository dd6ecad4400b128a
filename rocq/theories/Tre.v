(* Model of monaa/tre.hh and monaa/tre.cc: timed regular expressions and their
   translation to timed automata in event mode. *)
From Coq Require Import QArith Bool List ZArith Arith.
From Verif Require Import Num Outcome Interval Constraint Zone TA Intersection.
Import ListNotations.
Open Scope nat_scope.

(* class TRE, monaa/tre.hh:14-60. *)
Inductive tre : Type :=
| Atom : nat -> tre
| Eps : tre
| Plus : tre -> tre
| Cat : tre -> tre -> tre
| Alt : tre -> tre -> tre
| And : tre -> tre -> tre
| Within : tre -> interval -> tre.

(* The constructor for Kleene plus, monaa/tre.hh:35-40: two pluses are one. *)
Definition mkPlus (r : tre) : tre := match r with Plus r' => Plus r' | _ => Plus r end.

(* expr STAR, monaa/tre_parser.yy:68-70. *)
Definition mkStar (r : tre) : tre := Alt Eps (mkPlus r).

(* std::iota on a vector of uint8_t, monaa/tre.cc:44-45; also the clocks pushed
   one by one in monaa/tre.cc:240-242. *)
Definition iota (n : nat) : list nat := map (fun x => x mod 256) (seq 0 n).

(* target && target->isMatch; target->zeroDuration. *)
Definition acc_tgt (A : ta) (e : edge) : bool :=
  match etgt e with Some q => match_at A q | None => false end.
Definition zero_at (A : ta) (p : ptr) : bool :=
  match deref A p with Some s => zeroDur s | None => false end.
Definition zero_tgt (A : ta) (e : edge) : bool :=
  match etgt e with Some q => zero_at A q | None => false end.

Definition is_nil {X} (l : list X) : bool := match l with [] => true | _ => false end.

(* Replacing the transitions of every key of [next]. *)
Definition map_next (g : list edge -> list edge) (nx : list (nat * list edge)) : list (nat * list edge) :=
  map (fun ce => (fst ce, g (snd ce))) nx.

(* maxConstraints of a disjunction or a concatenation, monaa/tre.cc:87-96 and
   271-280. *)
Definition resize (n : nat) (l : list Z) : list Z := firstn n l ++ repeat 0%Z (n - length l).
Definition max_merge (l r : list Z) : list Z :=
  let n := Nat.max (length l) (length r) in zip_with Z.max (resize n l) (resize n r).

(* concat2, monaa/tre.cc:41-97. *)
Definition cat_edges (L R : ta) (es : list edge) : list edge :=
  es ++ flat_map (fun e =>
          if acc_tgt L e then map (fun i => mkE (Some i) (iota (clockSize R)) (eguard e)) (inits R) else []) es.

Definition cat_jumps (L : ta) : bool :=
  existsb (fun ps => existsb (fun ce => existsb (acc_tgt L) (snd ce)) (next (snd ps))) (states L).

(* transition.target->zeroDuration = false, monaa/tre.cc:59. *)
Definition cat_right (L R : ta) : list (ptr * tastate) :=
  if cat_jumps L
  then map (fun ps => (fst ps, if mem (fst ps) (inits R) then mkS (isMatch (snd ps)) false (next (snd ps)) else snd ps)) (states R)
  else states R.

Definition concat2 (L R : ta) : ta :=
  mkTA (map (fun ps => (fst ps, mkS false (zeroDur (snd ps)) (map_next (cat_edges L R) (next (snd ps))))) (states L)
        ++ cat_right L R)
       (inits L ++ (if existsb (match_at L) (inits L) then inits R else []))
       (max_merge (maxC L) (maxC R)).

(* removeStuckStates, monaa/tre.cc:99-136.  Binary search in the sorted vector
   is membership. *)
Definition stuck (A : ta) : list ptr :=
  map fst (filter (fun ps => negb (isMatch (snd ps)) && is_nil (next (snd ps))) (states A)).
Definition tgt_in (l : list ptr) (e : edge) : bool := match etgt e with Some q => mem q l | None => false end.

Definition removeStuckStates (A : ta) : ta :=
  let st := stuck A in
  mkTA (filter (fun ps => negb (mem (fst ps) st))
         (map (fun ps => (fst ps, mkS (isMatch (snd ps)) (zeroDur (snd ps))
                (filter (fun ce => negb (is_nil (snd ce)))
                   (map_next (filter (fun e => negb (tgt_in st e))) (next (snd ps)))))) (states A)))
       (filter (fun p => negb (mem p st)) (inits A))
       (maxC A).

(* reduceStates, monaa/tre.cc:187-196.  Fuel: one unit per turn. *)
Fixpoint reduce_loop (fuel : nat) (A : ta) : outcome ta :=
  match fuel with
  | O => OutOfFuel
  | S f =>
      let A' := removeStuckStates A in
      if length (states A) =? length (states A') then Ok A' else reduce_loop f A'
  end.
Definition reduceStates (A : ta) : outcome ta := reduce_loop (S (length (states A))) A.

(* case op::plus, monaa/tre.cc:224-252. *)
Definition plus_edges (A : ta) (es : list edge) : list edge :=
  es ++ flat_map (fun e =>
          if acc_tgt A e && negb (zero_tgt A e)
          then map (fun i => mkE (Some i) (eresets e ++ iota (clockSize A)) (eguard e))
                   (filter (fun i => negb (zero_at A i)) (inits A))
          else []) es.
Definition plusTA (A : ta) : ta :=
  mkTA (map (fun ps => (fst ps, mkS (isMatch (snd ps)) (zeroDur (snd ps)) (map_next (plus_edges A) (next (snd ps))))) (states A))
       (inits A) (maxC A).

(* case op::disjunction, monaa/tre.cc:261-281. *)
Definition altTA (A B : ta) : ta :=
  mkTA (states A ++ states B) (inits A ++ inits B) (max_merge (maxC A) (maxC B)).

(* case op::within, monaa/tre.cc:293-376.  The clock is an uint8_t.  When the
   target of an edge into an accepting state has itself transitions, the code
   appends to the vector it iterates over, which invalidates the iterators of
   the loop: undefined (C42_no_ub: this does not happen). *)
Definition within_guard (x : nat) (Iv : interval) (lo up : Z) : list constr :=
  [mkC x (if snd (upb Iv) then Le else Lt) up; mkC x (if snd (lob Iv) then Ge else Gt) lo].

Fixpoint oseq {X Y} (f : X -> outcome Y) (l : list X) : outcome (list Y) :=
  match l with
  | [] => Ok []
  | x :: t => do y <- f x ; do t' <- oseq f t ; Ok (y :: t')
  end.

Definition within_edge (A : ta) (gs : list constr) (e : edge) : outcome edge :=
  if acc_tgt A e then
    match etgt e with
    | Some q => match deref A q with
                | Some s => if is_nil (next s) then Ok (mkE (etgt e) (eresets e) (eguard e ++ gs)) else UB
                | None => UB
                end
    | None => UB
    end
  else Ok e.

(* The bounds are doubles that are converted to int.  (The lower bound is only
   converted when there is an edge into an accepting state; the model converts
   it always.  Lower bounds are finite in every expression of the parser.) *)
Definition withinTA (A : ta) (Iv : interval) : outcome ta :=
  match num_to_int (fst (upb Iv)), num_to_int (fst (lob Iv)) with
  | Some up, Some lo =>
      let gs := within_guard (clockSize A mod 256) Iv lo up in
      do sts <- oseq (fun ps =>
             do nx <- oseq (fun ce => do es <- oseq (within_edge A gs) (snd ce) ; Ok (fst ce, es)) (next (snd ps)) ;
             Ok (fst ps, mkS (if is_nil (next (snd ps)) then isMatch (snd ps) else false) false nx)) (states A) ;
      Ok (mkTA sts (filter (fun p => negb (zero_at A p)) (inits A)) (maxC A ++ [up]))
  | _, _ => UB
  end.

(* std::sort on pointers. *)
Fixpoint pinsert (x : nat) (l : list nat) : list nat :=
  match l with
  | [] => [x]
  | y :: t => if y <? x then y :: pinsert x t else x :: l
  end.
Definition psort (l : list nat) : list nat := fold_right pinsert [] l.

(* Merging the accepting states without transitions, monaa/tre.cc:379-431. *)
Definition terminals (A : ta) : list ptr :=
  psort (map fst (filter (fun ps => isMatch (snd ps) && is_nil (next (snd ps))) (states A))).

Definition redirect (ts : list ptr) (f : ptr) (e : edge) : edge :=
  if tgt_in ts e then mkE (Some f) (eresets e) (eguard e) else e.

Definition merge (A : ta) : ta :=
  match terminals A with
  | [] => A
  | f :: rest =>
      let st := map (fun ps => (fst ps, mkS (isMatch (snd ps)) (zeroDur (snd ps))
                       (map_next (map (redirect (f :: rest) f)) (next (snd ps))))) (states A) in
      match rest with
      | [] => mkTA st (inits A) (maxC A)
      | _ =>
          let is := psort (inits A) in
          let is' := if negb (mem f is) && existsb (fun p => mem p rest) is then is ++ [f] else is in
          mkTA (filter (fun ps => negb (mem (fst ps) rest)) st) (filter (fun p => negb (mem p rest)) is') (maxC A)
      end
  end.

(* Position of a key. *)
Fixpoint pos (p : nat) (l : list nat) : nat :=
  match l with
  | [] => O
  | q :: t => if p =? q then O else S (pos p t)
  end.

(* TRE::toEventTA, monaa/tre.cc:198-433, into an empty automaton.  [al k] is the
   address of the k-th allocated state; the result comes with the number of
   allocations.  (The model never uses an address twice; the code may reuse the
   addresses of states that were released.) *)
Fixpoint toEventTA (al : nat -> ptr) (r : tre) (n : nat) : outcome (ta * nat) :=
  do X <- match r with
          | Atom c => Ok (mkTA [(al n, mkS false false [(c, [mkE (Some (al (S n))) [] []])]); (al (S n), mkS true false [])]
                               [al n] [], S (S n))
          | Eps => Ok (mkTA [(al n, mkS true true [])] [al n] [], S n)
          | Plus r1 => do X <- toEventTA al r1 n ; Ok (plusTA (fst X), snd X)
          | Cat r1 r2 =>
              do X <- toEventTA al r1 n ; do Y <- toEventTA al r2 (snd X) ; Ok (concat2 (fst X) (fst Y), snd Y)
          | Alt r1 r2 =>
              do X <- toEventTA al r1 n ; do Y <- toEventTA al r2 (snd X) ; Ok (altTA (fst X) (fst Y), snd Y)
          | And r1 r2 =>
              do X <- toEventTA al r1 n ; do Y <- toEventTA al r2 (snd X) ;
              let k1 := map fst (states (fst X)) in
              let k2 := map fst (states (fst Y)) in
              Ok (intersectionTA (fst X) (fst Y) (fun p q => al (snd Y + (pos p k1 * length k2 + pos q k2))),
                  snd Y + length k1 * length k2)
          | Within r1 Iv => do X <- toEventTA al r1 n ; do B <- withinTA (fst X) Iv ; Ok (B, S (snd X))
          end ;
  do B <- reduceStates (merge (fst X)) ;
  Ok (B, snd X).

(* ---------------- specification ---------------- *)

(* A timed word given by the time that passes before each event. *)
Definition dword : Type := list (nat * Q).

Fixpoint delays (T : Q) (w : tword) : dword :=
  match w with
  | [] => []
  | (c, t) :: w' => (c, t - T)%Q :: delays t w'
  end.

Definition duration (u : dword) : Q := qsum (map snd u).

(* The timed language of an expression. *)
Fixpoint tre_lang (r : tre) (u : dword) : Prop :=
  match r with
  | Atom c => exists d, u = [(c, d)]
  | Eps => u = []
  | Plus r1 => exists us, us <> [] /\ Forall (tre_lang r1) us /\ u = concat us
  | Cat r1 r2 => exists u1 u2, u = u1 ++ u2 /\ tre_lang r1 u1 /\ tre_lang r2 u2
  | Alt r1 r2 => tre_lang r1 u \/ tre_lang r2 u
  | And r1 r2 => tre_lang r1 u /\ tre_lang r2 u
  | Within r1 Iv => tre_lang r1 u /\ iin Iv (duration u)
  end.
