(* Model of renameToEpsilonTransitions (monaa/tre.cc:436-482) with the static map
   [output], which keeps its contents from one call to the next.  (Inserting the
   key 0 while iterating over the map of a state invalidates the iterators if
   the map rehashes; the model assumes that it does not.) *)
From Coq Require Import QArith Bool List ZArith Arith.
From Verif Require Import Num Outcome Constraint Zone TA Tre Signal.
Import ListNotations.
Open Scope nat_scope.

(* static std::unordered_map<const TAState *, Alphabet> output,
   monaa/tre.cc:439; output[s] is 0 for a new key. *)
Definition omap : Type := ptr -> nat.
Definition oset (out : omap) (q : ptr) (c : nat) : omap := fun p => if p =? q then c else out p.

(* toAccepting and the number of states allocated so far. *)
Record rstate : Type := mkR { r_out : omap; r_acc : list (ptr * ptr); r_n : nat }.

(* haveToChangeToEpsilon, monaa/tre.cc:438-449.  The keys of [next] other than 0
   do not change during the call, and the states made during the call have
   none. *)
Definition have_to_change (A : ta) (st : rstate) (q : ptr) (c : nat) : bool * rstate :=
  if c =? 0 then (false, st)
  else if has_key A q c then (true, mkR (oset (r_out st) q c) (r_acc st) (r_n st))
  else (r_out st q =? c, st).

(* target->isMatch. *)
Definition match_now (A : ta) (st : rstate) (q : ptr) : bool := match_at A q || existsb (fun x => snd x =? q) (r_acc st).

(* toAccepting[target], monaa/tre.cc:459-463. *)
Fixpoint find_acc (q : ptr) (l : list (ptr * ptr)) : option ptr :=
  match l with [] => None | (k, p) :: t => if k =? q then Some p else find_acc q t end.
Definition to_accepting (al : nat -> ptr) (st : rstate) (q : ptr) : ptr * rstate :=
  match find_acc q (r_acc st) with
  | Some p => (p, st)
  | None => (al (r_n st), mkR (r_out st) (r_acc st ++ [(q, al (r_n st))]) (S (r_n st)))
  end.

(* The body of the innermost loop for one transition, monaa/tre.cc:454-473: what
   stays, and what is pushed to next[0].  A transition that is redirected to a
   new accepting state is looked at again (the iterator is not advanced); fuel
   for that. *)
Fixpoint rn_edge (fuel : nat) (al : nat -> ptr) (A : ta) (st : rstate) (c : nat) (e : edge) : outcome (list edge * list edge * rstate) :=
  match fuel with
  | O => OutOfFuel
  | S f =>
      match etgt e with
      | None => Ok ([], [], st)
      | Some q =>
          let (b, st1) := have_to_change A st q c in
          if b then
            if match_now A st1 q then
              let (q', st2) := to_accepting al st1 q in
              do r <- rn_edge f al A st2 c (mkE (Some q') (eresets e) (eguard e)) ;
              Ok (fst (fst r), e :: snd (fst r), snd r)
            else Ok ([], [e], st1)
          else Ok ([e], [], st1)
      end
  end.
Fixpoint rn_edges (fuel : nat) (al : nat -> ptr) (A : ta) (st : rstate) (c : nat) (es : list edge) : outcome (list edge * list edge * rstate) :=
  match es with
  | [] => Ok ([], [], st)
  | e :: t =>
      do r <- rn_edge fuel al A st c e ;
      do r2 <- rn_edges fuel al A (snd r) c t ;
      Ok (fst (fst r) ++ fst (fst r2), snd (fst r) ++ snd (fst r2), snd r2)
  end.
(* The loop over the keys of one state, monaa/tre.cc:451-475. *)
Fixpoint rn_keys (fuel : nat) (al : nat -> ptr) (A : ta) (st : rstate) (nx : list (nat * list edge))
    : outcome (list (nat * list edge) * list edge * rstate) :=
  match nx with
  | [] => Ok ([], [], st)
  | (c, es) :: t =>
      do r <- rn_edges fuel al A st c es ;
      do r2 <- rn_keys fuel al A (snd r) t ;
      Ok ((c, fst (fst r)) :: fst (fst r2), snd (fst r) ++ snd (fst r2), snd r2)
  end.
Fixpoint rn_states (fuel : nat) (al : nat -> ptr) (A : ta) (st : rstate) (l : list (ptr * tastate)) : outcome (list (ptr * tastate) * rstate) :=
  match l with
  | [] => Ok ([], st)
  | (p, s) :: t =>
      do r <- rn_keys fuel al A st (next s) ;
      do r2 <- rn_states fuel al A (snd r) t ;
      Ok ((p, mkS (isMatch s) (zeroDur s) (match snd (fst r) with [] => fst (fst r) | eps => key_push 0 eps (fst (fst r)) end)) :: fst r2, snd r2)
  end.

(* renameToEpsilonTransitions: the automaton, the number of addresses used and
   the map left behind. *)
Definition renameStatic (fuel : nat) (al : nat -> ptr) (out : omap) (A : ta) (n : nat) : outcome (ta * nat * omap) :=
  do r <- rn_states fuel al A (mkR out [] n) (states A) ;
  let gone := map fst (r_acc (snd r)) in
  Ok (mkTA (map (fun ps => (fst ps, if mem (fst ps) gone then mkS false (zeroDur (snd ps)) (next (snd ps)) else snd ps)) (fst r)
            ++ map (fun x => (snd x, mkS (negb (mem (snd x) gone)) false [])) (r_acc (snd r)))
           (inits A) (maxC A), r_n (snd r), r_out (snd r)).

(* toSignalTA, monaa/tre.cc:484-491, as part of a process. *)
Definition toSignalStatic (sepA sepD : heap -> nat -> outcome heap) (fuel : nat) (al : nat -> ptr) (out : omap) (r : tre) (n : nat)
    : outcome (ta * nat * omap) :=
  do X <- dnf_of r (mkH [] [] []) ;
  let (d, H) := newD (snd X) (fst X) in
  do H1 <- nfD sepA sepD fuel H d ;
  do Y <- taD fuel al H1 d n ;
  renameStatic fuel al out (fst Y) (snd Y).
