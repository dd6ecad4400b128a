(* Model of libmonaa/intersection.cc: intersectionTA and updateInitAccepting. *)
From Coq Require Import QArith Bool List ZArith Arith.
From Verif Require Import Num Constraint Zone TA.
Import ListNotations.
Open Scope nat_scope.

(* next[c].push_back(e): appends to the vector of key c, creating it when
   absent.  (Where a new key lands in the iteration order of the unordered_map
   is unspecified; the model appends it.) *)
Fixpoint push_edge (l : list (nat * list edge)) (c : nat) (e : edge) : list (nat * list edge) :=
  match l with
  | [] => [(c, [e])]
  | (k, es) :: t => if c =? k then (k, es ++ [e]) :: t else (k, es) :: push_edge t c e
  end.

(* next[0]: inserts an empty vector when the key is absent,
   libmonaa/intersection.cc:91 and 99. *)
Definition touch0 (s : tastate) : tastate :=
  match assoc 0 (next s) with
  | Some _ => s
  | None => mkS (isMatch s) (zeroDur s) (next s ++ [(0, [])])
  end.

Definition touch (A : ta) : ta :=
  mkTA (map (fun ps => (fst ps, touch0 (snd ps))) (states A)) (inits A) (maxC A).

(* toIState[(n1,n2)].get(): the address of the product state, null when the pair
   was never created (then operator[] inserts a null entry),
   libmonaa/intersection.cc:18-28 and 58.  [fresh2] gives the addresses of the
   newly allocated states. *)
Definition toI (in1 in2 : ta) (fresh2 : ptr -> ptr -> ptr) (n1 n2 : ptr) : option ptr :=
  match deref in1 n1, deref in2 n2 with
  | Some s1, Some s2 => if Bool.eqb (zeroDur s1) (zeroDur s2) then Some (fresh2 n1 n2) else None
  | _, _ => None
  end.

(* v += in1.clockSize() on an uint8_t. *)
Definition shift_clock (n x : nat) : nat := (x + n) mod 256.
Definition shift_guard (n : nat) (g : constr) : constr := mkC (shift_clock n (cx g)) (codr g) (cc g).

Definition empty_edge : edge := mkE None [] [].

(* addProductTransition, libmonaa/intersection.cc:53-81. *)
Definition prod_edge (n : nat) (tgt : option ptr) (e1 e2 : edge) : edge :=
  mkE tgt (eresets e1 ++ map (shift_clock n) (eresets e2))
      (eguard e1 ++ map (shift_guard n) (eguard e2)).

(* The transitions added to (s1,s2), in order, libmonaa/intersection.cc:90-128. *)
Definition prod_pushes (in1 in2 : ta) (fresh2 : ptr -> ptr -> ptr)
    (p1 : ptr) (s1 : tastate) (p2 : ptr) (s2 : tastate) : list (nat * edge) :=
  let n := clockSize in1 in
  flat_map (fun e1 => match etgt e1 with
      | None => []
      | Some n1 => [(0, prod_edge n (toI in1 in2 fresh2 n1 p2) e1 empty_edge)]
      end) (next_find s1 0)
  ++ flat_map (fun e2 => match etgt e2 with
      | None => []
      | Some n2 => [(0, prod_edge n (toI in1 in2 fresh2 p1 n2) empty_edge e2)]
      end) (next_find s2 0)
  ++ flat_map (fun ce1 =>
        flat_map (fun e1 => match etgt e1 with
          | None => []
          | Some n1 =>
              flat_map (fun e2 => match etgt e2 with
                | None => []
                | Some n2 => [(fst ce1, prod_edge n (toI in1 in2 fresh2 n1 n2) e1 e2)]
                end) (next_find s2 (fst ce1))
          end) (snd ce1)) (next (touch0 s1)).

Definition prod_state (in1 in2 : ta) (fresh2 : ptr -> ptr -> ptr)
    (p1 : ptr) (s1 : tastate) (p2 : ptr) (s2 : tastate) : tastate :=
  mkS (isMatch s1 && isMatch s2) (zeroDur s1)
      (fold_left (fun l ce => push_edge l (fst ce) (snd ce)) (prod_pushes in1 in2 fresh2 p1 s1 p2 s2) []).

(* The entries of toIState that are not null, in creation order,
   libmonaa/intersection.cc:18-28. *)
Definition toIState_keys (in1 in2 : ta) : list (ptr * ptr) :=
  flat_map (fun ps1 => flat_map (fun ps2 =>
     if Bool.eqb (zeroDur (snd ps1)) (zeroDur (snd ps2)) then [(fst ps1, fst ps2)] else []) (states in2)) (states in1).

(* Initial pairs, libmonaa/intersection.cc:31-41.  A pair missing in toIState
   gives a null initial state (dropped here; excluded by well-formedness). *)
Definition prod_inits (in1 in2 : ta) (fresh2 : ptr -> ptr -> ptr) : list ptr :=
  flat_map (fun p1 => flat_map (fun p2 =>
     match toI in1 in2 fresh2 p1 p2 with Some q => [q] | None => [] end) (inits in2)) (inits in1).

(* intersectionTA, libmonaa/intersection.cc:9-131, into an empty [out].  The
   inputs are changed to [touch in1], [touch in2]. *)
Definition intersectionTA (in1 in2 : ta) (fresh2 : ptr -> ptr -> ptr) : ta :=
  mkTA (flat_map (fun ps1 => flat_map (fun ps2 =>
           if Bool.eqb (zeroDur (snd ps1)) (zeroDur (snd ps2))
           then [(fresh2 (fst ps1) (fst ps2), prod_state in1 in2 fresh2 (fst ps1) (snd ps1) (fst ps2) (snd ps2))]
           else []) (states in2)) (states in1))
       (prod_inits in1 in2 fresh2)
       (maxC in1 ++ maxC in2).

(* it->second->isMatch = ... for one entry of toIState. *)
Definition set_match (b : bool) (q : ptr) (l : list (ptr * tastate)) : list (ptr * tastate) :=
  map (fun ps => if fst ps =? q then (fst ps, mkS b (zeroDur (snd ps)) (next (snd ps))) else ps) l.

(* updateInitAccepting, libmonaa/intersection.cc:133-162. [keys] are the
   non-null entries of toIState (the null ones are erased). *)
Definition updateInitAccepting (in1 in2 : ta) (out : ta) (keys : list (ptr * ptr)) (fresh2 : ptr -> ptr -> ptr) : ta :=
  mkTA (fold_left (fun l k => set_match (match_at in1 (fst k) && match_at in2 (snd k)) (fresh2 (fst k) (snd k)) l)
          keys (states out))
       (prod_inits in1 in2 fresh2)
       (maxC out).
