(* Model of libmonaa/intersection.cc: intersectionSignalTA. *)
From Coq Require Import QArith Bool List ZArith Arith.
From Verif Require Import Num Constraint Zone TA Intersection.
Import ListNotations.
Open Scope nat_scope.

(* The transitions added to (s1,s2), in order, libmonaa/intersection.cc:244-310:
   unobservable transitions of s1, then of s2; then for every key c of s1->next
   the pairs of transitions on c and, when s2->next has the key c, those of s1
   on c alone and those of s2 on c alone, both added as unobservable.  The key 0
   is one of the keys: lines 244 and 252 have put it into both maps. *)
Definition sig_pushes (in1 in2 : ta) (fresh2 : ptr -> ptr -> ptr)
    (p1 : ptr) (s1 : tastate) (p2 : ptr) (s2 : tastate) : list (nat * edge) :=
  let n := clockSize in1 in
  let left e1 := match etgt e1 with
      | None => []
      | Some n1 => [(0, prod_edge n (toI in1 in2 fresh2 n1 p2) e1 empty_edge)]
      end in
  let right e2 := match etgt e2 with
      | None => []
      | Some n2 => [(0, prod_edge n (toI in1 in2 fresh2 p1 n2) empty_edge e2)]
      end in
  flat_map left (next_find s1 0)
  ++ flat_map right (next_find s2 0)
  ++ flat_map (fun ce1 =>
        flat_map (fun e1 => match etgt e1 with
          | None => []
          | Some n1 =>
              flat_map (fun e2 => match etgt e2 with
                | None => []
                | Some n2 => [(fst ce1, prod_edge n (toI in1 in2 fresh2 n1 n2) e1 e2)]
                end) (next_find s2 (fst ce1))
          end) (snd ce1)
        ++ match assoc (fst ce1) (next (touch0 s2)) with
           | None => []
           | Some es2 => flat_map left (snd ce1) ++ flat_map right es2
           end) (next (touch0 s1)).

(* std::make_shared<TAState>(s1->isMatch && s2->isMatch): zeroDuration is not
   copied, libmonaa/intersection.cc:179-180. *)
Definition sig_state (in1 in2 : ta) (fresh2 : ptr -> ptr -> ptr)
    (p1 : ptr) (s1 : tastate) (p2 : ptr) (s2 : tastate) : tastate :=
  mkS (isMatch s1 && isMatch s2) false
      (fold_left (fun l ce => push_edge l (fst ce) (snd ce)) (sig_pushes in1 in2 fresh2 p1 s1 p2 s2) []).

(* intersectionSignalTA, libmonaa/intersection.cc:164-312, into an empty [out].
   Initial states (lines 186-197): pairs with equal flags, as in intersectionTA.
   The inputs are changed to [touch in1], [touch in2]. *)
Definition intersectionSignalTA (in1 in2 : ta) (fresh2 : ptr -> ptr -> ptr) : ta :=
  mkTA (flat_map (fun ps1 => flat_map (fun ps2 =>
           if Bool.eqb (zeroDur (snd ps1)) (zeroDur (snd ps2))
           then [(fresh2 (fst ps1) (fst ps2), sig_state in1 in2 fresh2 (fst ps1) (snd ps1) (fst ps2) (snd ps2))]
           else []) (states in2)) (states in1))
       (prod_inits in1 in2 fresh2)
       (maxC in1 ++ maxC in2).
