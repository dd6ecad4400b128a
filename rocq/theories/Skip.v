(* Model of the skip tables, libmonaa/sunday_skip_value.hh and
   libmonaa/kmp_skip_value.hh, and of the whole of monaaDollar,
   libmonaa/monaa.hh:702-1157. *)
From Coq Require Import QArith Bool List ZArith Arith.
From Verif Require Import Num Outcome Constraint Zone TA Word ZA Intersection Monaa.
Import ListNotations.
Open Scope nat_scope.

(* std::lower_bound and std::binary_search as implemented by halving; the order
   of pointers is the order of addresses.  On a range that is not sorted the
   search is only what the halving happens to find. *)
Fixpoint lower_bound (fuel : nat) (l : list nat) (first count v : nat) : nat :=
  match fuel with
  | O => first
  | S f =>
      match count with
      | O => first
      | _ => let step := Nat.div2 count in
             if nth (first + step) l 0 <? v
             then lower_bound f l (first + step + 1) (count - step - 1) v
             else lower_bound f l first step v
      end
  end.
Definition binary_search (l : list nat) (v : nat) : bool :=
  let p := lower_bound (S (length l)) l 0 (length l) v in
  (p <? length l) && negb (v <? nth p l 0).

(* The automaton Ap of monaaDollar, libmonaa/monaa.hh:705-731.  The model keeps
   the addresses of the original states for their copies (ptrConv is
   injective).  ptrConv.at throws when a target is not a state. *)
Definition ap_state (s : tastate) : tastate :=
  match assoc dollar (next s) with
  | Some _ => mkS true (zeroDur s) (filter (fun ce => negb (fst ce =? dollar)) (next s))
  | None => s
  end.

Definition ap_targets_ok (A : ta) (s : tastate) : bool :=
  forallb (fun ce => forallb (fun e => match etgt e with
                                       | Some q => mem q (map fst (states A))
                                       | None => false
                                       end) (snd ce)) (next s).

Definition make_ap (A : ta) : outcome ta :=
  if forallb (fun ps => ap_targets_ok A (ap_state (snd ps))) (states A)
  then Ok (mkTA (map (fun ps => (fst ps, ap_state (snd ps))) (states A))
                (filter (binary_search (inits A)) (map fst (states A)))
                (maxC A))
  else Throw.

(* ---------------- SundaySkipValue ---------------- *)

(* The successors of one element of CStates,
   libmonaa/sunday_skip_value.hh:42-56. *)
Definition sunday_succ (Z : za) (i : nat) : outcome (list (nat * nat)) :=
  do cl <- epsilonClosure Z [i] ;
  Ok (flat_map (fun k => match zget Z k with
        | Some s => flat_map (fun c => map (fun j => (c, j))
                      (filter (fun j => match zlock Z j with Some _ => true | None => false end) (znext s c)))
                      (seq 1 (char_max - 1))
        | None => []
        end) cl).

Definition zaccepts (Z : za) (j : nat) : bool :=
  match zlock Z j with Some s => zacc s | None => false end.

(* The loop, libmonaa/sunday_skip_value.hh:34-59; the result is charSet, whose
   size is m.  Fuel: one unit per turn. *)
Fixpoint sunday_build (fuel : nat) (Z : za) (cs : list nat) (sets : list (list nat)) : outcome (list (list nat)) :=
  match cs with
  | [] => Exit 10
  | _ =>
      match fuel with
      | O => OutOfFuel
      | S f =>
          do r <- fold_out (fun i acc => do l <- sunday_succ Z i ; Ok (acc ++ l)) cs [] ;
          let sets' := sets ++ [map fst r] in
          if existsb (fun cj => zaccepts Z (snd cj)) r then Ok sets'
          else sunday_build f Z (map snd r) sets'
      end
  end.

(* The constructor, libmonaa/sunday_skip_value.hh:26-70. *)
Definition sunday_sets (fuel : nat) (A : ta) : outcome (list (list nat)) :=
  do Z <- ta2za fuel A zempty [] ;
  do Z <- removeDeadStates fuel Z ;
  sunday_build fuel Z (zinit Z) [].

(* delta, libmonaa/sunday_skip_value.hh:62-69 and 72: an array of CHAR_MAX
   elements. *)
Definition sunday_delta (sets : list (list nat)) (c : nat) : option nat :=
  if char_max <=? c then None
  else Some (fold_left (fun d i => if mem c (nth i sets []) then length sets - i else d)
               (seq 0 (length sets)) (length sets + 1)).

(* ---------------- KMPSkipValue ---------------- *)

(* The addresses of the states allocated by the constructor: the copies of the
   states for A0, extendedInitialStates, dummyAcceptingState, the copies for As,
   their dummy states, the product states. *)
Record alloc : Type := mkAl {
  a_0 : ptr -> ptr; a_ext : nat -> ptr; a_acc : ptr; a_S : ptr -> ptr; a_dum : ptr -> ptr; a_2 : ptr -> ptr -> ptr }.

Definition letters : list nat := seq 1 (char_max - 1).

(* dummy states with a self loop on every letter, libmonaa/kmp_skip_value.hh:59-64
   and 93-97. *)
Definition loops (p : ptr) : list (nat * list edge) := map (fun c => (c, [mkE (Some p) [] []])) letters.

(* extendedInitialStates[0], libmonaa/kmp_skip_value.hh:39-49. *)
Definition widen_edge (e : edge) : edge := mkE (etgt e) (eresets e) (widen (eguard e)).
Definition ext0_next (A0 : ta) : list (nat * list edge) :=
  fold_left (fun l ce => push_edge l (fst ce) (snd ce))
    (flat_map (fun p => match deref A0 p with
        | Some s => flat_map (fun ces => map (fun e => (fst ces, widen_edge e)) (snd ces)) (next s)
        | None => []
        end) (inits A0)) [].

(* allClocks, libmonaa/kmp_skip_value.hh:51-52: uint8_t values. *)
Definition all_clocks (A : ta) : list nat := map (fun x => x mod 256) (seq 0 (clockSize A)).

(* extendedInitialStates[i], i >= 1, libmonaa/kmp_skip_value.hh:53-58. *)
Definition ext_next (al : alloc) (A : ta) (i : nat) : list (nat * list edge) :=
  map (fun c => (c, [mkE (Some (a_ext al (i - 1))) (all_clocks A) []])) letters.

(* The loop that appends to the vector it iterates over,
   libmonaa/kmp_skip_value.hh:65-77.  emplace_back reallocates (the vectors were
   just copied, their capacity is their size); going on to a further element
   then reads freed memory: undefined.  That the iterators are compared once
   more when the appended edge was the last one is not counted as undefined. *)
Fixpoint acc_append (A0 : ta) (acc : ptr) (es : list edge) : outcome (list edge) :=
  match es with
  | [] => Ok []
  | e :: rest =>
      if match etgt e with Some q => match_at A0 q | None => false end
      then match rest with
           | [] => Ok [e; mkE (Some acc) (eresets e) (widen (eguard e))]
           | _ => UB
           end
      else do es' <- acc_append A0 acc rest ; Ok (e :: es')
  end.

Fixpoint map_out {X Y} (f : X -> outcome Y) (l : list X) : outcome (list Y) :=
  match l with
  | [] => Ok []
  | x :: t => do y <- f x ; do t' <- map_out f t ; Ok (y :: t')
  end.

(* A0, libmonaa/kmp_skip_value.hh:33-81. *)
Definition kmp_A0 (al : alloc) (A : ta) (m : nat) : outcome ta :=
  let B := deepCopy A (a_0 al) in
  do sts <- map_out (fun ps =>
        do nx <- map_out (fun ces => do es <- acc_append B (a_acc al) (snd ces) ; Ok (fst ces, es)) (next (snd ps)) ;
        Ok (fst ps, mkS (isMatch (snd ps)) (zeroDur (snd ps)) nx)) (states B) ;
  Ok (mkTA (sts ++ [(a_acc al, mkS true false (loops (a_acc al)))]
                ++ (a_ext al 0, mkS false false (ext0_next B))
                   :: map (fun i => (a_ext al i, mkS false false (ext_next al A i))) (seq 1 m))
           (inits B) (maxC A)).

(* As, libmonaa/kmp_skip_value.hh:83-103. *)
Definition kmp_As (al : alloc) (A : ta) : ta :=
  let B := deepCopy A (a_S al) in
  mkTA (map (fun ps => (a_S al (fst ps),
               let s := copy_state A (a_S al) (snd ps) in
               mkS (isMatch s) (zeroDur s) (push_edge (next s) 0 (mkE (Some (a_dum al (fst ps))) [] [])))) (states A)
        ++ map (fun ps => (a_dum al (fst ps), mkS false false (loops (a_dum al (fst ps))))) (states A))
       (inits B) (maxC A).

(* stateAs->isMatch = ..., libmonaa/kmp_skip_value.hh:108-111. *)
Definition kmp_mark (al : alloc) (As : ta) (p : ptr) : ta :=
  mkTA (map (fun qs => (fst qs, mkS ((fst qs =? a_S al p) || (fst qs =? a_dum al p)) (zeroDur (snd qs)) (next (snd qs))))
            (states As)) (inits As) (maxC As).

Definition set_inits (A : ta) (l : list ptr) : ta := mkTA (states A) l (maxC A).

(* std::sort on pointers. *)
Fixpoint insert_nat (x : nat) (l : list nat) : list nat :=
  match l with
  | [] => [x]
  | y :: t => if y <? x then y :: insert_nat x t else x :: l
  end.
Definition sort_nat (l : list nat) : list nat := fold_right insert_nat [] l.

(* The loop over n for one state, libmonaa/kmp_skip_value.hh:112-127.  The
   product A2 and the zone automaton ZA2 are kept from one turn to the next. *)
Fixpoint kmp_try (fuel : nat) (al : alloc) (m : nat) (A0 As : ta) (keys : list (ptr * ptr)) (ns : list nat) (A2 : ta) (Z : za)
    : outcome (nat * ta * za) :=
  match ns with
  | [] => Ok (m, A2, Z)
  | n :: rest =>
      let A2' := updateInitAccepting (set_inits A0 [a_ext al n]) As A2 keys (a_2 al) in
      let A2'' := set_inits A2' (sort_nat (inits A2')) in
      do Z1 <- ta2za fuel A2'' Z [] ;
      let Z2 := zupdate Z1 A2'' (inits A2'') in
      do b <- zempty_check Z2 ;
      if b then kmp_try fuel al m A0 As keys rest A2'' Z2 else Ok (n, A2'', Z2)
  end.

Fixpoint kmp_states (fuel : nat) (al : alloc) (m : nat) (A0 As : ta) (keys : list (ptr * ptr)) (ps : list ptr) (A2 : ta) (Z : za)
    (beta : list (ptr * nat)) : outcome (list (ptr * nat)) :=
  match ps with
  | [] => Ok beta
  | p :: rest =>
      do r <- kmp_try fuel al m A0 (kmp_mark al As p) keys (seq 1 m) A2 Z ;
      let '(n, A2', Z') := r in
      kmp_states fuel al m A0 As keys rest A2' Z' (beta ++ [(p, n)])
  end.

(* The constructor, libmonaa/kmp_skip_value.hh:23-131. *)
Definition kmp (fuel : nat) (al : alloc) (A : ta) (m : nat) : outcome (list (ptr * nat)) :=
  do A0 <- kmp_A0 al A m ;
  let As := kmp_As al A in
  kmp_states fuel al m A0 As (toIState_keys A0 As) (map fst (states A)) (intersectionTA A0 As (a_2 al)) zempty [].

(* ---------------- monaaDollar ---------------- *)

(* std::all_of(...), libmonaa/monaa.hh:747-750. *)
Definition no_eps (A : ta) : bool :=
  forallb (fun ps => match assoc 0 (next (snd ps)) with Some _ => false | None => true end) (states A).

Definition tables (fuel : nat) (al : alloc) (Ap : ta) : outcome skips :=
  do sets <- sunday_sets fuel Ap ;
  do beta <- kmp fuel al Ap (length sets) ;
  Ok (mkSk (length sets) (sunday_delta sets) (last sets []) (fun p => assoc p beta)).

(* monaaDollar, libmonaa/monaa.hh:702-1157. *)
Definition monaaDollar (fuel : nat) (al : alloc) (W : cont) (A : ta) (c : ctype W) : outcome (list mat) :=
  do Ap <- make_ap A ;
  do T <- tables fuel al Ap ;
  if no_eps A then outer_loop W A T MDollar fuel c 0 [] [] else Ok [].

(* ---------------- monaa, patterns without epsilon ---------------- *)

(* monaa, libmonaa/monaa.hh:151-467, the branch taken when no state has
   transitions on the character 0 (no_eps A = true).  The tables are those of
   the pattern itself. *)
Definition monaa_plain (fuel : nat) (al : alloc) (W : cont) (A : ta) (c : ctype W) : outcome (list mat) :=
  do T <- tables fuel al A ;
  outer_loop W A T MSignal fuel c 0 [] [].

(* ---------------- monaaNotNecessaryDollar ---------------- *)

(* The automaton Ap, libmonaa/monaa.hh:1172-1197.  Unlike in monaaDollar the
   targets are looked up with ptrConv[...]: the copy of a target that is not a
   state is a null pointer. *)
Definition lax_edge (A : ta) (e : edge) : edge :=
  mkE (match etgt e with
       | Some q => if mem q (map fst (states A)) then Some q else None
       | None => None
       end) (eresets e) (eguard e).

Definition make_ap_lax (A : ta) : ta :=
  mkTA (map (fun ps => let s := ap_state (snd ps) in
                       (fst ps, mkS (isMatch s) (zeroDur s) (map (fun ce => (fst ce, map (lax_edge A) (snd ce))) (next s)))) (states A))
       (filter (binary_search (inits A)) (map fst (states A)))
       (maxC A).

(* monaaNotNecessaryDollar, libmonaa/monaa.hh:1168-1661.  There is no code for
   patterns with unobservable transitions (line 1659). *)
Definition monaaNotNecessaryDollar (fuel : nat) (al : alloc) (W : cont) (A : ta) (c : ctype W) : outcome (list mat) :=
  do T <- tables fuel al (make_ap_lax A) ;
  if no_eps A then outer_loop W A T MOptional fuel c 0 [] [] else Ok [].
