(* Model of libmonaa/ta2za.cc and libmonaa/zone_automaton.hh: zone automata and
   their construction. *)
From Coq Require Import QArith Bool List ZArith Arith.
From Verif Require Import Num Outcome Constraint Zone TA.
Import ListNotations.
Open Scope nat_scope.

(* struct ZAState, libmonaa/zone_automaton.hh:9-27.  [znx] are the elements of
   next[0..126] in the order in which they were pushed, with their character.
   A state is identified by its position in the order of creation; [zlive] tells
   whether some shared_ptr still owns it (weak_ptr::lock succeeds). *)
Record zst : Type := mkZ { zq : ptr; zm : mat; zacc : bool; znx : list (nat * nat); zlive : bool }.

(* struct ZoneAutomaton = Automaton<ZAState>, libmonaa/common_types.hh:12-29.
   [states] are the live elements of [zsts]. *)
Record za : Type := mkZA { zsts : list zst; zinit : list nat }.

Definition zempty : za := mkZA [] [].

Definition zget (Z : za) (i : nat) : option zst := nth_error (zsts Z) i.

(* weak_ptr::lock. *)
Definition zlock (Z : za) (i : nat) : option zst :=
  match zget Z i with Some s => if zlive s then Some s else None | None => None end.

(* next[c]. *)
Definition znext (s : zst) (c : nat) : list nat :=
  map snd (filter (fun e => fst e =? c) (znx s)).

(* for (edges : state->next) for (edge : edges): characters in increasing
   order, then push order. *)
Definition zedges (s : zst) : list nat := flat_map (znext s) (seq 0 char_max).

(* *zaState == make_pair(q, m), libmonaa/zone_automaton.hh:24-26: the argument's
   zone is the left operand of Zone::operator==. *)
Definition zst_eqb (s : zst) (q : ptr) (m : mat) : bool := (q =? zq s) && zone_eqb m (zm s).

(* std::find_if over ZA.states, libmonaa/ta2za.cc:95-99. *)
Fixpoint zfind_from (l : list zst) (i : nat) (q : ptr) (m : mat) : option nat :=
  match l with
  | [] => None
  | s :: t => if zlive s && zst_eqb s q m then Some i else zfind_from t (S i) q m
  end.
Definition zfind (Z : za) (q : ptr) (m : mat) : option nat := zfind_from (zsts Z) 0 q m.

(* The guard loop, libmonaa/ta2za.cc:73-88. *)
Definition tighten_guard1 (m : mat) (g : constr) : mat :=
  match codr g with
  | Lt => tighten m (cx g) cv_none (Fin (inject_Z (cc g)), false)
  | Le => tighten m (cx g) cv_none (Fin (inject_Z (cc g)), true)
  | Gt => tighten m cv_none (cx g) (Fin (inject_Z (- cc g)), false)
  | Ge => tighten m cv_none (cx g) (Fin (inject_Z (- cc g)), true)
  end.
Definition tighten_guard (m : mat) (gs : list constr) : mat := fold_left tighten_guard1 gs m.

(* The zone after one transition, libmonaa/ta2za.cc:68-94; [None] when the guard
   is unsatisfiable.  [now] is the elapsed zone. *)
Definition succ_zone (M : bound) (now : mat) (e : edge) : option mat :=
  let (sat, m) := isSatisfiable (tighten_guard now (eguard e)) in
  if sat then Some (canonize (abstractize M (fold_left reset (eresets e) m))) else None.

Definition zupd (Z : za) (i : nat) (f : zst -> zst) : za :=
  match zget Z i with Some s => mkZA (set_nth (zsts Z) i (f s)) (zinit Z) | None => Z end.

Definition zpush (c j : nat) (s : zst) : zst := mkZ (zq s) (zm s) (zacc s) (znx s ++ [(c, j)]) (zlive s).

(* One transition of one configuration, libmonaa/ta2za.cc:66-120.  The queue
   [nq] is nextConf.  Indexing next with a character not below CHAR_MAX and
   dereferencing a dangling state are undefined. *)
Definition ta2za_edge (A : ta) (M : bound) (i : nat) (now : mat) (c : nat) (e : edge) (Zq : za * list nat)
    : outcome (za * list nat) :=
  let (Z, nq) := Zq in
  match etgt e with
  | None => Ok (Z, nq)
  | Some q =>
      match succ_zone M now e with
      | None => Ok (Z, nq)
      | Some m =>
          if char_max <=? c then UB else
          match zfind Z q m with
          | Some j => Ok (zupd Z i (zpush c j), nq)
          | None =>
              match deref A q with
              | None => UB
              | Some s =>
                  let j := length (zsts Z) in
                  Ok (zupd (mkZA (zsts Z ++ [mkZ q m (isMatch s) [] true]) (zinit Z)) i (zpush c j), nq ++ [j])
              end
          end
      end
  end.

Fixpoint fold_out {S X} (f : X -> S -> outcome S) (l : list X) (s : S) : outcome S :=
  match l with
  | [] => Ok s
  | x :: t => do s' <- f x s ; fold_out f t s'
  end.

(* One configuration, libmonaa/ta2za.cc:61-123. *)
Definition ta2za_conf (A : ta) (M : bound) (i : nat) (Zq : za * list nat) : outcome (za * list nat) :=
  match zget (fst Zq) i with
  | None => UB
  | Some s =>
      match deref A (zq s) with
      | None => UB
      | Some ts =>
          let now := elapse (zm s) in
          fold_out (fun ce Zq => fold_out (fun e Zq => ta2za_edge A M i now (fst ce) e Zq) (snd ce) Zq)
                   (next ts) Zq
      end
  end.

(* The breadth-first search, libmonaa/ta2za.cc:57-125: nextConf/currentConf
   levels are one first-in-first-out queue.  Fuel: one unit per configuration. *)
Fixpoint ta2za_loop (fuel : nat) (A : ta) (M : bound) (Z : za) (queue : list nat) : outcome za :=
  match queue with
  | [] => Ok Z
  | i :: rest =>
      match fuel with
      | O => OutOfFuel
      | S f => do Zq <- ta2za_conf A M i (Z, []) ; ta2za_loop f A M (fst Zq) (rest ++ snd Zq)
      end
  end.

(* *max_element(maxConstraints), libmonaa/ta2za.cc:38-44. *)
Definition max_const (A : ta) : bound :=
  match maxC A with
  | [] => (Fin 0, true)
  | c :: t => (Fin (inject_Z (fold_left Z.max t c)), true)
  end.

(* ta2za(TA, ZA, initialZone), libmonaa/ta2za.cc:15-126; an empty [iz] is the
   default argument. *)
Definition ta2za (fuel : nat) (A : ta) (Z : za) (iz : mat) : outcome za :=
  let iz := match iz with [] => fill (S (clockSize A)) bzero | _ => iz end in
  let new := filter (fun p => match zfind Z p iz with Some _ => false | None => true end) (inits A) in
  match new with
  | [] => Ok Z
  | _ =>
      let k := length (zsts Z) in
      let ids := seq k (length new) in
      do ss <- fold_out (fun p l => match deref A p with
                   | Some s => Ok (l ++ [mkZ p iz (isMatch s) [] true])
                   | None => UB
                   end) new [] ;
      ta2za_loop fuel A (max_const A) (mkZA (zsts Z ++ ss) (zinit Z ++ ids)) ids
  end.

(* ---------------- zone_automaton.hh ---------------- *)

(* epsilonClosure, libmonaa/zone_automaton.hh:40-54.  [closure] is the set in
   insertion order; fuel: one unit per element of [waiting]. *)
Definition eps_add (Z : za) (Cw : list nat * list nat) (j : nat) : list nat * list nat :=
  match zlock Z j with
  | Some _ => if mem j (fst Cw) then Cw else (fst Cw ++ [j], snd Cw ++ [j])
  | None => Cw
  end.

Fixpoint eps_loop (fuel : nat) (Z : za) (closure waiting : list nat) : outcome (list nat) :=
  match waiting with
  | [] => Ok closure
  | i :: rest =>
      match fuel with
      | O => OutOfFuel
      | S f =>
          match zget Z i with
          | None => UB
          | Some s =>
              let Cw := fold_left (eps_add Z) (znext s 0) (closure, rest) in
              eps_loop f Z (fst Cw) (snd Cw)
          end
      end
  end.

Definition epsilonClosure (Z : za) (closure : list nat) : outcome (list nat) :=
  eps_loop (length (zsts Z)) Z closure closure.

(* set insertion *)
Definition sadd (l : list nat) (x : nat) : list nat := if mem x l then l else l ++ [x].

(* The inner loops of removeDeadStates, libmonaa/zone_automaton.hh:77-94, for
   the configuration (i, parents).  The stack has its top first. *)
Definition dead_edge (i : nat) (parents : list nat) (SR : list (nat * list nat) * list nat) (j : nat)
    : list (nat * list nat) * list nat :=
  if mem i parents then SR
  else if mem j (snd SR) then (fst SR, fold_left sadd parents (sadd (snd SR) i))
  else ((j, sadd parents i) :: fst SR, snd SR).

(* The search of removeDeadStates, libmonaa/zone_automaton.hh:64-95; the second
   component of [SR] is the set [reachable].  An expired edge would be
   dereferenced: undefined. *)
Fixpoint dead_loop (fuel : nat) (Z : za) (stack : list (nat * list nat)) (reach : list nat) : outcome (list nat) :=
  match stack with
  | [] => Ok reach
  | (i, parents) :: rest =>
      match fuel with
      | O => OutOfFuel
      | S f =>
          match zlock Z i with
          | None => UB
          | Some s =>
              let reach1 := if zacc s then fold_left sadd parents (sadd reach i) else reach in
              let SR := fold_left (dead_edge i parents) (zedges s) (rest, reach1) in
              dead_loop f Z (fst SR) (snd SR)
          end
      end
  end.

(* removeDeadStates, libmonaa/zone_automaton.hh:60-115.  std::stack::push makes
   the last initial state the top. *)
Definition removeDeadStates (fuel : nat) (Z : za) : outcome za :=
  do reach <- dead_loop fuel Z (map (fun i => (i, [])) (rev (zinit Z))) [] ;
  Ok (mkZA (map (fun is => let (i, s) := (is : nat * zst) in
                  mkZ (zq s) (zm s) (zacc s) (znx s) (zlive s && mem i reach))
              (combine (seq 0 (length (zsts Z))) (zsts Z)))
           (filter (fun i => mem i reach) (zinit Z))).

(* ZoneAutomaton::updateInitAccepting, libmonaa/zone_automaton.hh:121-139. *)
Definition zupdate (Z : za) (A : ta) (taInits : list ptr) : za :=
  mkZA (map (fun s => mkZ (zq s) (zm s) (if zlive s then match_at A (zq s) else zacc s) (znx s) (zlive s)) (zsts Z))
       (map fst (filter (fun is => zlive (snd is) && mem (zq (snd is)) taInits)
                   (combine (seq 0 (length (zsts Z))) (zsts Z)))).

(* One level of the emptiness check, libmonaa/zone_automaton.hh:147-161. *)
Definition empty_edge_step (Z : za) (NV : list nat * list nat) (j : nat) : list nat * list nat :=
  match zlock Z j with
  | Some _ => if mem j (snd NV) then NV else (fst NV ++ [j], snd NV ++ [j])
  | None => NV
  end.

(* [Ok None]: an accepting state was found. *)
Fixpoint empty_level (Z : za) (cur : list nat) (NV : list nat * list nat) : outcome (option (list nat * list nat)) :=
  match cur with
  | [] => Ok (Some NV)
  | i :: rest =>
      match zget Z i with
      | None => UB
      | Some s => if zacc s then Ok None else empty_level Z rest (fold_left (empty_edge_step Z) (zedges s) NV)
      end
  end.

(* ZoneAutomaton::empty, libmonaa/zone_automaton.hh:142-167.  Fuel: one unit per
   level. *)
Fixpoint empty_loop (fuel : nat) (Z : za) (cur visited : list nat) : outcome bool :=
  match cur with
  | [] => Ok true
  | _ =>
      match fuel with
      | O => OutOfFuel
      | S f =>
          do r <- empty_level Z cur ([], visited) ;
          match r with
          | None => Ok false
          | Some NV => empty_loop f Z (fst NV) (snd NV)
          end
      end
  end.

Definition zempty_check (Z : za) : outcome bool :=
  empty_loop (S (length (zsts Z))) Z (zinit Z) (zinit Z).
