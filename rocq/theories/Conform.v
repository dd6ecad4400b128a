(* The project's own unit tests (test/ of the repository), run on the model.
   Every example states what one test file expects of the code; it is computed,
   so that a definition of the model that differs from the code in one of these
   cases does not build.  Left out: test/tre_driver_test.cc (PropParse.v),
   test/ans_vec_test.cc (PropAns.v), the random tests of test/tre_test.cc (C24
   to C27 prove what they sample) and timedFJSTorque, test/timedFJS_test.cc:83-104
   (333 events; the model gives what it expects, but takes 36 s). *)
From Coq Require Import QArith Qabs Bool List ZArith Arith String.
From Verif Require Import Num Outcome Interval Constraint Zone EpsZone TA Word ZA Monaa Skip Intersection Text Tre Parse PropParse
  Signal PropMain PropTerm.
Import ListNotations.
Open Scope list_scope.
Open Scope nat_scope.

(* ---------------- test/interval_test.cc ---------------- *)

Example interval_land_test :                                                (* :8-77 *)
  iand (interval_open 1 2) interval_default = interval_open 1 2 /\
  land [interval_open 1 2] [interval_default] = [interval_open 1 2] /\
  iand (interval_from 1) interval_default = interval_from 1 /\
  land [interval_from 1] [interval_default] = [interval_from 1] /\
  land [interval_from 1] [interval_open 3 4; interval_open 7 8] = [interval_open 3 4; interval_open 7 8].
Proof. vm_compute. repeat split. Qed.

Example interval_sum_test :                                                 (* :79-118 *)
  iadd (interval_open 1 2) (interval_open 3 4) = interval_open 4 6 /\
  isum [interval_open 1 2; interval_open 3 4] [interval_open 5 6; interval_open 7 8]
    = [interval_open 6 8; interval_open 8 10; interval_open 8 10; interval_open 10 12].
Proof. vm_compute. repeat split. Qed.

Example interval_plus_test :                                                (* :120-157 *)
  iplus (interval_open 1 2) = Ok [interval_from 1] /\ iplus (interval_from 1) = Ok [interval_from 1] /\
  plus_set [interval_open 1 2] = Ok [interval_from 1].
Proof. vm_compute. repeat split. Qed.

(* ---------------- test/constraint_test.cc, test/zone_test.cc ---------------- *)

Example widen_test :
  widen [mkC 0 Gt 10; mkC 1 Ge 9; mkC 2 Le 8; mkC 3 Lt 7] = [mkC 2 Le 8; mkC 3 Lt 7].
Proof. reflexivity. Qed.

Definition products : mat :=
  map (fun i => map (fun j => (Fin (inject_Z (Z.of_nat (i * j))), true)) (seq 0 5)) (seq 0 5).

Example zone_test :                                                         (* :7-44 *)
  fst (isSatisfiable products) = true /\ fst (isSatisfiable (makeUnsat (snd (isSatisfiable products)))) = false /\
  makeGuard (mkZone (elapse (zval (zone_zero 5))) (Fin 10000, true)) = Some [mkC 0 Gt 0; mkC 1 Gt 0; mkC 2 Gt 0; mkC 3 Gt 0].
Proof. vm_compute. repeat split. Qed.

(* ---------------- test/intermediate_zone_test.cc ---------------- *)

Definition B (q : Q) (b : bool) : bound := (Fin q, b).
(* operator== of the cells of two matrices *)
Definition cells (m k : mat) : bool := list_eqb (list_eqb beqb) m k.
Definition ivs_eq (l k : list (bound * bound)) : bool := list_eqb (fun i j => beqb (fst i) (fst j) && beqb (snd i) (snd j)) l k.
Definition iz_eq (z w : izone) : bool :=
  match z, w with
  | IvZone l p, IvZone k q => ivs_eq l k && (p =? q)
  | MatZone m a p, MatZone n b q => cells m n && list_eqb Bool.eqb a b && (p =? q)
  | _, _ => false
  end.
Definition is_ok {X} (o : outcome X) (f : X -> bool) : bool := match o with Ok x => f x | _ => false end.

Local Open Scope Q_scope.

(* out.value(i, j) == in.value(..), :7-24 *)
Example toAns_test : let out := iz_ans (MatZone products (repeat true 5) 4) in
  beqb (mget out 0 1) (mget products 0 1) && beqb (mget out 1 0) (mget products 1 0) &&
  beqb (mget out 0 2) (mget products 0 4) && beqb (mget out 2 0) (mget products 4 0) &&
  beqb (mget out 1 2) (mget products 1 4) && beqb (mget out 2 1) (mget products 4 1) = true.
Proof. vm_compute. reflexivity. Qed.

Definition tight3 : izone :=
  MatZone (mset (mset (deallocate (zval (zone_zero 3)) 2) 1 0 (B 5.3 false)) 0 1 (B (-4.7) true)) [true; true; false] 1.
Definition tight3m : mat := [ [B 0 true; B (-4.7) true; B (-5.3) false];
                              [B 5.3 false; B 0 true; B 0 false];
                              [B 5.8 true; B (5.8 - 4.7) true; B 0 true] ].
Example tighten_test :                                                      (* :28-84 *)
  fst (isSatisfiable (mset (mset (zval (zone_zero 2)) 1 0 (B 5.3 false)) 0 1 (B (-4.7) true))) = true /\
  is_ok (iz_alloc (B 5.8 true) (B (-5.3) false) tight3) (fun z => iz_eq z (MatZone tight3m [true; true; true] 2)) = true /\
  cells (canonize tight3m) tight3m = true /\ fst (isSatisfiable tight3m) = true /\
  is_ok (iz_guard [mkC 0 Lt 1] [RTime 5.3] (MatZone tight3m [true; true; true] 2))
    (fun z => iz_eq z (MatZone tight3m [true; true; true] 2)) = true.
Proof. vm_compute. repeat split. Qed.

Definition intvl : izone := iz_init (B 4.7 true) (B 5.3 false).
Example tighten_interval_test :                                             (* :86-145 *)
  iz_sat intvl = true /\ iz_eq intvl (IvZone [(B (-4.7) true, B 5.3 false)] 1) = true /\
  is_ok (iz_alloc (B 5.8 true) (B (-5.3) false) intvl)
    (fun z => iz_eq z (IvZone [(B (-4.7) true, B 5.3 false); (B (-5.3) false, B 5.8 true); (B 0 false, B (5.8 - 4.7) true)] 2)
              && iz_sat z
              && is_ok (iz_guard [mkC 0 Gt 1] [RTime 5.3] z)
                   (fun y => iz_eq y (IvZone [(B (-6.3 + 5.8 - 4.7) false, B 5.3 false); (B (-6.3) false, B 5.8 true);
                                              (B (-1) false, B (5.8 - 4.7) true)] 2)
                             && negb (iz_sat y))) = true /\
  is_ok (iz_guard_at 5.8 [mkC 0 Gt 1] [RClock 1] intvl) (fun z => iz_eq z (IvZone [(B (-4.7) true, B 4.8 false)] 1)) = true /\
  is_ok (iz_guard_at 5.8 [mkC 0 Le 1] [RClock 1] intvl) (fun z => iz_eq z (IvZone [(B (-4.8) true, B 5.3 false)] 1)) = true.
Proof. vm_compute. repeat split. Qed.

Example interval_to_zone_test :                                             (* :147-184 *)
  is_ok (do z <- iz_guard_at 5.8 [mkC 0 Le 1] [RClock 1] intvl ; do z <- iz_alloc (B 5.8 true) (B (-5.3) false) z ;
         iz_alloc (B 6.3 true) (B (-5.8) false) z)
    (fun z => iz_eq z (MatZone [ [B 0 true; B (-4.8) true; B (-5.3) false; B (-5.8) false];
                                 [B 5.3 false; B 0 true; B 0 false; B (-0.5) false];
                                 [B 5.8 true; B (5.8 - 4.8) true; B 0 true; B 0 false];
                                 [B 6.3 true; B (6.3 - 4.8) true; B (6.3 - 5.3) false; B 0 true] ] [true; true; true; true] 3)) = true.
Proof. vm_compute. reflexivity. Qed.

(* ---------------- test/timed_automaton_test.cc, test/ta2za_test.cc ---------------- *)

Local Open Scope nat_scope.
Definition at1 (x : nat) : list constr := [mkC x Ge 1; mkC x Le 1].
Definition zaT : ta := mkTA
  [(0, mkS false false [(97, [mkE (Some 0) [1] []; mkE (Some 1) [] (at1 0)])]);
   (1, mkS false false [(97, [mkE (Some 1) [] []; mkE (Some 2) [] (at1 1)])]);
   (2, mkS false false [(36, [mkE (Some 3) [] []])]);
   (3, mkS true false [])] [0] [1%Z; 1%Z].

Example deep_copy_test : let up := fun p => p + 10 in                       (* :44-72 *)
  deepCopy zaT up = mkTA
  [(10, mkS false false [(97, [mkE (Some 10) [1] []; mkE (Some 11) [] (at1 0)])]);
   (11, mkS false false [(97, [mkE (Some 11) [] []; mkE (Some 12) [] (at1 1)])]);
   (12, mkS false false [(36, [mkE (Some 13) [] []])]);
   (13, mkS true false [])] [10] [1%Z; 1%Z].
Proof. reflexivity. Qed.

Definition zone_automaton (A : ta) : outcome za := ta2za 500 A zempty (zval (zone_zero (S (clockSize A)))).
Definition accepting (Z : za) : nat := List.length (filter zacc (zsts Z)).
Definition first_accepts (A : ta) : ta :=
  mkTA (map (fun ps => if fst ps =? 0 then (fst ps, mkS true (zeroDur (snd ps)) (next (snd ps))) else ps) (states A)) (inits A) (maxC A).

Example ta2za_test : exists Z, zone_automaton zaT = Ok Z /\                 (* :43-81 *)
  List.length (zsts Z) = 8 /\ List.length (zinit Z) = 1 /\ map (fun s => List.length (znext s 97)) (zsts Z) = [2; 2; 1; 2; 1; 2; 0; 0] /\
  accepting Z = 1 /\ accepting (zupdate Z (first_accepts zaT) (inits zaT)) = 3.
Proof. eexists. split; [vm_compute; reflexivity|]. vm_compute. repeat split. Qed.

(* ---------------- test/zone_automaton_test.cc ---------------- *)

Definition fixT : ta := mkTA                                                (* :9-35 *)
  [(0, mkS false false [(97, [mkE (Some 1) [1] []])]);
   (1, mkS false false [(98, [mkE (Some 2) [] (at1 1)]); (99, [mkE (Some 3) [] [mkC 0 Lt 1]])]);
   (2, mkS false false [(99, [mkE (Some 3) [] [mkC 0 Lt 1]])]);
   (3, mkS true false [(97, [mkE (Some 1) [1] [mkC 1 Lt 1]]); (100, [mkE (Some 3) [] [mkC 0 Gt 1]])])] [0] [1%Z; 1%Z].
(* TA.states[1]->next['c'].clear() *)
Definition fixC : ta :=
  mkTA (map (fun ps => if fst ps =? 1 then (1, mkS false false [(98, [mkE (Some 2) [] (at1 1)]); (99, [])]) else ps) (states fixT))
       (inits fixT) (maxC fixT).
Definition plainZ (acc : bool) (nx : list (nat * nat)) : zst := mkZ 0 [] acc nx true.

Example zone_automaton_test :                                               (* :37-104 *)
  (exists Z, removeDeadStates 50 (mkZA [plainZ false [(97, 1); (97, 2)]; plainZ false []; plainZ true []] [0]) = Ok Z /\
             List.length (filter zlive (zsts Z)) = 2 /\ List.length (zinit Z) = 1) /\
  epsilonClosure (mkZA [plainZ false [(0, 0); (0, 1); (97, 2)]; plainZ false []; plainZ true []] [0]) [0] = Ok [0; 1] /\
  (do Z <- zone_automaton fixT ; zempty_check Z) = Ok false /\ (do Z <- zone_automaton fixC ; zempty_check Z) = Ok true.
Proof. split; [eexists; split; [vm_compute; reflexivity|]; vm_compute; auto|]. vm_compute. repeat split. Qed.

(* ---------------- test/intersection_test.cc ---------------- *)

Definition inT1 : ta := mkTA [(0, mkS false false [(97, [mkE (Some 1) [] [mkC 0 Ge 2]])]); (1, mkS true false [])] [0] [2%Z].
Definition inT2 (acc : bool) (is : list ptr) : ta :=
  mkTA [(0, mkS acc false [(0, [mkE (Some 0) [0] []]); (97, [mkE (Some 1) [] [mkC 0 Lt 1]])]); (1, mkS true false [])] is [1%Z].
Definition pairp (p q : ptr) : ptr := 2 * p + q.

Example intersection_test : let out := intersectionTA inT1 (inT2 false [0]) pairp in      (* :40-68 *)
  inits out = [pairp 0 0] /\
  List.length (edges_at out (pairp 0 0) 0) = 1 /\ List.length (edges_at out (pairp 0 0) 97) = 1 /\
  map etgt (edges_at out (pairp 0 0) 0) = [Some (pairp 0 0)] /\ map etgt (edges_at out (pairp 0 0) 97) = [Some (pairp 1 1)] /\
  match_at out (pairp 0 0) = false /\ match_at out (pairp 1 1) = true /\
  let out' := updateInitAccepting inT1 (inT2 true []) out (toIState_keys inT1 (inT2 false [0])) pairp in
  inits out' = [] /\ List.length (filter (fun ps => isMatch (snd ps)) (states out')) = 2.
Proof. vm_compute. repeat split. Qed.

(* ---------------- test/sunday_skip_value_test.cc ---------------- *)

Example sunday_test : exists sets, sunday_sets 500 fixT = Ok sets /\
  List.length sets = 2 /\ last sets [] = [99] /\ map (sunday_delta sets) [97; 98; 99; 100] = [Some 2; Some 3; Some 1; Some 3].
Proof. eexists. split; [vm_compute; reflexivity|]. vm_compute. repeat split. Qed.

(* ---------------- test/lazy_deque_test.cc ---------------- *)

Definition lines (l : list string) : list nat := flat_map (fun s => str s ++ [10]) l.
Definition ascii_test : list nat := lines ["a 1.1"; "b 3.2"; "c 5.3"; "d 7.4"; "e 9.5"; "f 11.6"; "g 13.7"; "h 15.8"]%string.
(* test/binary_test.bin *)
Definition binary_test : list nat :=
  [97; 154; 153; 153; 153; 153; 153; 241; 63;  98; 154; 153; 153; 153; 153; 153; 9; 64;
   99; 51; 51; 51; 51; 51; 51; 21; 64;  100; 154; 153; 153; 153; 153; 153; 29; 64;
   101; 0; 0; 0; 0; 0; 0; 35; 64;  102; 51; 51; 51; 51; 51; 51; 39; 64;
   103; 102; 102; 102; 102; 102; 102; 43; 64;  104; 154; 153; 153; 153; 153; 153; 47; 64].
(* A normal positive double, lowest byte first: (2^52 + mantissa) * 2^(exponent - 1075) *)
Definition ieee (bs : list nat) : Q :=
  let n := fold_right (fun b acc => Z.of_nat b + 256 * acc)%Z 0%Z bs in
  let e := (n / 2 ^ 52)%Z in
  (inject_Z (2 ^ 52 + n mod 2 ^ 52) * Qpower 2 (e - 1075))%Q.
Definition deque (w : tword) (n : nat) : bool * outcome event :=
  let r := lazy_fetch (lopen w) n in (fst r, lazy_at (snd r) n).
Definition close (a b : Q) : Prop := (Qabs (a - b) < 1 # 1000000)%Q.

Example lazy_deque_test : exists w v, text_word ascii_test = Ok w /\ binary_word ieee binary_test = Ok v /\  (* :33-79 *)
  deque w 5 = (true, Ok (102, 11.6%Q)) /\ deque w 7 = (true, Ok (104, 15.8%Q)) /\
  deque w 10 = (false, Throw) /\ deque w 14 = (false, Throw) /\
  map fst v = map fst w /\ Forall2 close (map snd v) (map snd w) /\
  exists d4 d6 d8 d10, lazy_setFront (lopen w) 4 = Ok d4 /\ lazy_at (snd (lazy_fetch d4 5)) 5 = Ok (102, 11.6%Q) /\
    lazy_setFront (snd (lazy_fetch d4 5)) 6 = Ok d6 /\ lazy_at d6 5 = Throw /\
    lazy_at (snd (lazy_fetch d6 7)) 7 = Ok (104, 15.8%Q) /\
    lazy_setFront (snd (lazy_fetch d6 7)) 8 = Ok d8 /\ lazy_at d8 7 = Throw /\
    lazy_setFront d8 10 = Ok d10 /\ fst (lazy_fetch d10 9) = false /\ lazy_at d10 9 = Throw.
Proof.
  do 2 eexists. do 2 (split; [vm_compute; reflexivity|]). do 5 (split; [vm_compute; reflexivity|]).
  split; [repeat (constructor; [vm_compute; reflexivity|]); constructor|].
  do 4 eexists. repeat (split; [vm_compute; reflexivity|]). vm_compute. reflexivity.
Qed.

(* ---------------- test/timedFJS_test.cc ---------------- *)

Definition timed_word : list nat := lines ["a 2.4"; "b 2.9"; "a 3.4"; "b 4.7"; "a 5.3"; "b 5.8"; "a 11.1"; "b 11.7"]%string.
Definition fjsT : ta := mkTA
  [(0, mkS false false [(97, [mkE (Some 1) [0] []])]); (1, mkS false false [(98, [mkE (Some 2) [] [mkC 0 Lt 1]])]);
   (2, mkS false false [(97, [mkE (Some 3) [] []])]); (3, mkS true false [])] [0] [1%Z].
Definition fjsA0_1 : ta := mkTA
  [(0, mkS false false [(97, [mkE (Some 1) [0] [mkC 0 Lt 1]])]); (1, mkS false false [(98, [mkE (Some 2) [] [mkC 0 Lt 1]])]);
   (2, mkS true false [])] [0] [1%Z].

Example timedFJS_test :                                                     (* :10-81 *)
  is_ok (do w <- text_word timed_word ; monaa 500 uAl 0 vecC fjsT w)
    (fun ans => (List.length ans =? 2) &&
       cells (hd [] ans) [ [B 0 true; B 0 true; B (-2.9) false]; [B 2.4 false; B 0 true; B (-0.5) false]; [B 3.4 true; B 3.4 true; B 0 true] ])
    = true /\
  is_ok (do w <- text_word ascii_test ; monaa 500 uAl 0 vecC fjsA0_1 w)
    (fun ans => (List.length ans =? 1) &&
       cells (map (map (fun b => (fst b, true))) (hd [] ans))
             [ [B 0 true; B (-0.1) true; B (-1.1) true]; [B 1.1 true; B 0 true; B 0 true]; [B 2.1 true; B 2 true; B 0 true] ]) = true.
Proof. vm_compute. repeat split. Qed.

(* ---------------- test/timed_automaton_parser_test.cc ---------------- *)

(* phi7.dot, timed_automaton.dot and small.dot of test/, as the tokens of Text.v *)
Definition gd (s : string) : option (list nat) := Some (str s).
Definition phi7 : list tvert * list tedge :=
  ([mkTV 0 true false false; mkTV 1 false false false; mkTV 2 false true false],
   [mkTE 0 1 65 None (gd "{0}"); mkTE 0 1 66 None (gd "{0}"); mkTE 0 1 67 None (gd "{0}"); mkTE 0 1 68 None (gd "{0}");
    mkTE 1 1 65 (gd "{x0 < 4}") None; mkTE 1 1 66 (gd "{x0 < 4}") None; mkTE 1 1 67 (gd "{x0 < 4}") None;
    mkTE 1 1 68 (gd "{x0 < 4}") None; mkTE 1 2 67 (gd "{x0 < 4}") None; mkTE 2 2 67 None None; mkTE 2 2 68 None None]).
Definition ta_dot : list tvert * list tedge :=
  ([mkTV 1 true false false; mkTV 2 false true false], [mkTE 1 2 97 (gd "{x0 > 1, x2 < 10}") (gd "{0, 1}")]).
Definition small_dot : list tvert * list tedge :=
  ([mkTV 1 true false false; mkTV 2 false false false; mkTV 3 false false false; mkTV 4 false true false],
   [mkTE 1 2 108 (gd "{x0 < 1}") None; mkTE 2 3 104 (gd "{x0 < 1}") None; mkTE 3 2 108 (gd "{x0 < 1}") None;
    mkTE 3 4 36 (gd "{x0 < 1}") None]).
Definition edge_of (G : bgraph) (v w : nat) : option (nat * list nat * list constr) :=
  option_map (fun e => (be_label e, be_resets e, be_guard e)) (find (fun e => (be_src e =? v) && (be_tgt e =? w)) (bedges G)).

Example parser_test :                                                       (* :9-131 *)
  (exists G, parseBoostTA (fst phi7) (snd phi7) = Ok G /\ map bv_match (bverts G) = [false; false; true] /\
     map bv_init (bverts G) = [true; false; false] /\ edge_of G 0 1 = Some (65, [0], [])) /\
  (exists G, parseBoostTA (fst ta_dot) (snd ta_dot) = Ok G /\ map bv_match (bverts G) = [false; true] /\
     map bv_init (bverts G) = [true; false] /\ edge_of G 1 2 = Some (97, [0; 1], [mkC 0 Gt 1; mkC 2 Lt 10]) /\
     convBoostTA (fun v => v) G = mkTA [(1, mkS false false [(97, [mkE (Some 2) [0; 1] [mkC 0 Gt 1; mkC 2 Lt 10]])]); (2, mkS true false [])]
                                       [1] [1%Z; 0%Z; 10%Z]) /\
  (exists G, parseBoostTA (fst small_dot) (snd small_dot) = Ok G /\ map bv_match (bverts G) = [false; false; false; true] /\
     map bv_init (bverts G) = [true; false; false; false] /\
     map (fun vw => edge_of G (fst vw) (snd vw)) [(1, 2); (2, 3); (3, 2); (3, 4)]
       = map (fun c => Some (c, [], [mkC 0 Lt 1])) [108; 104; 108; 36]).
Proof. repeat split; eexists; (split; [vm_compute; reflexivity|]); vm_compute; repeat split. Qed.

(* ---------------- test/tre_test.cc ---------------- *)

Definition expression (s : string) : outcome tre := do r <- parse (str s) ; match r with Some r => Ok r | None => UB end.
Definition eventTA (s : string) : outcome ta := do r <- expression s ; do X <- toEventTA (fun k => k) r 0 ; Ok (fst X).
Definition members (s : string) (ws : list tword) : outcome (list bool) := do A <- eventTA s ; Ok (map (isMember A) ws).
(* checkMemory, :33-48 *)
Definition checkMemory (A : ta) : bool :=
  forallb (fun p => mem p (map fst (states A))) (inits A) &&
  forallb (fun ps => forallb (fun ce => forallb (fun e => match etgt e with Some q => mem q (map fst (states A)) | None => false end)
                                          (snd ce)) (next (snd ps))) (states A).
Definition path (A : ta) (p : ptr) (c : nat) : list (bool * list nat * list Z) :=
  map (fun e => (acc_tgt A e, eresets e, map cc (eguard e))) (edges_at A p c).

Example to_event_test :                                                     (* :71-98, :114-130, :157-180 *)
  is_ok (eventTA "((aba)%(1,2))*") (fun A =>
    (List.length (inits A) =? 2) && (List.length (filter (match_at A) (inits A)) =? 1)) = true /\
  (exists A, eventTA "((aba)%(1,2))*" = Ok A /\ exists p q r, filter (fun p => negb (match_at A p)) (inits A) = [p] /\
     map etgt (edges_at A p 97) = [Some q] /\ map etgt (edges_at A q 98) = [Some r] /\
     path A p 97 = [(false, [], [])] /\ path A q 98 = [(false, [], [])] /\
     path A r 97 = [(true, [], [2%Z; 1%Z]); (false, [0], [2%Z; 1%Z])]) /\
  (exists A p, eventTA "(a)%(0,1)" = Ok A /\ inits A = [p] /\ path A p 97 = [(true, [], [1%Z; 0%Z])]) /\
  (exists A p, eventTA "(a)%(1,2)" = Ok A /\ inits A = [p] /\ path A p 97 = [(true, [], [2%Z; 1%Z])]) /\
  (exists A p q, eventTA "(a%(0,1))(b%(0,1))" = Ok A /\ inits A = [p] /\ path A p 97 = [(false, [0], [1%Z; 0%Z])] /\
     map etgt (edges_at A p 97) = [Some q] /\ path A q 98 = [(true, [], [1%Z; 0%Z])]).
Proof.
  split; [vm_compute; reflexivity|].
  split; [eexists; split; [vm_compute; reflexivity|]; do 3 eexists; repeat (split; [vm_compute; reflexivity|]); vm_compute; reflexivity|].
  split; [do 2 eexists; repeat (split; [vm_compute; reflexivity|]); vm_compute; reflexivity|].
  split; [do 2 eexists; repeat (split; [vm_compute; reflexivity|]); vm_compute; reflexivity|].
  do 3 eexists; repeat (split; [vm_compute; reflexivity|]); vm_compute; reflexivity.
Qed.

Example memory_test :                                                       (* :154-220 *)
  forallb (fun s => is_ok (eventTA s) checkMemory)
    ["(a)%(1,2)"; "(a%(0,1))(b%(0,1))"; "A*"; "AB"; "A|B"; "A&B"; "A*B"; "(A*B)$"; "(A+B)$"; "(A|B)$"]%string = true.
Proof. vm_compute. reflexivity. Qed.

Local Open Scope Q_scope.
Definition la : nat := 97%nat. Definition lb : nat := 98%nat.
Definition lA : nat := 65%nat. Definition lB : nat := 66%nat. Definition lD : nat := 36%nat.
Definition with_dollar : list tword :=
  [[(lB, 0.2); (lD, 0.8)]; [(lA, 1.2); (lB, 1.8); (lD, 1.9)]; [(lA, 1.2); (lA, 1.5); (lB, 1.8); (lD, 1.9)]; [(lA, 1.9); (lD, 2.9)]].

Example is_member_test :                                                    (* :57-264 *)
  members "ab" [[]; [(la, 1.2); (lb, 2.0)]; [(la, 1.2); (lb, 2.0); (la, 3.0)]; [(la, 1.2); (lb, 2.0); (la, 3.3)]] = Ok [false; true; false; false] /\
  members "((aba)%(1,2))*" [[]; [(la, 0.2); (lb, 1.0); (la, 1.9)]; [(la, 1.2); (lb, 1.8); (la, 2.0)]] = Ok [true; true; false] /\
  members "a%(1,2)" [[(la, 0.2)]; [(la, 1.2)]; [(la, 2.9)]] = Ok [false; true; false] /\
  members "(a)%(0,1)" [[]; [(la, 0.2)]; [(la, 1.2)]; [(la, 1.2); (lb, 2.0); (la, 3.3)]] = Ok [false; true; false; false] /\
  members "(a)%(1,2)" [[]; [(la, 0.2)]; [(la, 1.2)]; [(la, 1.2); (lb, 2.0); (la, 3.3)]] = Ok [false; false; true; false] /\
  members "(a%(0,1))(b%(0,1))" [[]; [(la, 0.2); (lb, 0.4)]; [(la, 0.6); (lb, 1.4)]; [(la, 1.2); (la, 1.8)]; [(la, 1.2); (lb, 2.0); (la, 3.3)]]
    = Ok [false; true; true; false; false] /\
  members "(A*B)$" with_dollar = Ok [true; true; true; false] /\ members "(A+B)$" with_dollar = Ok [false; true; true; false] /\
  members "(A|B)$" with_dollar = Ok [true; false; false; true].
Proof. vm_compute. repeat split. Qed.

(* ---------------- test/intermediate_tre_test.cc ---------------- *)

Local Open Scope nat_scope.
Definition sep_ub : heap -> nat -> outcome heap := fun _ _ => UB.
Definition dnf_start (s : string) : outcome (nat * heap) := do r <- expression s ; do X <- dnf_of r (mkH [] [] []) ; Ok (newD (snd X) (fst X)).
(* The atoms of the lists of a DNFTRE: the character and the intervals of a singleton *)
Definition atoms (H : heap) (d : nat) : outcome (list (list (option (nat * list interval)))) :=
  do e <- getD H d ;
  oseq (oseq (fun a => do x <- getA H a ; match at_cell x with ASing s => do cl <- getS H s ; Ok (Some cl) | _ => Ok None end)) (dn_list e).
Definition normal_form (s : string) : outcome (list (list (option (nat * list interval)))) :=
  do X <- dnf_start s ; do H <- nfD sep_ub sep_ub 100 (snd X) (fst X) ; atoms H (fst X).
Definition sizes (o : outcome (list (list (option (nat * list interval))))) : option (list (list (option (nat * nat)))) :=
  match o with Ok l => Some (map (map (option_map (fun ci => (fst ci, List.length (snd ci))))) l) | _ => None end.
Definition one (n : nat) : option (list (list (option (nat * nat)))) := Some [[Some (97, n)]].
Definition lowers (o : outcome (list (list (option (nat * list interval))))) : option (list (list (option (list bound)))) :=
  match o with Ok l => Some (map (map (option_map (fun ci => map lob (snd ci)))) l) | _ => None end.
Definition gt (n : Z) : bound := (Fin (inject_Z n), false).

Example atomic_within_test :                                                (* :42-57 *)
  exists p, (let (a, H) := newSingle (mkH [] [] []) 97 [interval_default] in newWithin H a (interval_open 1 2)) = Ok p /\
    exists s, nth_error (hA (snd p)) (fst p) = Some (mkAt (ASing s) None) /\ nth_error (hS (snd p)) s = Some (97, [interval_open 1 2]).
Proof. eexists. split; [vm_compute; reflexivity|]. eexists. vm_compute. split; reflexivity. Qed.

Example normal_form_test :                                                  (* :61-215 *)
  (forall s, In s ["ab"; "((aba)%(1,2))*"; "((a)%(1,2))*"]%string -> exists l, normal_form s = Ok l) /\
  map (fun s => sizes (normal_form s)) ["aaaa"; "a+"; "aa+aa"; "a(a%(1,2))a(a%(2,3))"; "a(a%(1,2)+)a(a%(2,3)+)"; "(a|(a+))aa"]%string
    = [one 1; one 1; one 1; one 1; one 2; Some [[Some (97, 1)]; [Some (97, 1)]]] /\
  (exists H d l, dnf_start "a(a%(1,2))a(a%(2,3))" = Ok (d, H) /\ nth_error (hD H) d = Some (mkDn [[l]] None) /\
     exists items, nth_error (hA H) l = Some (mkAt (ACat items) None) /\ List.length items = 4) /\
  normal_form "a%(1,2)" = Ok [[Some (97, [interval_open 1 2])]] /\
  lowers (normal_form "a%(1,2)+") = Some [[Some [gt 1]]] /\ lowers (normal_form "a(a%(1,2)+)") = Some [[Some [gt 1]]] /\
  lowers (normal_form "a(a%(2,3)+)") = Some [[Some [gt 2; gt 4]]].
Proof.
  split; [intros s [<-|[<-|[<-|[]]]]; eexists; vm_compute; reflexivity|]. split; [vm_compute; reflexivity|].
  split; [do 3 eexists; split; [vm_compute; reflexivity|]; split; [vm_compute; reflexivity|]; eexists; split; vm_compute; reflexivity|].
  vm_compute. repeat split.
Qed.

Definition signalTA (s : string) : outcome ta := do r <- expression s ; do X <- toSignalTA sep_ub sep_ub 100 (fun k => k) r 0 ; Ok (fst X).
Definition smembers (s : string) (ws : list tword) : outcome (list bool) := do A <- signalTA s ; Ok (map (isMember A) ws).
(* DNFTRE::toSignalTA without toNormalForm, and renameToEpsilonTransitions *)
Definition renamed (s : string) : outcome ta :=
  do X <- dnf_start s ; do Y <- taD 100 (fun k => k) (snd X) (fst X) 0 ; Ok (fst (renameTA (fun k => k) (fst Y) (snd Y))).
Definition rmembers (s : string) (ws : list tword) : outcome (list bool) := do A <- renamed s ; Ok (map (isMember A) ws).

Local Open Scope Q_scope.
Example signal_member_test :                                                (* :219-273 *)
  smembers "aaaa" [[(la, 2.9)]] = Ok [true] /\ smembers "(a|(a+))aa" [[(la, 2.9)]] = Ok [true] /\
  smembers "(a|(c+))ba" [[(99%nat, 2.9); (lb, 2.9); (la, 2.9)]] = Ok [true] /\
  smembers "a(a%(1,2))a(a%(2,3))" [[(la, 3.9)]] = Ok [true] /\
  smembers "a(a%(1,2)+)a(a%(2,3)+)" [[(la, 2.9)]; [(la, 3.9)]] = Ok [false; true] /\
  smembers "a%(1,2)" [[(la, 0.2)]; [(la, 1.2)]; [(la, 2.9)]] = Ok [false; true; false] /\
  smembers "a%(1,2)+" [[(la, 0.2)]; [(la, 1.2)]; [(la, 2.9)]] = Ok [false; true; true].
Proof. vm_compute. repeat split. Qed.

Example rename_member_test :                                                (* :307-339 *)
  rmembers "a(a%(1,2))" [[(0%nat, 0.9); (la, 1.2)]; [(0%nat, 2.9); (la, 4.2)]] = Ok [false; true] /\
  rmembers "a(a%(1,2))a(a%(2,3))" [[(0%nat, 0.9); (0%nat, 1.2); (0%nat, 1.7); (la, 2.5)]; [(0%nat, 2.9); (0%nat, 4.2); (0%nat, 4.7); (la, 7.0)]]
    = Ok [false; true].
Proof. vm_compute. repeat split. Qed.

Local Open Scope nat_scope.
Definition renT : ta := mkTA
  [(0, mkS false false [(97, [mkE (Some 1) [0] [mkC 0 Lt 10]])]); (1, mkS false false [(97, [mkE (Some 2) [1] [mkC 1 Gt 1]])]);
   (2, mkS true false [])] [0] [10%Z].
Definition catT (k : nat) : ta :=
  mkTA [(k, mkS false false [(97, [mkE (Some (k + 1)) [0] [mkC 0 Lt 10]])]); (k + 1, mkS true false [])] [k] [10%Z].

Example rename_test : let A := fst (renameTA (fun k => 10 + k) renT 0) in   (* :278-305 *)
  inits A = [0] /\ edges_at A 0 0 = [mkE (Some 1) [0] [mkC 0 Lt 10]] /\ edges_at A 1 97 = [mkE (Some 2) [1] [mkC 1 Gt 1]] /\
  match_at A 2 = true.
Proof. vm_compute. repeat split. Qed.

Example concat2_test : let A := concat2 (catT 0) (catT 2) in                (* :344-374 *)
  inits A = [0] /\ List.length (edges_at A 0 97) = 2 /\ nth_error (edges_at A 0 97) 1 = Some (mkE (Some 2) [0] [mkC 0 Lt 10]) /\
  edges_at A 2 97 = [mkE (Some 3) [0] [mkC 0 Lt 10]] /\ match_at A 3 = true.
Proof. vm_compute. repeat split. Qed.
