(* Model of the text formats: printing and reading constraints, guards and sets
   of clocks (libmonaa/constraint.hh, monaa/timed_automaton_parser.hh), reading
   timed words (libmonaa/lazy_deque.hh) and converting the parsed graph
   (convBoostTA).  Characters are their codes. *)
From Coq Require Import QArith Bool List ZArith Arith Decimal.
From Verif Require Import Num Outcome Constraint Zone TA.
Import ListNotations.
Open Scope nat_scope.

(* ---------------- decimal numbers ---------------- *)

Fixpoint uint_chars (d : Decimal.uint) : list nat :=
  match d with
  | Nil => []
  | D0 d => 48 :: uint_chars d | D1 d => 49 :: uint_chars d | D2 d => 50 :: uint_chars d
  | D3 d => 51 :: uint_chars d | D4 d => 52 :: uint_chars d | D5 d => 53 :: uint_chars d
  | D6 d => 54 :: uint_chars d | D7 d => 55 :: uint_chars d | D8 d => 56 :: uint_chars d
  | D9 d => 57 :: uint_chars d
  end.

Definition digit (c : nat) : option (Decimal.uint -> Decimal.uint) :=
  nth_error [D0; D1; D2; D3; D4; D5; D6; D7; D8; D9] (if c <? 48 then 10 else c - 48).

(* The longest prefix of digits, and the rest. *)
Fixpoint scan_digits (s : list nat) : Decimal.uint * list nat :=
  match s with
  | c :: t => match digit c with
              | Some D => let (d, r) := scan_digits t in (D d, r)
              | None => (Nil, s)
              end
  | [] => (Nil, [])
  end.

(* os << int. *)
Definition int_chars (z : Z) : list nat :=
  match Z.to_int z with
  | Pos d => uint_chars d
  | Neg d => 45 :: uint_chars d
  end.

(* ---------------- std::istream ---------------- *)

(* The rest of the input with failbit and eofbit.  The streams of
   boost::lexical_cast, through which boost::read_graphviz sets the attributes,
   do not skip whitespace. *)
Record istream : Type := mkIs { chars : list nat; failed : bool; ateof : bool }.

Definition good_stream (s : istream) : bool := negb (failed s) && negb (ateof s).
Definition set_fail (s : istream) : istream := mkIs (chars s) true (ateof s).

(* is.get(): [None] is EOF. *)
Definition get (s : istream) : option nat * istream :=
  if good_stream s then
    match chars s with
    | [] => (None, mkIs [] true true)
    | c :: t => (Some c, mkIs t false false)
    end
  else (None, set_fail s).

(* if (is.get() != c) { is.setstate(failbit); return is; } *)
Definition expect (c : nat) (s : istream) : bool * istream :=
  match get s with
  | (Some c', s) => if c' =? c then (true, s) else (false, set_fail s)
  | (None, s) => (false, set_fail s)
  end.

(* is >> c: on failure c keeps its value. *)
Definition read_char (s : istream) : option nat * istream := get s.

Definition int_min : Z := (-2147483648)%Z.
Definition int_max : Z := 2147483647%Z.

(* An optional sign. *)
Definition sign (s : list nat) : bool * list nat :=
  match s with
  | c :: t => if c =? 45 then (true, t) else if c =? 43 then (false, t) else (false, s)
  | [] => (false, [])
  end.

(* is >> x for int x: [None] leaves x as it was; otherwise the value stored (0
   and failbit without digits, the limit and failbit on overflow). *)
Definition read_int (s : istream) : option Z * istream :=
  if good_stream s then
    let '(neg, s1) := sign (chars s) in
    let '(d, r) := scan_digits s1 in
    let e := match r with [] => true | _ => false end in
    match d with
    | Nil => (Some 0%Z, mkIs r true e)
    | _ =>
        let z := Z.of_int (if neg : bool then Neg d else Pos d) in
        if (z <? int_min)%Z then (Some int_min, mkIs r true e)
        else if (int_max <? z)%Z then (Some int_max, mkIs r true e)
        else (Some z, mkIs r false e)
    end
  else (None, set_fail s).

(* Conversion of an int to uint8_t. *)
Definition to_uint8 (z : Z) : nat := Z.to_nat (z mod 256).

(* ---------------- constraints ---------------- *)

(* operator<< for Order, libmonaa/constraint.hh:48-65. *)
Definition cmp_chars (o : cmp) : list nat :=
  match o with Lt => [60] | Le => [60; 61] | Ge => [62; 61] | Gt => [62] end.

(* operator<< for Constraint, libmonaa/constraint.hh:67-70. *)
Definition constr_chars (g : constr) : list nat :=
  [120] ++ int_chars (Z.of_nat (cx g)) ++ [32] ++ cmp_chars (codr g) ++ [32] ++ int_chars (cc g).

(* operator>> for Constraint, monaa/timed_automaton_parser.hh:38-95.  The result
   is [None] when the stream failed.  Reading an uninitialised odr[0] or odr[1]
   (the extraction failed) is undefined. *)
Definition read_order (s : istream) : outcome (option cmp * istream) :=
  let '(o0, s) := read_char s in
  let '(o1, s) := read_char s in
  match o0 with
  | None => UB
  | Some c0 =>
      if (c0 =? 62) || (c0 =? 60) then
        match o1 with
        | None => UB
        | Some c1 =>
            if c1 =? 61 then
              let '(b, s) := expect 32 s in
              if b : bool then Ok (Some (if c0 =? 62 then Ge else Le), s) else Ok (None, s)
            else if c1 =? 32 then Ok (Some (if c0 =? 62 then Gt else Lt), s)
            else Ok (None, set_fail s)
        end
      else Ok (None, set_fail s)
  end.

Definition read_constr (s : istream) : outcome (option constr * istream) :=
  let '(b, s) := expect 120 s in
  if negb b then Ok (None, s) else
  match read_int s with
  | (None, _) => UB
  | (Some x, s) =>
      if failed s then Ok (None, s) else
      let '(b, s) := expect 32 s in
      if negb b then Ok (None, s) else
      do os <- read_order s ;
      match os with
      | (None, s) => Ok (None, s)
      | (Some o, s) =>
          match read_int s with
          | (Some c, s) => if failed s then Ok (None, s) else Ok (Some (mkC (to_uint8 x) o c), s)
          | (None, s) => Ok (None, s)
          end
      end
  end.

(* int x; is >> x; ClockVariables(x), monaa/timed_automaton_parser.hh:130-137. *)
Definition read_clock (s : istream) : outcome (option nat * istream) :=
  match read_int s with
  | (None, s) => UB
  | (Some x, s) => if failed s then Ok (None, s) else Ok (Some (to_uint8 x), s)
  end.

(* ---------------- lists ---------------- *)

(* operator<< for vectors, monaa/timed_automaton_parser.hh:22-35, and the guard
   and reset attributes of libmonaa/timed_automaton.hh:176-199. *)
Fixpoint sep {X} (f : X -> list nat) (l : list X) : list nat :=
  match l with
  | [] => []
  | [x] => f x
  | x :: t => f x ++ [44; 32] ++ sep f t
  end.
Definition list_chars {X} (f : X -> list nat) (l : list X) : list nat := [123] ++ sep f l ++ [125].

(* operator>> for vectors, monaa/timed_automaton_parser.hh:112-154 and 157-201.
   A character c that was not read is uninitialised.  Fuel: one unit per
   element. *)
Fixpoint read_items {X} (f : istream -> outcome (option X * istream)) (fuel : nat) (s : istream)
  : outcome (option (list X) * istream) :=
  match fuel with
  | O => OutOfFuel
  | S k =>
      do xs <- f s ;
      match xs with
      | (None, s) => Ok (None, s)
      | (Some x, s) =>
          match read_char s with
          | (None, _) => UB
          | (Some c, s) =>
              if c =? 125 then Ok (Some [x], s)
              else if c =? 44 then
                let '(b, s) := expect 32 s in
                if negb b then Ok (None, s) else
                do rs <- read_items f k s ;
                match rs with
                | (Some l, s) => Ok (Some (x :: l), s)
                | (None, s) => Ok (None, s)
                end
              else Ok (None, set_fail s)
          end
      end
  end.
Definition read_list {X} (f : istream -> outcome (option X * istream)) (s : istream)
  : outcome (option (list X) * istream) :=
  let '(b, s) := expect 123 s in
  if negb b then Ok (None, s) else read_items f (S (length (chars s))) s.

(* boost::lexical_cast from a string: everything has to be read; otherwise
   bad_lexical_cast. *)
Definition lexical_cast {X} (f : istream -> outcome (option X * istream)) (s : list nat) : outcome X :=
  do r <- f (mkIs s false false) ;
  match r with
  | (Some x, s) => match chars s with [] => Ok x | _ => Throw end
  | (None, _) => Throw
  end.

(* The attributes of an edge. *)
Definition guard_of (s : list nat) : outcome (list constr) := lexical_cast (read_list read_constr) s.
Definition resets_of (s : list nat) : outcome (list nat) := lexical_cast (read_list read_clock) s.
Definition guard_chars : list constr -> list nat := list_chars constr_chars.
(* libmonaa/timed_automaton.hh:188-199 prints int(var). *)
Definition resets_chars : list nat -> list nat := list_chars (fun x => int_chars (Z.of_nat x)).
(* operator<< for ResetVars, monaa/timed_automaton_parser.hh:235-239, prints the
   vector of uint8_t, that is, characters. *)
Definition resetVars_chars : list nat -> list nat := list_chars (fun x => [x]).

(* ---------------- timed words ---------------- *)

(* isspace. *)
Definition space (c : nat) : bool := (c =? 32) || ((9 <=? c) && (c <=? 13)).
Fixpoint skip (s : list nat) : list nat :=
  match s with
  | c :: t => if space c then skip t else s
  | [] => []
  end.

Definition pow10 (z : Z) : Q := Qpower 10 z.

(* What %lf finds. *)
Inductive scanned : Type :=
| Number : Q -> list nat -> scanned
| NoNumber : list nat -> scanned        (* matching or input failure *)
| Unmodelled : scanned.                 (* inf, nan, hexadecimal, exponent without digits *)

Definition scan_exp (m : Q) (s : list nat) : scanned :=
  match s with
  | c :: t =>
      if (c =? 101) || (c =? 69) then
        let '(neg, t1) := sign t in
        let '(d, r) := scan_digits t1 in
        match d with
        | Nil => Unmodelled
        | _ => Number (m * pow10 (Z.of_int (if neg : bool then Neg d else Pos d)))%Q r
        end
      else Number m s
  | [] => Number m []
  end.

Definition mantissa (neg : bool) (d f : Decimal.uint) : Q :=
  let q := (inject_Z (Z.of_uint d) + inject_Z (Z.of_uint f) * pow10 (- Z.of_nat (length (uint_chars f))))%Q in
  if neg then (- q)%Q else q.

Definition scan_lf (s : list nat) : scanned :=
  let '(neg, s1) := sign s in
  let '(d, s2) := scan_digits s1 in
  match s2 with
  | c :: t =>
      if c =? 46 then
        let '(f, s3) := scan_digits t in
        match d, f with
        | Nil, Nil => NoNumber s3
        | _, _ => scan_exp (mantissa neg d f) s3
        end
      else match d with
           | Nil => if existsb (Nat.eqb c) [105; 73; 110; 78] then Unmodelled else NoNumber s2
           | D0 Nil => if (c =? 120) || (c =? 88) then Unmodelled else scan_exp (mantissa neg d Nil) s2
           | _ => scan_exp (mantissa neg d Nil) s2
           end
  | [] => match d with Nil => NoNumber [] | _ => Number (mantissa neg d Nil) [] end
  end.

(* getOne, libmonaa/lazy_deque.hh:12-14: fscanf(file, " %c %lf\n", ...).  The
   result of fscanf is only compared with EOF by the callers, and the pair was
   value-initialised: without a number the time is 0.  [Throw] stands for what
   the model of %lf leaves out. *)
Definition getOne (s : list nat) : outcome (option event * list nat) :=
  match skip s with
  | [] => Ok (None, [])
  | c :: t =>
      match scan_lf (skip t) with
      | Number q r => Ok (Some (c, q), skip r)
      | NoNumber r => Ok (Some (c, 0%Q), r)
      | Unmodelled => Throw
      end
  end.

(* getOneBinary, libmonaa/lazy_deque.hh:16-23.  [dec] decodes eight bytes. *)
Definition getOneBinary (dec : list nat -> Q) (s : list nat) : option event * list nat :=
  match s with
  | [] => (None, [])
  | c :: t => if length t <? 8 then (None, []) else (Some (c, dec (firstn 8 t)), skipn 8 t)
  end.

(* What LazyDeque (Word.v) sees: the events until the first EOF.  Fuel: one
   unit per call. *)
Fixpoint read_word (fuel : nat) (s : list nat) : outcome tword :=
  match fuel with
  | O => OutOfFuel
  | S k =>
      do r <- getOne s ;
      match r with
      | (None, _) => Ok []
      | (Some e, s') => do w <- read_word k s' ; Ok (e :: w)
      end
  end.
Definition text_word (s : list nat) : outcome tword := read_word (S (length s)) s.

Fixpoint read_binary (dec : list nat -> Q) (fuel : nat) (s : list nat) : outcome tword :=
  match fuel with
  | O => OutOfFuel
  | S k =>
      match getOneBinary dec s with
      | (None, _) => Ok []
      | (Some e, s') => do w <- read_binary dec k s' ; Ok (e :: w)
      end
  end.
Definition binary_word (dec : list nat -> Q) (s : list nat) : outcome tword := read_binary dec (S (length s)) s.

(* ---------------- automata ---------------- *)

(* BoostTimedAutomaton, monaa/timed_automaton_parser.hh:241-255: vertices with
   their names, and edges in the order of the file. *)
Record bvert : Type := mkBV { bv_id : nat; bv_init : bool; bv_match : bool }.
Record bedge : Type := mkBE { be_src : nat; be_tgt : nat; be_label : nat; be_resets : list nat; be_guard : list constr }.
Record bgraph : Type := mkBG { bverts : list bvert; bedges : list bedge }.

(* next[c].emplace_back(transition). *)
Fixpoint next_push (c : nat) (e : edge) (nx : list (nat * list edge)) : list (nat * list edge) :=
  match nx with
  | [] => [(c, [e])]
  | (c', es) :: t => if c =? c' then (c', es ++ [e]) :: t else (c', es) :: next_push c e t
  end.

(* maxConstraints.resize; maxConstraints[g.x] = max(..). *)
Definition max_push (l : list Z) (g : constr) : list Z :=
  let l' := l ++ repeat 0%Z (S (cx g) - length l) in
  set_nth l' (cx g) (Z.max (nth (cx g) l' 0%Z) (cc g)).

(* boost::out_edges. *)
Definition out_edges (G : bgraph) (v : nat) : list bedge := filter (fun e => be_src e =? v) (bedges G).

(* convBoostTA, monaa/timed_automaton_parser.hh:270-313.  [al] gives the address
   of the state made for a vertex. *)
Definition conv_edge (al : nat -> ptr) (e : bedge) : edge := mkE (Some (al (be_tgt e))) (be_resets e) (be_guard e).
Definition convBoostTA (al : nat -> ptr) (G : bgraph) : ta :=
  mkTA (map (fun v => (al (bv_id v), mkS (bv_match v) false
               (fold_left (fun nx e => next_push (be_label e) (conv_edge al e) nx) (out_edges G (bv_id v)) []))) (bverts G))
       (map (fun v => al (bv_id v)) (filter bv_init (bverts G)))
       (fold_left max_push (flat_map be_guard (flat_map (fun v => out_edges G (bv_id v)) (bverts G))) []).

(* operator<< for TimedAutomaton, libmonaa/timed_automaton.hh:146-206, as a list
   of vertices and edges with the texts of their attributes; an absent attribute
   is [None].  stateNumber.at(target) throws for a target that is not a state. *)
Record tvert : Type := mkTV { tv_num : nat; tv_init : bool; tv_match : bool; tv_zero : bool }.
Record tedge : Type := mkTE { te_src : nat; te_tgt : nat; te_label : nat; te_guard : option (list nat); te_reset : option (list nat) }.

(* stateNumber: the last position of the address, counted from 1. *)
Fixpoint number (k : nat) (l : list ptr) (p : ptr) : option nat :=
  match l with
  | [] => None
  | q :: t => match number (S k) t p with
              | Some i => Some i
              | None => if p =? q then Some (S k) else None
              end
  end.

Definition attr {X} (f : list X -> list nat) (l : list X) : option (list nat) :=
  match l with [] => None | _ => Some (f l) end.

Fixpoint traverse {X Y} (f : X -> outcome Y) (l : list X) : outcome (list Y) :=
  match l with
  | [] => Ok []
  | x :: t => do y <- f x ; do ys <- traverse f t ; Ok (y :: ys)
  end.

Definition print_edge (A : ta) (n c : nat) (e : edge) : outcome tedge :=
  match etgt e with
  | Some q => match number 0 (map fst (states A)) q with
              | Some m => Ok (mkTE n m c (attr guard_chars (eguard e)) (attr resets_chars (eresets e)))
              | None => Throw
              end
  | None => Throw
  end.

Definition print_ta (A : ta) : outcome (list tvert * list tedge) :=
  let num p := match number 0 (map fst (states A)) p with Some n => n | None => 0 end in
  do es <- traverse (fun ps => traverse (fun ce => traverse (print_edge A (num (fst ps)) (fst ce)) (snd ce)) (next (snd ps))) (states A) ;
  Ok (map (fun ps => mkTV (num (fst ps)) (mem (fst ps) (inits A)) (isMatch (snd ps)) (zeroDur (snd ps))) (states A),
      concat (concat es)).

(* parseBoostTA, monaa/timed_automaton_parser.hh:257-268, on such a list: the
   DOT syntax itself is read by boost::read_graphviz and not modelled; it sets
   each attribute by lexical_cast, and absent attributes keep the empty vector
   made by the constructor.  zero_duration is not among the attributes read. *)
Definition parse_edge (e : tedge) : outcome bedge :=
  do g <- match te_guard e with Some s => guard_of s | None => Ok [] end ;
  do x <- match te_reset e with Some s => resets_of s | None => Ok [] end ;
  Ok (mkBE (te_src e) (te_tgt e) (te_label e) x g).
Definition parseBoostTA (vs : list tvert) (es : list tedge) : outcome bgraph :=
  do bs <- traverse parse_edge es ;
  Ok (mkBG (map (fun v => mkBV (tv_num v) (tv_init v) (tv_match v)) vs) bs).
