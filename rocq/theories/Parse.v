(* Model of monaa/tre_lexer.l, monaa/tre_parser.yy and monaa/tre_driver.hh: the
   text of a timed regular expression.  Characters are numbers (ASCII codes). *)
From Coq Require Import QArith Bool List ZArith Arith.
From Verif Require Import Num Outcome Interval Constraint Zone TA Tre Text.
Import ListNotations.
Open Scope nat_scope.

(* ---------------- the lexer ---------------- *)

(* The tokens of monaa/tre_parser.yy:34-53.  [TJam]: no rule of the lexer
   matches, which ends the process (%option nodefault, monaa/tre_lexer.l:19).
   [TOver]: the number does not fit in an int, so that atoi is undefined
   (monaa/tre_lexer.l:51). *)
Inductive token : Type :=
| TAtom : nat -> token
| TInt : Z -> token
| TOr | TAnd | TStar | TPlus | TWithin | TLp | TRp | TLsq | TRsq
| TComma | TGt | TGe | TLe | TLt | TEq | TEnd | TJam | TOver.

Definition digit_val (c : nat) : option Z :=
  if (48 <=? c) && (c <=? 57) then Some (Z.of_nat (c - 48)) else None.
Definition is_letter (c : nat) : bool :=
  ((65 <=? c) && (c <=? 90)) || ((97 <=? c) && (c <=? 122)) || (c =? 36).

(* The token of the digits read so far, monaa/tre_lexer.l:50-53. *)
Definition flush (num : option Z) : list token :=
  match num with
  | None => []
  | Some z => if (z <=? int_max)%Z then [TInt z] else [TOver]
  end.

(* The tokens of one character, monaa/tre_lexer.l:29-39 and 42-43. *)
Definition sign_of (c : nat) : option token :=
  option_map snd (find (fun k => fst k =? c)
    [(37, TWithin); (38, TAnd); (40, TLp); (41, TRp); (42, TStar); (43, TPlus); (44, TComma); (60, TLt);
     (61, TEq); (62, TGt); (91, TLsq); (93, TRsq); (124, TOr)]).

(* The tokens of a text, monaa/tre_lexer.l:29-56 (the longest match is taken);
   [num] is the value of the digits before [s]. *)
Fixpoint lex_from (num : option Z) (s : list nat) : list token :=
  match s with
  | [] => flush num ++ [TEnd]
  | c :: t =>
      match digit_val c with
      | Some d => lex_from (Some (match num with Some z => 10 * z + d | None => d end)%Z) t
      | None =>
          flush num ++
          (if is_letter c then TAtom c :: lex_from None t
           else if (c =? 32) || (c =? 9) then lex_from None t                (* blank *)
           else if c =? 10 then [TEnd]                                       (* newline *)
           else match sign_of c with
                | Some k =>
                    match k, t with
                    | TLt, x :: t' => if x =? 61 then TLe :: lex_from None t' else TLt :: lex_from None t
                    | TGt, x :: t' => if x =? 61 then TGe :: lex_from None t' else TGt :: lex_from None t
                    | _, _ => k :: lex_from None t
                    end
                | None => [TJam]
                end)
      end
  end.
Definition lex (s : list nat) : list token := lex_from None s.

(* ---------------- the parser ---------------- *)

(* The symbols on the stack of the generated parser.  An opening parenthesis of
   an expression ([SLp]) and of an interval ([SIp]) lead to different states. *)
Inductive sym : Type :=
| SE : tre -> sym
| SLp | SOr | SAnd | SWithin | SIp | SIsq
| SCmp : token -> sym
| SInt : Z -> sym
| SComma : sym
| SI : interval -> sym.

(* Reductions of expr expr, expr | expr and expr & expr,
   monaa/tre_parser.yy:71-73. *)
Fixpoint reduce (r : tre) (st : list sym) : tre * list sym :=
  match st with
  | SE l :: st' => reduce (Cat l r) st'
  | SOr :: SE l :: st' => reduce (Alt l r) st'
  | SAnd :: SE l :: st' => reduce (And l r) st'
  | _ => (r, st)
  end.

(* The intervals, monaa/tre_parser.yy:78-86. *)
Definition zbound (z : Z) (f : bool) : bound := (Fin (inject_Z z), f).
Definition cmp_interval (t : token) (z : Z) : option interval :=
  match t with
  | TLt => Some (mkI (zbound 0 true) (zbound z false))
  | TLe => Some (mkI (zbound 0 true) (zbound z true))
  | TEq => Some (mkI (zbound z true) (zbound z true))
  | TGe => Some (mkI (zbound z true) (PInf, false))
  | TGt => Some (interval_from z)
  | _ => None
  end.

(* After an interval: expr % interval is reduced at once; a parenthesised one
   waits for the closing parenthesis. *)
Definition interval_done (J : interval) (st : list sym) : option (list sym) :=
  match st with
  | SWithin :: SE r :: st' => Some (SE (Within r J) :: st')
  | SIp :: st' => Some (SI J :: SIp :: st')
  | _ => None
  end.

(* Shifting a token that is not the end of the text, with the reductions before
   and after it.  The grammar is ambiguous and has no precedences: bison
   resolves each conflict by shifting.  [None]: syntax error. *)
Definition step (st : list sym) (t : token) : option (list sym) :=
  match st, t with
  (* in an interval *)
  | SWithin :: _, TLp => Some (SIp :: st)
  | SWithin :: _, TLsq => Some (SIsq :: st)
  | SWithin :: _, (TLt | TLe | TEq | TGe | TGt) => Some (SCmp t :: st)
  | SIp :: _, TInt z => Some (SInt z :: st)
  | SIp :: _, TLp => Some (SIp :: st)
  | SIp :: _, TLsq => Some (SIsq :: st)
  | SIp :: _, (TLt | TLe | TEq | TGe | TGt) => Some (SCmp t :: st)
  | SIsq :: _, TInt z => Some (SInt z :: st)
  | SCmp o :: st', TInt z => match cmp_interval o z with Some J => interval_done J st' | None => None end
  | SComma :: _, TInt z => Some (SInt z :: st)
  | SInt b :: SComma :: SInt a :: SIp :: st', TRp => interval_done (interval_open a b) st'
  | SInt b :: SComma :: SInt a :: SIsq :: st', TRp => interval_done (mkI (zbound a true) (zbound b false)) st'
  | SInt b :: SComma :: SInt a :: SIp :: st', TRsq => interval_done (mkI (zbound a false) (zbound b true)) st'
  | SInt b :: SComma :: SInt a :: SIsq :: st', TRsq => interval_done (mkI (zbound a true) (zbound b true)) st'
  | SInt _ :: SComma :: _, _ => None
  | SInt _ :: _, TComma => Some (SComma :: st)
  | SI J :: SIp :: st', TRp => interval_done J st'
  (* after an expression *)
  | SE _ :: _, TAtom c => Some (SE (Atom c) :: st)
  | SE _ :: _, TLp => Some (SLp :: st)
  | SE _ :: _, TOr => Some (SOr :: st)
  | SE _ :: _, TAnd => Some (SAnd :: st)
  | SE _ :: _, TWithin => Some (SWithin :: st)
  | SE r :: st', TPlus => Some (SE (mkPlus r) :: st')
  | SE r :: st', TStar => Some (SE (mkStar r) :: st')
  | SE r :: st', TRp => match reduce r st' with (q, SLp :: st'') => Some (SE q :: st'') | _ => None end
  (* where an expression must start *)
  | ([] | SLp :: _ | SOr :: _ | SAnd :: _), TAtom c => Some (SE (Atom c) :: st)
  | ([] | SLp :: _ | SOr :: _ | SAnd :: _), TLp => Some (SLp :: st)
  | _, _ => None
  end.

(* unit : expr END, monaa/tre_parser.yy:62. *)
Definition accept (st : list sym) : option tre :=
  match st with
  | SE r :: st' => match reduce r st' with (q, []) => Some q | _ => None end
  | _ => None
  end.

(* parser.parse(): [Ok None] is a syntax error. *)
Fixpoint parse_from (st : list sym) (ts : list token) : outcome (option tre) :=
  match ts with
  | [] => Ok None
  | TEnd :: _ => Ok (accept st)
  | TJam :: _ => Exit 2
  | TOver :: _ => UB
  | t :: ts' => match step st t with Some st' => parse_from st' ts' | None => Ok None end
  end.

(* TREDriver::parse, monaa/tre_driver.hh:40-46 and 54-59. *)
Definition parse (s : list nat) : outcome (option tre) := parse_from [] (lex s).

(* operator<< for TRE, monaa/tre.cc:7-37, and for Interval and Bounds,
   libmonaa/interval.hh:249-253 and libmonaa/zone.hh:29-32 (numbers that are not
   integers are not modelled). *)
Definition num_chars (n : num) : list nat :=
  match n with
  | Fin q => int_chars (Qnum (Qred q))
  | PInf => [105; 110; 102]
  | MInf => [45; 105; 110; 102]
  | NaN => [110; 97; 110]
  end.
Definition bound_chars (b : bound) : list nat :=
  [40] ++ num_chars (fst b) ++ [44; 32; if snd b then 49 else 48; 41].
Fixpoint show (r : tre) : list nat :=
  match r with
  | Atom c => [c]
  | Eps => [64]
  | Plus r1 => [40] ++ show r1 ++ [43; 41]
  | Cat r1 r2 => [40] ++ show r1 ++ show r2 ++ [41]
  | Alt r1 r2 => [40] ++ show r1 ++ [124] ++ show r2 ++ [41]
  | And r1 r2 => [40] ++ show r1 ++ [38] ++ show r2 ++ [41]
  | Within r1 J => [40] ++ show r1 ++ [37; 40] ++ bound_chars (lob J) ++ [44] ++ bound_chars (upb J) ++ [41; 41]
  end.
