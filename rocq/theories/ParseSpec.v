(* What the text of a timed regular expression means: derivation trees of the
   documented grammar (doc/TRE.md), the tokens they derive, the timed words
   they denote, how tokens are spelled, and the usual precedences. *)
From Coq Require Import QArith Bool List ZArith Arith.
From Verif Require Import Num Interval TA Tre Parse.
Import ListNotations.
Open Scope nat_scope.

(* Time restrictions. *)
Inductive restr : Type :=
| RRange : bool -> Z -> Z -> bool -> restr      (* left closed?, bounds, right closed? *)
| RLt : Z -> restr
| RLe : Z -> restr
| REq : Z -> restr
| RGe : Z -> restr
| RGt : Z -> restr
| RPar : restr -> restr.

(* Derivation trees of the grammar. *)
Inductive sx : Type :=
| XAtom : nat -> sx
| XPar : sx -> sx
| XPlus : sx -> sx
| XStar : sx -> sx
| XCat : sx -> sx -> sx
| XOr : sx -> sx -> sx
| XAnd : sx -> sx -> sx
| XIn : sx -> restr -> sx.

(* The tokens a tree derives. *)
Fixpoint rtoks (r : restr) : list token :=
  match r with
  | RRange lc a b rc => [if lc then TLsq else TLp; TInt a; TComma; TInt b; if rc then TRsq else TRp]
  | RLt z => [TLt; TInt z]
  | RLe z => [TLe; TInt z]
  | REq z => [TEq; TInt z]
  | RGe z => [TGe; TInt z]
  | RGt z => [TGt; TInt z]
  | RPar r1 => [TLp] ++ rtoks r1 ++ [TRp]
  end.
Fixpoint toks (x : sx) : list token :=
  match x with
  | XAtom c => [TAtom c]
  | XPar y => [TLp] ++ toks y ++ [TRp]
  | XPlus y => toks y ++ [TPlus]
  | XStar y => toks y ++ [TStar]
  | XCat y z => toks y ++ toks z
  | XOr y z => toks y ++ [TOr] ++ toks z
  | XAnd y z => toks y ++ [TAnd] ++ toks z
  | XIn y r => toks y ++ [TWithin] ++ rtoks r
  end.

(* The durations a restriction allows, and the timed words of a tree. *)
Fixpoint rin (r : restr) (d : Q) : Prop :=
  match r with
  | RRange lc a b rc => (if lc then inject_Z a <= d else inject_Z a < d)%Q /\
                        (if rc then d <= inject_Z b else d < inject_Z b)%Q
  | RLt z => (0 <= d /\ d < inject_Z z)%Q
  | RLe z => (0 <= d /\ d <= inject_Z z)%Q
  | REq z => (d == inject_Z z)%Q
  | RGe z => (inject_Z z <= d)%Q
  | RGt z => (inject_Z z < d)%Q
  | RPar r1 => rin r1 d
  end.
Fixpoint sem (x : sx) (u : dword) : Prop :=
  match x with
  | XAtom c => exists d, u = [(c, d)]
  | XPar y => sem y u
  | XPlus y => exists us, us <> [] /\ Forall (sem y) us /\ u = concat us
  | XStar y => exists us, Forall (sem y) us /\ u = concat us
  | XCat y z => exists u1 u2, u = u1 ++ u2 /\ sem y u1 /\ sem z u2
  | XOr y z => sem y u \/ sem z u
  | XAnd y z => sem y u /\ sem z u
  | XIn y r => sem y u /\ rin r (duration u)
  end.

(* Spellings of a sequence of tokens: blanks may stand anywhere between tokens,
   and nothing after a newline counts. *)
Definition punct (t : token) : option (list nat) :=
  match t with
  | TOr => Some [124] | TAnd => Some [38] | TStar => Some [42] | TPlus => Some [43] | TWithin => Some [37]
  | TLp => Some [40] | TRp => Some [41] | TLsq => Some [91] | TRsq => Some [93] | TComma => Some [44]
  | TGt => Some [62] | TGe => Some [62; 61] | TLe => Some [60; 61] | TLt => Some [60] | TEq => Some [61]
  | _ => None
  end.
(* The value of a sequence of decimal digits. *)
Fixpoint value (acc : Z) (ds : list nat) : Z :=
  match ds with
  | [] => acc
  | c :: t => value (10 * acc + (Z.of_nat c - 48)) t
  end.
Definition decimal (c : nat) : Prop := 48 <= c <= 57.
Definition letter (c : nat) : Prop := 65 <= c <= 90 \/ 97 <= c <= 122 \/ c = 36.
Definition starts (P : nat -> Prop) (s : list nat) : Prop := match s with c :: _ => P c | [] => False end.

Inductive spells : list token -> list nat -> Prop :=
| sp_end : spells [] []
| sp_newline : forall s, spells [] (10 :: s)
| sp_blank : forall c ts s, c = 32 \/ c = 9 -> spells ts s -> spells ts (c :: s)
| sp_letter : forall c ts s, letter c -> spells ts s -> spells (TAtom c :: ts) (c :: s)
| sp_punct : forall t cs ts s, punct t = Some cs -> (t = TLt \/ t = TGt -> ~ starts (eq 61) s) ->
    spells ts s -> spells (t :: ts) (cs ++ s)
| sp_int : forall ds ts s, ds <> [] -> Forall decimal ds -> (value 0 ds <= 2147483647)%Z -> ~ starts decimal s ->
    spells ts s -> spells (TInt (value 0 ds) :: ts) (ds ++ s).

(* Trees as the usual precedences give them: postfix operators first, then
   concatenation, then &, then |. *)
Fixpoint usual (lvl : nat) (x : sx) : Prop :=
  match x with
  | XAtom _ => True
  | XPar y => usual 0 y
  | XPlus y | XStar y | XIn y _ => usual 3 y
  | XCat y z => lvl <= 2 /\ usual 3 y /\ usual 2 z
  | XAnd y z => lvl <= 1 /\ usual 2 y /\ usual 1 z
  | XOr y z => lvl <= 0 /\ usual 1 y /\ usual 0 z
  end.

(* A tree that is a single item: not a bare concatenation, | or &. *)
Definition item (x : sx) : Prop := match x with XCat _ _ | XOr _ _ | XAnd _ _ => False | _ => True end.
(* Every left operand of | and & is a single item. *)
Fixpoint left_items (x : sx) : Prop :=
  match x with
  | XAtom _ => True
  | XPar y | XPlus y | XStar y | XIn y _ => left_items y
  | XCat y z => left_items y /\ left_items z
  | XOr y z | XAnd y z => item y /\ left_items y /\ left_items z
  end.

(* A tree written out with parentheses around every operation. *)
Fixpoint paren (x : sx) : sx :=
  match x with
  | XAtom c => XAtom c
  | XPar y => paren y
  | XPlus y => XPar (XPlus (paren y))
  | XStar y => XPar (XStar (paren y))
  | XCat y z => XPar (XCat (paren y) (paren z))
  | XOr y z => XPar (XOr (paren y) (paren z))
  | XAnd y z => XPar (XAnd (paren y) (paren z))
  | XIn y r => XPar (XIn (paren y) r)
  end.

(* The characters a text may have. *)
Definition legal (c : nat) : Prop :=
  letter c \/ decimal c \/ In c [9; 10; 32; 37; 38; 40; 41; 42; 43; 44; 60; 61; 62; 91; 93; 124].
