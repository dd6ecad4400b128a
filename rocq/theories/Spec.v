(* Specification vocabulary: timed runs, languages, matches.  Independent of
   the functions of the model; shares only the syntax of automata. *)
From Coq Require Import QArith Bool List ZArith Arith.
From Verif Require Import Num Constraint Zone TA.
Import ListNotations.
Open Scope Q_scope.

(* A constraint holds for a clock value. *)
Definition holds (g : constr) (d : Q) : Prop :=
  match codr g with
  | Lt => d < inject_Z (cc g)
  | Le => d <= inject_Z (cc g)
  | Ge => inject_Z (cc g) <= d
  | Gt => inject_Z (cc g) < d
  end.

(* All constraints of a guard hold in a clock valuation. *)
Definition sat_guard (v : valuation) (gs : list constr) : Prop :=
  forall g, In g gs -> holds g (v (cx g)).

Definition delay (v : valuation) (d : Q) : valuation := fun x => v x + d.
Definition reset_set (v : valuation) (xs : list nat) : valuation :=
  fun x => if in_dec Nat.eq_dec x xs then 0 else v x.
Definition zeroval : valuation := fun _ => 0.

(* [e] is a transition of [A] from state [p] on character [c]. *)
Definition is_edge (A : ta) (p : ptr) (c : nat) (e : edge) : Prop :=
  exists s es, In (p, s) (states A) /\ In (c, es) (next s) /\ In e es.

Definition accepting (A : ta) (p : ptr) : Prop :=
  exists s, In (p, s) (states A) /\ isMatch s = true.

(* A run of [A] from state [p], clock valuation [v] at time [T], reading the
   timed word, to a state, valuation and time. *)
Inductive run (A : ta) : ptr -> valuation -> Q -> tword -> ptr -> valuation -> Q -> Prop :=
| run_nil : forall p v T, run A p v T [] p v T
| run_cons : forall p v T c t e w q p' v' T',
    is_edge A p c e -> etgt e = Some q -> sat_guard (delay v (t - T)) (eguard e) ->
    run A q (reset_set (delay v (t - T)) (eresets e)) t w p' v' T' ->
    run A p v T ((c, t) :: w) p' v' T'.

(* Timed language, time starting at 0. *)
Definition accepts (A : ta) (w : tword) : Prop :=
  exists p q v T, In p (inits A) /\ run A p zeroval 0 w q v T /\ accepting A q.

(* The events strictly between t and t'. *)
Definition between (w : tword) (t t' : Q) : tword :=
  filter (fun e => andb (negb (Qle_bool (snd e) t)) (negb (Qle_bool t' (snd e)))) w.

(* (t,t') is a match of the pattern [A] ending with '$' in [w]. *)
Definition matches (A : ta) (w : tword) (t t' : Q) : Prop :=
  0 <= t /\ t <= t' /\
  exists p q v T e acc,
    In p (inits A) /\
    run A p zeroval t (between w t t') q v T /\
    is_edge A q dollar e /\ etgt e = Some acc /\ accepting A acc /\
    sat_guard (delay v (t' - T)) (eguard e).

(* (t,t') is a match of [A] in the sense of monaa(): the events strictly between
   t and t' lead to a state with a transition, on the character of the next
   event, into an accepting state that is enabled at t'. *)
Definition signal_matches (A : ta) (w : tword) (t t' : Q) : Prop :=
  0 <= t /\ t <= t' /\
  exists pre c tau post p q v T e acc,
    w = pre ++ (c, tau) :: post /\ (forall x, In x pre -> snd x < t') /\ t' <= tau /\
    In p (inits A) /\
    run A p zeroval t (between w t t') q v T /\
    is_edge A q c e /\ etgt e = Some acc /\ accepting A acc /\
    sat_guard (delay v (t' - T)) (eguard e).

(* (t,t') is a match that ends with an event at t': the events after t, up to
   that event, lead to an accepting state. *)
Definition event_matches (A : ta) (w : tword) (t t' : Q) : Prop :=
  0 <= t /\
  exists w1 w2 w3 p q v T,
    w = w1 ++ w2 ++ w3 /\ (forall x, In x w1 -> snd x <= t) /\ (forall x, In x w2 -> t < snd x) /\ w2 <> [] /\
    In p (inits A) /\ run A p zeroval t w2 q v T /\ accepting A q /\ T == t'.

(* Time stamps do not decrease / strictly increase, starting from a lower
   bound. *)
Fixpoint nondecreasing (lo : Q) (w : tword) : Prop :=
  match w with
  | [] => True
  | (_, t) :: w' => lo <= t /\ nondecreasing t w'
  end.

Fixpoint increasing (lo : Q) (w : tword) : Prop :=
  match w with
  | [] => True
  | (_, t) :: w' => lo < t /\ increasing t w'
  end.

(* The observable part of a word with unobservable (character 0) steps, and
   the timed language of an automaton with unobservable transitions. *)
Definition observe (w : tword) : tword := filter (fun e => negb (fst e =? 0)%nat) w.
Definition lang (A : ta) (u : tword) : Prop :=
  exists w, observe w = u /\ nondecreasing 0 w /\ accepts A w.
