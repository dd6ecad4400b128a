(* What a match is for a pattern with unobservable (character 0) transitions. *)
From Coq Require Import QArith List.
From Verif Require Import Constraint Zone TA Spec.
Import ListNotations.
Open Scope Q_scope.

(* As [signal_matches], by a run over [u]: the events of [w] between t and t' and
   unobservable steps at any times between t and t'. *)
Definition eps_matches_by (A : ta) (w : tword) (t t' : Q) (u : tword) : Prop :=
  0 <= t /\ t <= t' /\
  exists pre c tau post p q v T e acc,
    w = pre ++ (c, tau) :: post /\ (forall x, In x pre -> snd x < t') /\ t' <= tau /\
    In p (inits A) /\ observe u = between w t t' /\ nondecreasing t (u ++ [(c, t')]) /\
    run A p zeroval t u q v T /\
    is_edge A q c e /\ etgt e = Some acc /\ accepting A acc /\
    sat_guard (delay v (t' - T)) (eguard e).

Definition eps_matches (A : ta) (w : tword) (t t' : Q) : Prop := exists u, eps_matches_by A w t t' u.

(* Every unobservable step of [u] is strictly later than the events of [w] that
   come before it. *)
Definition late (w : tword) (t : Q) (u : tword) : Prop :=
  forall u1 s u2, u = u1 ++ (0%nat, s) :: u2 ->
    (forall x, In x w -> snd x <= t -> snd x < s) /\ (forall x, In x (observe u1) -> snd x < s).
