(* Property C84: the public helpers that the program itself does not call. *)
From Coq Require Import QArith Lqa Bool List ZArith Arith Lia.
From Verif Require Import Num NumFacts Outcome Constraint Zone TA Spec TAFacts Tre Monaa Unused.
Import ListNotations.
Open Scope nat_scope.

(* ================= the interval helpers ================= *)
Lemma ok_inj : forall {X} (a b : X), Ok a = Ok b -> a = b.
Proof. intros X a b E. now injection E. Qed.


(* Specification: a value respects a lower bound. *)
Definition above (b : bound) (d : Q) : Prop :=
  match fst b with
  | Fin q => if snd b then (q <= d)%Q else (q < d)%Q
  | MInf => True
  | PInf => False
  | NaN => False
  end.

(* updateConstraint cuts the interval with one constraint, for a clock that was
   reset at [r]: exactly the values of the interval that satisfy it stay. *)
Theorem C84_update : forall up lo x o c r d,
  good up -> (fst lo = MInf \/ exists q, fst lo = Fin q) ->
  let B := updateConstraint up lo o (Fin (inject_Z c + r)) in
  (below (fst B) d /\ above (snd B) d <-> below up d /\ above lo d /\ holds (mkC x o c) (d - r)%Q).
Proof.
  intros [u us] [l ls] x o c r d G L B. unfold B. cbn [fst snd] in *. clear B.
  unfold holds. cbn [codr cc]. set (k := inject_Z c). clearbody k. unfold good in G. cbn [fst] in G.
  unfold updateConstraint. destruct o; cbn [fst snd].
  - destruct u as [| |u|]; try contradiction; cbn [nltb neqb].
    + destruct (Qltb (k + r) u) eqn:E; [apply Qltb_true in E|apply Qltb_false in E; destruct (Qeq_bool u (k + r)) eqn:F; [apply Qeq_bool_iff in F|apply Qeq_bool_neq in F]];
        unfold below; cbn [fst snd]; destruct us; split; intros H; repeat split; try tauto; try (decompose [and] H; lra).
      all: destruct (Q_dec u (k + r)) as [[K|K]|K]; try (exfalso; lra); decompose [and] H; lra.
    + unfold below; cbn [fst snd]. split; intros H; repeat split; try tauto; decompose [and] H; lra.
  - destruct u as [| |u|]; try contradiction; cbn [nltb neqb].
    + destruct (Qltb (k + r) u) eqn:E; [apply Qltb_true in E|apply Qltb_false in E];
        unfold below; cbn [fst snd]; destruct us; split; intros H; repeat split; try tauto; try (decompose [and] H; lra).
    + unfold below; cbn [fst snd]. split; intros H; repeat split; try tauto; decompose [and] H; lra.
  - destruct L as [->|[l' ->]]; cbn [nltb neqb].
    + unfold above; cbn [fst snd]. split; intros H; repeat split; try tauto; decompose [and] H; lra.
    + destruct (Qltb l' (k + r)) eqn:E; [apply Qltb_true in E|apply Qltb_false in E];
        unfold above; cbn [fst snd]; destruct ls; split; intros H; repeat split; try tauto; try (decompose [and] H; lra).
  - destruct L as [->|[l' ->]]; cbn [nltb neqb].
    + unfold above; cbn [fst snd]. split; intros H; repeat split; try tauto; decompose [and] H; lra.
    + destruct (Qltb l' (k + r)) eqn:E; [apply Qltb_true in E|apply Qltb_false in E; destruct (Qeq_bool l' (k + r)) eqn:F; [apply Qeq_bool_iff in F|apply Qeq_bool_neq in F]];
        unfold above; cbn [fst snd]; destruct ls; split; intros H; repeat split; try tauto; try (decompose [and] H; lra).
      all: destruct (Q_dec l' (k + r)) as [[K|K]|K]; try (exfalso; lra); decompose [and] H; lra.
Qed.

Example C84_update_case :
  updateConstraint (Fin 5, true) (Fin 1, true) Gt (Fin (inject_Z 1 + (1#2))) = ((Fin 5, true), (Fin (inject_Z 1 + (1#2)), false)) /\
  below (Fin 5, true) 3 /\ above (Fin (3#2), false) 3 /\ ~ above (Fin (3#2), false) (3#2).
Proof. split; [reflexivity|]. unfold below, above; cbn. repeat split; lra. Qed.

(* isValidConstraint says whether some value respects both bounds; the lower
   bound is negated for it. *)
Theorem C84_valid : forall up lo, good up -> good lo ->
  (isValidConstraint up lo = true <-> exists d, below up d /\ below lo (- d)%Q).
Proof.
  intros [u us] [l ls] Gu Gl. unfold isValidConstraint, bgeb, badd, bzero, below, good in *. cbn [fst snd] in *.
  destruct u as [| |u|], l as [| |l|]; try contradiction; cbn [nadd neqb nltb].
  - destruct (Qeq_bool (u + l) 0) eqn:E; [apply Qeq_bool_iff in E|apply Qeq_bool_neq in E].
    + destruct us, ls; cbn; split; intros H; try discriminate; try reflexivity;
        try (exists u; lra); try (destruct H as (d & H1 & H2); lra).
    + rewrite Qltb_true. split; intros H.
      * exists ((u - l) / 2)%Q. assert (K : ((u - l) / 2 == (u - l) * (1#2))%Q) by field. destruct us, ls; rewrite ?K; lra.
      * destruct H as (d & H1 & H2). assert (M : (0 <= u + l)%Q) by (destruct us, ls; lra). destruct (Q_dec 0 (u + l)) as [[K|K]|K]; lra.
  - split; [intros _|reflexivity]. exists (u - 1)%Q. destruct us; split; auto; lra.
  - split; [intros _|reflexivity]. exists (1 - l)%Q. destruct ls; split; auto; lra.
  - split; [intros _|reflexivity]. exists 0%Q. auto.
Qed.

(* The two helpers do not fit together: updateConstraint keeps the lower bound
   as it is, isValidConstraint takes it negated.  After x < 1 the interval from 2
   is empty, isValidConstraint says it is not. *)
Theorem C84_together_refuted : exists up lo o c,
  let B := updateConstraint up lo o (Fin (inject_Z c)) in
  good up /\ good lo /\ (forall d, ~ (below (fst B) d /\ above (snd B) d)) /\ isValidConstraint (fst B) (snd B) = true.
Proof.
  exists (Fin 5, true), (Fin 2, true), Lt, 1%Z. cbn. repeat split; auto.
  intros d [H1 H2]. change (d < 1)%Q in H1. change (2 <= d)%Q in H2. lra.
Qed.

(* The operators of ConstraintMaker say what they look like. *)
Theorem C84_maker : forall x c d,
  (satisfy (mk_lt x c) d = true <-> (d < inject_Z c)%Q) /\ (satisfy (mk_le x c) d = true <-> (d <= inject_Z c)%Q) /\
  (satisfy (mk_gt x c) d = true <-> (inject_Z c < d)%Q) /\ (satisfy (mk_ge x c) d = true <-> (inject_Z c <= d)%Q) /\
  cx (mk_lt x c) = x /\ cx (mk_le x c) = x /\ cx (mk_gt x c) = x /\ cx (mk_ge x c) = x.
Proof.
  intros x c d. unfold satisfy, mk_lt, mk_le, mk_gt, mk_ge; cbn [codr cc cx]. rewrite !Qltb_true, !Qle_bool_iff. tauto.
Qed.

(* ================= removeUnreachableStates ================= *)

(* Specification: a state that transitions lead to from an initial state. *)
Inductive reached (A : ta) : ptr -> Prop :=
| reached_init : forall p, In p (inits A) -> reached A p
| reached_next : forall p s c es e q, reached A p -> deref A p = Some s -> In (c, es) (next s) -> In e es -> etgt e = Some q -> reached A q.

(* It is undefined on every automaton that has an initial state. *)
Theorem C84_unreachable_undefined : forall fuel A, inits A <> [] -> removeUnreachableStates fuel A = UB.
Proof. intros fuel A H. unfold removeUnreachableStates. destruct (inits A); [contradiction|reflexivity]. Qed.

(* On an automaton without one, where no state is reached, it removes nothing. *)
Theorem C84_unreachable_nothing : forall fuel A, inits A = [] ->
  removeUnreachableStates (S fuel) A = Ok A /\ forall p, ~ reached A p.
Proof.
  intros fuel A H. unfold removeUnreachableStates, unreachable_from. rewrite H. cbn. split.
  - f_equal. destruct A as [st i m]; cbn in *. subst i. f_equal. induction st as [|x st IH]; cbn; [reflexivity|f_equal; exact IH].
  - intros p R. induction R; auto. rewrite H in H0. contradiction.
Qed.

(* So it never leaves the reached states only, unless there is no state. *)
Theorem C84_unreachable_refuted : exists A, forall fuel B, removeUnreachableStates fuel A = Ok B ->
  ~ (forall p, In p (map fst (states B)) <-> In p (map fst (states A)) /\ reached A p).
Proof.
  exists (mkTA [(0, mkS true false [])] [] []). intros fuel B E H.
  destruct fuel; [discriminate|]. cbn in E. apply ok_inj in E. subst B. destruct (proj1 (H 0) (or_introl eq_refl)) as [_ R].
  destruct (C84_unreachable_nothing 0 (mkTA [(0, mkS true false [])] [] []) eq_refl) as [_ N]. exact (N 0 R).
Qed.

Lemma not_null_in : forall l r, not_null l = Ok r -> forall q, In q r <-> In (Some q) l.
Proof.
  induction l as [|[x|] t IH]; intros r E q; cbn in E.
  - apply ok_inj in E. subst. cbn. tauto.
  - destruct (not_null t) as [r'| | | |]; try discriminate. apply ok_inj in E. subst. cbn. rewrite (IH _ eq_refl q). split; intros [K|K]; auto; left; congruence.
  - discriminate.
Qed.

Definition steps (A : ta) (p q : ptr) : Prop :=
  exists s c es e, deref A p = Some s /\ In (c, es) (next s) /\ In e es /\ etgt e = Some q.

Lemma targets_in : forall s q, In (Some q) (targets s) <-> exists c es e, In (c, es) (next s) /\ In e es /\ etgt e = Some q.
Proof.
  intros s q. unfold targets. rewrite in_flat_map. split.
  - intros ([c es] & H1 & H2). apply in_map_iff in H2 as (e & H2 & H3). now exists c, es, e.
  - intros (c & es & e & H1 & H2 & H3). exists (c, es). split; auto. apply in_map_iff. now exists e.
Qed.

Lemma next_states_in : forall A new r, next_states A new = Ok r -> forall q, In q r <-> exists p, In p new /\ steps A p q.
Proof.
  intros A. induction new as [|p t IH]; intros r E q; cbn in E.
  - apply ok_inj in E. subst. cbn. split; [tauto|]. now intros (p & [] & _).
  - destruct (deref A p) as [s|] eqn:D; [|discriminate]. destruct (not_null (targets s)) as [l| | | |] eqn:N; try discriminate. cbn [bind] in E.
    destruct (next_states A t) as [r'| | | |]; try discriminate. cbn [bind] in E. apply ok_inj in E. subst r.
    rewrite in_app_iff, (not_null_in _ _ N), targets_in, (IH _ eq_refl). split.
    + intros [(c & es & e & H1 & H2 & H3)|(p' & H1 & H2)].
      * exists p. split; [left; auto|]. now exists s, c, es, e.
      * exists p'. split; [right; auto|auto].
    + intros (p' & [->|H1] & H2).
      * left. destruct H2 as (s' & c & es & e & H2 & H3 & H4 & H5). assert (s' = s) by congruence. subst s'. now exists c, es, e.
      * right. now exists p'.
Qed.

Lemma reach_loop_in : forall fuel A seen new r,
  reach_loop fuel A seen new = Ok r ->
  (forall p, In p seen -> reached A p) -> (forall p, In p new -> reached A p) ->
  (forall p, In p (inits A) -> In p (seen ++ new)) ->
  (forall p q, In p seen -> ~ In p new -> steps A p q -> In q (seen ++ new)) ->
  forall p, In p r <-> reached A p.
Proof.
  induction fuel as [|f IH]; intros A seen new r E S N I C p; [discriminate|]. cbn in E.
  destruct new as [|x t].
  - apply ok_inj in E. subst r. rewrite app_nil_r in *. split; [apply S|]. intros R. induction R as [p H|p s c es e q R IHR H1 H2 H3 H4]; auto.
    apply (C p); auto. now exists s, c, es, e.
  - set (new := x :: t) in *. destruct (next_states A new) as [nx| | | |] eqn:X; try discriminate. cbn [bind] in E.
    destruct (nodupb nx); [|discriminate]. pose proof (next_states_in _ _ _ X) as XI.
    refine (IH _ _ _ _ E _ _ _ _ p).
    + intros q H. apply in_app_iff in H as [H|H]; auto.
    + intros q H. apply filter_In in H as [H _]. apply XI in H as (p' & H1 & (s & c & es & e & H2 & H3 & H4 & H5)). eapply reached_next; eauto.
    + intros q H. apply in_app_iff. left. auto.
    + intros q q' H1 H2 H3. assert (M : forall z, {In z (seen ++ new)} + {~ In z (seen ++ new)}) by (intros z; apply in_dec, Nat.eq_dec).
      destruct (in_dec Nat.eq_dec q new) as [K|K].
      * apply in_app_iff. destruct (M q') as [L|L]; [left; auto|right]. apply filter_In. split; [apply XI; now exists q|].
        destruct (mem q' (seen ++ new)) eqn:Y; [|reflexivity]. apply mem_In in Y. contradiction.
      * apply in_app_iff. left. apply in_app_iff in H1 as [H1|H1]; [|contradiction]. exact (C _ _ H1 K H3).
Qed.

(* And if the vector had room, the condition would be the wrong way around: what
   would go are the states that are reached, what would stay the others. *)
Theorem C84_unreachable_inverted : forall fuel A start B,
  (forall p, In p start <-> In p (inits A)) -> unreachable_from fuel A start = Ok B ->
  inits B = inits A /\ maxC B = maxC A /\ forall p s, In (p, s) (states B) <-> In (p, s) (states A) /\ ~ reached A p.
Proof.
  intros fuel A start B H E. unfold unreachable_from in E. destruct (reach_loop fuel A start start) as [seen| | | |] eqn:L; try discriminate.
  cbn [bind] in E. apply ok_inj in E. subst B. cbn [states inits maxC]. split; [reflexivity|]. split; [reflexivity|]. intros p s.
  assert (R : forall q, In q seen <-> reached A q).
  { apply (reach_loop_in _ _ _ _ _ L).
    - intros q K. apply reached_init, H, K.
    - intros q K. apply reached_init, H, K.
    - intros q K. apply in_app_iff. left. apply H, K.
    - intros q q' K1 K2. contradiction. }
  rewrite filter_In. cbn [fst]. split; intros [K1 K2]; split; auto.
  - intros K. apply R, mem_In in K. rewrite K in K2. discriminate.
  - destruct (mem p seen) eqn:Y; [|reflexivity]. apply mem_In, R in Y. contradiction.
Qed.

(* Three states, the last one not reached: only this one would stay. *)
Definition exU : ta := mkTA [(0, mkS false false [(97, [mkE (Some 1) [] []])]); (1, mkS true false []); (2, mkS true false [])] [0] [].
Example C84_unreachable_case :
  unreachable_from 5 exU [0] = Ok (mkTA [(2, mkS true false [])] [0] []) /\
  reached exU 1 /\ removeUnreachableStates 5 exU = UB.
Proof.
  split; [reflexivity|]. split; [|reflexivity].
  eapply (reached_next _ 0 _ 97 [mkE (Some 1) [] []]); [apply reached_init; left; auto|reflexivity|left; auto|left; auto|reflexivity].
Qed.
