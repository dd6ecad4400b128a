(* A boolean check of well-formedness, used for the concrete automata of the
   examples (not part of the model). *)
From Coq Require Import QArith Bool List ZArith Arith Lia.
From Verif Require Import Num Constraint Zone TA Spec TAFacts.
Import ListNotations.
Open Scope nat_scope.

Fixpoint nodupb (l : list nat) : bool :=
  match l with [] => true | a :: t => negb (mem a t) && nodupb t end.

Lemma nodupb_NoDup : forall l, nodupb l = true -> NoDup l.
Proof.
  induction l as [|a l IH]; simpl; intros H; [constructor|].
  apply andb_true_iff in H as [H1 H2]. apply negb_true_iff in H1. constructor; auto.
  intros I. apply mem_In in I. congruence.
Qed.

Definition wf_edgeb (A : ta) (e : edge) : bool :=
  (match etgt e with Some t => mem t (map fst (states A)) | None => true end) &&
  forallb (fun x => x <? clockSize A) (eresets e) &&
  forallb (fun g => cx g <? clockSize A) (eguard e).

Definition wf_tab (A : ta) : bool :=
  nodupb (map fst (states A)) &&
  forallb (fun ps => nodupb (map fst (next (snd ps))) &&
     forallb (fun ce => forallb (wf_edgeb A) (snd ce)) (next (snd ps))) (states A) &&
  forallb (fun p => mem p (map fst (states A))) (inits A).

Lemma wf_tab_ok : forall A, wf_tab A = true -> wf_ta A.
Proof.
  intros A H. unfold wf_tab in H. apply andb_true_iff in H as [H H3]. apply andb_true_iff in H as [H1 H2].
  rewrite forallb_forall in H2, H3. constructor.
  - apply nodupb_NoDup; auto.
  - intros p s I. specialize (H2 _ I). apply andb_true_iff in H2 as [H2 _]. apply nodupb_NoDup; auto.
  - intros p s c es e I1 I2 I3. specialize (H2 _ I1). apply andb_true_iff in H2 as [_ H2].
    rewrite forallb_forall in H2. specialize (H2 _ I2). rewrite forallb_forall in H2. specialize (H2 _ I3).
    unfold wf_edgeb in H2. apply andb_true_iff in H2 as [H2 G3]. apply andb_true_iff in H2 as [G1 G2].
    rewrite forallb_forall in G2, G3. split; [|split].
    + intros t E. rewrite E in G1. apply mem_In; auto.
    + apply Forall_forall. intros x Hx. apply Nat.ltb_lt. auto.
    + apply Forall_forall. intros x Hx. apply Nat.ltb_lt. auto.
  - intros p I. apply mem_In. auto.
Qed.

Definition no_epsb (A : ta) : bool :=
  forallb (fun ps => forallb (fun ce => negb (fst ce =? 0) || match snd ce with [] => true | _ => false end)
     (next (snd ps))) (states A).

Lemma no_epsb_ok : forall A, no_epsb A = true -> forall p e, ~ is_edge A p 0 e.
Proof.
  intros A H p e (s & es & I1 & I2 & I3). unfold no_epsb in H. rewrite forallb_forall in H. specialize (H _ I1).
  rewrite forallb_forall in H. specialize (H _ I2). simpl in H. destruct es; [contradiction|discriminate].
Qed.
