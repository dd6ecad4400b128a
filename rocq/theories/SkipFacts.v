(* First facts about the skip tables: sizes and domains. *)
From Coq Require Import QArith Bool List ZArith Arith Lia.
From Verif Require Import Num Outcome Constraint Zone TA Spec TAFacts Word ZA Intersection Monaa Skip.
Import ListNotations.
Open Scope nat_scope.

Lemma bind_Ok : forall {X Y} (o : outcome X) (f : X -> outcome Y) y, bind o f = Ok y -> exists x, o = Ok x /\ f x = Ok y.
Proof. intros X Y [x| | | |] f y H; try discriminate. exists x. auto. Qed.

Lemma Ok_inj : forall {X} (a b : X), Ok a = Ok b -> a = b.
Proof. intros X a b H. congruence. Qed.

Lemma sunday_build_length : forall fuel Z cs sets r, sunday_build fuel Z cs sets = Ok r -> length sets < length r.
Proof.
  induction fuel; intros Z cs sets r H; cbn [sunday_build] in H; (destruct cs as [|c0 cs]; [discriminate|]); [discriminate|].
  apply bind_Ok in H as (l & _ & H). cbv zeta in H. destruct (existsb _ l).
  - injection H as <-. rewrite app_length. cbn. lia.
  - apply IHfuel in H. rewrite app_length in H. cbn in H. lia.
Qed.

Lemma sunday_sets_length : forall fuel A sets, sunday_sets fuel A = Ok sets -> 1 <= length sets.
Proof.
  intros fuel A sets H. unfold sunday_sets in H. apply bind_Ok in H as (Z & _ & H). apply bind_Ok in H as (Z' & _ & H).
  apply sunday_build_length in H. cbn in H. lia.
Qed.

(* delta: the value comes from the last set with the character. *)
Lemma delta_fold : forall sets c k d0, k <= length sets ->
  let d := fold_left (fun d i => if mem c (nth i sets []) then length sets - i else d) (seq 0 k) d0 in
  (d = d0 /\ forall i, i < k -> mem c (nth i sets []) = false) \/
  (exists i, i < k /\ d = length sets - i /\ mem c (nth i sets []) = true /\
             forall i', i < i' -> i' < k -> mem c (nth i' sets []) = false).
Proof.
  intros sets c. induction k; intros d0 L; cbn zeta.
  - left. split; auto. intros; lia.
  - rewrite seq_S, fold_left_app. cbn [fold_left Nat.add].
    specialize (IHk d0 ltac:(lia)). cbn zeta in IHk.
    destruct (mem c (nth k sets [])) eqn:E.
    + right. exists k. split; [lia|]. split; auto. split; auto. intros; lia.
    + destruct IHk as [[-> H]|(i & H1 & -> & H2 & H3)].
      * left. split; auto. intros i Hi. destruct (Nat.eq_dec i k) as [->|]; auto. apply H. lia.
      * right. exists i. split; [lia|]. split; auto. split; auto. intros i' K1 K2.
        destruct (Nat.eq_dec i' k) as [->|]; auto. apply H3; lia.
Qed.

Lemma sunday_delta_pos : forall sets c d, sunday_delta sets c = Some d -> 1 <= d.
Proof.
  intros sets c d H. unfold sunday_delta in H. destruct (char_max <=? c); [discriminate|]. injection H as <-.
  destruct (delta_fold sets c (length sets) (length sets + 1) ltac:(lia)) as [[-> _]|(i & H & -> & _)]; lia.
Qed.

(* beta is defined on every state of the pattern. *)
Lemma kmp_states_dom : forall ps fuel al m A0 As keys A2 Z b r,
  kmp_states fuel al m A0 As keys ps A2 Z b = Ok r -> forall p, In p ps \/ In p (map fst b) -> In p (map fst r).
Proof.
  induction ps as [|p0 ps IH]; intros fuel al m A0 As keys A2 Z b r H p Hp; cbn [kmp_states] in H.
  - injection H as <-. destruct Hp as [[]|]; auto.
  - apply bind_Ok in H as ([[n A2'] Z'] & _ & H). apply (IH _ _ _ _ _ _ _ _ _ _ H).
    rewrite map_app, in_app_iff. cbn. destruct Hp as [[->|]|]; auto.
Qed.

Lemma assoc_dom : forall {V} p (l : list (nat * V)), In p (map fst l) -> assoc p l <> None.
Proof. intros V p l H E. apply assoc_None in E. contradiction. Qed.

Lemma kmp_dom : forall fuel al A m b p, kmp fuel al A m = Ok b -> In p (map fst (states A)) -> assoc p b <> None.
Proof.
  intros fuel al A m b p H Hp. unfold kmp in H. apply bind_Ok in H as (A0 & _ & H). apply assoc_dom.
  eapply kmp_states_dom; eauto.
Qed.

Lemma tables_ok : forall fuel al A T, tables fuel al A = Ok T ->
  1 <= sk_m T /\ (forall c d, sk_delta T c = Some d -> 1 <= d) /\ (forall c, c < char_max -> sk_delta T c <> None) /\
  (forall p, In p (map fst (states A)) -> sk_beta T p <> None).
Proof.
  intros fuel al A T H. unfold tables in H. apply bind_Ok in H as (sets & HS & H). apply bind_Ok in H as (b & HB & H).
  injection H as <-. cbn [sk_m sk_delta sk_beta]. split; [eapply sunday_sets_length; eauto|]. split; [|split].
  - intros c d. apply sunday_delta_pos.
  - intros c Hc. unfold sunday_delta. apply Nat.leb_gt in Hc. rewrite Hc. discriminate.
  - intros p Hp. eapply kmp_dom; eauto.
Qed.

Lemma make_ap_states : forall A B, make_ap A = Ok B ->
  states B = map (fun ps => (fst ps, ap_state (snd ps))) (states A) /\
  inits B = filter (binary_search (inits A)) (map fst (states A)) /\ maxC B = maxC A /\
  forall p s, In (p, s) (states A) -> ap_targets_ok A (ap_state s) = true.
Proof.
  intros A B H. unfold make_ap in H. destruct (forallb _ (states A)) eqn:E; [|discriminate]. injection H as <-.
  cbn. repeat split; auto. rewrite forallb_forall in E. intros p s I. exact (E _ I).
Qed.

Lemma make_ap_keys : forall A B, make_ap A = Ok B -> map fst (states B) = map fst (states A).
Proof. intros A B H. apply make_ap_states in H as (-> & _). rewrite map_map. reflexivity. Qed.

(* Running with tables that are already known. *)
Definition the_tables (sets : list (list nat)) (beta : list (ptr * nat)) : skips :=
  mkSk (length sets) (sunday_delta sets) (last sets []) (fun p => assoc p beta).
Lemma tables_with : forall fuel al Ap sets beta, sunday_sets fuel Ap = Ok sets -> kmp fuel al Ap (length sets) = Ok beta ->
  tables fuel al Ap = Ok (the_tables sets beta).
Proof. intros fuel al Ap sets beta HS HK. unfold tables. rewrite HS. cbn [bind]. rewrite HK. reflexivity. Qed.
Lemma monaaDollar_with : forall fuel al W A c Ap sets beta, make_ap A = Ok Ap -> sunday_sets fuel Ap = Ok sets ->
  kmp fuel al Ap (length sets) = Ok beta -> no_eps A = true ->
  monaaDollar fuel al W A c = outer_loop W A (the_tables sets beta) MDollar fuel c 0 [] [].
Proof.
  intros fuel al W A c Ap sets beta HA HS HK NE. unfold monaaDollar. rewrite HA. cbn [bind]. rewrite (tables_with _ _ _ _ _ HS HK). cbn [bind].
  now rewrite NE.
Qed.
