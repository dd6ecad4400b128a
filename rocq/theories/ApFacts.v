(* The automaton without its '$' transitions, and words with increasing time stamps. *)
From Coq Require Import QArith Lqa Bool List ZArith Arith Lia Sorted.
From Verif Require Import Num NumFacts Outcome Constraint Zone TA Spec TAFacts Word Monaa MonaaFacts MonaaVec Skip SkipFacts.
Import ListNotations.
Open Scope nat_scope.

(* ---------- binary search ---------- *)

Lemma sorted_nth : forall l, StronglySorted le l -> forall i j, i <= j -> j < length l -> nth i l 0 <= nth j l 0.
Proof.
  induction l as [|a l IH]; intros S i j L1 L2; [cbn in L2; lia|]. inversion S as [|? ? S' F]; subst.
  destruct i as [|i], j as [|j]; cbn [nth]; try lia.
  - rewrite Forall_forall in F. apply F. apply nth_In. cbn in L2. lia.
  - apply IH; auto; cbn in L2; lia.
Qed.

Lemma lower_bound_spec : forall l v, StronglySorted le l -> forall fuel first count, count < fuel -> first + count <= length l ->
  (forall i, i < first -> nth i l 0 < v) -> (forall i, first + count <= i -> i < length l -> v <= nth i l 0) ->
  let p := lower_bound fuel l first count v in
  p <= length l /\ (forall i, i < p -> nth i l 0 < v) /\ (forall i, p <= i -> i < length l -> v <= nth i l 0).
Proof.
  intros l v SS. induction fuel as [|f IH]; intros first count HF HL H1 H2; [lia|]. cbn [lower_bound].
  destruct count as [|count].
  - cbn zeta. rewrite Nat.add_0_r in *. repeat split; auto.
  - set (step := Nat.div2 (S count)). assert (D : step < S count) by (apply Nat.lt_div2; lia).
    destruct (Nat.ltb_spec (nth (first + step) l 0) v) as [X|X].
    + apply IH; [lia|lia| |].
      * intros i Hi. apply (Nat.le_lt_trans _ (nth (first + step) l 0)); auto. apply sorted_nth; auto; lia.
      * intros i Hi. apply H2. lia.
    + apply IH; [lia|lia|auto|]. intros i Hi Li. apply (Nat.le_trans _ (nth (first + step) l 0)); auto. apply sorted_nth; auto.
Qed.

Lemma binary_search_sorted : forall l v, StronglySorted le l -> (binary_search l v = true <-> In v l).
Proof.
  intros l v S. unfold binary_search. cbv zeta.
  destruct (lower_bound_spec l v S (Datatypes.S (length l)) 0 (length l)) as (P1 & P2 & P3); [lia|lia|intros; lia|intros; lia|].
  set (p := lower_bound (Datatypes.S (length l)) l 0 (length l) v) in *. split.
  - intros H. apply andb_true_iff in H as [A B]. apply Nat.ltb_lt in A. apply negb_true_iff, Nat.ltb_ge in B.
    specialize (P3 p ltac:(lia) A). assert (E : nth p l 0 = v) by lia. rewrite <- E. now apply nth_In.
  - intros H. apply In_nth with (d := 0) in H as (i & Li & E).
    assert (p <= i) by (destruct (Nat.le_gt_cases p i); auto; specialize (P2 i ltac:(lia)); lia).
    apply andb_true_iff. split; [apply Nat.ltb_lt; lia|]. apply negb_true_iff, Nat.ltb_ge. rewrite <- E. apply sorted_nth; auto.
Qed.

(* ---------- Ap ---------- *)

Section Ap.
  Variables (A Ap : ta).
  Hypothesis WA : wf_ta A.
  Hypothesis HA : make_ap A = Ok Ap.

  Lemma ap_next : forall s c es, In (c, es) (next (ap_state s)) <-> In (c, es) (next s) /\ c <> dollar.
  Proof.
    intros s c es. unfold ap_state. destruct (assoc dollar (next s)) eqn:E; cbn [next].
    - rewrite filter_In. cbn [fst]. rewrite negb_true_iff, Nat.eqb_neq. tauto.
    - split; [|tauto]. intros H. split; auto. intros ->. apply assoc_None in E. apply E. apply (in_map fst _ _ H).
  Qed.

  Lemma ap_edge : forall p c e, is_edge Ap p c e <-> is_edge A p c e /\ c <> dollar.
  Proof.
    intros p c e. destruct (make_ap_states _ _ HA) as (E & _). unfold is_edge. rewrite E. split.
    - intros (s & es & I1 & I2 & I3). apply in_map_iff in I1 as ([q s0] & E1 & I1). cbn [fst snd] in E1. injection E1 as <- <-.
      apply ap_next in I2 as [I2 D]. split; auto. exists s0, es. auto.
    - intros ((s & es & I1 & I2 & I3) & D). exists (ap_state s), es. split; [|split; auto; apply ap_next; auto].
      apply in_map_iff. exists (p, s). auto.
  Qed.

  Lemma ap_accepting : forall p e, is_edge A p dollar e -> accepting Ap p.
  Proof.
    intros p e (s & es & I1 & I2 & I3). destruct (make_ap_states _ _ HA) as (E & _). exists (ap_state s). split.
    - rewrite E. apply in_map_iff. exists (p, s). auto.
    - unfold ap_state. destruct (assoc dollar (next s)) eqn:X; [reflexivity|]. apply assoc_None in X. exfalso. apply X. apply (in_map fst _ _ I2).
  Qed.

  Lemma ap_clocks : clockSize Ap = clockSize A.
  Proof. destruct (make_ap_states _ _ HA) as (_ & _ & E & _). unfold clockSize. now rewrite E. Qed.

  Lemma NoDup_fst_filter : forall {X} (f : nat * X -> bool) l, NoDup (map fst l) -> NoDup (map fst (filter f l)).
  Proof.
    induction l as [|[k x] l IH]; cbn; intros N; auto. inversion N; subst. destruct (f (k, x)); cbn; auto. constructor; auto.
    intros H. apply H1. apply in_map_iff in H as ([k' x'] & <- & H). apply filter_In in H as [H _]. apply (in_map fst _ _ H).
  Qed.

  Lemma ap_wf : wf_ta Ap.
  Proof.
    pose proof (make_ap_keys _ _ HA) as KK. destruct (make_ap_states _ _ HA) as (E & EI & _ & _). constructor.
    - rewrite KK. apply (wf_nodup _ WA).
    - intros p s H. rewrite E in H. apply in_map_iff in H as ([q s0] & E1 & I1). cbn [fst snd] in E1. injection E1 as <- <-.
      pose proof (wf_keys _ WA _ _ I1) as N. unfold ap_state. destruct (assoc dollar (next s0)); cbn [next]; auto. now apply NoDup_fst_filter.
    - intros p s c es e H Hc He. rewrite E in H. apply in_map_iff in H as ([q s0] & E1 & I1). cbn [fst snd] in E1. injection E1 as <- <-.
      apply ap_next in Hc as [Hc _]. pose proof (wf_edges _ WA _ _ _ _ _ I1 Hc He) as X. unfold wf_edge in *. rewrite KK, ap_clocks. exact X.
    - intros p Hp. rewrite EI in Hp. apply filter_In in Hp as [Hp _]. rewrite KK. exact Hp.
  Qed.

  Lemma ap_inits : StronglySorted le (inits A) -> forall p, In p (inits A) <-> In p (inits Ap).
  Proof.
    intros S p. destruct (make_ap_states _ _ HA) as (_ & E & _). rewrite E, filter_In, (binary_search_sorted _ _ S). split; [|tauto].
    intros H. split; auto. apply (wf_inits _ WA); auto.
  Qed.

  Lemma ap_zero : (forall p s, In (p, s) (states A) -> zeroDur s = false) -> forall p s, In (p, s) (states Ap) -> zeroDur s = false.
  Proof.
    intros H p s Hs. destruct (make_ap_states _ _ HA) as (E & _). rewrite E in Hs. apply in_map_iff in Hs as ([q s0] & E1 & I1). cbn in E1.
    injection E1 as <- <-. unfold ap_state. destruct (assoc dollar (next s0)); cbn; eauto.
  Qed.

  Lemma ap_run : forall p v T w q v' T', run A p v T w q v' T' -> (forall c t, In (c, t) w -> c <> dollar) -> run Ap p v T w q v' T'.
  Proof.
    intros p v T w q v' T' R. induction R; intros H'; [constructor|]. econstructor; eauto.
    - apply ap_edge. split; auto. apply (H' c t). left; auto.
    - apply IHR. intros c' t' X. apply (H' c' t'). right; auto.
  Qed.
End Ap.

(* ---------- increasing words ---------- *)

Lemma increasing_nondecreasing : forall w lo, increasing lo w -> nondecreasing lo w.
Proof. induction w as [|[c t] w IH]; cbn; intros lo H; auto. destruct H. split; [lra|auto]. Qed.

Lemma increasing_app : forall w1 w2 lo, increasing lo (w1 ++ w2) <-> increasing lo w1 /\ increasing (last (map snd w1) lo) w2.
Proof.
  induction w1 as [|[c t] w1 IH]; intros w2 lo; cbn [app map snd]; [cbn; tauto|]. rewrite last_cons'.
  cbn [increasing]. rewrite IH. tauto.
Qed.

Lemma last_map_tm : forall (w : tword) k lo, k <= length w -> last (map snd (firstn k w)) lo = if 0 <? k then tm w (k - 1) else lo.
Proof.
  induction w as [|[c t] w IH]; intros k lo L; cbn [length] in L.
  - assert (k = 0) by lia. subst. reflexivity.
  - destruct k as [|k]; [reflexivity|]. cbn [firstn map snd]. rewrite last_cons', IH by lia. cbn [Nat.ltb Nat.leb].
    unfold tm. destruct k as [|k]; [reflexivity|]. cbn [Nat.ltb Nat.leb Nat.sub]. rewrite Nat.sub_0_r. reflexivity.
Qed.

Lemma increasing_weaken : forall w lo lo', increasing lo w -> (lo' <= lo)%Q -> increasing lo' w.
Proof. destruct w as [|[c t] w]; cbn; intros lo lo' H L; auto. destruct H. split; auto. lra. Qed.

Lemma increasing_head : forall w lo lo', increasing lo w -> (0 < length w -> (lo' < tm w 0)%Q) -> increasing lo' w.
Proof. destruct w as [|[c t] w]; cbn; intros lo lo' H L; auto. destruct H. split; auto. apply L. lia. Qed.

Lemma slice_length : forall (w : tword) i j, i <= j -> j <= length w -> length (slice w i j) = j - i.
Proof. intros. unfold slice. rewrite firstn_length, skipn_length. lia. Qed.

Lemma slice_nth : forall (w : tword) i j n, i <= j -> j <= length w -> n < j - i -> nth n (slice w i j) (0, 0%Q) = nth (i + n) w (0, 0%Q).
Proof.
  intros w i j n L1 L2 Hn. rewrite (split3 w i j L1) at 2. rewrite app_nth2; rewrite firstn_length; [|lia].
  rewrite app_nth1; [f_equal; lia|]. rewrite slice_length by auto. lia.
Qed.

Lemma increasing_slice : forall (w : tword) i j t, increasing 0 w -> i <= j -> j <= length w -> (i < length w -> (t < tm w i)%Q) ->
  increasing t (slice w i j).
Proof.
  intros w i j t H L1 L2 Ht. rewrite (split3 w i j L1) in H. apply increasing_app in H as [_ H]. apply increasing_app in H as [H _].
  apply (increasing_head _ _ _ H). intros L. rewrite slice_length in L by auto. unfold tm. rewrite slice_nth by lia. rewrite Nat.add_0_r. apply Ht. lia.
Qed.

Lemma increasing_tm : forall (w : tword) lo i j, increasing lo w -> i < j -> j < length w -> (tm w i < tm w j)%Q.
Proof.
  intros w lo i j H L1 L2.
  assert (X : forall (w : tword) lo k, increasing lo w -> k < length w -> (lo < tm w k)%Q).
  { clear. induction w as [|[c t] w IH]; intros lo k H L; [cbn in L; lia|]. destruct H as [H1 H2]. destruct k as [|k]; [exact H1|].
    specialize (IH t k H2 ltac:(cbn in L; lia)). unfold tm in *. cbn [nth]. lra. }
  revert lo i j H L1 L2. induction w as [|[c t] w IH]; intros lo i j H L1 L2; [cbn in L2; lia|]. destruct H as [H1 H2].
  destruct j as [|j]; [lia|]. destruct i as [|i].
  - unfold tm. cbn [nth snd]. apply (X w t j H2). cbn in L2. lia.
  - unfold tm in *. cbn [nth]. apply (IH t i j H2); cbn in L2; lia.
Qed.

(* Every time before some event lies in the gap before an event. *)
Lemma find_start : forall (w : tword) t, nondecreasing 0 w -> (0 <= t)%Q -> (exists k, k < length w /\ (t < tm w k)%Q) ->
  exists k, k < length w /\ start_in w k t.
Proof.
  intros w t ND Ht (k & Lk & Hk). revert Lk Hk. induction k as [|k IH]; intros Lk Hk.
  - exists 0. split; auto. split; auto. split; [lia|auto].
  - destruct (Qlt_le_dec t (tm w k)) as [X|X].
    + apply IH; [lia|auto].
    + exists (S k). split; auto. split; auto. split; auto. intros _. replace (S k - 1) with k by lia. auto.
Qed.

Lemma between_start : forall (w : tword) t t', between w t t' <> [] -> exists k, k < length w /\ (t < tm w k)%Q /\ (tm w k < t')%Q.
Proof.
  intros w t t' H. destruct (between w t t') as [|e l] eqn:E; [congruence|].
  assert (I : In e (between w t t')) by (rewrite E; left; auto). apply filter_In in I as [I F].
  apply In_nth with (d := (0, 0%Q)) in I as (k & Lk & Ek). exists k. split; auto. apply andb_true_iff in F as [F1 F2].
  apply negb_true_iff, Qle_bool_false in F1. apply negb_true_iff, Qle_bool_false in F2. subst e. split; [exact F1|exact F2].
Qed.

Lemma slice_cat : forall (w : tword) i j k, i <= j -> j <= k -> slice w i k = slice w i j ++ slice w j k.
Proof.
  intros w i j k L1 L2. exact (slice_split w (Monaa.mkSk 1 (fun _ => None) [] (fun _ => None)) (le_n 1) i j k L1 L2).
Qed.

Lemma slice_last : forall (w : tword) i k t0, i < k -> k <= length w -> last (map snd (slice w i k)) t0 = tm w (k - 1).
Proof.
  intros w i k t0 L1 L2. replace k with (S (k - 1)) at 1 by lia. rewrite slice_snoc by lia. rewrite map_app. cbn [map]. apply last_last.
Qed.

Lemma increasing_lo : forall (w : tword) lo k, increasing lo w -> k < length w -> (lo < tm w k)%Q.
Proof.
  induction w as [|[c t] w IH]; intros lo k H L; cbn in L; [lia|]. destruct H as [H1 H2]. destruct k; [exact H1|].
  change (tm ((c, t) :: w) (S k)) with (tm w k). specialize (IH t k H2 ltac:(lia)). lra.
Qed.
