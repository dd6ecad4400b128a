(* Properties C33, C34, C35, C50 (and C31, C32, C36 for the two other
   functions): monaa() and monaaNotNecessaryDollar(). *)
From Coq Require Import QArith Lqa Bool List ZArith Arith Lia Sorted.
From Verif Require Import Num NumFacts Outcome Constraint Zone ZoneFacts TA Spec TAFacts WfDec Word WordFacts Monaa MonaaSim MonaaFacts MonaaVec
  ZA ZASpec ZAFacts Skip SkipFacts Sunday Kmp KmpRun KmpSafe KmpUB ApFacts Tables PropMonaa PropSkip.
Import ListNotations.
Open Scope nat_scope.

(* ================= C36 online = offline ================= *)

Theorem C36_signal : forall fuel al A w, monaa_plain fuel al lazyC A (lopen w) = monaa_plain fuel al vecC A w.
Proof.
  intros. unfold monaa_plain. destruct (tables fuel al A) as [T| | | |] eqn:E; cbn [bind]; auto.
  destruct (tables_ok _ _ _ _ E) as (T1 & T2 & _).
  apply (outer_sim lazyC lazyR lazy_sim A T MSignal T1 T2 fuel (lopen w) 0 0 w 0 [] []); [apply lazy_open|lia].
Qed.

Theorem C36_optional : forall fuel al A w,
  monaaNotNecessaryDollar fuel al lazyC A (lopen w) = monaaNotNecessaryDollar fuel al vecC A w.
Proof.
  intros. unfold monaaNotNecessaryDollar. destruct (tables fuel al _) as [T| | | |] eqn:E; cbn [bind]; auto. destruct (no_eps A); auto.
  destruct (tables_ok _ _ _ _ E) as (T1 & T2 & _).
  apply (outer_sim lazyC lazyR lazy_sim A T MOptional T1 T2 fuel (lopen w) 0 0 w 0 [] []); [apply lazy_open|lia].
Qed.

(* ================= the reported zones ================= *)

Lemma any_ok : forall M fuel A w T zs, wf_ta A -> nondecreasing 0 w -> 1 <= sk_m T -> (forall c d, sk_delta T c = Some d -> 1 <= d) ->
  outer_loop vecC A T M fuel w 0 [] [] = Ok zs -> reported_ok M A w zs.
Proof.
  intros M fuel A w T zs WF ND T1 T2 H.
  pose proof (outer_vec M A WF w ND T T1 T2 (fun _ => True) ltac:(intros; exact I) ltac:(intros; exact I) ltac:(intros; exact I) ltac:(intros; exact I) fuel 0 [] []
    ltac:(auto) ltac:(intros ? [])) as O.
  rewrite H in O. destruct O as (new & -> & O & _). exact O.
Qed.

Lemma any_ends : forall M fuel A B al w T, wf_ta A -> nondecreasing 0 w -> tables fuel al B = Ok T ->
  (forall p, In p (map fst (states A)) -> In p (map fst (states B))) -> (forall c t, In (c, t) w -> c < char_max) -> length w <= fuel ->
  exists zs, outer_loop vecC A T M fuel w 0 [] [] = Ok zs.
Proof.
  intros M fuel A B al w T WF ND HT HB HC L. destruct (tables_ok _ _ _ _ HT) as (T1 & T2 & T3 & T4).
  pose proof (outer_vec M A WF w ND T T1 T2 (fun _ => True) ltac:(intros; exact I) ltac:(intros; exact I) ltac:(intros; exact I)
    ltac:(intros; exact I) fuel 0 [] [] ltac:(auto) ltac:(intros ? [])) as O.
  destruct (outer_loop vecC A T M fuel w 0 [] []) as [zs| | | |].
  - eauto.
  - exfalso. destruct O as (k & O1 & O2). destruct (nth k w (0, 0%Q)) as [c t] eqn:E.
    apply (T3 c); auto. apply (HC c t). rewrite <- E. apply nth_In. auto.
  - exfalso. destruct O as (p & O1 & O2). apply (T4 p); auto.
  - contradiction.
  - lia.
Qed.

(* ================= C33 monaa() is sound ================= *)

Lemma monaa_ok : forall fuel al A w zs, wf_ta A -> nondecreasing 0 w -> monaa_plain fuel al vecC A w = Ok zs ->
  forall z, In z zs -> exists i, i < length w /\ zone_correct MSignal A w i z.
Proof.
  intros fuel al A w zs WF ND H z Hz. unfold monaa_plain in H. apply bind_Ok in H as (T & HT & H).
  destruct (tables_ok _ _ _ _ HT) as (T1 & T2 & _). destruct (any_ok _ _ _ _ _ _ WF ND T1 T2 H z Hz) as (i & L & [Z|(E & _)]); [eauto|discriminate].
Qed.

Theorem C33_sound : forall fuel al A w zs z t t', wf_ta A -> nondecreasing 0 w ->
  monaa_plain fuel al vecC A w = Ok zs -> In z zs -> zin 3 z (pairv t t') -> signal_matches A w t t'.
Proof.
  intros fuel al A w zs z t t' WF ND H Hz Z. destruct (monaa_ok _ _ _ _ _ WF ND H z Hz) as (i & _ & _ & _ & _ & C).
  exact (proj2 (C _ _ Z)).
Qed.

Theorem C31_nonempty_signal : forall fuel al A w zs z, wf_ta A -> nondecreasing 0 w ->
  monaa_plain fuel al vecC A w = Ok zs -> In z zs -> exists t t', zin 3 z (pairv t t').
Proof.
  intros fuel al A w zs z WF ND H Hz. destruct (monaa_ok _ _ _ _ _ WF ND H z Hz) as (i & _ & S & G & C & _).
  destruct (canonical_nonempty 3 z C G ltac:(lia)) as (v & Hv). apply zin3_pairv in Hv. eauto.
Qed.

Theorem C32_terminates_signal : forall fuel al A w T, wf_ta A -> nondecreasing 0 w -> (forall c t, In (c, t) w -> c < char_max) ->
  tables fuel al A = Ok T -> length w <= fuel -> exists zs, monaa_plain fuel al vecC A w = Ok zs.
Proof.
  intros fuel al A w T WF ND HC HT L. unfold monaa_plain. rewrite HT. cbn [bind]. eapply (any_ends MSignal fuel A A al); eauto.
Qed.

(* ================= C34 monaa() is complete where it looks ================= *)

(* Positions that the tables pass over. *)
Inductive skipped (A : ta) (w : tword) (T : skips) : nat -> Prop :=
| sk_short : forall k, length w < k + sk_m T -> skipped A w T k
| sk_endchar : forall k, 1 < sk_m T -> k + sk_m T <= length w ->
    ~ In (fst (nth (k + sk_m T - 1) w (0, 0%Q))) (sk_end T) -> skipped A w T k
| sk_sunday : forall i k d, 1 < sk_m T -> i + sk_m T < length w -> sk_delta T (fst (nth (i + sk_m T) w (0, 0%Q))) = Some d ->
    i < k -> k < i + d -> skipped A w T k
| sk_kmp : forall i j k p t s v T' b, i <= j -> j <= length w -> i < length w -> In p (inits A) -> at_pos w i t ->
    run A p zeroval t (slice w i j) s v T' -> sk_beta T s = Some b -> i < k -> k < i + b -> skipped A w T k.

Theorem C34_examined : forall fuel al A w T zs, wf_ta A -> increasing 0 w -> tables fuel al A = Ok T ->
  monaa_plain fuel al vecC A w = Ok zs ->
  forall k t t', k < length w -> at_pos w k t -> (t < t')%Q -> signal_matches A w t t' -> ~ skipped A w T k ->
    exists z, In z zs /\ zin 3 z (pairv t t').
Proof.
  intros fuel al A w T zs WF Inc HT H k t t' Lk S LT MM NS.
  unfold monaa_plain in H. rewrite HT in H. cbn [bind] in H.
  destruct (tables_ok _ _ _ _ HT) as (T1 & T2 & _).
  pose proof (increasing_nondecreasing _ _ Inc) as ND.
  pose proof (outer_vec MSignal A WF w ND T T1 T2 (skipped A w T)) as O.
  specialize (O ltac:(intros; apply sk_short; auto)).
  specialize (O ltac:(intros k0 X1 X2 X3; apply sk_endchar; auto; intros I; apply mem_In in I; unfold TA.ptr in *; congruence)).
  specialize (O ltac:(intros; eapply sk_sunday; eauto)).
  assert (PB : forall i j cs cfg b k, i < length w -> i <= j -> j <= length w -> cspec A w i j cs -> In cfg cs ->
      sk_beta T (ist cfg) = Some b -> i < k -> k < i + b -> skipped A w T k).
  { intros i j cs cfg b k0 Li L1 L2 C Hc HB K1 K2.
    assert (EX : exists t, start_in w i t).
    { exists (if 0 <? i then tm w (i - 1) else 0%Q). unfold start_in. destruct (0 <? i) eqn:E.
      - apply Nat.ltb_lt in E. split; [|split]; [|intros; lra|].
        + apply Qlt_le_weak. apply increasing_lo; [auto|lia].
        + apply (increasing_tm w 0); [auto|lia|lia].
      - apply Nat.ltb_ge in E. split; [lra|]. split; [lia|]. apply increasing_lo; [auto|lia]. }
    destruct (csp_valid _ _ _ _ _ C cfg Hc EX) as (u0 & V1 & V2).
    destruct (csp_sound _ _ _ _ _ C cfg u0 Hc V1 V2) as (S0 & p0 & v & TT & Hp & R & _).
    eapply (sk_kmp A w T i j); eauto. }
  specialize (O PB fuel 0 [] [] ltac:(auto) ltac:(intros ? [])). rewrite H in O. destruct O as (new & -> & _ & C).
  destruct (C k t t' ltac:(lia) Lk S LT MM) as [HP|HZ]; [contradiction|exact HZ].
Qed.

(* A match of monaa() as a run: the accepting event is moved to t'. *)
Lemma signal_slice : forall A w k t t', increasing 0 w -> k < length w -> at_pos w k t -> (t < t')%Q -> signal_matches A w t t' ->
  exists j p q v T e acc, k <= j /\ j < length w /\ end_in w j t' /\ In p (inits A) /\ run A p zeroval t (slice w k j) q v T /\
    is_edge A q (fst (nth j w (0, 0%Q))) e /\ etgt e = Some acc /\ accepting A acc /\ sat_guard (delay v (t' - T)) (eguard e).
Proof.
  intros A w k t t' Inc Lk S LT (M1 & M2 & pre & c & tau & post & p & q & v & T' & e & acc & Ew & Hpre & Htau & Hp & R & He & Et & Ha & Hg).
  pose proof (increasing_nondecreasing _ _ Inc) as ND.
  set (j0 := length pre).
  assert (LW : length w = j0 + Datatypes.S (length post)) by (rewrite Ew, app_length; reflexivity).
  assert (En : nth j0 w (0, 0%Q) = (c, tau)) by (unfold j0; rewrite Ew, app_nth2, Nat.sub_diag by lia; reflexivity).
  assert (J1 : k <= j0).
  { destruct (Nat.lt_ge_cases j0 k) as [K|K]; auto. exfalso.
    assert (Mo : (tm w j0 <= tm w (k - 1))%Q).
    { destruct (Nat.eq_dec j0 (k - 1)) as [->|]; [lra|]. apply Qlt_le_weak, (increasing_tm w 0); auto; lia. }
    destruct S as (_ & S2 & _). specialize (S2 ltac:(lia)). unfold tm in Mo. rewrite En in Mo. cbn in Mo. lra. }
  assert (J3 : end_in w j0 t').
  { split.
    - intros K. assert (I1 : In (nth (j0 - 1) w (0, 0%Q)) pre).
      { rewrite Ew, app_nth1 by (fold j0; lia). apply nth_In. fold j0. lia. }
      apply Hpre in I1. unfold tm. lra.
    - intros _. unfold tm. rewrite En. exact Htau. }
  rewrite (between_slice w k j0 t t' ND J1 ltac:(lia) Lk S J3) in R.
  exists j0, p, q, v, T', e, acc. rewrite En. repeat (split; [auto; try lia|]). auto.
Qed.

Lemma run_one : forall A p v T c t e q, is_edge A p c e -> etgt e = Some q -> sat_guard (delay v (t - T)) (eguard e) ->
  exists v', run A p v T [(c, t)] q v' t.
Proof. intros. eexists. econstructor; eauto. constructor. Qed.

Lemma signal_reads : forall A w k t t', increasing 0 w -> k < length w -> at_pos w k t -> (t < t')%Q -> signal_matches A w t t' -> reads A w k.
Proof.
  intros A w k t t' Inc Lk S LT MM.
  destruct (signal_slice A w k t t' Inc Lk S LT MM) as (j & p & q & v & T & e & acc & L1 & L2 & EI & Hp & R & He & Et & Ha & Hg).
  destruct (run_one A q v T _ t' e acc He Et Hg) as (v' & R').
  exists t, (Datatypes.S j), (slice w k j ++ [(fst (nth j w (0, 0%Q)), t')]), p, acc, v', t'.
  split; [lia|]. split; [lia|]. split; [rewrite slice_snoc, !map_app by lia; reflexivity|]. split.
  - apply increasing_app. split.
    + apply increasing_slice; auto; [lia|]. intros _. apply S.
    + split; [|exact I]. destruct (Nat.eq_dec k j) as [->|N]; [rewrite slice_nil; exact LT|].
      rewrite slice_last by lia. apply EI. lia.
  - split; auto. split; [|auto]. eapply run_app; eauto.
Qed.

(* The Sunday shifts never lose a match of monaa(). *)
Theorem C34_sunday : forall fuel A w sets, wf_ta A -> clockSize A <= 255 -> increasing 0 w -> letters_ok w -> keeps_useful fuel A ->
  sunday_sets fuel A = Ok sets ->
  forall k t t', k < length w -> at_pos w k t -> (t < t')%Q -> signal_matches A w t t' ->
    k + length sets <= length w /\
    In (fst (nth (k + length sets - 1) w (0, 0%Q))) (last sets []) /\
    forall i d, sunday_delta sets (fst (nth (i + length sets) w (0, 0%Q))) = Some d -> i < k -> i + d <= k.
Proof.
  intros fuel A w sets WF K Inc LO KU HS k t t' Lk S LT MM.
  pose proof (signal_reads A w k t t' Inc Lk S LT MM) as R. split; [|split].
  - destruct (Nat.le_gt_cases (k + length sets) (length w)); auto. exfalso. eapply (sun_length fuel A w sets); eauto.
  - destruct (in_dec Nat.eq_dec (fst (nth (k + length sets - 1) w (0, 0%Q))) (last sets [])) as [X|X]; auto.
    exfalso. eapply (sun_end fuel A w sets); eauto.
  - intros i d HD L. destruct (Nat.le_gt_cases (i + d) k); auto. exfalso. eapply (sun_delta fuel A w sets); eauto.
Qed.

(* No upper bound on the transitions into accepting states. *)
Definition accept_no_upper (A : ta) : Prop :=
  forall p c e q g, is_edge A p c e -> etgt e = Some q -> accepting A q -> In g (eguard e) -> codr g = Gt \/ codr g = Ge.

Lemma signal_real : forall A w k t t', accept_no_upper A -> increasing 0 w -> k < length w -> at_pos w k t -> (t < t')%Q -> signal_matches A w t t' ->
  exists j p q v T, k < j /\ j <= length w /\ In p (inits A) /\ run A p zeroval t (slice w k j) q v T /\ accepting A q.
Proof.
  intros A w k t t' NU Inc Lk S LT MM.
  destruct (signal_slice A w k t t' Inc Lk S LT MM) as (j & p & q & v & T & e & acc & L1 & L2 & EI & Hp & R & He & Et & Ha & Hg).
  assert (Hg' : sat_guard (delay v (tm w j - T)) (eguard e)).
  { intros g I. specialize (Hg g I). destruct EI as [_ EI]. specialize (EI L2). unfold delay in *.
    destruct (NU _ _ _ _ g He Et Ha I) as [X|X]; unfold holds in *; rewrite X in *; lra. }
  destruct (run_one A q v T _ (tm w j) e acc He Et Hg') as (v' & R').
  exists (Datatypes.S j), p, acc, v', (tm w j). split; [lia|]. split; [lia|]. split; auto. split; auto.
  rewrite slice_snoc by lia. eapply run_app; eauto. unfold tm in R'. now rewrite <- surjective_pairing in R'.
Qed.

Theorem C34_complete_partial : forall fuel al A T w zs, wf_ta A -> (forall p s, In (p, s) (states A) -> zeroDur s = false) ->
  2 * clockSize A <= 255 -> increasing 0 w -> letters_ok w ->
  tables fuel al A = Ok T -> keeps_useful fuel A -> alloc_ok al A (sk_m T) ->
  accept_no_upper A ->
  monaa_plain fuel al vecC A w = Ok zs ->
  forall k t t', k < length w -> at_pos w k t -> (uppers_after_reset A \/ (0 < k -> (t == snd (nth (k - 1)%nat w (0%nat, 0)))%Q)) ->
    (t < t')%Q -> signal_matches A w t t' -> exists z, In z zs /\ zin 3 z (pairv t t').
Proof.
  intros fuel al A T w zs WF ZD K Inc LO HT KU AL NU H k t t' Lk S Ft LT MM.
  unfold monaa_plain in H. rewrite HT in H. cbn [bind] in H.
  unfold tables in HT. apply bind_Ok in HT as (sets & HS & HT). apply bind_Ok in HT as (beta & HK & HT). apply Ok_inj in HT. subst T.
  cbn [sk_m] in AL. fold (the_tables sets beta) in H.
  apply (tables_complete fuel A w sets WF Inc LO KU HS al beta K ZD AL HK MSignal A WF (fun p Hp => Hp)
      (fun p v t i j q v' T _ _ R => R) zs
      (fun k t t' => at_pos w k t /\ (uppers_after_reset A \/ (0 < k -> (t == tm w (k - 1))%Q)) /\ (t < t')%Q /\ signal_matches A w t t') H) with (k := k); auto.
  intros k0 t0 t0' Lk0 (S0 & F0 & LT0 & M0). split; [eapply signal_reads; eauto|]. intros Hk0.
  destruct (signal_real A w k0 t0 t0' NU Inc Lk0 S0 LT0 M0) as (j & p & q & v & TT & L1 & L2 & Hp & R & Ac).
  destruct (run_back A w k0 t0 p j q v TT WF Hk0 S0) as (u & U & R'); auto; [tauto|].
  exists j, p, q, u, U. auto.
Qed.

(* ================= C35 the optional $ ================= *)

Lemma lax_ap : forall A Ap, wf_ta A -> make_ap A = Ok Ap -> make_ap_lax A = Ap.
Proof.
  intros A Ap WF H. unfold make_ap in H. destruct (forallb _ (states A)) eqn:E; [|discriminate]. apply Ok_inj in H. subst Ap.
  unfold make_ap_lax. f_equal. apply map_ext_in. intros [p s] I. cbn [fst snd]. f_equal.
  rewrite forallb_forall in E. specialize (E _ I). cbn [snd] in E. unfold ap_targets_ok in E. rewrite forallb_forall in E.
  destruct (ap_state s) as [m z n]. cbn [isMatch zeroDur next] in *. f_equal.
  rewrite <- (map_id n) at 2. apply map_ext_in. intros [c es] I2. cbn [fst snd]. f_equal.
  specialize (E _ I2). cbn [snd] in E. rewrite forallb_forall in E.
  rewrite <- (map_id es) at 2. apply map_ext_in. intros e I3. specialize (E _ I3). unfold lax_edge.
  destruct e as [tg rs g]. cbn [etgt eresets eguard] in *. destruct tg; [|discriminate]. now rewrite E.
Qed.

Lemma lax_keys : forall A, map fst (states (make_ap_lax A)) = map fst (states A).
Proof. intros A. cbn. rewrite map_map. reflexivity. Qed.

Lemma optional_ok : forall fuel al A w zs, wf_ta A -> nondecreasing 0 w -> monaaNotNecessaryDollar fuel al vecC A w = Ok zs ->
  reported_ok MOptional A w zs.
Proof.
  intros fuel al A w zs WF ND H. unfold monaaNotNecessaryDollar in H. apply bind_Ok in H as (T & HT & H).
  destruct (no_eps A); [|injection H as <-; intros z []].
  destruct (tables_ok _ _ _ _ HT) as (T1 & T2 & _). eapply any_ok; eauto.
Qed.

(* Every reported pair is a match, or its end is too early: then there is a
   match with the same start that ends with an event at t' or later. *)
Theorem C35_sound_partial : forall fuel al A w zs z t t', wf_ta A -> nondecreasing 0 w ->
  monaaNotNecessaryDollar fuel al vecC A w = Ok zs -> In z zs -> zin 3 z (pairv t t') ->
  matches A w t t' \/ event_matches A w t t' \/ (exists u, (t' <= u)%Q /\ event_matches A w t u /\ zin 3 z (pairv t u)).
Proof.
  intros fuel al A w zs z t t' WF ND H Hz Z. destruct (optional_ok _ _ _ _ _ WF ND H z Hz) as (i & _ & [C|C]).
  - destruct C as (_ & _ & _ & C). destruct (C _ _ Z) as (_ & [X|X]); auto.
  - destruct C as (_ & _ & _ & j & L1 & L2 & _ & C & _). destruct (C _ _ Z) as (_ & _ & X1 & X2 & X3). right. right. eauto.
Qed.

(* Exactly: a reported zone has only matches, or it belongs to an event at some
   time u; then the pairs (t, u) in it are matches, and what else is in it are
   all the pairs (t, t') with an end t' between t and u. *)
Theorem C35_exact : forall fuel al A w zs z, wf_ta A -> nondecreasing 0 w ->
  monaaNotNecessaryDollar fuel al vecC A w = Ok zs -> In z zs ->
  (forall t t', zin 3 z (pairv t t') -> matches A w t t' \/ event_matches A w t t') \/
  exists c u, In (c, u) w /\ (exists t, zin 3 z (pairv t u)) /\ (forall t, zin 3 z (pairv t u) -> event_matches A w t u) /\
    forall t t', zin 3 z (pairv t t') <-> zin 3 z (pairv t u) /\ (t <= t')%Q /\ (t' <= u)%Q.
Proof.
  intros fuel al A w zs z WF ND H Hz. destruct (optional_ok _ _ _ _ _ WF ND H z Hz) as (i & _ & [C|C]).
  - left. destruct C as (_ & _ & _ & C). intros t t' Z. destruct (C _ _ Z) as (_ & X). exact X.
  - right. destruct C as (_ & _ & _ & j & L1 & L2 & E & C & D). exists (fst (nth j w (0%nat, 0%Q))), (tm w j). split.
    { unfold tm. rewrite <- surjective_pairing. apply nth_In. exact L2. }
    split; [exact E|]. split; [intros t Z; apply (C _ _ Z)|]. intros t t'. split.
    + intros Z. destruct (C _ _ Z) as (_ & X1 & X2 & X3 & _). auto.
    + intros (Z & X1 & X2). apply D; auto.
Qed.

Theorem C31_nonempty_optional : forall fuel al A w zs z, wf_ta A -> nondecreasing 0 w ->
  monaaNotNecessaryDollar fuel al vecC A w = Ok zs -> In z zs ->
  exists t t', zin 3 z (pairv t t') /\ (matches A w t t' \/ event_matches A w t t').
Proof.
  intros fuel al A w zs z WF ND H Hz. destruct (optional_ok _ _ _ _ _ WF ND H z Hz) as (i & _ & [C|C]).
  - destruct C as (S & G & C & P). destruct (canonical_nonempty 3 z C G ltac:(lia)) as (v & Hv). apply zin3_pairv in Hv.
    destruct (P _ _ Hv) as (_ & X). exists (v 0), (v 1). split; auto.
  - destruct C as (_ & _ & _ & j & L1 & L2 & (t & Z) & C & _). destruct (C _ _ Z) as (_ & _ & _ & _ & X). eauto.
Qed.

Theorem C32_terminates_optional : forall fuel al A w T, wf_ta A -> nondecreasing 0 w -> (forall c t, In (c, t) w -> c < char_max) ->
  tables fuel al (make_ap_lax A) = Ok T -> length w <= fuel -> exists zs, monaaNotNecessaryDollar fuel al vecC A w = Ok zs.
Proof.
  intros fuel al A w T WF ND HC HT L. unfold monaaNotNecessaryDollar. rewrite HT. cbn [bind]. destruct (no_eps A); [|eauto].
  eapply (any_ends MOptional fuel A (make_ap_lax A) al); eauto. intros p. now rewrite lax_keys.
Qed.

(* ================= C50 the optional $: no match is missed ================= *)

Lemma event_slice : forall A w k t t', increasing 0 w -> k < length w -> at_pos w k t -> event_matches A w t t' ->
  exists j p q v T, k < j /\ j <= length w /\ In p (inits A) /\ run A p zeroval t (slice w k j) q v T /\ accepting A q /\ (T == t')%Q /\ (t < t')%Q.
Proof.
  intros A w k t t' Inc Lk S (M1 & w1 & w2 & w3 & p & q & v & T' & Ew & H1 & H2 & NE & Hp & R & Ha & Et).
  destruct (start_unique w (increasing_nondecreasing _ _ Inc) (mkSk 1 (fun _ => None) [] (fun _ => None)) (le_n 1) k t w1 w2 w3 S Lk Ew NE H1 H2) as (E2 & L4).
  assert (L5 : 0 < length w2) by (destruct w2; [congruence|cbn; lia]).
  assert (LTt : (t < T')%Q).
  { apply run_time in R. rewrite R. assert (I : In (last (map snd w2) t) (map snd w2)).
    { destruct (map snd w2) as [|a l] eqn:X; [destruct w2; [congruence|discriminate]|]. rewrite <- X. clear - X.
      assert (Y : forall (l : list Q) d, l <> [] -> In (last l d) l).
      { induction l0 as [|b l0 IH]; intros d N; [congruence|]. destruct l0; [left; auto|]. right. apply IH. discriminate. }
      apply Y. rewrite X. discriminate. }
    apply in_map_iff in I as (x & <- & I). auto. }
  exists (k + length w2), p, q, v, T'. rewrite <- E2. split; [lia|]. split; [lia|]. repeat (split; auto). lra.
Qed.

Theorem C50_complete_partial : forall fuel al A Ap T w zs, pattern_ok A -> 2 * clockSize A <= 255 -> word_ok w ->
  tables_for fuel al A Ap T -> no_eps A = true ->
  monaaNotNecessaryDollar fuel al vecC A w = Ok zs ->
  forall k t t', k < length w -> at_pos w k t -> (uppers_after_reset Ap \/ (0 < k -> (t == snd (nth (k - 1)%nat w (0%nat, 0)))%Q)) ->
    (between w t t' <> [] /\ matches A w t t') \/ event_matches A w t t' -> exists z, In z zs /\ zin 3 z (pairv t t').
Proof.
  intros fuel al A Ap T w zs PO K WO [HA HT KU AL] NE H k t t' Lk S Ft MM.
  unfold monaaNotNecessaryDollar in H. rewrite (lax_ap A Ap (po_wf _ PO) HA), HT in H. cbn [bind] in H. rewrite NE in H.
  unfold tables in HT. apply bind_Ok in HT as (sets & HS & HT). apply bind_Ok in HT as (beta & HK & HT). apply Ok_inj in HT. subst T.
  cbn [sk_m] in AL. fold (the_tables sets beta) in H.
  pose proof (ap_wf _ _ (po_wf _ PO) HA) as WB.
  assert (RUN : forall k t t', k < length w -> at_pos w k t -> (between w t t' <> [] /\ matches A w t t') \/ event_matches A w t t' ->
    (t < t')%Q /\ exists j p q v T, k < j /\ j <= length w /\ In p (inits Ap) /\ run Ap p zeroval t (slice w k j) q v T /\ accepting Ap q).
  { intros k0 t0 t0' Lk0 S0 [[NB M]|M].
    - split; [destruct (between_start w t0 t0' NB) as (k1 & _ & B1 & B2); lra|].
      apply (match_ap A Ap w k0 t0 PO HA WO Lk0 S0). exists t0'. auto.
    - destruct (event_slice A w k0 t0 t0' (wo_inc _ WO) Lk0 S0 M) as (j & p & q & v & TT & L1 & L2 & Hp & R & Ac & _ & LT).
      split; auto. exists j, p, q, v, TT. split; auto. split; auto. split; [apply (ap_inits A Ap (po_wf _ PO) HA (po_sorted _ PO)); auto|].
      split; [eapply ap_slice_run; eauto|].
      destruct Ac as (s & I1 & I2). destruct (make_ap_states _ _ HA) as (E & _). exists (ap_state s). rewrite E. split.
      + apply in_map_iff. exists (q, s). auto.
      + unfold ap_state. destruct (assoc dollar (next s)); auto. }
  destruct (RUN k t t' Lk S MM) as (LT & _).
  apply (tables_complete fuel Ap w sets WB (wo_inc _ WO) (word_letters _ WO) KU HS al beta ltac:(rewrite (ap_clocks _ _ HA); lia)
      (ap_zero A Ap HA (po_zero _ PO)) AL HK MOptional A (po_wf _ PO)
      (fun p Hp => proj1 (ap_inits A Ap (po_wf _ PO) HA (po_sorted _ PO) p) Hp)
      (fun p v t i j q v' T _ _ R => ap_slice_run A Ap w p v t i j q v' T PO WO HA R) zs
      (fun k t t' => at_pos w k t /\ (uppers_after_reset Ap \/ (0 < k -> (t == tm w (k - 1))%Q)) /\
         ((between w t t' <> [] /\ matches A w t t') \/ event_matches A w t t')) H) with (k := k); auto.
  - intros k0 t0 t0' Lk0 (S0 & F0 & M0).
    destruct (RUN k0 t0 t0' Lk0 S0 M0) as (LT0 & j & p & q & v & TT & L1 & L2 & Hp & R & Ac). split.
    + exists t0, j, (slice w k0 j), p, q, v, TT. repeat (split; auto). apply increasing_slice; auto; [apply WO|lia|]. intros _. apply S0.
    + intros Hk0. destruct (run_back Ap w k0 t0 p j q v TT WB Hk0 S0) as (u & U & R'); auto; [tauto|].
      exists j, p, q, u, U. auto.
  - destruct MM as [[_ M]|M]; [left; auto|right; auto].
Qed.
