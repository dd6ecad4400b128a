(* What the skip tables of an automaton B guarantee for a word, independently of
   the kind of matches that are looked for. *)
From Coq Require Import QArith Lqa Bool List ZArith Arith Lia Sorted.
From Verif Require Import Num NumFacts Outcome Constraint Zone ZoneFacts TA Spec TAFacts Word Monaa MonaaFacts MonaaVec
  ZA ZASpec ZAFacts Skip SkipFacts Sunday Kmp KmpRun KmpSafe KmpUB ApFacts.
Import ListNotations.
Open Scope nat_scope.

(* B accepts some word with the characters of w from k on; its time stamps may
   differ from those of w. *)
Definition reads (B : ta) (w : tword) (k : nat) : Prop :=
  exists t j (ws : tword) p q v T, k < j /\ j <= length w /\ map fst ws = map fst (slice w k j) /\ increasing t ws /\
    In p (inits B) /\ run B p zeroval t ws q v T /\ accepting B q.

(* B accepts the events k, ..., j-1 of w from the time of the event k-1. *)
Definition reads_at (B : ta) (w : tword) (k : nat) : Prop :=
  exists j p q v T, k < j /\ j <= length w /\ In p (inits B) /\ run B p zeroval (tm w (k - 1)) (slice w k j) q v T /\ accepting B q.

Definition letters_ok (w : tword) : Prop := forall c t, In (c, t) w -> 1 <= c /\ c < char_max.

Section Tables.
  Variables (fuel : nat) (B : ta) (w : tword) (sets : list (list nat)).
  Hypothesis WB : wf_ta B.
  Hypothesis Inc : increasing 0 w.
  Hypothesis Let : letters_ok w.
  Hypothesis KU : keeps_useful fuel B.
  Hypothesis HS : sunday_sets fuel B = Ok sets.

  Lemma slice_letters : forall i j c t, In (c, t) (slice w i j) -> 1 <= c /\ c < char_max.
  Proof. intros i j c t H. apply in_slice_nth in H as (k & _ & _ & Lk & E). apply (Let c t). rewrite E. now apply nth_In. Qed.

  Lemma reads_sets : clockSize B <= 255 -> forall k, reads B w k -> k + length sets <= length w /\
    forall n, n < length sets -> In (fst (nth (k + n) w (0, 0%Q))) (nth n sets []).
  Proof.
    intros K k (t & j & ws & p & q & v & T & L1 & L2 & E & I & Hp & R & Ac).
    assert (EL : length ws = j - k) by (apply (f_equal (@length nat)) in E; rewrite !map_length, slice_length in E by lia; exact E).
    destruct (sunday_spec fuel B sets WB K KU HS p q v t ws T Hp R Ac I) as [S1 S2].
    - intros ->. cbn in EL. lia.
    - intros c t0 IN. apply (in_map fst) in IN. rewrite E in IN. apply in_map_iff in IN as ([c' t'] & EQ & IN). cbn in EQ. subst c'.
      eapply slice_letters; eauto.
    - split; [lia|]. intros n Hn. specialize (S2 n Hn).
      replace (fst (nth (k + n) w (0, 0%Q))) with (fst (nth n ws (0, 0%Q))); auto.
      rewrite <- (slice_nth w k j n) by lia.
      assert (X : forall a b : list (nat * Q), map fst a = map fst b -> fst (nth n a (0, 0%Q)) = fst (nth n b (0, 0%Q))).
      { intros a b EE. pose proof (map_nth fst a (0, 0%Q) n) as X1. pose proof (map_nth fst b (0, 0%Q) n) as X2. rewrite EE in X1. congruence. }
      exact (X ws (slice w k j) E).
  Qed.

  Lemma sun_end : clockSize B <= 255 -> forall k, ~ In (fst (nth (k + length sets - 1) w (0, 0%Q))) (last sets []) -> ~ reads B w k.
  Proof.
    intros K k NI R. destruct (reads_sets K k R) as [L S]. pose proof (sunday_sets_length _ _ _ HS) as Lm. apply NI.
    replace (k + length sets - 1) with (k + (length sets - 1)) by lia.
    assert (EL : last sets [] = nth (length sets - 1) sets []).
    { clear - Lm. destruct sets as [|a l] using rev_ind; [cbn in Lm; lia|]. rewrite last_last, app_length. cbn [length].
      rewrite app_nth2 by lia. replace (length l + 1 - 1 - length l) with 0 by lia. reflexivity. }
    rewrite EL. apply S. lia.
  Qed.

  Lemma sun_delta : clockSize B <= 255 -> forall i k d, sunday_delta sets (fst (nth (i + length sets) w (0, 0%Q))) = Some d ->
    i < k -> k < i + d -> ~ reads B w k.
  Proof.
    intros K i k d HD L1 L2 R. destruct (reads_sets K k R) as [L S].
    pose proof (sunday_sets_length _ _ _ HS) as Lm.
    unfold sunday_delta in HD. destruct (char_max <=? _) eqn:EC; [discriminate|]. injection HD as HD.
    set (c := fst (nth (i + length sets) w (0, 0%Q))) in *.
    assert (IN : k <= i + length sets -> mem c (nth (i + length sets - k) sets []) = true).
    { intros Hn. apply mem_In. specialize (S (i + length sets - k) ltac:(lia)). replace (k + (i + length sets - k)) with (i + length sets) in S by lia. exact S. }
    destruct (delta_fold sets c (length sets) (length sets + 1) ltac:(lia)) as [[E HN]|(i0 & I1 & E & I3 & HN)]; rewrite HD in E.
    - rewrite (HN (i + length sets - k)) in IN by lia. specialize (IN ltac:(lia)). discriminate.
    - rewrite (HN (i + length sets - k)) in IN by lia. specialize (IN ltac:(lia)). discriminate.
  Qed.

  Lemma sun_length : clockSize B <= 255 -> forall k, length w < k + length sets -> ~ reads B w k.
  Proof. intros K k L R. destruct (reads_sets K k R) as [L' _]. lia. Qed.

  Lemma reads_at_reads : forall k, 0 < k -> reads_at B w k -> reads B w k.
  Proof.
    intros k Hk (j & p & q & v & T & L1 & L2 & Hp & R & Ac). exists (tm w (k - 1)), j, (slice w k j), p, q, v, T.
    repeat (split; auto). apply increasing_slice; auto; [lia|]. intros L. apply (increasing_tm w 0); auto; lia.
  Qed.

  Variables (al : alloc) (beta : list (ptr * nat)).
  Hypothesis K : 2 * clockSize B <= 255.
  Hypothesis ZD : forall p s, In (p, s) (states B) -> zeroDur s = false.
  Hypothesis AL : alloc_ok al B (length sets).
  Hypothesis HK : kmp fuel al B (length sets) = Ok beta.

  Lemma kmp_safe : forall i j k b s p0 t0 v T, i < length w -> i <= j -> j <= length w -> (t0 < tm w i)%Q ->
    In p0 (inits B) -> run B p0 zeroval t0 (slice w i j) s v T -> assoc s beta = Some b -> i < k -> k < i + b -> ~ reads_at B w k.
  Proof.
    intros i j k b s p0 t0 v T Li L1 L2 S0 Hp R HB K1 K2 RA.
    destruct (reads_sets ltac:(lia) k (reads_at_reads k ltac:(lia) RA)) as [S1 _].
    pose proof (reads_at_reads k ltac:(lia) RA) as RR.
    destruct RA as (j1 & p1 & q & u & U & J1 & J2 & Hp1 & R2 & Ac).
    pose proof (kmp_le _ _ _ _ _ _ _ HK HB) as Lb.
    assert (S2 : length sets <= j1 - k).
    { destruct (sunday_spec fuel B sets WB ltac:(lia) KU HS p1 q u (tm w (k - 1)) (slice w k j1) U Hp1 R2 Ac) as [X _].
      - apply increasing_slice; auto; [lia|]. intros L. apply (increasing_tm w 0); auto; lia.
      - intros X. apply (f_equal (@length _)) in X. rewrite slice_length in X by lia. cbn in X. lia.
      - intros c t. apply slice_letters.
      - rewrite slice_length in X by lia. exact X. }
    assert (HA0 : exists A0, kmp_A0 al B (length sets) = Ok A0).
    { unfold kmp in HK. apply bind_Ok in HK as (A0 & X & _). eauto. }
    destruct HA0 as (A0 & HA0).
    set (J := Nat.max j j1).
    assert (LJ : J <= length w) by (unfold J; lia).
    assert (E1 : slice w i J = slice w i j ++ slice w j J) by (apply slice_cat; unfold J; lia).
    assert (E2 : slice w i J = slice w i k ++ slice w k j1 ++ slice w j1 J).
    { rewrite (slice_cat w i k J) by (unfold J; lia). f_equal. apply slice_cat; unfold J; lia. }
    assert (b <= length (slice w i k)) as X; [|rewrite slice_length in X by lia; lia].
    apply (kmp_core al B (length sets) A0 WB AL K ZD HA0 fuel beta s b HK HB t0 (slice w i j) (slice w j J) (slice w i k) (slice w k j1) (slice w j1 J)
      p0 v T p1 q u U).
    - rewrite <- E1. exact E2.
    - rewrite <- E1. apply Forall_forall. intros [c t1] I. apply slice_letters in I. unfold letter; cbn [fst]. tauto.
    - rewrite <- E1. apply increasing_slice; auto; lia.
    - auto.
    - exact R.
    - rewrite slice_length by lia. lia.
    - rewrite slice_length by lia. lia.
    - auto.
    - rewrite slice_last by lia. exact R2.
    - auto.
    - rewrite slice_length by lia. lia.
  Qed.

  (* ---- completeness of the matcher that uses the tables of B ---- *)
  Variables (M : mode) (A : ta).
  Hypothesis WA : wf_ta A.
  Hypothesis IA : forall p, In p (inits A) -> In p (inits B).
  Hypothesis RA : forall p v t i j q v' T, i <= j -> j <= length w -> run A p v t (slice w i j) q v' T -> run B p v t (slice w i j) q v' T.

  Lemma tables_complete : forall zs (Gd : nat -> Q -> Q -> Prop),
    outer_loop vecC A (the_tables sets beta) M fuel w 0 [] [] = Ok zs ->
    (forall k t t', k < length w -> Gd k t t' -> reads B w k /\ (0 < k -> reads_at B w k)) ->
    forall k t t', k < length w -> start_in w k t -> (t < t')%Q -> mmatch M A w t t' -> Gd k t t' ->
    exists z, In z zs /\ zin 3 z (pairv t t').
  Proof.
    intros zs Gd H HG k t t' Lk S LT MM G.
    pose proof (tables_ok _ _ _ _ (tables_with _ _ _ _ _ HS HK)) as (T1 & T2 & T3 & T4).
    set (P := fun k => k < length w -> forall t t', ~ Gd k t t').
    pose proof (increasing_nondecreasing _ _ Inc) as ND.
    pose proof (outer_vec M A WA w ND (the_tables sets beta) T1 T2 P) as O. cbn [the_tables sk_m sk_end sk_delta sk_beta] in O.
    specialize (O ltac:(intros k0 L Lk0 t0 t0' G0; apply (sun_length ltac:(lia) k0 L), (proj1 (HG _ _ _ Lk0 G0)))).
    specialize (O ltac:(intros k0 _ L X Lk0 t0 t0' G0; apply (sun_end ltac:(lia) k0); [|apply (proj1 (HG _ _ _ Lk0 G0))];
      intros I; apply mem_In in I; unfold TA.ptr in *; congruence)).
    specialize (O ltac:(intros i k0 d _ L X L1 L2 Lk0 t0 t0' G0; apply (sun_delta ltac:(lia) i k0 d X L1 L2), (proj1 (HG _ _ _ Lk0 G0)))).
    assert (PB : forall i j cs cfg b k, i < length w -> i <= j -> j <= length w -> cspec A w i j cs -> In cfg cs ->
      assoc (ist cfg) beta = Some b -> i < k -> k < i + b -> P k).
    { intros i j cs cfg b k0 Li L1 L2 C Hc HB K1 K2 Lk0 t0 t0' G0.
      assert (EX : exists t, start_in w i t).
      { exists (if 0 <? i then tm w (i - 1) else 0%Q). unfold start_in. destruct (0 <? i) eqn:E.
        - apply Nat.ltb_lt in E. split; [|split]; [|intros; lra|].
          + apply Qlt_le_weak. apply increasing_lo; [auto|lia].
          + apply (increasing_tm w 0); [auto|lia|lia].
        - apply Nat.ltb_ge in E. split; [lra|]. split; [lia|]. apply increasing_lo; [auto|lia]. }
      destruct (csp_valid _ _ _ _ _ C cfg Hc EX) as (u0 & V1 & V2).
      destruct (csp_sound _ _ _ _ _ C cfg u0 Hc V1 V2) as (S0 & p0 & v & TT & Hp & R & _).
      apply (kmp_safe i j k0 b (ist cfg) p0 u0 v TT); auto; [apply S0|].
      apply (HG _ _ _ Lk0 G0). lia. }
    specialize (O PB fuel 0 [] [] ltac:(auto) ltac:(intros ? [])). rewrite H in O. destruct O as (new & -> & _ & C).
    destruct (C k t t' ltac:(lia) Lk S LT MM) as [HP|HZ]; [|exact HZ].
    exfalso. apply (HP Lk t t' G).
  Qed.
End Tables.
