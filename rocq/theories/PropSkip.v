(* Properties C26, C27, C28 and C30: the skip tables lose no match. *)
From Coq Require Import QArith Lqa Bool List ZArith Arith Lia Sorted.
From Verif Require Import Num NumFacts Outcome Constraint Zone ZoneFacts TA Spec TAFacts PropBase WfDec Word Monaa MonaaFacts MonaaVec
  ZA ZASpec ZAFacts PropZA Skip SkipFacts Sunday Kmp KmpRun KmpSafe KmpUB ApFacts Tables PropMonaa.
Import ListNotations.
Open Scope nat_scope.

(* ---------- specification vocabulary ---------- *)

(* What the command line tool guarantees about a pattern without epsilon. *)
Record pattern_ok (A : ta) : Prop := mkPO {
  po_wf : wf_ta A;
  po_sorted : StronglySorted le (inits A);                                (* addresses in order: binary_search *)
  po_zero : forall p s, In (p, s) (states A) -> zeroDur s = false
}.

(* A timed word with increasing time stamps over the characters 1..126 other
   than '$'. *)
Record word_ok (w : tword) : Prop := mkWO {
  wo_inc : increasing 0 w;
  wo_chars : forall c t, In (c, t) w -> 1 <= c /\ c < char_max /\ c <> dollar
}.

(* t is between the events k-1 and k: at the first of them or later, before the
   second. *)
Definition at_pos (w : tword) (k : nat) (t : Q) : Prop :=
  (0 <= t)%Q /\ (0 < k -> (snd (nth (k - 1)%nat w (0%nat, 0)) <= t)%Q) /\ (t < snd (nth k w (0%nat, 0)))%Q.

(* A match with some event between its ends. *)
Definition match_from (A : ta) (w : tword) (t : Q) : Prop := exists t', between w t t' <> [] /\ matches A w t t'.

Definition no_match_at (A : ta) (w : tword) (k : nat) : Prop := forall t, at_pos w k t -> ~ match_from A w t.

(* ---------- matches as runs ---------- *)

Lemma match_slice : forall A w k t, pattern_ok A -> word_ok w -> k < length w -> at_pos w k t -> match_from A w t ->
  exists j p q v T e, k < j /\ j <= length w /\ In p (inits A) /\ run A p zeroval t (slice w k j) q v T /\ is_edge A q dollar e.
Proof.
  intros A w k t PO WO Lk S (t' & NE & M1 & M2 & p & q & v & T & e & acc & Hp & R & He & Et & Ha & Hg).
  pose proof (increasing_nondecreasing _ _ (wo_inc _ WO)) as ND.
  destruct (between_start w t t' NE) as (k0 & L0 & B1 & B2).
  destruct (find_end w k t t' Lk S ltac:(lra)) as (j & J1 & J2 & J3).
  rewrite (between_slice w k j t t' ND J1 J2 Lk S J3) in R, NE.
  exists j, p, q, v, T, e. split; [|auto]. destruct (Nat.eq_dec k j) as [->|]; [|lia]. rewrite slice_nil in NE. congruence.
Qed.

Lemma slice_chars : forall w i j c t, word_ok w -> In (c, t) (slice w i j) -> 1 <= c /\ c < char_max /\ c <> dollar.
Proof.
  intros w i j c t WO H. apply in_slice_nth in H as (k & _ & _ & Lk & E). apply (wo_chars _ WO c t). rewrite E. now apply nth_In.
Qed.

Lemma match_ap : forall A Ap w k t, pattern_ok A -> make_ap A = Ok Ap -> word_ok w -> k < length w -> at_pos w k t -> match_from A w t ->
  exists j p q v T, k < j /\ j <= length w /\ In p (inits Ap) /\ run Ap p zeroval t (slice w k j) q v T /\ accepting Ap q.
Proof.
  intros A Ap w k t PO HA WO Lk S M. destruct (match_slice A w k t PO WO Lk S M) as (j & p & q & v & T & e & L1 & L2 & Hp & R & He).
  exists j, p, q, v, T. split; auto. split; auto. split; [apply (ap_inits A Ap (po_wf _ PO) HA (po_sorted _ PO)); auto|]. split.
  - apply (ap_run A Ap HA _ _ _ _ _ _ _ R). intros c t0 I. eapply slice_chars; eauto.
  - eapply ap_accepting; eauto.
Qed.

(* ================= C26 the shortest length ================= *)

(* Words that begin after time 0 and have increasing time stamps. *)
Theorem C26_shortest : forall fuel A sets, wf_ta A -> clockSize A <= 255 -> keeps_useful fuel A ->
  sunday_sets fuel A = Ok sets ->
  1 <= length sets /\
  forall w, accepts A w -> w <> [] -> increasing 0 w -> (forall c t, In (c, t) w -> 1 <= c /\ c < char_max) -> length sets <= length w.
Proof.
  intros fuel A sets WF K KU H. split; [eapply sunday_sets_length; eauto|].
  intros w (p & q & v & T & Hp & R & Ac) NE Inc HC. eapply (sunday_spec fuel A sets WF K KU H); eauto.
Qed.

(* Patterns without cycles need no further hypothesis. *)
Corollary C26_shortest_acyclic : forall fuel A sets rk, wf_ta A -> clockSize A <= 255 ->
  (forall p c e q, is_edge A p c e -> etgt e = Some q -> rk q < rk p) ->
  sunday_sets fuel A = Ok sets ->
  1 <= length sets /\
  forall w, accepts A w -> w <> [] -> increasing 0 w -> (forall c t, In (c, t) w -> 1 <= c /\ c < char_max) -> length sets <= length w.
Proof. intros fuel A sets rk WF K RK. apply C26_shortest; auto. eapply keeps_useful_acyclic; eauto. Qed.

(* ================= C27 the Sunday shifts are safe ================= *)

Lemma word_letters : forall w, word_ok w -> letters_ok w.
Proof. intros w WO c t I. destruct (wo_chars _ WO c t I) as (? & ? & _). auto. Qed.

Lemma match_reads : forall A Ap w k t, pattern_ok A -> make_ap A = Ok Ap -> word_ok w -> k < length w -> at_pos w k t -> match_from A w t ->
  reads Ap w k.
Proof.
  intros A Ap w k t PO HA WO Lk S M. destruct (match_ap A Ap w k t PO HA WO Lk S M) as (j & p & q & v & T & L1 & L2 & Hp & R & Ac).
  exists t, j, (slice w k j), p, q, v, T. repeat (split; auto). apply increasing_slice; auto; [apply WO|lia|]. intros _. apply S.
Qed.

Theorem C27_end : forall fuel A Ap w sets, pattern_ok A -> clockSize A <= 255 -> word_ok w -> make_ap A = Ok Ap ->
  keeps_useful fuel Ap -> sunday_sets fuel Ap = Ok sets ->
  forall k, k + length sets <= length w -> ~ In (fst (nth (k + length sets - 1) w (0, 0%Q))) (last sets []) -> no_match_at A w k.
Proof.
  intros fuel A Ap w sets PO K WO HA KU HS k Lk NI t S M. pose proof (sunday_sets_length _ _ _ HS) as Lm.
  apply (sun_end fuel Ap w sets (ap_wf _ _ (po_wf _ PO) HA) (word_letters _ WO) KU HS ltac:(rewrite (ap_clocks _ _ HA); auto) k NI).
  eapply match_reads; eauto; lia.
Qed.

Theorem C27_delta : forall fuel A Ap w sets, pattern_ok A -> clockSize A <= 255 -> word_ok w -> make_ap A = Ok Ap ->
  keeps_useful fuel Ap -> sunday_sets fuel Ap = Ok sets ->
  forall i k d, i + length sets < length w -> sunday_delta sets (fst (nth (i + length sets) w (0, 0%Q))) = Some d ->
    i < k -> k < i + d -> no_match_at A w k.
Proof.
  intros fuel A Ap w sets PO K WO HA KU HS i k d Li HD L1 L2 t S M.
  apply (sun_delta fuel Ap w sets (ap_wf _ _ (po_wf _ PO) HA) (word_letters _ WO) KU HS ltac:(rewrite (ap_clocks _ _ HA); auto) i k d HD L1 L2).
  eapply match_reads; eauto. assert (d <= length sets + 1); [|lia].
  unfold sunday_delta in HD. destruct (char_max <=? _); [discriminate|]. injection HD as <-.
  destruct (delta_fold sets (fst (nth (i + length sets) w (0, 0%Q))) (length sets) (length sets + 1) ltac:(lia)) as [[E _]|(i0 & _ & E & _)]; rewrite E; lia.
Qed.

(* Too close to the end of the word. *)
Theorem C27_length : forall fuel A Ap w sets, pattern_ok A -> clockSize A <= 255 -> word_ok w -> make_ap A = Ok Ap ->
  keeps_useful fuel Ap -> sunday_sets fuel Ap = Ok sets ->
  forall k, k < length w -> length w < k + length sets -> no_match_at A w k.
Proof.
  intros fuel A Ap w sets PO K WO HA KU HS k Lw Lk t S M.
  apply (sun_length fuel Ap w sets (ap_wf _ _ (po_wf _ PO) HA) (word_letters _ WO) KU HS ltac:(rewrite (ap_clocks _ _ HA); auto) k Lk).
  eapply match_reads; eauto.
Qed.

(* ================= C28 the KMP shifts are safe ================= *)

(* Every clock bounded from above by a guard was reset on the way. *)
Definition uppers_after_reset (B : ta) : Prop :=
  exists R : ptr -> nat -> Prop,
    (forall p x, In p (inits B) -> ~ R p x) /\
    forall p c e q, is_edge B p c e -> etgt e = Some q ->
      (forall g, In g (eguard e) -> codr g = Lt \/ codr g = Le -> R p (cx g)) /\
      (forall x, R q x -> R p x \/ In x (eresets e)).

Section Kmp28.
  Variables (fuel : nat) (al : alloc) (A Ap : ta) (w : tword) (sets : list (list nat)) (beta : list (ptr * nat)).
  Hypothesis PO : pattern_ok A.
  Hypothesis K : 2 * clockSize A <= 255.
  Hypothesis WO : word_ok w.
  Hypothesis HA : make_ap A = Ok Ap.
  Hypothesis KU : keeps_useful fuel Ap.
  Hypothesis HS : sunday_sets fuel Ap = Ok sets.
  Hypothesis AL : alloc_ok al Ap (length sets).
  Hypothesis HK : kmp fuel al Ap (length sets) = Ok beta.

  Lemma kmp_generic : forall i j k b s p0 t0 v T t, i < length w -> i <= j -> j <= length w -> at_pos w i t0 ->
    In p0 (inits A) -> run A p0 zeroval t0 (slice w i j) s v T -> assoc s beta = Some b -> i < k -> k < i + b ->
    k < length w -> at_pos w k t -> match_from A w t ->
    (forall p1 j1 q v1 T1, In p1 (inits Ap) -> k < j1 -> j1 <= length w -> run Ap p1 zeroval t (slice w k j1) q v1 T1 ->
       exists u U, run Ap p1 zeroval (tm w (k - 1)) (slice w k j1) q u U) -> False.
  Proof.
    intros i j k b s p0 t0 v T t Li L1 L2 S0 Hp R HB K1 K2 Lk S M E.
    destruct (match_ap A Ap w k t PO HA WO Lk S M) as (j1 & p1 & q & v1 & T1 & J1 & J2 & Hp1 & R1 & Ac).
    destruct (E p1 j1 q v1 T1 Hp1 J1 J2 R1) as (u & U & R2).
    apply (kmp_safe fuel Ap w sets (ap_wf _ _ (po_wf _ PO) HA) (wo_inc _ WO) (word_letters _ WO) KU HS al beta ltac:(rewrite (ap_clocks _ _ HA); lia)
      (ap_zero A Ap HA (po_zero _ PO)) AL HK i j k b s p0 t0 v T); auto.
    - apply S0.
    - apply (ap_inits A Ap (po_wf _ PO) HA (po_sorted _ PO)); auto.
    - apply (ap_run A Ap HA _ _ _ _ _ _ _ R). intros c t1 I. eapply slice_chars; eauto.
    - exists j1, p1, q, u, U. auto.
  Qed.

  (* The configuration reached state s after reading the events i..j-1, and beta(s)=b. *)
  Theorem C28_shift_partial : uppers_after_reset Ap ->
    forall i j k b s p0 t0 v T, i < length w -> i <= j -> j <= length w -> at_pos w i t0 ->
      In p0 (inits A) -> run A p0 zeroval t0 (slice w i j) s v T -> assoc s beta = Some b -> i < k -> k < i + b ->
      k < length w -> no_match_at A w k.
  Proof.
    intros (Rs & HI & HE) i j k b s p0 t0 v T Li L1 L2 S0 Hp R HB K1 K2 Lk t S M.
    eapply (kmp_generic i j k b s p0 t0 v T t); eauto.
    intros p1 j1 q v1 T1 Hp1 J1 J2 R1.
    apply (run_earlier Ap Rs (ap_wf _ _ (po_wf _ PO) HA) HE _ _ _ _ _ _ _ R1).
    - intros x. unfold zeroval. destruct S as (_ & S2 & _). specialize (S2 ltac:(lia)). unfold tm. lra.
    - intros x Hx. exfalso. eapply HI; eauto.
  Qed.

  (* Matches beginning at the time of an event are kept for every pattern. *)
  Theorem C28_shift_event_partial :
    forall i j k b s p0 t0 v T, i < length w -> i <= j -> j <= length w -> at_pos w i t0 ->
      In p0 (inits A) -> run A p0 zeroval t0 (slice w i j) s v T -> assoc s beta = Some b -> i < k -> k < i + b ->
      k < length w -> forall t, at_pos w k t -> (t == snd (nth (k - 1)%nat w (0%nat, 0)))%Q -> ~ match_from A w t.
  Proof.
    intros i j k b s p0 t0 v T Li L1 L2 S0 Hp R HB K1 K2 Lk t S Et M.
    eapply (kmp_generic i j k b s p0 t0 v T t); eauto.
    intros p1 j1 q v1 T1 Hp1 J1 J2 R1.
    apply (run_earlier Ap (fun _ _ => True) (ap_wf _ _ (po_wf _ PO) HA) ltac:(intros; split; auto) _ _ _ _ _ _ _ R1).
    - intros x. unfold zeroval, tm. lra.
    - intros x _. unfold zeroval, tm. lra.
  Qed.
End Kmp28.

(* ================= C30 no match is missed ================= *)

(* Everything the skip tables need, in one place. *)
Record tables_for (fuel : nat) (al : alloc) (A Ap : ta) (T : skips) : Prop := mkTF {
  tf_ap : make_ap A = Ok Ap;
  tf_tables : tables fuel al Ap = Ok T;
  tf_useful : keeps_useful fuel Ap;
  tf_alloc : alloc_ok al Ap (sk_m T)
}.

(* A run of the automaton of the tables can begin at the event before. *)
Lemma run_back : forall (B : ta) w k t p j q v T, wf_ta B -> 0 < k -> at_pos w k t ->
  (uppers_after_reset B \/ (t == tm w (k - 1))%Q) -> In p (inits B) ->
  run B p zeroval t (slice w k j) q v T -> exists u U, run B p zeroval (tm w (k - 1)) (slice w k j) q u U.
Proof.
  intros B w k t p j q v T WB Hk S H Hp R. destruct H as [(Rs & HI & HE)|E].
  - apply (run_earlier B Rs WB HE _ _ _ _ _ _ _ R).
    + intros x. unfold zeroval. destruct S as (_ & S2 & _). specialize (S2 Hk). unfold tm. lra.
    + intros x Hx. exfalso. eapply HI; eauto.
  - apply (run_earlier B (fun _ _ => True) WB ltac:(intros; split; auto) _ _ _ _ _ _ _ R).
    + intros x. unfold zeroval. lra.
    + intros x _. unfold zeroval. lra.
Qed.

Lemma ap_slice_run : forall A Ap w p v t i j q v' T, pattern_ok A -> word_ok w -> make_ap A = Ok Ap ->
  run A p v t (slice w i j) q v' T -> run Ap p v t (slice w i j) q v' T.
Proof.
  intros A Ap w p v t i j q v' T PO WO HA R. apply (ap_run A Ap HA _ _ _ _ _ _ _ R). intros c t1 I. eapply slice_chars; eauto.
Qed.

Lemma monaaDollar_complete : forall fuel al A Ap T w zs, pattern_ok A -> 2 * clockSize A <= 255 -> word_ok w ->
  tables_for fuel al A Ap T -> no_eps A = true ->
  monaaDollar fuel al vecC A w = Ok zs ->
  forall k t t', k < length w -> at_pos w k t -> (uppers_after_reset Ap \/ (0 < k -> (t == tm w (k - 1))%Q)) ->
    between w t t' <> [] -> matches A w t t' -> exists z, In z zs /\ zin 3 z (pairv t t').
Proof.
  intros fuel al A Ap T w zs PO K WO [HA HT KU AL] NE H k t t' Lk S Ft NB M.
  unfold monaaDollar in H. rewrite HA in H. cbn [bind] in H. rewrite HT in H. cbn [bind] in H. rewrite NE in H.
  unfold tables in HT. apply bind_Ok in HT as (sets & HS & HT). apply bind_Ok in HT as (beta & HK & HT). apply Ok_inj in HT. subst T.
  cbn [sk_m] in AL. fold (the_tables sets beta) in H.
  pose proof (ap_wf _ _ (po_wf _ PO) HA) as WB.
  assert (LT : (t < t')%Q) by (destruct (between_start w t t' NB) as (k0 & _ & B1 & B2); lra).
  apply (tables_complete fuel Ap w sets WB (wo_inc _ WO) (word_letters _ WO) KU HS al beta ltac:(rewrite (ap_clocks _ _ HA); lia)
      (ap_zero A Ap HA (po_zero _ PO)) AL HK MDollar A (po_wf _ PO)
      (fun p Hp => proj1 (ap_inits A Ap (po_wf _ PO) HA (po_sorted _ PO) p) Hp)
      (fun p v t i j q v' T _ _ R => ap_slice_run A Ap w p v t i j q v' T PO WO HA R) zs
      (fun k t t' => at_pos w k t /\ (uppers_after_reset Ap \/ (0 < k -> (t == tm w (k - 1))%Q)) /\ match_from A w t) H) with (k := k); auto.
  - intros k0 t0 t0' Lk0 (S0 & F0 & M0). split; [eapply match_reads; eauto|]. intros Hk0.
    destruct (match_ap A Ap w k0 t0 PO HA WO Lk0 S0 M0) as (j & p & q & v & T & L1 & L2 & Hp & R & Ac).
    destruct (run_back Ap w k0 t0 p j q v T WB Hk0 S0) as (u & U & R'); auto; [tauto|].
    exists j, p, q, u, U. auto.
  - split; auto. split; auto. exists t'. auto.
Qed.

(* Every match with some event in it is reported, when upper bounds only
   constrain clocks that were reset. *)
Theorem C30_complete_partial : forall fuel al A Ap T w zs, pattern_ok A -> 2 * clockSize A <= 255 -> word_ok w ->
  tables_for fuel al A Ap T -> no_eps A = true -> uppers_after_reset Ap ->
  monaaDollar fuel al vecC A w = Ok zs ->
  forall t t', between w t t' <> [] -> matches A w t t' -> exists z, In z zs /\ zin 3 z (pairv t t').
Proof.
  intros fuel al A Ap T w zs PO K WO TF NE UR H t t' NB M.
  destruct (between_start w t t' NB) as (k0 & L0 & B1 & B2).
  destruct (find_start w t (increasing_nondecreasing _ _ (wo_inc _ WO)) (proj1 M) ltac:(eauto)) as (k & Lk & S).
  eapply (monaaDollar_complete fuel al A Ap T w zs); eauto.
Qed.

(* For every pattern: the matches beginning at the time of an event. *)
Theorem C30_complete_event_partial : forall fuel al A Ap T w zs, pattern_ok A -> 2 * clockSize A <= 255 -> word_ok w ->
  tables_for fuel al A Ap T -> no_eps A = true ->
  monaaDollar fuel al vecC A w = Ok zs ->
  forall k t t', k < length w -> at_pos w k t -> (0 < k -> (t == snd (nth (k - 1)%nat w (0%nat, 0)))%Q) ->
    between w t t' <> [] -> matches A w t t' -> exists z, In z zs /\ zin 3 z (pairv t t').
Proof.
  intros fuel al A Ap T w zs PO K WO TF NE H k t t' Lk S Et NB M.
  eapply (monaaDollar_complete fuel al A Ap T w zs); eauto.
Qed.
