(* C45, C48, C57, C58, C59: patterns with unobservable transitions. *)
From Coq Require Import QArith Lqa Bool List ZArith Arith Lia Sorted.
From Verif Require Import Num NumFacts Outcome Constraint Zone ZoneFacts TA Spec TAFacts WfDec Word Monaa MonaaFacts MonaaVec
  ZA Skip SkipFacts Sunday Kmp KmpSafe ApFacts Tables PropMonaa PropSkip PropModes EpsZone EpsZoneFacts EpsZoneOps EpsSpec EpsRun.
Import ListNotations.
Open Scope nat_scope.

(* ================= C57 the reported pairs are matches ================= *)

Definition observable (w : tword) : Prop := forall c t, In (c, t) w -> c <> 0.
Definition no_eps_reset (A : ta) : Prop := forall p e, is_edge A p 0 e -> eresets e = [].

Lemma observable_ob : forall w, observable w -> forall e, In e w -> fst e <> 0.
Proof. intros w H [c t] I. apply (H c t I). Qed.

(* The run with tables T. *)
Lemma eps_ok : forall fuel fx A w T zs, wf_ta A -> nondecreasing 0 w -> observable w -> fx = true \/ no_eps_reset A ->
  1 <= sk_m T -> (forall c d, sk_delta T c = Some d -> 1 <= d) ->
  eps_outer vecC A T fx (clockSize A) fuel w 0 [] [] = Ok zs -> forall z, In z zs -> exists i, i < length w /\ ezone_ok A w i z.
Proof.
  intros fuel fx A w T zs WF ND OB FX T1 T2 H z Hz.
  pose proof (eps_outer_vec A WF w ND (observable_ob w OB) fx FX T T1 T2 (fun _ => True)) as O.
  cbv beta in O; specialize (O ltac:(intros; exact Logic.I) ltac:(intros; exact Logic.I) ltac:(intros; exact Logic.I) ltac:(intros; exact Logic.I) fuel 0 [] [] ltac:(auto)). rewrite H in O.
  destruct O as (_ & O & _). destruct (O z Hz) as [[]|]; auto.
Qed.

Lemma signal_eps : forall A w t t', nondecreasing 0 w -> observable w -> signal_matches A w t t' -> eps_matches A w t t'.
Proof.
  intros A w t t' ND OB (M1 & M2 & pre & c & tau & post & p & q & v & T' & e & acc & Ew & Hpre & Htau & Hp & R & He & Et & Ha & Hg).
  exists (between w t t'). split; [auto|split; [auto|]]. exists pre, c, tau, post, p, q, v, T', e, acc.
  split; [auto|split; [auto|split; [auto|split; [auto|split; [|split; [|repeat split; auto]]]]]].
  - unfold observe. apply filter_every. intros [c' s] I. apply filter_In in I. destruct I as [I _]. apply OB in I. cbn. destruct (Nat.eqb_spec c' 0); [contradiction|auto].
  - unfold between. clear - ND M2.
    assert (X : forall w lo, nondecreasing lo w -> forall l, (l <= t)%Q \/ (l <= lo)%Q -> (l <= t')%Q ->
      nondecreasing l (filter (fun e => negb (Qle_bool (snd e) t) && negb (Qle_bool t' (snd e))) w ++ [(c, t')])).
    { clear w ND. induction w as [|[d s] w IH]; intros lo N l Hl Hl'; cbn [filter Datatypes.app nondecreasing snd]; [auto|].
      destruct N as [N1 N2]. destruct (Qle_bool s t) eqn:E1; cbn [negb andb].
      - apply (IH s); auto. destruct Hl; [auto|right; lra].
      - destruct (Qle_bool t' s) eqn:E2; cbn [negb].
        + apply (IH s); auto. destruct Hl; [auto|right; lra].
        + apply Qle_bool_false in E1, E2. cbn [Datatypes.app nondecreasing]. split; [lra|]. apply (IH s); auto; [right|]; lra. }
    apply (X w 0%Q ND t); auto. left. lra.
Qed.

(* monaa(), with or without unobservable transitions, when these reset nothing. *)
Theorem C57_sound : forall fuel al A w zs z t t', wf_ta A -> nondecreasing 0 w -> observable w -> no_eps_reset A ->
  monaa fuel al (clockSize A) vecC A w = Ok zs -> In z zs -> zin 3 z (pairv t t') -> eps_matches A w t t'.
Proof.
  intros fuel al A w zs z t t' WF ND OB NR H Hz Z. unfold monaa in H. apply bind_Ok in H as (T & HT & H).
  destruct (tables_ok _ _ _ _ HT) as (T1 & T2 & _). destruct (no_eps A).
  - apply signal_eps; auto. apply (C33_sound fuel al A w zs z); auto. unfold monaa_plain. rewrite HT. exact H.
  - destruct (eps_ok fuel false A w T zs WF ND OB (or_intror NR) T1 T2 H z Hz) as (i & _ & _ & _ & _ & C). apply (C _ _ Z).
Qed.

Theorem C57_nonempty : forall fuel al A w zs z, wf_ta A -> nondecreasing 0 w -> observable w -> no_eps_reset A ->
  monaa fuel al (clockSize A) vecC A w = Ok zs -> In z zs -> exists t t', zin 3 z (pairv t t').
Proof.
  intros fuel al A w zs z WF ND OB NR H Hz. unfold monaa in H. apply bind_Ok in H as (T & HT & H).
  destruct (tables_ok _ _ _ _ HT) as (T1 & T2 & _). destruct (no_eps A).
  - apply (C31_nonempty_signal fuel al A w zs z); auto. unfold monaa_plain. rewrite HT. exact H.
  - destruct (eps_ok fuel false A w T zs WF ND OB (or_intror NR) T1 T2 H z Hz) as (i & _ & _ & _ & (v & Hv) & _).
    apply zin3_pairv in Hv. eauto.
Qed.

(* ================= C58 termination ================= *)

(* The unobservable transitions make no cycle. *)
Theorem C58_terminates_partial : forall fuel al A w T (rk : ptr -> nat) R, wf_ta A -> nondecreasing 0 w -> observable w -> no_eps_reset A ->
  (forall c t, In (c, t) w -> c < char_max) -> tables fuel al A = Ok T ->
  (forall p e q, is_edge A p 0 e -> etgt e = Some q -> rk q < rk p) -> (forall p, rk p <= R) -> length w + R < fuel ->
  exists zs, monaa fuel al (clockSize A) vecC A w = Ok zs.
Proof.
  intros fuel al A w T rk R WF ND OB NR HC HT Hd HR HF. unfold monaa. rewrite HT. cbn [bind].
  destruct (no_eps A).
  - destruct (C32_terminates_signal fuel al A w T WF ND HC HT ltac:(lia)) as (zs & H). exists zs. unfold monaa_plain in H. rewrite HT in H. exact H.
  - destruct (tables_ok _ _ _ _ HT) as (T1 & T2 & T3 & T4).
    pose proof (eps_outer_vec A WF w ND (observable_ob w OB) false (or_intror NR) T T1 T2 (fun _ => True)) as O.
    cbv beta in O; specialize (O ltac:(intros; exact Logic.I) ltac:(intros; exact Logic.I) ltac:(intros; exact Logic.I) ltac:(intros; exact Logic.I) fuel 0 [] [] ltac:(auto)).
    destruct (eps_outer vecC A T false (clockSize A) fuel w 0 [] []) as [zs| | | |]; [eauto| | |contradiction|].
    + exfalso. destruct O as (k & K1 & K2). destruct (nth k w (0, 0%Q)) as [c t] eqn:E.
      apply (T3 c); [|exact K2]. apply (HC c t). rewrite <- E. apply nth_In. auto.
    + exfalso. destruct O as (p & P1 & P2). apply (T4 p); auto.
    + exfalso. apply O. exists rk, R. split; [exact Hd|split; [auto|lia]].
Qed.

(* ================= C59 completeness where it looks ================= *)

(* Positions that the tables pass over. *)
Inductive eps_skipped (A : ta) (w : tword) (T : skips) : nat -> Prop :=
| es_short : forall k, length w < k + sk_m T -> eps_skipped A w T k
| es_endchar : forall k, 1 < sk_m T -> k + sk_m T <= length w ->
    ~ In (fst (nth (k + sk_m T - 1) w (0, 0%Q))) (sk_end T) -> eps_skipped A w T k
| es_sunday : forall i k d, 1 < sk_m T -> i + sk_m T < length w -> sk_delta T (fst (nth (i + sk_m T) w (0, 0%Q))) = Some d ->
    i < k -> k < i + d -> eps_skipped A w T k
| es_kmp : forall i j k p t u s v T' b, i <= j -> j <= length w -> i < length w -> In p (inits A) -> at_pos w i t ->
    run A p zeroval t u s v T' -> observe u = slice w i j -> nondecreasing t u -> sk_beta T s = Some b -> i < k -> k < i + b -> eps_skipped A w T k.

Lemma eps_cover : forall fuel fx A w T zs, wf_ta A -> increasing 0 w -> observable w -> fx = true \/ no_eps_reset A ->
  1 <= sk_m T -> (forall c d, sk_delta T c = Some d -> 1 <= d) ->
  eps_outer vecC A T fx (clockSize A) fuel w 0 [] [] = Ok zs ->
  forall k t t' u, k < length w -> at_pos w k t -> (t < t')%Q -> eps_matches_by A w t t' u -> late w t u -> ~ eps_skipped A w T k ->
    exists z, In z zs /\ zin 3 z (pairv t t').
Proof.
  intros fuel fx A w T zs WF Inc OB FX T1 T2 H k t t' u Lk St LT MM La NS.
  pose proof (increasing_nondecreasing _ _ Inc) as ND.
  pose proof (eps_outer_vec A WF w ND (observable_ob w OB) fx FX T T1 T2 (eps_skipped A w T)) as O.
  specialize (O ltac:(intros; apply es_short; auto)).
  specialize (O ltac:(intros k0 X1 X2 X3; apply es_endchar; auto; intros I; apply mem_In in I; unfold TA.ptr in *; congruence)).
  specialize (O ltac:(intros; eapply es_sunday; eauto)).
  assert (PB : forall i j cs cfg b k, i < length w -> i <= j -> j <= length w -> econfs A w i j cs -> In cfg cs ->
      sk_beta T (est cfg) = Some b -> i < k -> k < i + b -> eps_skipped A w T k).
  { intros i j cs cfg b k0 Li L1 L2 C Hc HB K1 K2.
    assert (EX : exists t, start_in w i t).
    { exists (if 0 <? i then tm w (i - 1) else 0%Q). unfold start_in. destruct (0 <? i) eqn:E.
      - apply Nat.ltb_lt in E. split; [|split]; [|intros; lra|].
        + apply Qlt_le_weak. apply increasing_lo; [auto|lia].
        + apply (increasing_tm w 0); [auto|lia|lia].
      - apply Nat.ltb_ge in E. split; [lra|]. split; [lia|]. apply increasing_lo; [auto|lia]. }
    destruct (C cfg Hc) as (N & E). pose proof (ei_live _ _ _ _ _ _ E EX) as Sa. apply (iz_sat_spec N) in Sa; [|apply E].
    destruct Sa as (v0 & V0). destruct (ei_sound _ _ _ _ _ _ E v0 V0) as (S0 & p0 & u0 & va & TT & Hp & R & Ob & Nu & _).
    eapply (es_kmp A w T i j); eauto. }
  specialize (O PB fuel 0 [] [] ltac:(auto)). rewrite H in O. destruct O as (_ & _ & C).
  destruct (C k t t' u ltac:(lia) Lk St LT MM La) as [HP|HZ]; [contradiction|exact HZ].
Qed.

(* Every match whose unobservable steps are strictly later than the events before
   them is reported, unless the tables pass over its position. *)
Theorem C59_examined_partial : forall fuel al A w T zs, wf_ta A -> increasing 0 w -> observable w -> no_eps_reset A -> no_eps A = false ->
  tables fuel al A = Ok T -> monaa fuel al (clockSize A) vecC A w = Ok zs ->
  forall k t t' u, k < length w -> at_pos w k t -> (t < t')%Q -> eps_matches_by A w t t' u -> late w t u -> ~ eps_skipped A w T k ->
    exists z, In z zs /\ zin 3 z (pairv t t').
Proof.
  intros fuel al A w T zs WF Inc OB NR NE HT H. unfold monaa in H. rewrite HT, NE in H. cbn [bind] in H.
  destruct (tables_ok _ _ _ _ HT) as (T1 & T2 & _). eapply (eps_cover fuel false A w T zs); eauto.
Qed.

(* An unguarded unobservable transition from a state to itself: the loop over the
   unobservable transitions does not end, whatever the fuel. *)
Lemma rounds_loop : forall A w fx i j p e, wf_ta A -> increasing 0 w -> observable w -> fx = true \/ no_eps_reset A -> i <= j -> j < length w ->
  is_edge A p 0 e -> etgt e = Some p -> eguard e = [] ->
  forall fuel cur cs cfg N, econfs A w i j cur -> In cfg cur -> einv A w i j cfg N -> iz_sat (ez cfg) = true -> est cfg = p ->
  eps_rounds vecC A fx fuel w j cur cs = OutOfFuel.
Proof.
  intros A w fx i j p e WF Inc OB FX L1 L2 He Et Eg. pose proof (increasing_nondecreasing _ _ Inc) as ND.
  induction fuel; intros cur cs cfg N C Hc E Sa Ep; (destruct cur as [|c0 cur]; [inversion Hc|]); cbn [eps_rounds]; auto.
  destruct (eps_step_spec A WF w fx FX i j (c0 :: cur) L1 L2 C) as (nx & -> & N1 & _ & N2). cbn [bind].
  apply (iz_sat_spec N) in Sa; [|apply E]. destruct Sa as (v & V).
  subst p. destruct (eps_edge_spec A WF w fx FX i j cfg N e L1 L2 E He) as (l & E1 & _ & E3).
  pose proof (new_pos _ _ (ei_wf _ _ _ _ _ _ E)) as Pn.
  assert (NT : (ev v (newestClock (ez cfg)) <= tm w j)%Q).
  { pose proof (V (newestClock (ez cfg)) 0 ltac:(lia) ltac:(lia)) as Z.
    assert (Y : below (bnd (tm w j) true) (ev v (newestClock (ez cfg)) - ev v 0)).
    { eapply below_ble; [| |apply (ei_new _ _ _ _ _ _ E); auto|exact Z]; [apply (ei_wf _ _ _ _ _ _ E); lia|exact I]. }
    unfold below, bnd in Y. cbn in Y. lra. }
  destruct (E3 (est cfg) v (tm w j) Et V) as (cfg' & N' & v' & D1 & D2 & D3 & D4 & _).
  - lra.
  - apply lo_end_below. destruct (Nat.ltb_spec 0 j).
    + apply (increasing_tm w 0); auto; lia.
    + apply (tm_nonneg w ND). auto.
  - exact NT.
  - rewrite Eg. intros g [].
  - apply (IHfuel nx (cs ++ nx) cfg' N'); auto.
    + eapply N2; eauto.
    + apply (iz_sat_spec N'); [apply D2|]. eauto.
Qed.

(* ================= C45 resets on unobservable transitions ================= *)

(* With the clock returned by alloc (monaa.hh:597 with an assignment to newClock)
   the results would be right. *)
Theorem C45_fixed_partial : forall fuel A w T zs, wf_ta A -> nondecreasing 0 w -> observable w ->
  1 <= sk_m T -> (forall c d, sk_delta T c = Some d -> 1 <= d) ->
  eps_outer vecC A T true (clockSize A) fuel w 0 [] [] = Ok zs ->
  forall z t t', In z zs -> zin 3 z (pairv t t') -> eps_matches A w t t'.
Proof.
  intros fuel A w T zs WF ND OB T1 T2 H z t t' Hz Z.
  destruct (eps_ok fuel true A w T zs WF ND OB (or_introl eq_refl) T1 T2 H z Hz) as (i & _ & _ & _ & _ & C). apply (C _ _ Z).
Qed.

(* ================= C48 the two representations agree ================= *)

Lemma zin_used : forall n z v v', iwf n z -> (forall k, used k z -> ev v' k = ev v k) -> zin n (iz_mat z) v -> zin n (iz_mat z) v'.
Proof.
  intros n z v v' W E Z a b Ha Hb.
  assert (D : forall k, k < n -> used k z \/ dead n (iz_mat z) k).
  { intros k Hk. pose proof W as [Sh K]. destruct z as [l p|m al p].
    - left. destruct l as [|[l0 u0] [|[l1 u1] [|[l2 u2] [|d l]]]]; cbn [shape] in Sh; try contradiction; destruct Sh; subst; cbn; lia.
    - cbn [iz_mat shape used] in *. destruct Sh as (B1 & B2 & B3 & B4 & B5 & B6). destruct (nth k al false) eqn:En; auto. }
  destruct (D a Ha) as [Ua|[Da0 Da]], (D b Hb) as [Ub|[Db0 Db]].
  - rewrite !E by auto. apply Z; auto.
  - destruct (Nat.eq_dec a b) as [->|N]; [apply below_eq with 0%Q; [ring|]; apply below_zero; auto; apply W; auto|].
    unfold below. destruct (Db a Ha N) as [_ ->]. exact I.
  - destruct (Nat.eq_dec a b) as [->|N]; [apply below_eq with 0%Q; [ring|]; apply below_zero; auto; apply W; auto|].
    unfold below. destruct (Da b Hb (not_eq_sym N)) as [-> _]. exact I.
  - destruct (Nat.eq_dec a b) as [->|N]; [apply below_eq with 0%Q; [ring|]; apply below_zero; auto; apply W; auto|].
    unfold below. destruct (Da b Hb (not_eq_sym N)) as [-> _]. exact I.
Qed.

(* The operations of monaa() on a zone. *)
Inductive zop : Type :=
| OAlloc (up lo : bound)
| OGuard (gs : list constr) (rst : list rtime)
| OGuardAt (t : Q) (gs : list constr) (rst : list rtime)
| OUpdate (rst : list rtime).
Definition apply_op (o : zop) (z : izone) : outcome izone :=
  match o with
  | OAlloc up lo => iz_alloc up lo z
  | OGuard gs rst => iz_guard gs rst z
  | OGuardAt t gs rst => iz_guard_at t gs rst z
  | OUpdate rst => iz_update rst z
  end.
(* What monaa() guarantees when it applies an operation to [z]: event times do not
   decrease, reset times are known, and guards use known clocks. *)
Definition op_ok (o : zop) (z : izone) : Prop :=
  match o with
  | OAlloc up lo => good up /\ good lo /\ ble (mget (iz_mat z) (newestClock z) 0) up
  | OGuard gs rst => Forall (rt_ok z) rst /\ ~ In (RClock (newestClock z)) rst /\ Forall (fun g => cx g < length rst) gs
  | OGuardAt _ gs rst => Forall (rt_ok z) rst /\ Forall (fun g => cx g < length rst) gs
  | OUpdate rst => Forall (rt_ok z) rst
  end.

(* The same sequence of operations on [z] and on [z']: as long as [z] is satisfiable
   both go on, are satisfiable together and denote the same pairs. *)
Fixpoint same_after (ops : list zop) (z z' : izone) : Prop :=
  iz_sat z = iz_sat z' /\
  (iz_sat z = true ->
   (forall t t', zin 3 (iz_ans z) (pairv t t') <-> zin 3 (iz_ans z') (pairv t t')) /\
   match ops with
   | [] => True
   | o :: ops => op_ok o z -> exists z1 z1', apply_op o z = Ok z1 /\ apply_op o z' = Ok z1' /\ same_after ops z1 z1'
   end).

Definition alv (z : izone) : list bool :=
  match z with IvZone ivs _ => repeat true (if length ivs =? 1 then 2 else 3) | MatZone _ al _ => al end.

Lemma alv_len : forall n z, iwf n z -> length (alv z) = n.
Proof.
  intros n [l p|m al p] [Sh _]; cbn [shape alv] in *; [|tauto].
  destruct l as [|[l0 u0] [|[l1 u1] [|[l2 u2] [|d l]]]]; try contradiction; destruct Sh; subst; reflexivity.
Qed.
Lemma alv_used : forall n z k, iwf n z -> (used k z <-> nth k (alv z) false = true).
Proof.
  intros n [l p|m al p] k [Sh _]; cbn [shape alv used] in *; [|tauto].
  destruct l as [|[l0 u0] [|[l1 u1] [|[l2 u2] [|d l]]]]; try contradiction; destruct Sh; subst; cbn [length Nat.eqb repeat].
  - destruct k as [|[|[|k]]]; cbn; split; intros; auto; try lia; try discriminate.
  - destruct k as [|[|[|[|k]]]]; cbn; split; intros; auto; try lia; try discriminate.
Qed.
Lemma alv_eq : forall n z z', iwf n z -> iwf n z' -> (forall k, used k z' <-> used k z) -> alv z' = alv z.
Proof.
  intros n z z' W W' U. apply nth_ext with (d := false) (d' := false); [rewrite !(alv_len n); auto|].
  intros k _. specialize (U k). rewrite !(alv_used n) in U by auto. destruct (nth k (alv z) false), (nth k (alv z') false); intuition congruence.
Qed.

(* The clock that alloc takes and the number of clocks after it. *)
Lemma alloc_clocks : forall n z up lo z1, iwf n z -> newestClock z <> 1 -> iz_alloc up lo z = Ok z1 ->
  newestClock z1 = match first_free (alv z) with Some k => k | None => n end /\
  length (alv z1) = match first_free (alv z) with Some _ => n | None => S n end.
Proof.
  intros n [l p|m al p] up lo z1 [Sh K] N H; cbn [shape newestClock] in *.
  - destruct l as [|[l0 u0] [|[l1 u1] [|[l2 u2] [|d l]]]]; try contradiction; destruct Sh; subst; [congruence|].
    cbn [iz_alloc] in H. apply Ok_inj in H. subst z1. cbn. auto.
  - destruct Sh as (Ll & _). cbn [iz_alloc alv] in *. assert (Lm : length m = n) by apply K. destruct (first_free al); apply Ok_inj in H; subst z1; cbn [newestClock alv];
      rewrite len_set_nth, ?app_length; cbn [length]; rewrite ?Ll; split; auto; lia.
Qed.

Lemma update_clocks : forall n z rst z1 k, iwf n z -> newestClock z <> 1 -> Forall (rt_ok z) rst -> iz_update rst z = Ok z1 ->
  (used k z1 <-> k = 0 \/ k = 1 \/ k = newestClock z \/ In (RClock k) rst).
Proof.
  intros n [l p|m al p] rst z1 k W N R H; pose proof W as [Sh K]; cbn [shape newestClock] in *.
  - destruct l as [|[l0 u0] [|[l1 u1] [|[l2 u2] [|d l]]]]; try contradiction; destruct Sh; subst; [congruence|].
    cbn [iz_update] in H. apply Ok_inj in H. subst z1. cbn [used]. split; [lia|]. intros [->|[->|[->|I]]]; try lia.
    rewrite Forall_forall in R. apply R in I. apply I.
  - destruct Sh as (Ll & Hp & _). cbn [iz_update] in H. assert (Lm : length m = n) by apply K. rewrite Lm in H.
    destruct (forallb _ rst) eqn:E; [|discriminate]. apply Ok_inj in H. subst z1. cbn [used].
    apply kept_spec; auto. intros r Hr. rewrite forallb_forall in E. specialize (E r Hr). destruct r; auto. apply Nat.ltb_lt. auto.
Qed.

(* Zones with the same clocks and the same valuations. *)
Definition zsame (n : nat) (z z' : izone) : Prop :=
  iwf n z /\ iwf n z' /\ newestClock z <> 1 /\ newestClock z' = newestClock z /\ (forall k, used k z' <-> used k z) /\
  (forall v, zin n (iz_mat z) v <-> zin n (iz_mat z') v).

Lemma zsame_sat : forall n z z', zsame n z z' -> iz_sat z = iz_sat z'.
Proof.
  intros n z z' (W & W' & _ & _ & _ & Z). destruct (iz_sat z) eqn:E.
  - apply (iz_sat_spec n) in E as (v & V); auto. symmetry. apply (iz_sat_spec n); auto. exists v. apply Z. auto.
  - destruct (iz_sat z') eqn:E'; auto. apply (iz_sat_spec n) in E' as (v & V); auto.
    rewrite <- E. apply (iz_sat_spec n); auto. exists v. apply Z. auto.
Qed.

Lemma zsame_ans : forall n z z', zsame n z z' -> iz_sat z = true ->
  forall t t', zin 3 (iz_ans z) (pairv t t') <-> zin 3 (iz_ans z') (pairv t t').
Proof.
  intros n z z' R Sa t t'. pose proof (zsame_sat _ _ _ R) as Sa'. rewrite Sa in Sa'. destruct R as (W & W' & N & E & U & Z).
  destruct (iz_ans_spec n z W Sa N) as (_ & _ & _ & A). destruct (iz_ans_spec n z' W' (eq_sym Sa') ltac:(congruence)) as (_ & _ & _ & A').
  rewrite A, A', E. split; intros (v & V & H); exists v; split; auto; apply Z; auto.
Qed.

Lemma rt_ok_iff : forall z z' r, (forall k, used k z' <-> used k z) -> rt_ok z r -> rt_ok z' r.
Proof. intros z z' [q|k] U R; cbn in *; auto. rewrite U. auto. Qed.

Lemma op_same : forall n z z' o, zsame n z z' -> iz_sat z = true -> op_ok o z ->
  exists z1 z1', apply_op o z = Ok z1 /\ apply_op o z' = Ok z1' /\ ((exists n1, zsame n1 z1 z1') \/ iz_sat z1 = false /\ iz_sat z1' = false).
Proof.
  intros n z z' o R Sa OK. pose proof (zsame_sat _ _ _ R) as Sa'. rewrite Sa in Sa'. symmetry in Sa'. pose proof R as (W & W' & N & E & U & Z).
  assert (FR : forall rst, Forall (rt_ok z) rst -> Forall (rt_ok z') rst).
  { intros rst. apply Forall_impl. intros r. apply rt_ok_iff. auto. }
  destruct o as [up lo|gs rst|t gs rst|rst]; cbn [apply_op op_ok] in *.
  - destruct OK as (Gu & Gl & Lu). pose proof (new_pos n z W) as Pn.
    destruct (iz_alloc_spec n z up lo W Gu Gl Lu ltac:(congruence)) as (n1 & z1 & A1 & A2 & A3 & A4 & A5 & A6 & _).
    destruct (iz_alloc_spec n z' up lo W' Gu Gl) as (n2 & z2 & B1 & B2 & B3 & B4 & B5 & B6 & _).
    { pose proof (iz_sat_canonical n z W Sa) as Cz. rewrite E.
      apply (canonical_tight n); [apply iz_sat_canonical; auto|apply W'|lia|lia|lia|auto|].
      intros v V. apply Z in V. eapply below_ble; [|exact Gu|exact Lu|apply V; lia]. apply W; lia. }
    { rewrite E. intros X. destruct (N X). }
    exists z1, z2. split; [auto|split; [auto|left]].
    destruct (alloc_clocks n z up lo z1 W N A1) as [C1 C2]. destruct (alloc_clocks n z' up lo z2 W' ltac:(congruence) B1) as [D1 D2].
    rewrite (alv_eq n z z' W W' U) in D1, D2. rewrite (alv_len n1) in C2 by auto. rewrite (alv_len n2) in D2 by auto.
    assert (En : n2 = n1) by congruence. clear C2 D2. subst n2. exists n1. split; [auto|split; [auto|]].
    assert (E1 : newestClock z2 = newestClock z1) by congruence.
    split. { intros E2. apply A4. rewrite E2. apply (used_1 n). auto. }
    split; [auto|split].
    + intros k. rewrite A5, B5, U, E1. tauto.
    + intros v. rewrite A6, B6, Z, E, E1. tauto.
  - destruct OK as (O1 & O2 & O3).
    destruct (iz_guard_spec n rst gs z W O1 O2 O3) as (z1 & A1 & A2 & [A3 A3'] & A4 & _).
    destruct (iz_guard_spec n rst gs z' W' (FR _ O1) ltac:(congruence) O3) as (z2 & B1 & B2 & [B3 B3'] & B4 & _).
    exists z1, z2. split; [auto|split; [auto|left]]. exists n. split; [auto|split; [auto|]]. split; [congruence|split; [congruence|split]].
    + intros k. rewrite A3', B3', U. tauto.
    + intros v. rewrite A4, B4, Z, E. tauto.
  - destruct OK as (O1 & O2).
    destruct (iz_guard_at_spec n t rst gs z W O1 O2) as (z1 & A1 & [A3 A3'] & A4).
    destruct (iz_guard_at_spec n t rst gs z' W' (FR _ O1) O2) as (z2 & B1 & [B3 B3'] & B4).
    exists z1, z2. split; [auto|split; [auto|]].
    destruct A4 as [(A2 & A4 & _)|[A2 A4]], B4 as [(B2 & B4 & _)|[B2 B4]].
    + left. exists n. split; [auto|split; [auto|]]. split; [congruence|split; [congruence|split]].
      * intros k. rewrite A3', B3', U. tauto.
      * intros v. rewrite A4, B4, Z. tauto.
    + right. split; auto. destruct (iz_sat z1) eqn:S1; auto. apply (iz_sat_spec n) in S1 as (v & V); auto. apply A4 in V. exfalso. apply (B4 v). apply V.
    + right. split; auto. destruct (iz_sat z2) eqn:S1; auto. apply (iz_sat_spec n) in S1 as (v & V); auto. apply B4 in V. exfalso. apply (A4 v). apply V.
    + right. auto.
  - destruct (iz_update_spec n z rst W Sa OK) as (z1 & A1 & A2 & A3 & A4 & A5 & A6 & A7 & A8 & _).
    destruct (iz_update_spec n z' rst W' Sa' (FR _ OK)) as (z2 & B1 & B2 & B3 & B4 & B5 & B6 & B7 & B8 & _).
    exists z1, z2. split; [auto|split; [auto|left]]. exists n.
    assert (U' : forall k, used k z2 <-> used k z1).
    { intros k. rewrite (update_clocks n z rst z1 k W N OK A1), (update_clocks n z' rst z2 k W' ltac:(congruence) (FR _ OK) B1), E. tauto. }
    split; [auto|split; [auto|]]. split; [congruence|split; [congruence|split; [auto|]]].
    intros v. split; intros V.
    + destruct (A8 v V) as (v' & V' & Ev). apply (zin_used n z2 v'); auto. { intros k Hk. symmetry. apply Ev. apply U'. auto. } apply B7, Z, V'.
    + destruct (B8 v V) as (v' & V' & Ev). apply (zin_used n z1 v'); auto. { intros k Hk. symmetry. apply Ev. apply U'. auto. } apply A7, Z, V'.
Qed.

Lemma unsat_same : forall ops z z', iz_sat z = false -> iz_sat z' = false -> same_after ops z z'.
Proof. intros ops z z' H H'. destruct ops; cbn [same_after]; rewrite H, H'; split; auto; discriminate. Qed.

Lemma same_all : forall ops n z z', zsame n z z' -> same_after ops z z'.
Proof.
  induction ops as [|o ops IH]; intros n z z' R; cbn [same_after]; (split; [apply (zsame_sat n); auto|intros Sa; split; [apply (zsame_ans n); auto|auto]]).
  intros OK. destruct (op_same n z z' o R Sa OK) as (z1 & z1' & E1 & E2 & H). exists z1, z1'. split; [auto|split; [auto|]].
  destruct H as [(n1 & H)|[H1 H2]]; [eapply IH; eauto|apply unsat_same; auto].
Qed.

(* The zone of three intervals and the same constraints as a matrix. *)
Definition as_matrix (z : izone) : izone := MatZone (iz_mat z) (repeat true 3) 2.

Theorem C48_same : forall up1 lo1 up2 lo2 z ops, good lo1 -> good up1 -> good up2 -> good lo2 ->
  ble up1 up2 -> ble lo2 (nopp (fst lo1), snd lo1) -> good (nopp (fst lo1), snd lo1) ->
  iz_alloc up2 lo2 (iz_init lo1 up1) = Ok z -> same_after ops z (as_matrix z).
Proof.
  intros up1 lo1 up2 lo2 z ops G1 G2 G3 G4 L1 L2 G5 H. 
  assert (W : iwf 2 (iz_init lo1 up1)). { split; [split; reflexivity|]. apply mat_ok2; auto. }
  destruct (iz_alloc_spec 2 (iz_init lo1 up1) up2 lo2 W G3 G4) as (n' & z' & A1 & A2 & A3 & _).
  - exact L1.
  - intros _. exact L2.
  - assert (z' = z) by congruence. subst z'. cbn in H. apply Ok_inj in H.
    assert (n' = 3). { destruct A2 as [Sh _]. rewrite <- H in Sh. apply Sh. } subst n'.
    apply (same_all ops 3). split; [auto|]. split.
    + pose proof A2 as [_ K]. split; [|exact K]. cbn [shape as_matrix]. repeat (split; [cbn; auto; lia|]). intros [|[|[|k]]] L X; cbn in X; try discriminate; lia.
    + rewrite <- H. cbn [newestClock as_matrix iz_mat]. split; [lia|split; [auto|split]].
      * intros [|[|[|[|k]]]]; cbn; split; intros; auto; try lia; try discriminate.
      * intros v. tauto.
Qed.
