(* Properties C29, C31, C32, C36-C38: the matcher for patterns ending with $. *)
From Coq Require Import QArith Lqa Bool List ZArith Arith Lia.
From Verif Require Import Num NumFacts Outcome Constraint Zone ZoneFacts TA Spec TAFacts WfDec Word WordFacts ZA Intersection
  Monaa MonaaSim MonaaFacts MonaaVec Skip SkipFacts.
Import ListNotations.
Open Scope nat_scope.

(* ================= C36 online = offline ================= *)

Theorem C36_online_offline : forall fuel al A w,
  monaaDollar fuel al lazyC A (lopen w) = monaaDollar fuel al vecC A w.
Proof.
  intros. unfold monaaDollar. destruct (make_ap A) as [Ap| | | |]; cbn [bind]; auto.
  destruct (tables fuel al Ap) as [T| | | |] eqn:E; cbn [bind]; auto. destruct (no_eps A); auto.
  destruct (tables_ok _ _ _ _ E) as (T1 & T2 & _).
  apply (outer_sim lazyC lazyR lazy_sim A T MDollar T1 T2 fuel (lopen w) 0 0 w 0 [] []); [apply lazy_open|lia].
Qed.

(* The online run never throws (a discarded or unread element would). *)
Theorem C36_online_no_throw : forall fuel al A w Ap T, wf_ta A -> nondecreasing 0 w ->
  make_ap A = Ok Ap -> tables fuel al Ap = Ok T ->
  monaaDollar fuel al lazyC A (lopen w) <> Throw.
Proof.
  intros fuel al A w Ap T WF ND HA HT. rewrite C36_online_offline. unfold monaaDollar. rewrite HA. cbn [bind]. rewrite HT. cbn [bind].
  destruct (no_eps A); [|discriminate].
  destruct (tables_ok _ _ _ _ HT) as (T1 & T2 & T3 & T4).
  pose proof (outer_vec MDollar A WF w ND T T1 T2 (fun _ => True) ltac:(intros; exact I) ltac:(intros; exact I) ltac:(intros; exact I) ltac:(intros; exact I) fuel 0 [] []
    ltac:(auto) ltac:(intros ? [])) as O.
  destruct (outer_loop vecC A T MDollar fuel w 0 [] []); try discriminate.
  destruct O as (p & O1 & O2). exfalso. apply (T4 p); auto. rewrite (make_ap_keys _ _ HA). auto.
Qed.

(* ================= C29 reported zones are sound ================= *)

Lemma monaaDollar_ok : forall fuel al A w zs, wf_ta A -> nondecreasing 0 w ->
  monaaDollar fuel al vecC A w = Ok zs -> forall z, In z zs -> exists i, i < length w /\ zone_correct MDollar A w i z.
Proof.
  intros fuel al A w zs WF ND H. unfold monaaDollar in H.
  apply bind_Ok in H as (Ap & HA & H). apply bind_Ok in H as (T & HT & H).
  destruct (no_eps A); [|injection H as <-; intros z []].
  destruct (tables_ok _ _ _ _ HT) as (T1 & T2 & T3 & T4).
  pose proof (outer_vec MDollar A WF w ND T T1 T2 (fun _ => True) ltac:(intros; exact I) ltac:(intros; exact I) ltac:(intros; exact I) ltac:(intros; exact I) fuel 0 [] []
    ltac:(auto) ltac:(intros ? [])) as O.
  rewrite H in O. destruct O as (new & -> & O & _). intros z Hz. destruct (O z Hz) as (i & L & [Z|(E & _)]); [eauto|discriminate].
Qed.

Theorem C29_sound : forall fuel al A w zs z t t', wf_ta A -> nondecreasing 0 w ->
  monaaDollar fuel al vecC A w = Ok zs -> In z zs -> zin 3 z (pairv t t') -> matches A w t t'.
Proof.
  intros fuel al A w zs z t t' WF ND H Hz Z. destruct (monaaDollar_ok _ _ _ _ _ WF ND H z Hz) as (i & _ & _ & _ & _ & C).
  apply C, Z.
Qed.

Corollary C29_sound_online : forall fuel al A w zs z t t', wf_ta A -> nondecreasing 0 w ->
  monaaDollar fuel al lazyC A (lopen w) = Ok zs -> In z zs -> zin 3 z (pairv t t') -> matches A w t t'.
Proof. intros fuel al A w zs z t t' WF ND H. rewrite C36_online_offline in H. eapply C29_sound; eauto. Qed.

(* A pattern, a word and what is reported for them. *)
Definition exM : ta := mkTA
  [ (0, mkS false false [(97, [mkE (Some 1) [1] [mkC 0 Lt 5%Z]])]);
    (1, mkS false false [(98, [mkE (Some 2) [] [mkC 1 Le 2%Z]])]);
    (2, mkS false false [(dollar, [mkE (Some 3) [] [mkC 0 Lt 8%Z]])]);
    (3, mkS true false []) ] [0] [8%Z; 2%Z].
Definition exMw : tword := [(97, 1%Q); (98, 2%Q); (97, 4%Q); (98, 7%Q); (97, 8%Q); (98, 9%Q)].
Definition exAl : alloc :=
  mkAl (fun p => 10 + p) (fun n => 20 + n) 30 (fun p => 31 + p) (fun p => 41 + p) (fun p q => 51 + 50 * (p - 10) + (q - 31)).

Lemma exM_wf : wf_ta exM.
Proof. apply wf_tab_ok. reflexivity. Qed.
Lemma exM_w : nondecreasing 0 exMw.
Proof. unfold exMw. cbn. repeat split; unfold Qle; cbn; lia. Qed.

(* The tables are computed once. *)
Definition get {X} (d : X) (o : outcome X) : X := match o with Ok x => x | _ => d end.
Definition exMap : ta := Eval vm_compute in get exM (make_ap exM).
Definition exMs : list (list nat) := Eval vm_compute in get [] (sunday_sets 200 exMap).
Definition exMb : list (ptr * nat) := Eval vm_compute in get [] (kmp 200 exAl exMap (length exMs)).
Lemma exM_ap : make_ap exM = Ok exMap.
Proof. vm_compute. reflexivity. Qed.
Lemma exM_sets : sunday_sets 200 exMap = Ok exMs.
Proof. vm_compute. reflexivity. Qed.
Lemma exM_kmp : kmp 200 exAl exMap (length exMs) = Ok exMb.
Proof. vm_compute. reflexivity. Qed.

Definition exMz : outcome (list mat) := Eval vm_compute in outer_loop vecC exM (the_tables exMs exMb) MDollar 200 exMw 0 [] [].
Lemma exM_run : monaaDollar 200 exAl vecC exM exMw = exMz.
Proof. refine (eq_trans (monaaDollar_with _ _ _ _ _ _ _ _ exM_ap exM_sets exM_kmp eq_refl) _). vm_compute. reflexivity. Qed.

Example C29_case : exists zs z, monaaDollar 200 exAl vecC exM exMw = Ok zs /\ length zs = 2 /\ In z zs /\ zin 3 z (pairv (1 # 2) 3).
Proof.
  eexists. eexists. split; [rewrite exM_run; reflexivity|]. split; [reflexivity|]. split; [left; reflexivity|].
  intros i j Hi Hj. do 3 (destruct i as [|i]; [do 3 (destruct j as [|j]; [vm_compute; repeat split; congruence|]); lia|]). lia.
Qed.

(* ================= C31 reported zones are non-empty and tight ================= *)

Lemma zin3_pairv : forall z v, zin 3 z v <-> zin 3 z (pairv (v 0) (v 1)).
Proof.
  intros z v. unfold zin. split; intros H i j Hi Hj; specialize (H i j Hi Hj);
    (do 3 (destruct i as [|i]; [do 3 (destruct j as [|j]; [exact H|]); lia|]); lia).
Qed.

Theorem C31_nonempty : forall fuel al A w zs z, wf_ta A -> nondecreasing 0 w ->
  monaaDollar fuel al vecC A w = Ok zs -> In z zs -> exists t t', zin 3 z (pairv t t').
Proof.
  intros fuel al A w zs z WF ND H Hz. destruct (monaaDollar_ok _ _ _ _ _ WF ND H z Hz) as (i & _ & S & G & C & _).
  destruct (canonical_nonempty 3 z C G ltac:(lia)) as (v & Hv). apply zin3_pairv in Hv. eauto.
Qed.

(* A bound [b] on the difference of two of 0, t and t' (indices 0, 1, 2) that is
   valid on the whole zone is not tighter than the bound in the zone. *)
Theorem C31_tight : forall fuel al A w zs z i j b, wf_ta A -> nondecreasing 0 w ->
  monaaDollar fuel al vecC A w = Ok zs -> In z zs -> i < 3 -> j < 3 -> i <> j -> good b ->
  (forall t t', zin 3 z (pairv t t') -> below b (ev (pairv t t') i - ev (pairv t t') j)%Q) ->
  ble (mget z i j) b.
Proof.
  intros fuel al A w zs z i j b WF ND H Hz Hi Hj Hij Gb Hb.
  destruct (monaaDollar_ok _ _ _ _ _ WF ND H z Hz) as (k & _ & S & G & C & _).
  apply (canonical_tight 3); auto. intros v Hv. apply zin3_pairv in Hv. specialize (Hb _ _ Hv).
  do 3 (destruct i as [|i]; [do 3 (destruct j as [|j]; [exact Hb|]); lia|]). lia.
Qed.

(* The two zones of C29_case: t in [0,1) (1 < t' < 7 ...) and their bounds. *)
Example C31_case : exists z, In z (match exMz with Ok zs => zs | _ => [] end) /\
  mget z 1 0 = (Fin 1, false) /\ mget z 2 0 = (Fin 4, true) /\ mget z 2 1 = (Fin 4, true) /\ mget z 0 2 = (Fin (-2), false).
Proof. eexists. split; [left; reflexivity|]. repeat split; vm_compute; reflexivity. Qed.

(* ================= C32 matching terminates ================= *)

Theorem C32_terminates : forall fuel al A w Ap T, wf_ta A -> nondecreasing 0 w ->
  (forall c t, In (c, t) w -> c < char_max) ->
  make_ap A = Ok Ap -> tables fuel al Ap = Ok T -> length w <= fuel ->
  exists zs, monaaDollar fuel al vecC A w = Ok zs.
Proof.
  intros fuel al A w Ap T WF ND HC HA HT L. unfold monaaDollar. rewrite HA. cbn [bind]. rewrite HT. cbn [bind].
  destruct (no_eps A); [|eauto].
  destruct (tables_ok _ _ _ _ HT) as (T1 & T2 & T3 & T4).
  pose proof (outer_vec MDollar A WF w ND T T1 T2 (fun _ => True) ltac:(intros; exact I) ltac:(intros; exact I) ltac:(intros; exact I)
    ltac:(intros; exact I) fuel 0 [] [] ltac:(auto) ltac:(intros ? [])) as O.
  destruct (outer_loop vecC A T MDollar fuel w 0 [] []) as [zs| | | |].
  - eauto.
  - exfalso. destruct O as (k & O1 & O2). destruct (nth k w (0, 0%Q)) as [c t] eqn:E.
    apply (T3 c); auto. apply (HC c t). rewrite <- E. apply nth_In. auto.
  - exfalso. destruct O as (p & O1 & O2). apply (T4 p); auto. rewrite (make_ap_keys _ _ HA). auto.
  - contradiction.
  - lia.
Qed.

(* A round advances: the KMP shift is at least one, whatever the last states. *)
Theorem C32_advances : forall T ls n, greatest T ls = Ok n -> 1 <= n.
Proof.
  intros T ls n H. unfold greatest in H.
  assert (X : forall ls k, 1 <= k -> fold_out (fun cfg n => match sk_beta T (ist cfg) with
      | Some k => Ok (if k <? n then n else k) | None => Throw end) ls k = Ok n -> 1 <= n).
  { clear. induction ls; cbn [fold_out]; intros k K E; [congruence|].
    destruct (sk_beta T (ist a)) as [b|]; cbn [bind] in E; [|discriminate].
    revert E. destruct (Nat.ltb_spec b k); intros E; apply IHls in E; lia. }
  eapply X; eauto.
Qed.

Example C32_case : exists Ap T, make_ap exM = Ok Ap /\ tables 200 exAl Ap = Ok T /\ sk_m T = 2 /\
  monaaDollar 200 exAl vecC exM exMw = exMz.
Proof.
  exists exMap, (the_tables exMs exMb). split; [exact exM_ap|]. split; [exact (tables_with _ _ _ _ _ exM_sets exM_kmp)|]. split; [reflexivity|]. apply exM_run.
Qed.

(* delta has CHAR_MAX = 127 elements: the byte 127 is read outside of it. *)
Theorem C32_byte127_refuted : nondecreasing 0 [(97, 1%Q); (99, 2%Q); (127, 3%Q); (98, 4%Q)] /\
  monaaDollar 200 exAl vecC exM [(97, 1%Q); (99, 2%Q); (127, 3%Q); (98, 4%Q)] = UB.
Proof.
  split; [cbn; repeat split; unfold Qle; cbn; lia|].
  refine (eq_trans (monaaDollar_with _ _ _ _ _ _ _ _ exM_ap exM_sets exM_kmp eq_refl) _). vm_compute. reflexivity.
Qed.

(* ================= C37 the lazy deque is a window ================= *)

(* Calls on a LazyDeque; one that throws leaves it unchanged (the checks come
   first). *)
Inductive lop : Type := LFetch (n : nat) | LFront (n : nat) | LAt (n : nat).
Definition lstep (d : lazy) (o : lop) : lazy :=
  match o with
  | LFetch n => snd (lazy_fetch d n)
  | LFront n => match lazy_setFront d n with Ok d' => d' | _ => d end
  | LAt n => d
  end.
(* What the user knows: the largest position given to setFront with success. *)
Definition front_after (ops : list lop) : nat :=
  fold_left (fun f o => match o with LFront n => Nat.max f n | _ => f end) ops 0.

Lemma lazy_run : forall ops w, lazyR (fold_left lstep ops (lopen w)) (front_after ops) 0 w.
Proof.
  intros ops w. unfold front_after.
  assert (X : forall d f, lazyR d f 0 w -> lazyR (fold_left lstep ops d)
     (fold_left (fun f o => match o with LFront n => Nat.max f n | _ => f end) ops f) 0 w).
  { induction ops as [|o ops IH]; intros d f H; cbn [fold_left]; auto. apply IH.
    destruct o as [n|n|n]; cbn [lstep]; auto.
    - destruct (Nat.lt_ge_cases n f) as [L|L].
      + assert (E : lazy_fetch d n = (false, d)).
        { unfold lazy_fetch. destruct H as (<- & _). apply Nat.ltb_lt in L. now rewrite L. }
        rewrite E. exact H.
      + destruct (Nat.lt_ge_cases n (length w)) as [L2|L2].
        * destruct (cs_fetch_in _ _ lazy_sim d f 0 w n H L L2) as (c & E & R). cbn [cfetch lazyC] in E. rewrite E. cbn [snd].
          destruct R as (R1 & R2 & R3 & R4 & R5). repeat split; auto; lia.
        * destruct (cs_fetch_out _ _ lazy_sim d f 0 w n H L L2) as (c & E & R). cbn [cfetch lazyC] in E. rewrite E. exact R.
    - destruct (Nat.lt_ge_cases n f) as [L|L].
      + assert (E : lazy_setFront d n = Throw).
        { unfold lazy_setFront. destruct H as (<- & _). apply Nat.ltb_lt in L. now rewrite L. }
        rewrite E. now replace (Nat.max f n) with f by lia.
      + destruct (cs_front _ _ lazy_sim d f 0 w n H L) as (c & E & R). cbn [csetFront lazyC] in E. rewrite E.
        now replace (Nat.max f n) with n by lia. }
  apply X, lazy_open.
Qed.

Theorem C37_fetch : forall ops w n,
  fst (lazy_fetch (fold_left lstep ops (lopen w)) n) = true <-> front_after ops <= n /\ n < length w.
Proof.
  intros ops w n. pose proof (lazy_run ops w) as R. set (d := fold_left lstep ops (lopen w)) in *. set (f := front_after ops) in *.
  destruct (Nat.lt_ge_cases n f) as [L|L].
  - assert (E : lazy_fetch d n = (false, d)).
    { unfold lazy_fetch. destruct R as (-> & _). apply Nat.ltb_lt in L. now rewrite L. }
    rewrite E. cbn. split; [discriminate|lia].
  - destruct (Nat.lt_ge_cases n (length w)) as [L2|L2].
    + destruct (cs_fetch_in _ _ lazy_sim d f 0 w n R L L2) as (c & E & _). cbn [cfetch lazyC] in E. rewrite E. cbn. split; auto.
    + destruct (cs_fetch_out _ _ lazy_sim d f 0 w n R L L2) as (c & E & _). cbn [cfetch lazyC] in E. rewrite E. cbn. split; [discriminate|lia].
Qed.

(* A value that is returned is the n-th element of the input; positions before
   the front are rejected. *)
Theorem C37_at : forall ops w n,
  (forall e, lazy_at (fold_left lstep ops (lopen w)) n = Ok e -> nth_error w n = Some e /\ front_after ops <= n) /\
  (n < front_after ops -> lazy_at (fold_left lstep ops (lopen w)) n = Throw) /\
  lazy_at (fold_left lstep ops (lopen w)) n <> UB.
Proof.
  intros ops w n. pose proof (lazy_run ops w) as R. set (d := fold_left lstep ops (lopen w)) in *. set (f := front_after ops) in *.
  destruct R as (R1 & R2 & R3 & R4 & R5). unfold lazy_at. rewrite R1. split; [|split].
  - intros e H. destruct (n <? f) eqn:E1; [discriminate|]. apply Nat.ltb_ge in E1. cbn [orb] in H.
    destruct (beyondN d n); [discriminate|]. destruct (nth_error (lbuf d) (n - f)) eqn:E2; [|discriminate]. injection H as <-.
    split; auto. rewrite <- (firstn_skipn f w), nth_error_app2 by (rewrite firstn_length; lia).
    rewrite firstn_length, R2. destruct (Nat.le_gt_cases f (length w)).
    + rewrite Nat.min_l, nth_error_app1; auto. apply nth_error_Some. congruence.
    + rewrite skipn_all2 in R2 by lia. destruct (lbuf d); [|discriminate]. destruct (n - f); discriminate.
  - intros L. apply Nat.ltb_lt in L. now rewrite L.
  - destruct ((n <? f) || beyondN d n); [discriminate|]. destruct (nth_error _ _); discriminate.
Qed.

(* After a successful fetch the element can be read as long as the front does
   not pass it. *)
Theorem C37_at_fetched : forall ops w n ops', n < length w ->
  fst (lazy_fetch (fold_left lstep ops (lopen w)) n) = true ->
  front_after (ops ++ LFetch n :: ops') <= n ->
  exists e, nth_error w n = Some e /\ lazy_at (fold_left lstep (ops ++ LFetch n :: ops') (lopen w)) n = Ok e.
Proof.
  intros ops w n ops' Hn HF HL. rewrite fold_left_app. cbn [fold_left].
  apply C37_fetch in HF as [HF _]. pose proof (lazy_run ops w) as R.
  destruct (cs_fetch_in _ _ lazy_sim _ _ 0 w n R HF Hn) as (c & E & R'). cbn [cfetch lazyC] in E.
  assert (Es : lstep (fold_left lstep ops (lopen w)) (LFetch n) = c) by (cbn [lstep]; now rewrite E). rewrite Es. clear E Es R.
  unfold front_after in HL. rewrite fold_left_app in HL. cbn [fold_left] in HL.
  change (fold_left _ ops 0) with (front_after ops) in HL. set (f := front_after ops) in *. clearbody f. clear ops.
  cbn [Nat.max] in R'.
  assert (X : exists f' , f' <= n /\ lazyR (fold_left lstep ops' c) f' (S n) w).
  { revert c f R' HF HL. induction ops' as [|o ops' IH]; intros c f R' HF HL; cbn [fold_left] in *; [eauto|].
    destruct o as [k|k|k]; cbn [lstep].
    - apply (IH _ f); auto. destruct (Nat.lt_ge_cases k f) as [L|L].
      + assert (E : lazy_fetch c k = (false, c)).
        { unfold lazy_fetch. destruct R' as (-> & _). apply Nat.ltb_lt in L. now rewrite L. }
        rewrite E. exact R'.
      + destruct (Nat.lt_ge_cases k (length w)) as [L2|L2].
        * destruct (cs_fetch_in _ _ lazy_sim c f _ w k R' L L2) as (c' & E & R). cbn [cfetch lazyC] in E. rewrite E. cbn [snd].
          destruct R as (R1 & R2 & R3 & R4 & R5). split; auto. split; auto. split; [lia|]. split; [lia|auto].
        * destruct (cs_fetch_out _ _ lazy_sim c f _ w k R' L L2) as (c' & E & R). cbn [cfetch lazyC] in E. rewrite E. exact R.
    - assert (M : forall l a b, a <= b -> fold_left (fun f o => match o with LFront n => Nat.max f n | _ => f end) l a <=
                               fold_left (fun f o => match o with LFront n => Nat.max f n | _ => f end) l b).
      { induction l as [|[]]; cbn; intros; auto. apply IHl. lia. }
      assert (M2 : forall l a, a <= fold_left (fun f o => match o with LFront n => Nat.max f n | _ => f end) l a).
      { induction l as [|[]]; cbn; intros; auto. specialize (IHl (Nat.max a n0)). lia. }
      destruct (Nat.lt_ge_cases k f) as [L|L].
      + assert (E : lazy_setFront c k = Throw).
        { unfold lazy_setFront. destruct R' as (-> & _). apply Nat.ltb_lt in L. now rewrite L. }
        rewrite E. replace (Nat.max f k) with f in HL by lia. apply (IH _ f); auto.
      + destruct (cs_front _ _ lazy_sim c f _ w k R' L) as (c' & E & R). cbn [csetFront lazyC] in E. rewrite E.
        apply (IH _ k); auto; [pose proof (M2 ops' (Nat.max f k)); lia|]. replace (Nat.max f k) with k in HL by lia. auto.
    - apply (IH _ f); auto. }
  destruct X as (f' & L & R). destruct (cs_at _ _ lazy_sim _ f' _ w n R L ltac:(lia)) as (e & E1 & E2). eauto.
Qed.

Example C37_case : let w := [(97, 1%Q); (98, 2%Q); (97, 4%Q); (98, 7%Q)] in
  let ops := [LFetch 1; LFront 1; LFetch 9; LAt 2] in
  front_after ops = 1 /\ lazy_at (fold_left lstep ops (lopen w)) 3 = Ok (98, 7%Q) /\ fst (lazy_fetch (fold_left lstep ops (lopen w)) 4) = false.
Proof. repeat split. Qed.

(* ================= C38 size ================= *)

(* With the front inside of the word, size is the length of the word once a
   fetch has failed past the end. *)
Lemma size_run : forall ops w, (forall n, In (LFront n) ops -> n <= length w) ->
  forall k, lazy_size (fold_left lstep ops (lopen w)) = Some k -> k = length w.
Proof.
  intros ops w H.
  assert (X : forall d f, lazyR d f 0 w -> f <= length w -> (forall k, lazy_size d = Some k -> k = length w) ->
    forall k, lazy_size (fold_left lstep ops d) = Some k -> k = length w).
  { induction ops as [|o ops IH]; intros d f R L S; cbn [fold_left]; auto.
    assert (H' : forall n, In (LFront n) ops -> n <= length w) by (intros; apply H; right; auto).
    destruct o as [n|n|n]; cbn [lstep]; [| |apply (IH H' d f); auto].
    - destruct (Nat.lt_ge_cases n f) as [L1|L1].
      + assert (E : lazy_fetch d n = (false, d)).
        { unfold lazy_fetch. destruct R as (-> & _). apply Nat.ltb_lt in L1. now rewrite L1. }
        rewrite E. apply (IH H' d f); auto.
      + assert (R' : lazyR (snd (lazy_fetch d n)) f 0 w).
        { destruct (Nat.lt_ge_cases n (length w)) as [L2|L2].
          - destruct (cs_fetch_in _ _ lazy_sim d f 0 w n R L1 L2) as (c & E & R'). cbn [cfetch lazyC] in E. rewrite E. cbn [snd].
            destruct R' as (R1 & R2 & R3 & R4 & R5). repeat split; auto; lia.
          - destruct (cs_fetch_out _ _ lazy_sim d f 0 w n R L1 L2) as (c & E & R'). cbn [cfetch lazyC] in E. rewrite E. exact R'. }
        apply (IH H' _ f); auto.
        intros k. unfold lazy_fetch. destruct R as (R1 & R2 & _).
        destruct ((n <? lfront d) || beyondN d n); [apply S|].
        destruct (Nat.le_gt_cases (Datatypes.S (n - lfront d) - length (lbuf d)) (length (lrest d))).
        * rewrite lazy_read_in by auto. cbn. apply S.
        * rewrite lazy_read_out by auto. cbn. rewrite R1, <- R2, skipn_length. intros [= <-]. lia.
    - assert (n <= length w) by (apply H; left; auto).
      destruct (Nat.lt_ge_cases n f) as [L1|L1].
      + assert (E : lazy_setFront d n = Throw).
        { unfold lazy_setFront. destruct R as (-> & _). apply Nat.ltb_lt in L1. now rewrite L1. }
        rewrite E. apply (IH H' d f); auto.
      + destruct (cs_front _ _ lazy_sim d f 0 w n R L1) as (c & E & R'). cbn [csetFront lazyC] in E.
        pose proof E as E'. rewrite E. apply (IH H' c n); auto. unfold lazy_setFront in E'.
        destruct (n <? lfront d); [discriminate|]. injection E' as <-. exact S. }
  apply (X (lopen w) 0); [apply lazy_open|lia|discriminate].
Qed.

Theorem C38_size_partial : forall ops w n, (forall n, In (LFront n) ops -> n <= length w) ->
  front_after ops <= n -> length w <= n ->
  lazy_size (fold_left lstep (ops ++ [LFetch n]) (lopen w)) = Some (length w).
Proof.
  intros ops w n H L1 L2. destruct (lazy_size (fold_left lstep (ops ++ [LFetch n]) (lopen w))) as [k|] eqn:E.
  - f_equal. apply (size_run (ops ++ [LFetch n])); auto. intros n' Hn. apply in_app_or in Hn as [Hn|[Hn|[]]]; [auto|discriminate].
  - exfalso. rewrite fold_left_app in E. cbn [fold_left lstep] in E. pose proof (lazy_run ops w) as (R1 & R2 & R3 & R4 & R5).
    set (d := fold_left lstep ops (lopen w)) in *. unfold lazy_fetch in E. rewrite R1 in E.
    apply Nat.ltb_ge in L1 as L1'. rewrite L1' in E. cbn [orb] in E. destruct (beyondN d n) eqn:EB.
    + unfold beyondN in EB. cbn [snd] in E. unfold lazy_size in E. rewrite E in EB. discriminate.
    + assert (LL : length (skipn (front_after ops) w) = length (lbuf d) + length (lrest d)) by (rewrite R2; apply app_length).
      rewrite skipn_length in LL. rewrite lazy_read_out in E by lia. discriminate.
Qed.

Example C38_case : lazy_size (fold_left lstep [LFetch 1; LFront 2; LFetch 3] (lopen [(97, 1%Q); (98, 2%Q); (97, 4%Q)])) = Some 3.
Proof. reflexivity. Qed.

(* After setFront past the end and a fetch, the size is wrong. *)
Theorem C38_size_refuted : exists ops w k, length w = 2 /\ k = 7 /\
  lazy_size (fold_left lstep ops (lopen w)) = Some k.
Proof. exists [LFront 7; LFetch 7], [(97, 1%Q); (98, 2%Q)], 7. repeat split. Qed.
