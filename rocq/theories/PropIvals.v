(* Exact descriptions of what operations compute where the property itself is
   false: by how much the result differs from what is promised.
   libmonaa/interval.hh:70-161 and libmonaa/lazy_deque.hh. *)
From Coq Require Import List ZArith QArith Qround Lia Bool Lqa.
From Verif Require Import Outcome Num Interval IntervalFacts TA Spec Word WordFacts PropMonaa.
Import ListNotations.
Open Scope Q_scope.

(* The one value that && adds: the common lower end point, when one operand
   has it closed and the other one open, if it respects both upper ends. *)
Definition added_end (I J : interval) (d : Q) : Prop :=
  exists x y, fst (lob I) = Fin x /\ fst (lob J) = Fin y /\ x == y /\ d == x /\
    snd (lob I) <> snd (lob J) /\ below (upb I) d /\ below (upb J) d.

Theorem C02_exact : forall I J d, wf_interval I -> wf_interval J ->
  (iin (iand I J) d <-> (iin I d /\ iin J d) \/ added_end I J d).
Proof.
  intros [[a fa] UI] [[b fb] UJ] d [[x Hx] GI] [[y Hy] GJ]. simpl in Hx, Hy. subst.
  cbn [upb lob] in *. unfold iin, iand, added_end; cbn [lob upb fst snd].
  rewrite bmin_below_iff by auto.
  assert (M : above (bmax (Fin x, fa) (Fin y, fb)) d <->
    (above (Fin x, fa) d /\ above (Fin y, fb) d) \/ (x == y /\ d == x /\ fa <> fb)).
  { destruct (Qeq_dec x y) as [E|NE].
    - unfold bmax, bltb. cbn [fst snd]. cbn [neqb]. 
      assert (Q : Qeq_bool x y = true) by (apply Qeq_bool_iff; auto). rewrite Q.
      unfold above. destruct fa, fb; cbn [negb andb fst snd]; split; intros H.
      all: try (left; split; lra). 
      all: try (destruct H as [[? ?]|(? & ? & H)]; [lra|congruence]).
      all: try (destruct H as [[? ?]|(? & ? & H)]; lra).
      all: destruct (Qeq_dec d x) as [D|D]; [right; repeat split; auto; congruence|left; split; lra].
    - rewrite bmax_above; [|simpl; eauto|simpl; eauto|unfold tie; cbn [fst snd]; tauto]. tauto. }
  rewrite M. split.
  - intros [[A|(E & D & F)] [B C]]; [left; tauto|right]. exists x, y. tauto.
  - intros [[[A B] [C D]]|(x' & y' & E1 & E2 & E & D & F & B & C)]; [tauto|].
    injection E1 as <-. injection E2 as <-. tauto.
Qed.

Theorem C03_exact : forall L R d,
  (forall I, In I L -> wf_interval I) -> (forall J, In J R -> wf_interval J) ->
  (iins (land L R) d <-> (iins L d /\ iins R d) \/
     exists I J, In I L /\ In J R /\ added_end I J d).
Proof.
  intros L R d WL WR. split.
  - intros (K & HK & Hd). apply in_flat_map in HK as (J & HJ & HK). unfold land1 in HK.
    apply filter_In in HK as [HK _]. apply in_map_iff in HK as (I & <- & HI).
    apply C02_exact in Hd; auto. destruct Hd as [[A B]|A]; [left|right; eauto].
    split; [exists I|exists J]; auto.
  - intros H. assert (H' : exists I J, In I L /\ In J R /\ iin (iand I J) d).
    { destruct H as [[(I & HI & A) (J & HJ & B)]|(I & J & HI & HJ & A)]; exists I, J;
      (split; [auto|split; [auto|]]); apply C02_exact; auto. }
    destruct H' as (I & J & HI & HJ & A). exists (iand I J). split; auto.
    apply in_flat_map. exists J. split; auto. apply filter_In. split; [apply in_map_iff; eauto|].
    destruct (bgtb (lob (iand I J)) (upb (iand I J))) eqn:E; auto. exfalso.
    refine (crossed_empty (iand I J) d _ E A). destruct (WL I HI) as [[x Hx] GI]. destruct (WR J HJ) as [[y Hy] GJ].
    split; unfold iand; cbn [lob upb]; [unfold bmax; destruct bltb; eauto|unfold bmin; destruct bltb; auto].
Qed.

(* The values of an interval whose lower end is l and whose upper end is u. *)
Definition bounded (I : interval) (l u : Q) : Prop :=
  fst (lob I) = Fin l /\ fst (upb I) = Fin u.

Lemma quot : forall l w k, 0 < w -> k * w == l -> l / w == k.
Proof. intros l w k P E. rewrite <- E. field. lra. Qed.

(* The Kleene plus of (l,u), both ends open, when the length goes k times into
   l: the k-th multiple ends where the next one begins, and that end point is
   in no multiple.  The code has it in the result, and nothing else too many. *)
Theorem C05_exact : forall I l u, bounded I l u -> 0 <= l -> l < u ->
  exists L, iplus I = Ok L /\
    forall d, iins L d <-> kleene_plus (iin I) d \/
      (snd (lob I) = false /\ snd (upb I) = false /\
       exists k : Z, (0 < k)%Z /\ inject_Z k * (u - l) == l /\ d == inject_Z k * u).
Proof.
  intros [[l' fl] [u' fu]] l u [B1 B2] Hl Hu. simpl in B1, B2. subst. cbn [lob upb fst snd].
  set (I := mkI (Fin l, fl) (Fin u, fu)).
  assert (D : plus_shape I \/ (fl = false /\ fu = false /\ exists k, (0 < k)%Z /\ inject_Z k * (u - l) == l)).
  { unfold plus_shape, I; cbn [lob upb fst snd]. destruct fl; [left; tauto|]. destruct fu; [left; tauto|].
    destruct (Qeq_dec l 0) as [Z0|NZ]; [left; tauto|].
    set (m := Qceiling (l / (u - l))). destruct (Qeq_dec (inject_Z m * (u - l)) l) as [E|NE].
    - right. split; auto. split; auto. exists m. split; auto. apply injZ_lt_inv. change (inject_Z 0) with 0.
      destruct (Qlt_le_dec 0 (inject_Z m)); auto. exfalso. nra.
    - left. split; auto. split; auto. do 3 right. intros i E. apply NE. unfold m.
      assert (Q : l / (u - l) == inject_Z i) by (apply quot; auto; lra). rewrite Q, Qceiling_Z. exact E. }
  destruct D as [S|(-> & -> & k & Hk & Ek)].
  - destruct (iplus_correct I S) as (L & E & H). exists L. split; auto. intros d. rewrite H. split; [auto|].
    intros [A|(F1 & F2 & k & Hk & Ek & Ed)]; auto. exfalso.
    unfold plus_shape, I in S; cbn [lob upb fst snd] in S. subst.
    destruct S as (_ & _ & [?|[?|[Z0|N]]]); try discriminate; [|apply (N k Ek)].
    pose proof (injZ_pos k Hk). nra.
  - pose proof (injZ_pos k Hk) as Kp.
    assert (Lp : 0 < l) by nra.
    unfold iplus, I; cbn [lob upb fst snd].
    destruct (Qeq_bool (u - l) 0) eqn:E; [apply Qeq_bool_iff in E; lra|].
    assert (Q : l / (u - l) == inject_Z k) by (apply quot; auto; lra).
    assert (QC : Qceiling (l / (u - l)) = k) by (rewrite Q; apply Qceiling_Z). rewrite QC.
    destruct (Z.ltb_spec (k + 1) 0); [lia|].
    eexists. split; [reflexivity|]. intros d.
    assert (W : wf_interval I) by (split; [simpl; eauto|unfold good; simpl; auto]).
    fold I. rewrite kleene_scale by auto. split.
    + intros (K & HK & Hd). apply in_app_or in HK as [HK|[HK|[]]].
      * left. apply in_map_iff in HK as (i & <- & Hi). apply in_seq in Hi. exists (Z.of_nat i). split; [lia|auto].
      * subst K. destruct Hd as [Hd _]. unfold above, bscale in Hd; cbn [fst snd lob upb I] in Hd.
        set (i := (Qceiling (d / l) - 1)%Z).
        assert (D : d == (d / l) * l) by (field; lra).
        assert (F1 : inject_Z i < d / l) by apply Qceiling_lt.
        assert (F2 : d / l <= inject_Z (i + 1)) by (unfold i; rewrite Z.sub_add; apply Qle_ceiling).
        set (e := d / l) in *. clearbody e i.
        assert (Hki : (k <= i)%Z).
        { assert (H0 : inject_Z k < inject_Z (i + 1)) by nra. apply injZ_lt_inv in H0. lia. }
        assert (Hki' : inject_Z k <= inject_Z i) by (apply injZ_le; auto).
        rewrite inject_Z_plus in F2. change (inject_Z 1) with 1 in F2.
        destruct (Qlt_le_dec d (inject_Z i * u)) as [Lt|Ge].
        -- left. exists i. split; [lia|]. unfold iin, iscale, bscale, above, below, I; cbn [lob upb fst snd]. split; nra.
        -- right. split; auto. split; auto. exists k. split; auto. split; auto.
           assert (Hik : (i <= k)%Z).
           { apply injZ_le_inv. destruct (Qlt_le_dec (inject_Z k) (inject_Z i)) as [N|]; auto. exfalso. nra. }
           assert (i = k) by lia. subst i. apply Qle_antisym; nra.
    + intros [(i & Hi & Hd)|(_ & _ & k' & Hk' & Ek' & Ed)].
      * destruct (Z_lt_le_dec i k) as [Lt|Ge].
        -- exists (iscale i I). split; auto. apply in_or_app. left.
           apply in_map_iff. exists (Z.to_nat i). rewrite Z2Nat.id by lia. split; auto. apply in_seq. lia.
        -- eexists. split; [apply in_or_app; right; left; reflexivity|].
           destruct Hd as [Hd _]. unfold iin, iscale, above, bscale, below, I in *; cbn [fst snd lob upb binf] in *.
           split; auto. assert (HM : inject_Z k <= inject_Z i) by (apply injZ_le; auto). nra.
      * eexists. split; [apply in_or_app; right; left; reflexivity|].
        unfold iin, iscale, above, bscale, below, I in *; cbn [fst snd lob upb binf] in *. split; auto.
        assert (inject_Z k' == inject_Z k) by nra. nra.
Qed.

(* An interval without length: the quotient is infinite (or not a number), and
   its conversion to int is undefined, whatever the end point is. *)
Theorem C05_point_exact : forall I l u, bounded I l u -> l == u -> iplus I = UB.
Proof.
  intros [[l' fl] [u' fu]] l u [B1 B2] E. simpl in B1, B2. subst. unfold iplus; cbn [lob upb fst snd].
  assert (Q : Qeq_bool (u - l) 0 = true) by (apply Qeq_bool_iff; lra). rewrite Q. reflexivity.
Qed.

(* (2,3)+ : the length 1 goes twice into 2, so 6 = 2 * 3 is added. *)
Example C05_exact_case : bounded (interval_open 2 3) 2 3 /\ inject_Z 2 * (3 - 2) == 2 /\
  exists L, iplus (interval_open 2 3) = Ok L /\
    map (fun d => existsb (fun J => contain J d) L) [2; 5#2; 3; 4; 9#2; 6; 7] = [false; true; false; false; true; true; true].
Proof.
  split; [split; reflexivity|]. split; [reflexivity|]. eexists. split; [vm_compute; reflexivity|]. vm_compute. reflexivity.
Qed.

Example C02_exact_case : added_end (mkI (Fin 1, true) binf) (interval_from 1) 1 /\
  ~ added_end (mkI (Fin 1, true) binf) (interval_from 1) 2.
Proof.
  split.
  - exists 1, 1. repeat split; simpl; auto; discriminate.
  - intros (x & y & A & B & C & D & _). injection A as <-. lra.
Qed.

(* ---- C38: what LazyDeque::size says after any operations ---- *)

Open Scope nat_scope.

(* A fetch of position n after the operations a asks for a position that is
   not behind the front and not in the word. *)
Definition misses (w : tword) (a : list lop) (n : nat) : Prop := front_after a <= n /\ length w <= n.

Definition no_miss (w : tword) (ops : list lop) : Prop :=
  forall a n b, ops = a ++ LFetch n :: b -> ~ misses w a n.

Lemma front_after_app : forall a b, front_after a <= front_after (a ++ b).
Proof.
  intros a b. unfold front_after. rewrite fold_left_app. generalize (fold_left (fun f o => match o with LFront n => Nat.max f n | _ => f end) a 0).
  induction b as [|[k|k|k] b IH]; cbn; intros f; auto. specialize (IH (Nat.max f k)). lia.
Qed.

Lemma setFront_N : forall d n, lN (lstep d (LFront n)) = lN d.
Proof. intros d n. cbn. unfold lazy_setFront. destruct (n <? lfront d); reflexivity. Qed.

(* A fetch inside of the word leaves the size as it is. *)
Lemma fetch_in_N : forall d f w n, lazyR d f 0 w -> ~ (f <= n /\ length w <= n) -> lN (lstep d (LFetch n)) = lN d.
Proof.
  intros d f w n (R1 & R2 & _) H. cbn. unfold lazy_fetch. destruct (n <? lfront d) eqn:E; [reflexivity|]. apply Nat.ltb_ge in E.
  cbn [orb]. destruct (beyondN d n); [reflexivity|].
  assert (LL : length (skipn f w) = length (lbuf d) + length (lrest d)) by (rewrite R2; apply app_length).
  rewrite skipn_length in LL. rewrite lazy_read_in by lia. reflexivity.
Qed.

(* Before the first such fetch the size is not known. *)
Theorem C38_unknown : forall ops w, no_miss w ops -> lazy_size (fold_left lstep ops (lopen w)) = None.
Proof.
  intros ops w. induction ops as [|o ops IH] using rev_ind; intros H; [reflexivity|].
  assert (H' : no_miss w ops).
  { intros a n b E. apply (H a n (b ++ [o])). rewrite E, <- app_assoc. reflexivity. }
  specialize (IH H'). rewrite fold_left_app. cbn [fold_left]. unfold lazy_size in *. destruct o as [n|n|n].
  - rewrite (fetch_in_N _ (front_after ops) w); auto; [apply lazy_run|]. exact (H ops n [] eq_refl).
  - rewrite setFront_N. exact IH.
  - exact IH.
Qed.

(* From then on it is the length of the word, or the front of that time if that
   was behind the end of the word; nothing changes it any more. *)
Theorem C38_exact : forall a n b w, no_miss w a -> misses w a n ->
  lazy_size (fold_left lstep (a ++ LFetch n :: b) (lopen w)) = Some (Nat.max (length w) (front_after a)).
Proof.
  intros a n b w NM M. rewrite fold_left_app. cbn [fold_left].
  pose proof (C38_unknown a w NM) as U. pose proof (lazy_run a w) as R.
  assert (S0 : lN (lstep (fold_left lstep a (lopen w)) (LFetch n)) = Some (Nat.max (length w) (front_after a))).
  { set (d := fold_left lstep a (lopen w)) in *. unfold lazy_size in U. destruct M as [M1 M2].
    destruct R as (R1 & R2 & _). cbn. unfold lazy_fetch, beyondN. rewrite U, R1.
    apply Nat.ltb_ge in M1 as M1'. rewrite M1'. cbn [orb].
    assert (LL : length (skipn (front_after a) w) = length (lbuf d) + length (lrest d)) by (rewrite R2; apply app_length).
    rewrite skipn_length in LL. rewrite lazy_read_out by lia. cbn [snd lN]. f_equal. rewrite app_length, R1. lia. }
  assert (X : forall b, lN (fold_left lstep (a ++ LFetch n :: b) (lopen w)) = Some (Nat.max (length w) (front_after a))).
  { clear b. induction b as [|o b IH] using rev_ind; [rewrite fold_left_app; exact S0|].
    change (a ++ LFetch n :: (b ++ [o])) with (a ++ (LFetch n :: b) ++ [o]). rewrite app_assoc, fold_left_app. cbn [fold_left].
    pose proof (lazy_run (a ++ LFetch n :: b) w) as R'. pose proof (front_after_app a (LFetch n :: b)) as F.
    destruct o as [m|m|m].
    - destruct (le_lt_dec (Nat.max (length w) (front_after (a ++ LFetch n :: b))) m) as [L|L].
      + cbn. unfold lazy_fetch, beyondN. rewrite IH. destruct (Nat.leb_spec (Nat.max (length w) (front_after a)) m); [|lia].
        rewrite orb_true_r. exact IH.
      + rewrite (fetch_in_N _ _ w m R'); auto. lia.
    - rewrite setFront_N. exact IH.
    - exact IH. }
  specialize (X b). rewrite fold_left_app in X. exact X.
Qed.

(* The size is right from the first failing fetch on iff the front was inside
   of the word at that time. *)
Theorem C38_right_iff : forall a n b w, no_miss w a -> misses w a n ->
  (lazy_size (fold_left lstep (a ++ LFetch n :: b) (lopen w)) = Some (length w) <-> front_after a <= length w).
Proof.
  intros a n b w NM M. rewrite C38_exact by auto. split; [intros E; injection E; lia|intros; f_equal; lia].
Qed.

Example C38_exact_case : let w : tword := [(97, 1%Q); (98, 2%Q)] in
  no_miss w [LFetch 1; LFront 5] /\ misses w [LFetch 1; LFront 5] 6 /\
  lazy_size (fold_left lstep ([LFetch 1; LFront 5] ++ LFetch 6 :: [LFront 9; LFetch 12]) (lopen w)) = Some 5.
Proof.
  cbv zeta. split; [|split; [split; cbn; lia|reflexivity]].
  intros a n b E [M1 M2]. destruct a as [|o a]; [injection E as <- _; cbn in M2; lia|]. injection E as <- E.
  destruct a as [|o a]; [discriminate|]. injection E as <- E. destruct a; discriminate.
Qed.
