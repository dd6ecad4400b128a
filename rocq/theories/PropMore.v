(* Properties C52-C53: projecting a zone and widening a guard. *)
From Coq Require Import QArith Qround Qminmax Lqa Bool List ZArith Arith Lia.
From Verif Require Import Num NumFacts Constraint Zone ZoneFacts ZoneOps TA Spec TAFacts PropBase.
Import ListNotations.
Open Scope nat_scope.

(* ================= C52 cutVars is the projection ================= *)

(* The matrix index that row or column i of the result comes from. *)
Definition kept (from i : nat) : nat := match i with O => 0 | S k => from + S k end.

Lemma mget_cutVars : forall m from to i j, from <= to -> i < to - from + 2 -> j < to - from + 2 ->
  mget (cutVars m from to) i j =
  match i, j with O, O => bzero | _, _ => mget m (kept from i) (kept from j) end.
Proof.
  intros m from to i j L Hi Hj. unfold cutVars, mget at 1.
  destruct i as [|i].
  - cbn [nth]. destruct j as [|j]; [reflexivity|]. cbn [nth].
    rewrite nth_indep with (d' := mget m 0 (from + 1 + 0)) by (rewrite map_length, seq_length; lia).
    rewrite (map_nth (fun j => mget m 0 (from + 1 + j))), seq_nth by lia.
    unfold kept. f_equal. lia.
  - cbn [nth].
    set (row := fun i0 => mget m (from + 1 + i0) 0 :: map (fun j0 => mget m (from + 1 + i0) (from + 1 + j0)) (seq 0 (to - from + 1))).
    rewrite nth_indep with (d' := row 0) by (rewrite map_length, seq_length; lia).
    rewrite (map_nth row), seq_nth by lia. unfold row.
    destruct j as [|j]; cbn [nth kept].
    + f_equal. lia.
    + rewrite nth_indep with (d' := mget m (from + 1 + (0 + i)) (from + 1 + 0)) by (rewrite map_length, seq_length; lia).
      rewrite (map_nth (fun j0 => mget m (from + 1 + (0 + i)) (from + 1 + j0))), seq_nth by lia.
      f_equal; lia.
Qed.

Theorem C52_size : forall m from to, square (to - from + 2) (cutVars m from to).
Proof.
  intros. unfold cutVars, square. split.
  - cbn [length]. rewrite map_length, seq_length. lia.
  - apply Forall_forall. intros r [<-|H].
    + cbn [length]. rewrite map_length, seq_length. lia.
    + apply in_map_iff in H as (i & <- & _). cbn [length]. rewrite map_length, seq_length. lia.
Qed.

(* The clocks from..to of a canonical zone take exactly the values that some
   point of the zone gives to them. *)
Theorem C52_projection : forall n m from to v, canonical n m -> mgood n m -> from <= to -> to + 1 < n ->
  (zin (to - from + 2) (cutVars m from to) v <->
   exists u, zin n m u /\ forall i, i <= to - from -> (u (from + i)%nat == v i)%Q).
Proof.
  intros n m from to v Hc Hg L Hn. split.
  - intros H.
    pose (f := fun k => match k with O => 0%Q | S k => v (k - from) end).
    pose (S0 := 0 :: map (fun i => from + 1 + i) (seq 0 (to - from + 1))).
    assert (F : forall i, In i S0 -> exists k, k < to - from + 2 /\ i = kept from k /\ f i = ev v k).
    { intros i [<-|Hi].
      - exists 0. split; [lia|]. split; reflexivity.
      - apply in_map_iff in Hi as (k & <- & Hk). apply in_seq in Hk. exists (S k).
        split; [lia|]. split; [unfold kept; lia|]. replace (from + 1 + k) with (S (from + k)) by lia.
        unfold f. cbn [ev]. f_equal. lia. }
    destruct (extend_all n m Hc Hg (seq 0 n) S0 f) as (g & E & Hs).
    + intros i Hi. destruct (F i Hi) as ([|k] & Hk & -> & _); unfold kept; lia.
    + intros i Hi. apply in_seq in Hi. lia.
    + intros i j Hi Hj.
      destruct (F i Hi) as (a & Ha & -> & Ea). destruct (F j Hj) as (b & Hb & -> & Eb).
      rewrite Ea, Eb. specialize (H a b Ha Hb). rewrite mget_cutVars in H by auto.
      destruct a, b; auto.
      apply below_eq with 0%Q; [cbn [ev]; lra|]. apply below_zero.
      * apply Hg; cbn [kept]; lia.
      * destruct Hc as [Hd _]. apply Hd. cbn [kept]. lia.
    + exists (fun k => (g (S k) - g 0%nat)%Q). split.
      * assert (Ee : forall k, (ev (fun k => (g (S k) - g 0%nat)%Q) k == g k - g 0%nat)%Q).
        { intros [|k]; simpl; lra. }
        intros a b Ha Hb. apply below_eq with (g a - g b)%Q.
        -- rewrite !Ee. ring.
        -- apply Hs; apply in_or_app; left; apply in_seq; lia.
      * intros i Hi. rewrite (E 0) by (left; auto).
        rewrite (E (S (from + i))).
        -- unfold f. replace (from + i - from) with i by lia. lra.
        -- right. apply in_map_iff. exists i. split; [lia|]. apply in_seq. lia.
  - intros (u & Hu & E) a b Ha Hb. rewrite mget_cutVars by auto.
    assert (Ev : forall k, k < to - from + 2 -> (ev v k == ev u (kept from k))%Q).
    { intros [|k] Hk; cbn [kept ev]; [reflexivity|].
      replace (from + S k) with (S (from + k)) by lia. cbn [ev]. rewrite E by lia. reflexivity. }
    destruct a, b.
    + unfold below, bzero. cbn. lra.
    + apply below_eq with (ev u (kept from 0) - ev u (kept from (S b)))%Q; [rewrite (Ev 0), (Ev (S b)) by auto; reflexivity|].
      apply Hu; unfold kept; lia.
    + apply below_eq with (ev u (kept from (S a)) - ev u (kept from 0))%Q; [rewrite (Ev 0), (Ev (S a)) by auto; reflexivity|].
      apply Hu; unfold kept; lia.
    + apply below_eq with (ev u (kept from (S a)) - ev u (kept from (S b)))%Q; [rewrite (Ev (S a)), (Ev (S b)) by auto; reflexivity|].
      apply Hu; unfold kept; lia.
Qed.

(* Without canonical form values are added: x - y <= 0 and y <= 1 bound x, but
   not after dropping y's row. *)
Definition zcut : mat :=
  [[bzero; bzero; bzero];
   [binf; bzero; bzero];
   [(Fin 1, true); binf; bzero]].
Theorem C52_not_canonical_refuted : exists v,
  zin 2 (cutVars zcut 0 0) v /\ ~ exists u, zin 3 zcut u /\ (u 0%nat == v 0%nat)%Q.
Proof.
  exists (fun _ => 2%Q). split.
  - intros [|[|i]] [|[|j]] Hi Hj; try lia; unfold below, mget; simpl; auto; lra.
  - intros (u & Hu & E). pose proof (Hu 1 2 ltac:(lia) ltac:(lia)) as A.
    pose proof (Hu 2 0 ltac:(lia) ltac:(lia)) as B. unfold below, mget in A, B. simpl in A, B. lra.
Qed.

Lemma C52_case : canonical 3 (snd (isSatisfiable zex)) /\ mgood 3 (snd (isSatisfiable zex)) /\
  exists v, zin 2 (cutVars (snd (isSatisfiable zex)) 1 1) v /\ ~ zin 2 (cutVars (snd (isSatisfiable zex)) 1 1) (fun _ => 100%Q).
Proof.
  split; [apply zex_canonical|]. split.
  - intros i j Hi Hj. destruct i as [|[|[|]]], j as [|[|[|]]]; try lia; vm_compute; exact I.
  - exists (fun _ => 1%Q). split.
    + intros [|[|i]] [|[|j]] Hi Hj; try lia; vm_compute; auto; intros; discriminate.
    + intros H. specialize (H 1 0 ltac:(lia) ltac:(lia)). vm_compute in H. auto.
Qed.

(* ================= C53 widen forgets exactly the lower bounds ================= *)

Definition is_upper (g : constr) : Prop := codr g = Lt \/ codr g = Le.

Theorem C53_kept : forall gs g, In g (widen gs) <-> In g gs /\ is_upper g.
Proof.
  intros gs g. unfold widen, is_upper. rewrite filter_In. destruct (codr g); intuition congruence.
Qed.

(* For a guard that some valuation satisfies, a valuation satisfies the widened
   guard exactly when raising clocks can make it satisfy the guard. *)
Theorem C53_meaning : forall gs v, (exists u, sat_guard u gs) ->
  (sat_guard v (widen gs) <-> exists v', (forall x, (v x <= v' x)%Q) /\ sat_guard v' gs).
Proof.
  intros gs v (u & Hu). split.
  - intros H. exists (fun x => Qmax (v x) (u x)). split.
    + intros x. apply Q.le_max_l.
    + intros g Hg. specialize (Hu g Hg).
      assert (K : is_upper g -> holds g (v (cx g))) by (intros; apply H, C53_kept; auto).
      unfold is_upper, holds in *.
      destruct (Q.max_spec (v (cx g)) (u (cx g))) as [[L E]|[L E]];
        destruct (codr g); try specialize (K ltac:(auto)); lra.
  - intros (v' & L & H) g Hg. apply C53_kept in Hg as [Hg U]. specialize (H g Hg). specialize (L (cx g)).
    unfold holds, is_upper in *. destruct (codr g); try (destruct U; discriminate); lra.
Qed.

(* The guard of test/constraint_test.cc:11-18. *)
Definition gtest : list constr := [mkC 0 Gt 10; mkC 1 Ge 9; mkC 2 Le 8; mkC 3 Lt 7].
Example C53_case : widen gtest = [mkC 2 Le 8; mkC 3 Lt 7] /\ 
  sat_guard (fun x => if x <? 2 then 11%Q else 1%Q) gtest /\ ~ sat_guard (fun _ => 1%Q) gtest /\ sat_guard (fun _ => 1%Q) (widen gtest).
Proof.
  split; [reflexivity|]. split; [|split].
  - intros g [<-|[<-|[<-|[<-|[]]]]]; unfold holds; cbn; unfold inject_Z; lra.
  - intros H. specialize (H (mkC 0 Gt 10) ltac:(cbn; auto)). unfold holds in H. cbn in H. unfold inject_Z in H. lra.
  - intros g [<-|[<-|[]]]; unfold holds; cbn; unfold inject_Z; lra.
Qed.
