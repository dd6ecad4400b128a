(* Properties C01-C15: constraints, intervals and zones. *)
From Coq Require Import QArith Qround Lqa Bool List ZArith Arith Lia.
From Verif Require Import Num NumFacts Outcome Constraint Interval IntervalFacts Zone ZoneFacts ZoneOps TA Spec TAFacts.
Import ListNotations.
Open Scope nat_scope.

(* ================= C01 constraint evaluation ================= *)

Theorem C01_satisfy : forall g d, satisfy g d = true <-> holds g d.
Proof. exact satisfy_holds. Qed.

(* operator(): EQ = holds now, GT = can never hold again, LT = not yet. *)
Theorem C01_compare : forall g val d o,
  nth_error val (cx g) = Some d -> constr_call g val = Some o ->
  (o = OEQ <-> holds g d) /\
  (o = OGT <-> ~ holds g d /\ forall e, (0 <= e)%Q -> ~ holds g (d + e)%Q) /\
  (o = OLT <-> ~ holds g d /\ exists e, (0 <= e)%Q /\ holds g (d + e)%Q).
Proof.
  intros g val d o Hd Ho. unfold constr_call in Ho. rewrite Hd in Ho. inversion Ho; subst; clear Ho Hd.
  destruct (satisfy g d) eqn:E.
  - apply satisfy_holds in E. repeat split; intros; try discriminate; auto; tauto.
  - assert (NH : ~ holds g d) by (intros H; apply satisfy_holds in H; congruence).
    split; [split; [destruct (codr g); discriminate|tauto]|].
    unfold holds in *. set (c := inject_Z (cc g)) in *.
    assert (Up : exists e, (0 <= e)%Q /\ (d + e > c)%Q).
    { destruct (Qlt_le_dec c d); [exists 1%Q; lra|exists (c - d + 1)%Q; lra]. }
    destruct (codr g); split; split; intros K; try discriminate; auto.
    all: first
      [ exfalso; pose proof (proj2 K) as (e & He & K'); lra
      | split; [auto|]; intros e He; lra
      | split; [auto|]; destruct Up as (e & He & U); exists e; lra
      | exfalso; destruct Up as (e & He & U); apply (proj2 K e He); lra ].
Qed.

Theorem C01_compare_total : forall g val, constr_call g val = None <-> length val <= cx g.
Proof.
  intros g val. unfold constr_call. destruct (nth_error val (cx g)) eqn:E.
  - split; [discriminate|]. intros H. apply nth_error_None in H. congruence.
  - apply nth_error_None in E. tauto.
Qed.

Example C01_case : constr_call (mkC 1 Le 3) [0%Q; (7 # 2)%Q] = Some OGT /\
                   constr_call (mkC 1 Gt 3) [0%Q; (7 # 2)%Q] = Some OEQ.
Proof. split; vm_compute; reflexivity. Qed.

(* ================= C02-C05 intervals ================= *)

Theorem C02_contain : forall I d, contain I d = true <-> iin I d.
Proof. exact contain_iin. Qed.

(* Exact whenever the two lower end points differ or agree on being closed.
   Missing: the tie of a closed with an open lower end point (refuted below). *)
Theorem C02_interval_intersection_partial : forall I J d,
  wf_interval I -> wf_interval J -> ~ tie (lob I) (lob J) ->
  (iin (iand I J) d <-> iin I d /\ iin J d).
Proof. exact iand_spec. Qed.

(* In every case no common value is lost. *)
Theorem C02_no_value_lost : forall I J d, wf_interval I -> wf_interval J ->
  iin I d -> iin J d -> iin (iand I J) d.
Proof.
  intros I J d [[x HI] GI] [[y HJ] GJ] [A1 A2] [B1 B2]. split; cbn [iand lob upb].
  - unfold bmax. destruct bltb; auto.
  - unfold bmin. destruct bltb; auto.
Qed.

(* [1,oo) && (1,oo) contains 1. *)
Theorem C02_interval_intersection_refuted : exists I J d,
  wf_interval I /\ wf_interval J /\ iin (iand I J) d /\ ~ iin J d.
Proof.
  exists (mkI (Fin 1, true) binf), (interval_from 1), 1%Q.
  repeat split; simpl; eauto; try (unfold above, below, iand, bmax, good; simpl; lra).
  intros [H _]. unfold above in H; simpl in H. unfold inject_Z in H. lra.
Qed.

Theorem C03_set_intersection_partial : forall L R d,
  (forall I, In I L -> wf_interval I) -> (forall I, In I R -> wf_interval I) ->
  (forall I J, In I L -> In J R -> ~ tie (lob I) (lob J)) ->
  (iins (land L R) d <-> iins L d /\ iins R d).
Proof. exact land_spec. Qed.

Theorem C03_set_intersection_refuted : exists L R d,
  (forall I, In I L -> wf_interval I) /\ (forall I, In I R -> wf_interval I) /\
  iins (land L R) d /\ ~ iins R d.
Proof.
  exists [mkI (Fin 1, true) binf], [interval_from 1], 1%Q. split; [|split; [|split]].
  - intros I [<-|[]]; split; simpl; eauto; unfold good; simpl; auto.
  - intros I [<-|[]]; split; simpl; eauto; unfold good; simpl; auto.
  - eexists. split; [left; reflexivity|]. split; unfold above, below, iand, bmax; simpl; unfold inject_Z; lra || auto.
  - intros (I & [<-|[]] & [H _]). unfold above in H; simpl in H. unfold inject_Z in H. lra.
Qed.

Example C03_case : map (fun d => existsb (fun I => contain I d)
    (land [mkI (Fin 1, true) (Fin 4, false)] [interval_open 2 3; interval_from 3])) [1%Q; 2%Q; (5#2)%Q; 3%Q; (7#2)%Q; 4%Q]
  = [false; false; true; false; true; false].
Proof. vm_compute. reflexivity. Qed.

Theorem C04_sum : forall I J d, wf_interval I -> wf_interval J ->
  (exists x, iin I x) -> (exists y, iin J y) ->
  (iin (iadd I J) d <-> exists x y, iin I x /\ iin J y /\ (x + y == d)%Q).
Proof. exact iadd_spec. Qed.

Theorem C04_sum_sets : forall L R d,
  (forall I, In I L -> wf_interval I /\ exists x, iin I x) ->
  (forall I, In I R -> wf_interval I /\ exists x, iin I x) ->
  (iins (isum L R) d <-> exists x y, iins L x /\ iins R y /\ (x + y == d)%Q).
Proof. exact isum_spec. Qed.

Example C04_case : map (contain (iadd (interval_open 1 2) (mkI (Fin 0, true) (Fin 3, true)))) [1%Q; (3#2)%Q; (9#2)%Q; 5%Q]
  = [false; true; true; false].
Proof. vm_compute. reflexivity. Qed.

(* Exact except for both ends open with the length dividing the lower end, and
   for point intervals (both refuted below). *)
Theorem C05_kleene_plus_partial : forall I, plus_shape I ->
  exists L, iplus I = Ok L /\ forall d, iins L d <-> kleene_plus (iin I) d.
Proof. exact iplus_correct. Qed.

Theorem C05_kleene_plus_sets_partial : forall L, length L < 32 -> (forall I, In I L -> plus_shape I) ->
  exists R, plus_set L = Ok R /\ forall d, iins R d <-> kleene_plus (iins L) d.
Proof. exact plus_set_correct. Qed.

(* (1,2)+ is computed as (1,oo), which contains 2; but 2 is no sum of values in
   (1,2). *)
Theorem C05_kleene_plus_refuted : exists L,
  iplus (interval_open 1 2) = Ok L /\ iins L 2%Q /\ ~ kleene_plus (iin (interval_open 1 2)) 2%Q.
Proof.
  eexists. split; [vm_compute; reflexivity|]. split.
  - eexists. split; [left; reflexivity|]. split; unfold above, below; simpl; unfold inject_Z; lra || auto.
  - intros H. apply kleene_scale in H; [|split; simpl; eauto; unfold good; simpl; auto].
    destruct H as (i & Hi & [A B]). unfold above, below, iscale, bscale in A, B; simpl in A, B.
    assert (i = 1%Z \/ (2 <= i)%Z) as [->|Hi2] by lia.
    + unfold inject_Z in *. lra.
    + assert (inject_Z 2 <= inject_Z i)%Q by (rewrite <- Zle_Qle; auto).
      change (inject_Z 2) with 2%Q in *. change (inject_Z 1) with 1%Q in *. set (k := inject_Z i) in *. lra.
Qed.

(* [1,1]+ divides by zero and converts the infinite quotient to int. *)
Theorem C05_point_interval_refuted : iplus (mkI (Fin 1, true) (Fin 1, true)) = UB.
Proof. vm_compute. reflexivity. Qed.

Example C05_case : plus_shape (mkI (Fin 5, true) (Fin 7, false)) /\ plus_shape (interval_open 5 7) /\
  exists L, iplus (interval_open 5 7) = Ok L /\
   map (fun d => existsb (fun I => contain I d) L) [5%Q; 6%Q; 7%Q; 10%Q; 11%Q; 14%Q; 15%Q; 16%Q] =
     [false; true; false; false; true; false; false; true].
Proof.
  split; [|split].
  - unfold plus_shape; simpl. unfold inject_Z. split; [lra|split; [lra|auto]].
  - unfold plus_shape; simpl. split; [unfold inject_Z; lra|split; [unfold inject_Z; lra|]]. right. right. right. intros i H.
    unfold Qeq in H. simpl in H. lia.
  - eexists. split; vm_compute; reflexivity.
Qed.

(* ================= C06-C15 zones ================= *)

(* A 2-clock zone used in the examples: 1<=x<3, 0<=y<=2, x-y<=2. *)
Definition zex : mat :=
  [ [(Fin 0, true); (Fin (-1), true); (Fin 0, true)];
    [(Fin 3, false); (Fin 0, true); (Fin 2, true)];
    [(Fin 2, true); (PInf, false); (Fin 0, true)] ].

Lemma zex_square : square 3 zex.
Proof. split; [reflexivity|]. repeat constructor. Qed.
Lemma zex_good : mgood 3 zex.
Proof.
  intros [|[|[|i]]] [|[|[|j]]] Hi Hj; try lia; unfold good, mget; simpl; auto.
Qed.
Lemma zex_sat : fst (isSatisfiable zex) = true.
Proof. vm_compute. reflexivity. Qed.
Lemma zex_canonical : canonical 3 (snd (isSatisfiable zex)).
Proof. apply isSatisfiable_canonical; [apply zex_square|lia|apply zex_good|apply zex_sat]. Qed.

(* x and y are clocks, or cv_none (the argument -1 of the code) for the constant. *)
Theorem C06_tighten : forall n m x y c v, square n m -> mgood n m -> good c ->
  cv_succ x < n -> cv_succ y < n ->
  (zin n (tighten m x y c) v <->
   zin n m v /\ below c (ev v (cv_succ x) - ev v (cv_succ y))%Q).
Proof. intros. apply tighten_zin; auto. Qed.

Theorem C06_tighten_clocks : forall n m x y c v, square n m -> mgood n m -> good c ->
  S x < n -> S y < n -> x < 255 -> y < 255 ->
  (zin n (tighten m x y c) v <-> zin n m v /\ below c (v x - v y)%Q).
Proof.
  intros n m x y c v HS HG Hc Hx Hy Bx By. rewrite tighten_zin; auto; rewrite ?cv_succ_small; auto.
  simpl. tauto.
Qed.

Theorem C06_tighten_upper : forall n m x c v, square n m -> mgood n m -> good c ->
  S x < n -> x < 255 ->
  (zin n (tighten m x cv_none c) v <-> zin n m v /\ below c (v x)).
Proof.
  intros n m x c v HS HG Hc Hx Bx. rewrite tighten_zin; auto; rewrite ?cv_succ_none, ?(cv_succ_small x); auto; try lia.
  cbn [ev]. split; intros [A B]; split; auto; (eapply below_eq; [|exact B]; lra).
Qed.

Theorem C06_tighten_lower : forall n m x c v, square n m -> mgood n m -> good c ->
  S x < n -> x < 255 ->
  (zin n (tighten m cv_none x c) v <-> zin n m v /\ below c (- v x)%Q).
Proof.
  intros n m x c v HS HG Hc Hx Bx. rewrite tighten_zin; auto; rewrite ?cv_succ_none, ?(cv_succ_small x); auto; try lia.
  cbn [ev]. split; intros [A B]; split; auto; (eapply below_eq; [|exact B]; lra).
Qed.

Example C06_case : square 3 zex /\ mgood 3 zex /\ good (Fin 1, true) /\
  mget (tighten zex 0 cv_none (Fin 2, true)) 1 0 = (Fin 2, true).
Proof. split; [apply zex_square|split; [apply zex_good|split; [exact I|vm_compute; reflexivity]]]. Qed.

Theorem C07_canonize_same_set : forall n m v, square n m -> mgood n m ->
  (zin n (canonize m) v <-> zin n m v).
Proof. exact canonize_zin. Qed.

(* Every off-diagonal entry of the result is the tightest bound valid on the
   whole zone. *)
Theorem C07_canonize_tightest : forall n m i j b, square n m -> 0 < n -> mgood n m ->
  (exists v, zin n m v) -> i < n -> j < n -> i <> j -> good b ->
  (forall v, zin n m v -> below b (ev v i - ev v j)%Q) ->
  ble (mget (canonize m) i j) b.
Proof.
  intros n m i j b HS Hn HG HE Hi Hj Hij Hb HB.
  apply (canonical_tight n); auto.
  - apply (isSatisfiable_canonical n m); auto. apply (proj2 (isSatisfiable_correct n m HS Hn HG)). auto.
  - exact (canonize_good n m HS HG).
  - intros v Hv. apply HB. apply (canonize_zin n m v HS HG). auto.
Qed.

Theorem C07_canonize_triangle : forall n m, square n m -> 0 < n -> mgood n m ->
  (exists v, zin n m v) -> canonical n (canonize m).
Proof.
  intros n m HS Hn HG HE. apply isSatisfiable_canonical; auto.
  apply (proj2 (isSatisfiable_correct n m HS Hn HG)). auto.
Qed.

Example C07_case : (exists v, zin 3 zex v) /\ mget zex 2 1 = (PInf, false) /\ mget (canonize zex) 2 1 = (Fin 1, true).
Proof.
  split; [|split; vm_compute; reflexivity].
  apply (isSatisfiable_correct 3 zex zex_square ltac:(lia) zex_good). apply zex_sat.
Qed.

Theorem C08_satisfiable : forall n m, square n m -> 0 < n -> mgood n m ->
  (fst (isSatisfiable m) = true <-> exists v, zin n m v).
Proof. exact isSatisfiable_correct. Qed.

Example C08_case : fst (isSatisfiable zex) = true /\
  fst (isSatisfiable (tighten zex 0 cv_none (Fin 1, false))) = false.
Proof. split; vm_compute; reflexivity. Qed.

Lemma zin_ext : forall n m u v, (forall x, S x < n -> (u x == v x)%Q) -> zin n m u -> zin n m v.
Proof.
  intros n m u v E H i j Hi Hj. eapply below_eq; [|apply (H i j Hi Hj)].
  assert (K : forall k, k < n -> (ev v k == ev u k)%Q).
  { intros [|k] Hk; simpl; [reflexivity|]. symmetry. apply E. auto. }
  rewrite (K i Hi), (K j Hj). reflexivity.
Qed.

Theorem C09_elapse : forall n m v, square n m -> mgood n m -> canonical n m ->
  (zin n (elapse m) v <->
   exists d u, (0 < d)%Q /\ zin n m u /\ forall x, S x < n -> (v x == u x + d)%Q).
Proof.
  intros n m v HS HG HC. split.
  - intros H. destruct (elapse_backward n m v HS HG HC H) as (d & u & A & B & C). exists d, u. auto.
  - intros (d & u & A & B & C). apply (zin_ext n _ (vplus u d)).
    + intros x Hx. unfold vplus. rewrite (C x Hx). reflexivity.
    + apply elapse_forward; auto.
Qed.

Example C09_case : canonical 3 (canonize zex) /\ mgood 3 (canonize zex) /\ square 3 (canonize zex).
Proof.
  split; [apply zex_canonical|split]; [apply canonize_good|apply canonize_square]; try apply zex_square; apply zex_good.
Qed.

Theorem C10_reset : forall n m x v, square n m -> mgood n m -> canonical n m -> S x < n -> x < 255 ->
  (zin n (reset m x) v <->
   exists u, zin n m u /\ (v x == 0)%Q /\ forall y, S y < n -> y <> x -> (v y == u y)%Q).
Proof.
  intros n m x v HS HG HC Hx Bx. split.
  - intros H. destruct (reset_backward n m x v HS Hx Bx HG HC H) as (u & A & B). exists u. split; auto. split.
    + rewrite (B x ltac:(lia)). unfold vreset. rewrite Nat.eqb_refl. reflexivity.
    + intros y Hy Ny. rewrite (B y ltac:(lia)). unfold vreset. destruct (Nat.eqb_spec y x); [contradiction|reflexivity].
  - intros (u & A & B & C). apply (zin_ext n _ (vreset u x)).
    + intros y Hy. unfold vreset. destruct (Nat.eqb_spec y x); [subst; symmetry; auto|symmetry; auto].
    + apply reset_forward; auto.
Qed.

Theorem C11_abstractize_enlarges : forall n M m v, square n m -> zin n m v -> zin n (abstractize M m) v.
Proof. exact abstractize_zin. Qed.

Theorem C11_abstractize_keeps_small : forall n M m i j, square n m -> i < n -> j < n ->
  bltb (mget m i j) M = true -> mget (abstractize M m) i j = mget m i j.
Proof.
  intros n M m i j HS Hi Hj H. rewrite (mget_abstractize n) by auto.
  assert (E : bgeb (mget m i j) M = false); [|rewrite E; auto].
  revert H. generalize (mget m i j). intros [[| |x|] []]; destruct M as [[| |y|] []];
    unfold bltb, bgeb, neqb, nltb; cbn [fst snd]; try discriminate; auto;
    destruct (Qeq_bool x y) eqn:E; try discriminate; auto; intros H;
    apply Qltb_true in H; apply Qltb_false; lra.
Qed.

Theorem C11_abstractize_idempotent : forall n M m i j, square n m -> i < n -> j < n ->
  mget (abstractize M (abstractize M m)) i j = mget (abstractize M m) i j.
Proof.
  intros n M m i j HS Hi Hj.
  rewrite (mget_abstractize n M (abstractize M m)) by (auto using abstractize_square).
  rewrite (mget_abstractize n M m) by auto.
  destruct (bgeb (mget m i j) M) eqn:E; [destruct (bgeb binf M); auto|rewrite E; auto].
Qed.

Example C11_case : mget (abstractize (Fin 2, true) zex) 1 0 = (PInf, false) /\ mget (abstractize (Fin 2, true) zex) 0 1 = (Fin (-1), true).
Proof. split; vm_compute; reflexivity. Qed.

(* Any number of later tightenings. *)
Theorem C12_makeUnsat : forall n m (ts : list (nat * nat * bound)), square n m -> 0 < n ->
  (forall x y c, In (x, y, c) ts -> cv_succ x < n /\ cv_succ y < n) ->
  fst (isSatisfiable (fold_left (fun m t => let '(x, y, c) := t in tighten m x y c) ts (makeUnsat m))) = false.
Proof.
  intros n m ts HS Hn HT.
  assert (K : corner n (makeUnsat m)).
  { split; [apply square_mset; auto|]. unfold makeUnsat. rewrite (mget_mset n) by auto. reflexivity. }
  revert K. generalize (makeUnsat m). clear m HS. induction ts as [|[[x y] c] ts IH]; intros m K; simpl.
  - apply (corner_unsat n); auto.
  - apply IH; [intros; apply (HT x0 y0 c0); right; auto|].
    destruct (HT x y c (or_introl eq_refl)). apply tighten_corner; auto.
Qed.

(* But it is not for good: letting time elapse overwrites the mark. *)
Theorem C12_makeUnsat_undone_by_elapse :
  fst (isSatisfiable (elapse (makeUnsat zex))) = true.
Proof. vm_compute. reflexivity. Qed.

(* ---- C13 guard extraction ---- *)

(* The part that holds: with integer bounds and non-negative clocks, all
   valuations of the zone satisfy the guard.  Missing: the guard does not list
   the lower bounds (refuted below). *)
Definition int_bound (b : bound) : Prop := forall q, fst b = Fin q -> exists k : Z, (q == inject_Z k)%Q.

Lemma makeGuard1_sound : forall M m i gs v n, square n m -> S i < n ->
  int_bound (mget m (S i) 0) -> ~ nltb (Fin 0) (fst (mget m 0 (S i))) = true \/ makeGuard1 M m i = None ->
  zin n m v -> makeGuard1 M m i = Some gs -> sat_guard v gs.
Proof.
  intros M m i gs v n HS Hi HI HL HZ E g Hg. destruct HL as [HL|HL]; [|congruence].
  unfold makeGuard1 in E.
  pose proof (HZ 0 (S i) ltac:(lia) Hi) as Z1. pose proof (HZ (S i) 0 Hi ltac:(lia)) as Z2.
  simpl ev in Z1, Z2. destruct (mget m 0 (S i)) as [lb fl]. destruct (mget m (S i) 0) as [ub fu].
  cbn [fst snd] in *.
  apply not_true_is_false in HL. rewrite HL in E. cbn [orb] in E.
  assert (UP : forall u, (if bltb (ub, fu) M then match num_to_int ub with None => None | Some c => Some [mkC i (if fu then Le else Lt) c] end else Some []) = Some u ->
     forall g, In g u -> holds g (v (cx g))).
  { intros u Eu g' Hg'. destruct (bltb _ _); [|inversion Eu; subst; contradiction].
    unfold below in Z2; cbn [fst snd] in Z2. destruct ub as [| |q|]; simpl in Eu; try discriminate.
    inversion Eu; subst. destruct Hg' as [<-|[]]. unfold holds; cbn [codr cc cx].
    destruct (HI q eq_refl) as [k Hk].
    assert (EQ : (inject_Z (Qnum q ÷ Z.pos (Qden q)) == q)%Q).
    { unfold Qeq in Hk |- *. destruct q as [a d]. simpl in *.
      assert (a = k * Z.pos d)%Z by lia. subst a. rewrite Z.quot_mul by lia. lia. }
    destruct fu; cbn; lra. }
  destruct (neqb lb (Fin 0) && negb fl) eqn:EL.
  - apply andb_true_iff in EL as [EL1 EL2]. destruct lb as [| |q|]; try discriminate. destruct fl; [discriminate|].
    simpl in EL1. apply Qeq_bool_iff in EL1.
    destruct (num_to_int (Fin q)) as [c0|] eqn:EC; [|discriminate].
    destruct (if bltb (ub, fu) M then _ else _) as [u|] eqn:EU; [|discriminate]. inversion E; subst.
    destruct Hg as [<-|Hg].
    + unfold holds; cbn [codr cc cx]. simpl in EC. inversion EC; subst.
      unfold below in Z1; cbn [fst snd] in Z1.
      assert ((inject_Z (Qnum q ÷ Z.pos (Qden q)) == 0)%Q).
      { unfold Qeq in EL1. simpl in EL1. assert (Qnum q = 0)%Z by lia. rewrite H. reflexivity. }
      lra.
    + eapply UP; eauto.
  - destruct (if bltb (ub, fu) M then _ else _) as [u|] eqn:EU; [|discriminate]. inversion E; subst.
    eapply UP; eauto.
Qed.

Theorem C13_guard_implied_partial : forall n z gs v, square n (zval z) -> mgood n (zval z) ->
  (forall i, S i < n -> ble (mget (zval z) 0 (S i)) bzero) ->
  (forall i, S i < n -> int_bound (mget (canonize (zval z)) (S i) 0)) ->
  zin n (zval z) v -> makeGuard z = Some gs -> sat_guard v gs.
Proof.
  intros n z gs v HS HG HL HI HZ E. unfold makeGuard in E.
  pose proof (canonize_square _ _ HS HG) as HSc. pose proof (canonize_good _ _ HS HG) as HGc.
  pose proof (abstractize_square n (zM z) _ HSc) as HSa.
  assert (HZa : zin n (abstractize (zM z) (canonize (zval z))) v).
  { apply abstractize_zin; auto. apply canonize_zin; auto. }
  assert (LEN : length (abstractize (zM z) (canonize (zval z))) = n) by apply HSa. rewrite LEN in E.
  assert (K : forall l acc gs, (forall i, In i l -> S i < n) ->
     (forall a, acc = Some a -> sat_guard v a) ->
     fold_left (fun acc i => match acc, makeGuard1 (zM z) (abstractize (zM z) (canonize (zval z))) i with
                          | Some a, Some g => Some (a ++ g) | _, _ => None end) l acc = Some gs -> sat_guard v gs).
  { induction l as [|i l IH]; intros acc gs0 Hl Ha Ef; simpl in Ef.
    - auto.
    - apply IH in Ef; auto; [intros; apply Hl; right; auto|].
      intros a Ea. destruct acc as [a0|]; [|discriminate].
      destruct (makeGuard1 _ _ i) as [g|] eqn:EG; [|discriminate]. injection Ea as <-.
      intros c Hc. apply in_app_or in Hc as [Hc|Hc]; [apply (Ha a0 eq_refl); auto|].
      assert (Hi : S i < n) by (apply Hl; left; auto).
      refine (makeGuard1_sound (zM z) _ i g v n HSa Hi _ _ HZa EG c Hc).
      + rewrite (mget_abstractize n) by (auto; lia). destruct (bgeb _ _); [|apply HI; auto].
        intros q Hq. discriminate.
      + left. rewrite (mget_abstractize n) by (auto; lia). destruct (bgeb _ _) eqn:EB.
        * exfalso. unfold makeGuard1 in EG. rewrite (mget_abstractize n) in EG by (auto; lia). rewrite EB in EG.
          cbn in EG. discriminate.
        * pose proof (canonize_le n (zval z) HS HG 0 (S i) ltac:(lia) Hi) as H1.
          pose proof (HL i Hi) as H2. pose proof (HGc 0 (S i) ltac:(lia) Hi) as H3.
          destruct (mget (canonize (zval z)) 0 (S i)) as [b fb]. destruct (mget (zval z) 0 (S i)) as [b' fb'].
          unfold good, ble, bzero in *; cbn [fst snd] in *. destruct b; try contradiction; simpl.
          -- intros HQ. apply Qltb_true in HQ. destruct b'; try contradiction.
             destruct fb', fb; simpl in *; lra.
          -- destruct b'; try contradiction. }
  refine (K _ (Some []) gs _ _ E); [|intros a Ha; injection Ha as <-; intros g Hg; destruct Hg].
  intros i Hi. apply in_seq in Hi. lia.
Qed.

(* x >= 3 (and x <= 5): the guard found is just x <= 5. *)
Definition zlow : zone :=
  mkZone [ [(Fin 0, true); (Fin (-3), true)]; [(Fin 5, true); (Fin 0, true)] ] (Fin 10, false).

Theorem C13_lower_bounds_refuted :
  (forall v, zin 2 (zval zlow) v -> holds (mkC 0 Ge 3) (v 0)) /\
  exists gs, makeGuard zlow = Some gs /\ sat_guard zeroval gs /\ ~ holds (mkC 0 Ge 3) (zeroval 0).
Proof.
  split.
  - intros v H. pose proof (H 0 1 ltac:(lia) ltac:(lia)) as H1. unfold below, mget in H1; simpl in H1.
    unfold holds; simpl. unfold inject_Z. lra.
  - eexists. split; [vm_compute; reflexivity|]. split.
    + intros g [<-|[]]. unfold holds, zeroval; simpl. unfold inject_Z. lra.
    + unfold holds, zeroval; simpl. unfold inject_Z. lra.
Qed.

Example C13_case : exists gs, makeGuard zlow = Some gs /\ gs = [mkC 0 Le 5].
Proof. eexists; split; vm_compute; reflexivity. Qed.

(* ---- C14 ---- *)

(* The result may have values outside the argument. *)
Theorem C14_intersectionAssign_refuted : exists m z v,
  square 2 m /\ square 2 z /\ zin 2 (intersectionAssign m z) v /\ ~ zin 2 z v.
Proof.
  exists [ [(Fin 0, true); (Fin 0, true)]; [(Fin 5, true); (Fin 0, true)] ], (zval zlow), (fun _ => 1%Q).
  repeat split; repeat constructor.
  - intros [|[|i]] [|[|j]] Hi Hj; try lia; unfold below, mget; simpl; lra.
  - intros H. pose proof (H 0 1 ltac:(lia) ltac:(lia)) as H1. unfold below, mget in H1; simpl in H1. lra.
Qed.

(* No value of the intersection is lost, and the result is the intersection
   exactly when the left zone was inside the right one before. *)
Theorem C14_no_value_lost_partial : forall n m z v, zin n m v -> zin n z v -> zin n (intersectionAssign m z) v.
Proof. intros n m z v H _. exact H. Qed.
Theorem C14_exact_iff_inside : forall n m z,
  (forall v, zin n (intersectionAssign m z) v <-> zin n m v /\ zin n z v) <-> (forall v, zin n m v -> zin n z v).
Proof.
  intros n m z. split; intros H v.
  - intros M. apply (H v). exact M.
  - split; [intros M; split; [exact M|apply H; exact M]|intros [M _]; exact M].
Qed.
Example C14_case : let m := [ [(Fin 0, true); (Fin 0, true)]; [(Fin 5, true); (Fin 0, true)] ] in
  let z := [ [(Fin 0, true); (Fin 0, true)]; [(Fin 6, true); (Fin 0, true)] ] in
  (forall v, zin 2 m v -> zin 2 z v) /\ zin 2 m (fun _ => 1%Q) /\ zin 2 z (fun _ => 6%Q).
Proof.
  cbv zeta. split; [intros v H [|[|i]] [|[|j]] Hi Hj; try lia|split; intros [|[|i]] [|[|j]] Hi Hj; try lia; unfold below, mget; cbn; lra].
  - exact (H 0 0 Hi Hj).
  - exact (H 0 1 Hi Hj).
  - pose proof (H 1 0 Hi Hj) as X. unfold below, mget in *; cbn in *. lra.
  - exact (H 1 1 Hi Hj).
Qed.

(* ---- C15 ---- *)

Lemma list_eqb_intro : forall {A} (e : A -> A -> bool) l k d, length l = length k ->
  (forall i, i < length l -> e (nth i l d) (nth i k d) = true) -> list_eqb e l k = true.
Proof.
  induction l as [|a l IH]; intros [|b k] d HL H; simpl in *; try lia; auto.
  rewrite (H 0 ltac:(lia)). simpl. apply (IH k d); [lia|]. intros i Hi. apply (H (S i)). lia.
Qed.

Lemma zone_eqb_intro : forall n m z, square n m -> square n z -> 0 < n -> good (mget m 0 0) ->
  (forall i j, i < n -> j < n -> (i, j) <> (0, 0) -> beqb (mget m i j) (mget z i j) = true) -> zone_eqb m z = true.
Proof.
  intros n m z HM HZ Hn HG H. unfold zone_eqb. pose proof (square_mset n z 0 0 (mget m 0 0) HZ) as HZ'.
  apply (list_eqb_intro _ _ _ []); [destruct HM, HZ'; lia|].
  intros i Hi. destruct HM as [HM1 HM2] eqn:EM. rewrite HM1 in Hi.
  apply (list_eqb_intro _ _ _ binf).
  - rewrite (square_row n m) by (auto). rewrite (square_row n _ i HZ') by auto. auto.
  - intros j Hj. rewrite (square_row n m) in Hj by auto.
    change (beqb (mget m i j) (mget (mset z 0 0 (mget m 0 0)) i j) = true).
    rewrite (mget_mset n) by auto. destruct (Nat.eqb_spec i 0), (Nat.eqb_spec j 0); subst; cbn [andb];
      try (apply H; auto; congruence).
    destruct (mget m 0 0) as [[| |q|] []]; unfold good, beqb in *; cbn [fst snd] in *; try contradiction;
      cbn; try reflexivity; rewrite Qeq_bool_refl; reflexivity.
Qed.

(* Equal zones denote the same valuations, provided neither is marked
   unsatisfiable in its corner (ta2za only stores satisfiable zones). *)
Theorem C15_equal_same_set_partial : forall n m z v, square n m -> square n z -> 0 < n ->
  ble bzero (mget m 0 0) -> ble bzero (mget z 0 0) ->
  zone_eqb m z = true -> (zin n m v <-> zin n z v).
Proof.
  intros n m z v HM HZ Hn M0 Z0 E.
  pose proof (zone_eqb_entries n m z HM HZ E) as K.
  assert (B0 : forall b, ble bzero b -> below b (ev v 0 - ev v 0)%Q).
  { intros b Hb. apply (below_eq b 0%Q); [simpl; lra|]. destruct b as [[| |q|] []]; unfold ble, below, bzero in *; simpl in *; auto; lra. }
  split; intros H i j Hi Hj.
  - destruct (Nat.eq_dec i 0), (Nat.eq_dec j 0); subst; auto;
      apply (beqb_below _ _ _ (K _ _ Hi Hj ltac:(congruence))); auto.
  - destruct (Nat.eq_dec i 0), (Nat.eq_dec j 0); subst; auto;
      apply (beqb_below _ _ _ (K _ _ Hi Hj ltac:(congruence))); auto.
Qed.

Theorem C15_reflexive : forall n m, square n m -> 0 < n -> mgood n m -> zone_eqb m m = true.
Proof. exact zone_eqb_refl. Qed.

Theorem C15_symmetric : forall n m z, square n m -> square n z -> 0 < n -> mgood n m -> mgood n z ->
  zone_eqb m z = true -> zone_eqb z m = true.
Proof.
  intros n m z HM HZ Hn GM GZ E. apply (zone_eqb_intro n); auto.
  intros i j Hi Hj NE. pose proof (zone_eqb_entries n m z HM HZ E i j Hi Hj NE) as K.
  revert K. generalize (mget m i j) (mget z i j). intros [[| |x|] []] [[| |y|] []]; unfold beqb; cbn; auto;
    rewrite !andb_true_iff; intros [A B]; split; auto; apply Qeq_bool_iff in A; apply Qeq_bool_iff; lra.
Qed.

(* A zone marked with makeUnsat compares equal to the original. *)
Theorem C15_equal_same_set_refuted : exists m z v, square 3 m /\ square 3 z /\
  zone_eqb m z = true /\ zin 3 m v /\ ~ zin 3 z v.
Proof.
  exists zex, (makeUnsat zex), (fun x : nat => match x with O => 2%Q | _ => 1%Q end).
  split; [apply zex_square|]. split; [apply square_mset, zex_square|]. split; [vm_compute; reflexivity|]. split.
  - intros [|[|[|i]]] [|[|[|j]]] Hi Hj; try lia; unfold below, mget; simpl; try lra; auto.
  - intros H. specialize (H 0 0 ltac:(lia) ltac:(lia)). unfold below, mget in H; simpl in H. exact H.
Qed.

Example C15_case : zone_eqb (canonize zex) (canonize (canonize zex)) = true.
Proof. vm_compute. reflexivity. Qed.
