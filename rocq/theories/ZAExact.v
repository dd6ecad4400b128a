(* Every path of the zone automaton is the trace of a run: the abstraction only
   adds values at or above the greatest constant, which no later guard can tell
   apart. *)
From Coq Require Import QArith Lqa Bool List ZArith Arith Lia.
From Verif Require Import Num NumFacts Outcome Constraint Zone ZoneFacts ZoneOps TA Spec TAFacts MonaaFacts ApFacts ZA ZASpec ZAFacts ZAGraph ZADiv.
Import ListNotations.
Open Scope nat_scope.

(* ---------- the greater of two elements of a zone ---------- *)

Definition vmax (a b : valuation) : valuation := fun x => if Qle_bool (a x) (b x) then b x else a x.

Lemma vmax_ge : forall a b x, (a x <= vmax a b x /\ b x <= vmax a b x)%Q.
Proof. intros a b x. unfold vmax. destruct (Qle_bool (a x) (b x)) eqn:E; [apply Qle_bool_iff in E; lra|]. assert (~ a x <= b x)%Q by (rewrite <- Qle_bool_iff; congruence). lra. Qed.
Lemma vmax_or : forall a b x, vmax a b x = a x \/ vmax a b x = b x.
Proof. intros a b x. unfold vmax. destruct (Qle_bool _ _); auto. Qed.

Lemma zin_max : forall n m a b, zin n m a -> zin n m b -> zin n m (vmax a b).
Proof.
  intros n m a b Ha Hb i j Hi Hj.
  assert (Le : forall i, (ev a i <= ev (vmax a b) i /\ ev b i <= ev (vmax a b) i)%Q) by (intros [|x]; cbn; [lra|apply vmax_ge]).
  assert (Or : ev (vmax a b) i = ev a i \/ ev (vmax a b) i = ev b i) by (destruct i; cbn; [auto|apply vmax_or]).
  pose proof (Le j) as [L1 L2]. destruct Or as [E|E]; rewrite E.
  - apply (below_le _ (ev a i - ev a j)); [lra|apply Ha; auto].
  - apply (below_le _ (ev b i - ev b j)); [lra|apply Hb; auto].
Qed.

(* ---------- what abstractize adds ---------- *)

(* The same, or both at least c. *)
Definition alike (c a b : Q) : Prop := (a == b \/ (c <= a /\ c <= b))%Q.

Section Abstract.
  Variables (n : nat) (m : mat) (c : Q).
  Hypothesis HN : 0 < n.
  Hypothesis Can : canonical n m.
  Hypothesis G : mgood n m.
  Hypothesis Pos : (0 < c)%Q.
  Variable v : valuation.
  (* the indices whose bounds are known *)
  Variable N : list nat.
  Hypothesis NB : forall i, In i N -> i < n.
  Hypothesis N0 : In 0 N.
  Hypothesis NV : forall i j, In i N -> In j N -> bgeb (mget m i j) (Fin c, true) = false -> below (mget m i j) (ev v i - ev v j)%Q.
  Hypothesis NN : forall i, In i N -> (0 <= ev v i)%Q.

  Definition low (i : nat) : bool := negb (Qle_bool c (ev v i)).
  Lemma low_lt : forall i, low i = true <-> (ev v i < c)%Q.
  Proof.
    intros i. unfold low. rewrite negb_true_iff. split; intros H.
    - assert (~ c <= ev v i)%Q by (rewrite <- Qle_bool_iff; congruence). lra.
    - destruct (Qle_bool c (ev v i)) eqn:E; auto. apply Qle_bool_iff in E. lra.
  Qed.

  Lemma dropped : forall i j, In i N -> In j N -> bgeb (mget m i j) (Fin c, true) = true -> forall d, (d <= c)%Q -> below (mget m i j) d.
  Proof.
    intros i j Hi Hj H d Hd. pose proof (G i j (NB _ Hi) (NB _ Hj)) as g. revert H g. generalize (mget m i j).
    intros [[| |x|] []]; bunf; bgo.
  Qed.

  Let S := filter low N.
  Lemma in_S : forall i, In i S <-> In i N /\ (ev v i < c)%Q.
  Proof. intros i. unfold S. rewrite filter_In, low_lt. tauto. Qed.

  Lemma low_sat : satS (ev v) m S.
  Proof.
    intros i j Hi Hj. apply in_S in Hi as [Hi Li]. apply in_S in Hj as [Hj Lj].
    destruct (bgeb (mget m i j) (Fin c, true)) eqn:E; [|apply NV; auto].
    apply (dropped i j); auto. pose proof (NN j Hj). lra.
  Qed.

  Lemma S_zero : In 0 S.
  Proof. apply in_S. split; auto. Qed.

  Lemma as_val : forall (g : nat -> Q), g 0 = 0%Q -> satS g m (seq 0 n ++ S) -> zin n m (fun x => g (Datatypes.S x)).
  Proof.
    intros g G0 H i j Hi Hj. assert (E : forall k, ev (fun x => g (Datatypes.S x)) k = g k) by (intros [|k]; cbn; auto).
    rewrite !E. apply H; apply in_or_app; left; apply in_seq; lia.
  Qed.

  (* one clock at a time *)
  Lemma one_high : forall y, In y N -> (c <= ev v y)%Q -> exists u, zin n m u /\ (forall i, In i S -> ev u i = ev v i) /\ (c <= ev u y)%Q.
  Proof.
    intros y Hy Cy.
    destruct (extend_all n m Can G (seq 0 n) S (ev v)) as (g & E & Sg); [intros i Hi; apply NB; apply in_S in Hi; tauto|intros i Hi; apply in_seq in Hi; lia|apply low_sat|].
    assert (G0 : g 0 = 0%Q) by (apply E, S_zero).
    assert (EG : forall k, ev (fun x => g (Datatypes.S x)) k = g k) by (intros [|k]; cbn; auto).
    destruct (Qlt_le_dec (g y) c) as [L|L].
    2: { exists (fun x => g (Datatypes.S x)). split; [apply as_val; auto|]. split; [intros i Hi; rewrite EG; auto|rewrite EG; auto]. }
    assert (Ny : ~ In y S) by (intros H; apply in_S in H as [_ H]; lra).
    set (f := fun i => if i =? y then c else ev v i).
    assert (Ef : forall i, In i S -> f i = ev v i) by (intros i Hi; unfold f; destruct (Nat.eqb_spec i y); auto; subst; tauto).
    assert (Fy : f y = c) by (unfold f; rewrite Nat.eqb_refl; auto).
    assert (Iny : In y (seq 0 n ++ S)) by (apply in_or_app; left; apply in_seq; specialize (NB y Hy); lia).
    assert (SF : satS f m (y :: S)).
    { intros i j [<-|Hi] [<-|Hj].
      - apply (below_eq _ 0%Q); [lra|]. apply (below_zero _ (G y y (NB _ Hy) (NB _ Hy))). apply (proj1 Can); auto.
      - rewrite Fy, Ef by auto. apply in_S in Hj as Hj'. destruct Hj' as [Hj' Lj]. destruct (bgeb (mget m y j) (Fin c, true)) eqn:B.
        + apply (dropped y j); auto. pose proof (NN j Hj'). lra.
        + apply (below_le _ (ev v y - ev v j)%Q); [lra|]. apply NV; auto.
      - rewrite Fy, Ef by auto. apply (below_le _ (g i - g y)%Q); [rewrite (E i Hi); lra|]. apply Sg; auto. apply in_or_app; auto.
      - rewrite !Ef by auto. apply low_sat; auto. }
    destruct (extend_all n m Can G (seq 0 n) (y :: S) f) as (h & Eh & Sh); [intros i [<-|Hi]; [auto|apply NB; apply in_S in Hi; tauto]|intros i Hi; apply in_seq in Hi; lia|exact SF|].
    assert (H0 : h 0 = 0%Q) by (rewrite Eh by (right; apply S_zero); rewrite Ef by apply S_zero; auto).
    assert (EH : forall k, ev (fun x => h (Datatypes.S x)) k = h k) by (intros [|k]; cbn; auto).
    exists (fun x => h (Datatypes.S x)). split; [|split].
    - apply as_val; auto. intros i j Hi Hj. apply Sh; [apply in_app_or in Hi|apply in_app_or in Hj]; apply in_or_app; cbn; tauto.
    - intros i Hi. rewrite EH, Eh by (right; auto). apply Ef; auto.
    - rewrite EH, Eh, Fy by (left; auto). lra.
  Qed.

  Lemma all_high : forall l, (forall y, In y l -> In y N) -> exists u, zin n m u /\ (forall i, In i S -> ev u i = ev v i) /\
    forall y, In y l -> (c <= ev v y)%Q -> (c <= ev u y)%Q.
  Proof.
    induction l as [|y l IH]; intros H.
    - destruct (extend_all n m Can G (seq 0 n) S (ev v)) as (g & E & Sg); [intros i Hi; apply NB; apply in_S in Hi; tauto|intros i Hi; apply in_seq in Hi; lia|apply low_sat|].
      assert (G0 : g 0 = 0%Q) by (apply E, S_zero).
      exists (fun x => g (Datatypes.S x)). split; [apply as_val; auto|]. split; [|intros y []].
      intros [|i] Hi; cbn; auto. apply (E _ Hi).
    - destruct IH as (u & U1 & U2 & U3); [intros; apply H; right; auto|].
      destruct (Qlt_le_dec (ev v y) c) as [L|L].
      + exists u. split; auto. split; auto. intros z [<-|Hz] Hc; [lra|auto].
      + destruct (one_high y (H y (or_introl eq_refl)) L) as (w & W1 & W2 & W3).
        assert (GE : forall i, (ev u i <= ev (vmax u w) i /\ ev w i <= ev (vmax u w) i)%Q) by (intros [|x]; cbn; [lra|apply vmax_ge]).
        exists (vmax u w). split; [apply zin_max; auto|]. split.
        * intros i Hi. specialize (U2 i Hi). specialize (W2 i Hi). destruct i as [|x]; [reflexivity|]. cbn in *. destruct (vmax_or u w x) as [->| ->]; auto.
        * intros z [<-|Hz] Hc; [specialize (GE y); lra|]. specialize (U3 z Hz Hc). specialize (GE z). lra.
  Qed.

  Lemma abstract_real : exists u, zin n m u /\ forall i, In i N -> alike c (ev v i) (ev u i).
  Proof.
    destruct (all_high N) as (u & U1 & U2 & U3); [auto|]. exists u. split; auto. intros i Hi.
    destruct (Qlt_le_dec (ev v i) c) as [L|L]; [left; rewrite U2; [reflexivity|apply in_S; auto]|right; auto].
  Qed.
End Abstract.

(* ---------- resets ---------- *)

Lemma resets_keep : forall k xs m i j, k <= 255 -> square (S k) m -> Forall (fun x => x < k) xs -> i < S k -> j < S k ->
  ~ In i (map S xs) -> ~ In j (map S xs) -> mget (fold_left reset xs m) i j = mget m i j.
Proof.
  intros k xs. induction xs as [|x xs IH]; intros m i j K Sm F Hi Hj Ni Nj; [reflexivity|]. inversion F; subst. cbn [fold_left].
  cbn in Ni, Nj. rewrite IH by (auto; apply reset_square; auto; lia). rewrite (mget_reset (S k)) by (auto; lia).
  destruct (Nat.eqb_spec i (S x)); [exfalso; auto|]. destruct (Nat.eqb_spec j (S x)); [exfalso; auto|]. auto.
Qed.

Lemma resets_zero : forall k xs m x, k <= 255 -> square (S k) m -> Forall (fun x => x < k) xs -> In x xs ->
  mget (fold_left reset xs m) 0 (S x) = bzero /\ mget (fold_left reset xs m) (S x) 0 = bzero.
Proof.
  intros k xs m x K Sm F Hx. rewrite Forall_forall in F.
  assert (P : forall l m, (forall y, In y l -> y < k) -> square (S k) m -> (In x l \/ (mget m 0 (S x) = bzero /\ mget m (S x) 0 = bzero)) -> x < k ->
    mget (fold_left reset l m) 0 (S x) = bzero /\ mget (fold_left reset l m) (S x) 0 = bzero).
  { induction l as [|y l IH]; intros m0 FL S0 H Lx; [destruct H as [[]|H]; auto|]. cbn [fold_left].
    pose proof (FL y (or_introl eq_refl)) as Ly.
    apply IH; [intros; apply FL; right; auto|apply reset_square; auto; lia| |auto].
    destruct H as [[->|H]|[H1 H2]]; auto.
    - right. rewrite !(mget_reset (S k)) by (auto; lia). rewrite Nat.eqb_refl. cbn. auto.
    - right. rewrite !(mget_reset (S k)) by (auto; lia). cbn [Nat.eqb]. destruct (Nat.eqb_spec x y) as [->|]; cbn; auto. }
  apply P; auto.
Qed.

(* ---------- equal zones elapse equally ---------- *)

Lemma elapse_same : forall n m z v, square n m -> square n z -> zone_eqb m z = true -> zin n (elapse z) v -> zin n (elapse m) v.
Proof.
  intros n m z v Sm Sz E H i j Hi Hj. specialize (H i j Hi Hj). rewrite (mget_elapse n) in H by auto. rewrite (mget_elapse n) by auto.
  destruct (Nat.eqb_spec j 0) as [Ej|Nj]; [exact H|].
  pose proof (zone_eqb_entries n m z Sm Sz E i j Hi Hj ltac:(congruence)) as B.
  destruct (Nat.eqb_spec i 0) as [->|Ni]; [|apply (beqb_below _ _ _ B); auto].
  revert B H. generalize (mget m 0 j) (mget z 0 j). intros [[| |x|] s] [[| |y|] t]; unfold beqb, below; cbn; try discriminate; auto.
  intros B. apply andb_prop in B as [B _]. apply Qeq_bool_iff in B. intros. rewrite B. auto.
Qed.

(* ---------- paths are runs ---------- *)

Section Paths.
  Variables (A : ta) (c : Z).
  Hypothesis W : wf_ta A.
  Hypothesis K : clockSize A <= 255.
  Hypothesis HM : clockSize A = 0 \/ (1 <= c)%Z.
  Let k := clockSize A.
  Let n := S k.
  Let M : bound := (Fin (inject_Z c), true).
  Hypothesis Cov : forall p a e g, is_edge A p a e -> In g (eguard e) -> (cc g <= c)%Z.
  Hypothesis MC : max_const A = M.
  Variable Z : za.
  Hypothesis I : Inv A M Z.

  Definition sharp (m : mat) : Prop := square n m /\ mgood n m /\ canonical n m /\ (exists v, zin n m v) /\
    forall v, zin n m v -> forall x, x < k -> (0 <= v x)%Q.

  (* From p the states of the zone are, up to the greatest constant, those of
     runs over a word. *)
  Definition real (p : ptr) (l : list nat) (s : zst) : Prop :=
    exists m, sharp m /\ zone_eqb m (zm s) = true /\
      forall v, zin n m v -> exists w u T, map fst w = l /\ increasing 0 w /\ (w = [] -> T = 0%Q) /\ (last (map snd w) 0 <= T)%Q /\ run A p zeroval 0 w (zq s) u T /\
        forall x, x < k -> alike (inject_Z c) (v x) (u x).

  Lemma alike_trans : forall q a b d, alike q a b -> alike q b d -> alike q a d.
  Proof. unfold alike. intros q a b d [E|[E1 E2]] [F|[F1 F2]]; (left; lra) || (right; lra). Qed.

  Lemma guard_alike : forall p a e v u, is_edge A p a e -> sat_guard v (eguard e) ->
    (forall x, x < k -> (v x == u x \/ (inject_Z c < v x /\ inject_Z c < u x))%Q) -> sat_guard u (eguard e).
  Proof.
    intros p a e v u He SG H g Hg. specialize (SG g Hg). pose proof (Cov p a e g He Hg) as Cg.
    assert (Lx : cx g < k).
    { destruct He as (s & es & I1 & I2 & I3). destruct (wf_edges _ W _ _ _ _ _ I1 I2 I3) as (_ & _ & F). rewrite Forall_forall in F. apply F; auto. }
    assert (Cq : (inject_Z (cc g) <= inject_Z c)%Q) by (rewrite <- Zle_Qle; auto).
    destruct (H (cx g) Lx) as [E|[E1 E2]]; unfold holds in *; destruct (codr g); lra.
  Qed.

  (* the zone before the abstraction *)
  Lemma succ_real : forall s m e m', st_ok A s -> sharp m -> zone_eqb m (zm s) = true -> wf_edge A e -> succ_zone M (elapse (zm s)) e = Some m' ->
    sharp m' /\ forall v, zin n m' v -> exists v3 d v1, zin n m v3 /\ (0 < d)%Q /\ sat_guard (delay v3 d) (eguard e) /\
      (forall x, x < k -> (v1 x == reset_set (delay v3 d) (eresets e) x)%Q) /\ forall x, x < k -> alike (inject_Z c) (v x) (v1 x).
  Proof.
    intros s m e m' SO (Sm & Gm & Cm & Nm & Pm) Em We H. pose proof SO as (Sz & Gz & _).
    rewrite <- MC in H. destruct (succ_parts A K s e m' SO We H) as (m1 & E & S1 & G1 & C1 & Z1). rewrite MC in E. destruct We as (_ & WR & WG).
    fold n in S1, G1, C1, Z1, Sz, Gz.
    assert (Back : forall v, zin n m1 v -> exists v3 d, zin n m v3 /\ (0 < d)%Q /\ sat_guard v (eguard e) /\ forall x, (v x == delay v3 d x)%Q).
    { intros v Hv. apply Z1 in Hv as [Hv SG]. apply (elapse_same n m (zm s)) in Hv; auto.
      destruct (elapse_backward n m v Sm Gm Cm Hv) as (d & u & Hd & Hu & Eq). exists u, d. repeat (split; auto). }
    assert (Pos1 : forall v, zin n m1 v -> forall x, x < k -> (0 <= v x)%Q).
    { intros v Hv x Hx. destruct (Back v Hv) as (v3 & d & H3 & Hd & _ & Eq). rewrite (Eq x). unfold delay. pose proof (Pm v3 H3 x Hx). lra. }
    destruct (resets_ok k K (eresets e) m1 S1 G1 WR) as (S2 & G2 & Z2). fold n in S2, G2, Z2.
    set (m2 := fold_left reset (eresets e) m1) in *.
    assert (S3 : square n (abstractize M m2)) by (apply abstractize_square; auto).
    assert (G3 : mgood n (abstractize M m2)) by (apply abstractize_good; auto).
    assert (N1 : exists v, zin n m1 v) by (apply canonical_nonempty; auto; unfold n; lia).
    assert (N3 : exists v, zin n (abstractize M m2) v).
    { destruct N1 as (v & Hv). exists (fold_left vreset (eresets e) v). apply abstractize_zin; auto. }
    assert (Kept : k <> 0 -> forall v i j, i < n -> j < n -> ble (mget m2 i j) bzero -> zin n (abstractize M m2) v -> below bzero (ev v i - ev v j)%Q).
    { intros Nk v i j Hi Hj B Hv. specialize (Hv i j Hi Hj). rewrite (mget_abstractize n) in Hv by auto.
      assert (P : (0 < inject_Z c)%Q) by (destruct HM as [|HM']; [unfold k in Nk; lia|]; unfold Qlt; cbn; lia).
      assert (G4 : good (mget m2 i j)) by (apply G2; auto).
      revert B G4 Hv. generalize (mget m2 i j). intros [[| |x|] []]; unfold M; bunf; bgo. }
    assert (Low1 : forall x, x < k -> ble (mget m1 0 (S x)) bzero).
    { intros x Hx. apply (canonical_tight n); auto; try (unfold n; lia); [exact Logic.I|]. intros v Hv. pose proof (Pos1 v Hv x Hx). unfold below, bzero. cbn. lra. }
    assert (Low2 : forall x, x < k -> ble (mget m2 0 (S x)) bzero).
    { intros x Hx. destruct (in_dec Nat.eq_dec x (eresets e)) as [J|J].
      - unfold m2. rewrite (proj1 (resets_zero k _ m1 x K S1 WR J)). unfold ble, bzero. cbn. lra.
      - unfold m2. rewrite (resets_keep k) by (auto; try lia; intros Q; apply in_map_iff in Q as (y & Q1 & Q2); try discriminate; injection Q1 as ->; auto). apply Low1; auto. }
    assert (Pos3 : forall v, zin n (abstractize M m2) v -> forall x, x < k -> (0 <= v x)%Q).
    { intros v Hv x Hx. pose proof (Kept ltac:(lia) v 0 (S x) ltac:(unfold n; lia) ltac:(unfold n; lia) (Low2 x Hx) Hv) as B. unfold below, bzero in B. cbn in B. lra. }
    subst m'. split.
    { split; [apply canonize_square; auto|]. split; [apply canonize_good; auto|]. split.
      - destruct N3 as (v & Hv). apply (isSatisfiable_canonical n _ S3 ltac:(unfold n; lia) G3). apply (isSatisfiable_correct n _ S3 ltac:(unfold n; lia) G3). eauto.
      - split; [destruct N3 as (v & Hv); exists v; apply canonize_zin; auto|]. intros v Hv. apply (canonize_zin n _ v S3 G3) in Hv. apply Pos3. exact Hv. }
    intros v Hv. apply (canonize_zin n _ v S3 G3) in Hv.
    (* an element before the abstraction *)
    assert (Ex : exists v2, zin n m1 v2 /\ forall x, x < k -> ~ In x (eresets e) -> alike (inject_Z c) (v x) (v2 x)).
    { destruct (Nat.eq_dec k 0) as [K0|K0].
      - destruct N1 as (v2 & H2). exists v2. split; auto. intros x Hx. lia.
      - assert (P : (0 < inject_Z c)%Q) by (destruct HM as [|HM']; [unfold k in K0; lia|]; unfold Qlt; cbn; lia).
        set (N := filter (fun i => if in_dec Nat.eq_dec i (map S (eresets e)) then false else true) (seq 0 n)).
        assert (InN : forall i, In i N <-> i < n /\ ~ In i (map S (eresets e))).
        { intros i. unfold N. rewrite filter_In, in_seq. destruct (in_dec Nat.eq_dec i (map S (eresets e))); split; intros [Q1 Q2]; split; auto; try lia; try discriminate; tauto. }
        destruct (abstract_real n m1 (inject_Z c) ltac:(unfold n; lia) C1 G1 P v N) as (u & U1 & U2).
        + intros i Hi. apply InN in Hi. tauto.
        + apply InN. split; [unfold n; lia|]. intros Q. apply in_map_iff in Q as (y & Q & _). discriminate.
        + intros i j Hi Hj B. apply InN in Hi as [Hi Ni]. apply InN in Hj as [Hj Nj]. specialize (Hv i j Hi Hj).
          rewrite (mget_abstractize n) in Hv by auto. unfold m2 in Hv. rewrite (resets_keep k) in Hv by auto. unfold M in Hv. rewrite B in Hv. exact Hv.
        + intros [|i] Hi; cbn; [lra|]. apply InN in Hi as [Hi _]. apply Pos3; auto. unfold n in Hi. lia.
        + exists u. split; auto. intros x Hx Nx. apply (U2 (S x)). apply InN. split; [unfold n; lia|]. intros Q. apply in_map_iff in Q as (y & Q & Hy). injection Q as ->. auto. }
    destruct Ex as (v2 & H2 & A2). destruct (Back v2 H2) as (v3 & d & H3 & Hd & SG & Eq).
    exists v3, d, (reset_set v2 (eresets e)). split; auto. split; auto. split.
    { intros g Hg. specialize (SG g Hg). pose proof (Eq (cx g)) as Q. unfold holds in *. destruct (codr g); lra. }
    split.
    - intros x Hx. unfold reset_set. destruct (in_dec Nat.eq_dec x (eresets e)); [reflexivity|apply Eq].
    - intros x Hx. unfold reset_set. destruct (in_dec Nat.eq_dec x (eresets e)) as [J|J]; [|auto].
      left. destruct (resets_zero k _ m1 x K S1 WR J) as [R1 R2]. fold m2 in R1, R2.
      pose proof (Kept ltac:(lia) v 0 (S x) ltac:(unfold n; lia) ltac:(unfold n; lia) ltac:(rewrite R1; unfold ble, bzero; cbn; lra) Hv) as B1.
      pose proof (Kept ltac:(lia) v (S x) 0 ltac:(unfold n; lia) ltac:(unfold n; lia) ltac:(rewrite R2; unfold ble, bzero; cbn; lra) Hv) as B2.
      unfold below, bzero in B1, B2. cbn in B1, B2. lra.
  Qed.

  Lemma edge_real : forall p l i s a j, zget Z i = Some s -> real p l s -> zedge Z i a j -> exists s', zget Z j = Some s' /\ real p (l ++ [a]) s'.
  Proof.
    intros p l i s a j G (m & Sh & Em & R) (s0 & G0 & _ & Hin & _). unfold zget in G. rewrite G in G0. injection G0 as <-.
    destruct (I i s G) as [SO EO]. destruct (EO a j Hin) as (_ & s' & e & q & m' & G' & He & Et & Es & Q & E').
    exists s'. split; auto.
    assert (We : wf_edge A e) by (destruct He as (t & es & I1 & I2 & I3); eapply (wf_edges _ W); eauto).
    destruct (succ_real s m e m' SO Sh Em We Es) as [Sh' Back]. exists m'. split; auto. split; auto.
    intros v Hv. destruct (Back v Hv) as (v3 & d & v1 & H3 & Hd & SG & E1 & A1).
    destruct (R v3 H3) as (w & u & T & Ew & Inc & T0 & LT & Rn & Al).
    exists (w ++ [(a, T + d)%Q]), (reset_set (delay u (T + d - T)) (eresets e)), (T + d)%Q.
    split; [rewrite map_app, Ew; auto|]. split; [|split; [|split; [|split]]].
    - apply increasing_app. split; auto. cbn. split; auto. lra.
    - intros Q0. apply app_eq_nil in Q0 as [_ Q0]. discriminate.
    - rewrite map_app. cbn [map snd]. rewrite last_last. lra.
    - eapply run_app; [exact Rn|]. eapply run_cons; [exact He|exact Et| |rewrite Q; constructor].
      apply (guard_alike (zq s) a e (delay v3 d)); auto. intros x Hx. unfold delay. destruct (Al x Hx) as [E|[E2 E3]]; [left; lra|right; lra].
    - intros x Hx. apply (alike_trans _ _ (v1 x)); auto. pose proof (E1 x Hx) as E2. unfold reset_set in *. destruct (in_dec Nat.eq_dec x (eresets e)); [left; auto|].
      unfold delay in *. destruct (Al x Hx) as [E3|[E3 E4]]; [left; lra|right; lra].
  Qed.

  Lemma path_real : forall i l' j, zpath Z i l' j -> forall p l s, zget Z i = Some s -> real p l s -> exists s', zget Z j = Some s' /\ real p (l ++ l') s'.
  Proof.
    intros i l' j P. induction P as [i|i a j w j' E P IH]; intros p l s G R.
    - exists s. rewrite app_nil_r. auto.
    - destruct (edge_real p l i s a j G R E) as (s1 & G1 & R1). destruct (IH p _ s1 G1 R1) as (s2 & G2 & R2). exists s2. split; auto.
      rewrite <- app_assoc in R2. exact R2.
  Qed.

  Lemma start_real : forall s, zm s = fill n bzero -> real (zq s) [] s.
  Proof.
    intros s E. exists (fill n bzero). assert (SQ : square n (fill n bzero)) by apply fill_square.
    assert (GQ : mgood n (fill n bzero)) by (intros i j Hi Hj; rewrite mget_fill by auto; exact Logic.I).
    assert (ZV : forall v, zin n (fill n bzero) v -> forall x, x < k -> (v x == 0)%Q).
    { intros v Hv x Hx. pose proof (Hv 0 (S x) ltac:(unfold n; lia) ltac:(unfold n; lia)) as B1. pose proof (Hv (S x) 0 ltac:(unfold n; lia) ltac:(unfold n; lia)) as B2.
      rewrite mget_fill in B1, B2 by (unfold n; lia). unfold below, bzero in B1, B2. cbn in B1, B2. lra. }
    split.
    - split; auto. split; auto. split; [|split].
      + split; [intros i Hi|intros i j h Hi Hj Hh]; rewrite !mget_fill by auto; unfold ble, bzero; cbn; lra.
      + exists zeroval. intros i j Hi Hj. rewrite mget_fill by auto. unfold below, bzero, zeroval. destruct i, j; cbn; lra.
      + intros v Hv x Hx. rewrite (ZV v Hv x Hx). lra.
    - split; [rewrite E; apply (zone_eqb_refl n); auto; unfold n; lia|].
      intros v Hv. exists [], zeroval, 0%Q. split; auto. split; [exact Logic.I|]. split; auto. split; [cbn; lra|]. split; [constructor|].
      intros x Hx. left. rewrite (ZV v Hv x Hx). reflexivity.
  Qed.
End Paths.
