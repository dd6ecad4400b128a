(* The order of initial states when every state is allocated at a higher address
   than the ones before it. *)
From Coq Require Import QArith Bool List ZArith Arith Lia Sorted Permutation.
From Verif Require Import Num Outcome Interval Constraint Zone TA Spec TAFacts Intersection IntersectionFacts Tre TreRun TreFacts TreBuild TreLang PropTre SkipFacts TreMild TreLean.
Import ListNotations.
Open Scope nat_scope.

Definition rising (al : nat -> ptr) : Prop := forall a b, a < b -> al a < al b.
Lemma rising_inj : forall al, rising al -> injective al.
Proof. intros al R a b E. destruct (lt_eq_lt_dec a b) as [[H|H]|H]; auto; apply R in H; lia. Qed.
Lemma rising_le : forall al, rising al -> forall a b, a <= b -> al a <= al b.
Proof. intros al R a b H. destruct (Nat.eq_dec a b) as [->|N]; auto. specialize (R a b ltac:(lia)). lia. Qed.

(* ---------------- sorted lists ---------------- *)

Lemma ss_app : forall {X} (R : X -> X -> Prop) a b, StronglySorted R a -> StronglySorted R b -> (forall x y, In x a -> In y b -> R x y) -> StronglySorted R (a ++ b).
Proof.
  intros X R a b Sa Sb C. induction Sa as [|x a Sa IH F]; auto. cbn. constructor; [apply IH; intros; apply C; auto; right; auto|].
  apply Forall_app. split; auto. apply Forall_forall. intros y Hy. apply C; auto. left. auto.
Qed.
Lemma ss_weak : forall {X} (R R' : X -> X -> Prop) l, StronglySorted R l -> (forall x y, In x l -> In y l -> R x y -> R' x y) -> StronglySorted R' l.
Proof.
  intros X R R' l S. induction S as [|x l S IH F]; intros C; constructor; [apply IH; intros; apply C; auto; right; auto|].
  apply Forall_forall. rewrite Forall_forall in F. intros y Hy. apply C; auto; [left; auto|right; auto].
Qed.
Lemma ss_filter : forall {X} (R : X -> X -> Prop) f l, StronglySorted R l -> StronglySorted R (filter f l).
Proof.
  intros X R f l S. induction S as [|x l S IH F]; cbn; [constructor|]. destruct (f x); auto. constructor; auto.
  apply Forall_forall. rewrite Forall_forall in F. intros y Hy. apply filter_In in Hy as [Hy _]. auto.
Qed.
Lemma ss_flat_map : forall {X Y} (S : X -> X -> Prop) (R : Y -> Y -> Prop) (f : X -> list Y) l, StronglySorted S l -> NoDup l ->
  (forall x, In x l -> StronglySorted R (f x)) -> (forall x x' y y', In x l -> In x' l -> x <> x' -> S x x' -> In y (f x) -> In y' (f x') -> R y y') ->
  StronglySorted R (flat_map f l).
Proof.
  intros X Y S R f l SS. induction SS as [|x l SS IH F]; intros ND E C; cbn; [constructor|]. inversion ND; subst. apply ss_app.
  - apply E. left. auto.
  - apply IH; auto; [intros; apply E; right; auto|]. intros x0 x' y y' Hx Hx'. apply C; right; auto.
  - intros y y' Hy Hy'. apply in_flat_map in Hy' as (x' & Hx' & Hy'). rewrite Forall_forall in F. apply (C x x'); auto; [left; auto|right; auto|intros ->; contradiction].
Qed.
Lemma lt_nodup : forall l, StronglySorted lt l -> NoDup l.
Proof. intros l S. induction S as [|x l S IH F]; constructor; auto. intros H. rewrite Forall_forall in F. specialize (F x H). lia. Qed.
Lemma pos_lt_mono : forall l p q, StronglySorted lt l -> In p l -> In q l -> p < q -> pos p l < pos q l.
Proof.
  intros l p q S. induction S as [|x l S IH F]; intros Hp Hq L; [destruct Hp|]. rewrite Forall_forall in F. cbn.
  destruct (Nat.eqb_spec p x) as [Ep|Np], (Nat.eqb_spec q x) as [Eq|Nq]; try lia.
  - destruct Hp as [Hp|Hp]; [congruence|]. specialize (F p Hp). lia.
  - destruct Hp as [Hp|Hp]; [congruence|]. destruct Hq as [Hq|Hq]; [congruence|]. specialize (IH Hp Hq L). lia.
Qed.
Lemma pos_le_mono : forall l p q, StronglySorted lt l -> In p l -> In q l -> p <= q -> pos p l <= pos q l.
Proof. intros l p q S Hp Hq L. destruct (Nat.eq_dec p q) as [->|N]; auto. pose proof (pos_lt_mono l p q S Hp Hq ltac:(lia)). lia. Qed.

Lemma rows : forall a b L u v, a < b -> u < L -> a * L + u < b * L + v.
Proof. intros a b L u v H1 H2. assert (S a * L <= b * L) by (apply Nat.mul_le_mono_r; lia). lia. Qed.

(* ---------------- the invariant ---------------- *)

(* The initial states from which a transition leaves are in order. *)
Definition leaves (A : ta) (p : ptr) : Prop := exists c e, is_edge A p c e.
Definition ahead (A : ta) (p q : ptr) : Prop := leaves A p -> leaves A q -> p <= q.
Record risen (A : ta) : Prop := mkRi { ri_keys : StronglySorted lt (map fst (states A)); ri_inits : StronglySorted (ahead A) (inits A) }.

Lemma map_keys : forall (f : ptr * tastate -> ptr * tastate) l, (forall x, fst (f x) = fst x) -> map fst (map f l) = map fst l.
Proof. intros f l H. rewrite map_map. apply map_ext. auto. Qed.
Lemma filter_keys : forall (h : ptr -> bool) (l : list (ptr * tastate)), map fst (filter (fun ps => h (fst ps)) l) = filter h (map fst l).
Proof. intros h l. induction l as [|x l IH]; cbn; auto. destruct (h (fst x)); cbn; congruence. Qed.
Lemma reduce_keys : forall A B, reduceStates A = Ok B -> StronglySorted lt (map fst (states A)) -> StronglySorted lt (map fst (states B)).
Proof.
  intros A. unfold reduceStates. generalize (S (length (states A))). intros n. revert A. induction n as [|n IH]; intros A B E S; [discriminate|].
  assert (S' : StronglySorted lt (map fst (states (removeStuckStates A)))).
  { cbn [removeStuckStates states]. rewrite (filter_keys (fun p => negb (mem p (stuck A)))). apply ss_filter. rewrite map_keys; auto. }
  cbn [reduce_loop] in E. destruct (_ =? _); [injection E as <-; auto|eauto].
Qed.

Lemma risen_post : forall al n0 n1 A B, tinv al n0 n1 A -> (exists p, accepting A p) -> risen A -> reduceStates (merge A) = Ok B -> risen B.
Proof.
  intros al n0 n1 A B T (a & LA) [RK RI] E. pose proof (wf_nodup _ (ti_wf _ _ _ _ T)) as N.
  assert (HT : In a (terminals A)).
  { apply terminals_in. destruct LA as (s & Hs & Ms). exists s. split; auto. split; auto. apply (ti_acc _ _ _ _ T _ _ Hs Ms). }
  destruct (terminals A) as [|f rest] eqn:ET; [destruct HT|]. pose proof (tb_spec al n0 n1 A f rest T ET) as TB.
  assert (Af : accepting A f) by (apply TB; unfold tb; apply mem_In; left; auto).
  destruct (reduceStates_ok (merge A) (ti_wf _ _ _ _ (merge_tinv1 al n0 n1 A f rest T ET))) as (B' & E' & R & _). rewrite E' in E. injection E as ->.
  assert (LV : forall p, leaves B p -> leaves A p).
  { intros p (c & e & H). apply (rd_edge _ _ R) in H. apply (merge_edge al n0 n1 A f rest T ET) in H as (e0 & q0 & H & _). exists c, e0. auto. }
  destruct (reduce_inits _ _ E') as (h & Eh). constructor.
  - apply (reduce_keys _ _ E'). unfold merge. rewrite ET. destruct rest as [|g rest]; cbn [states]; [rewrite map_keys; auto|].
    rewrite (filter_keys (fun p => negb (mem p (g :: rest)))). apply ss_filter. rewrite map_keys; auto.
  - rewrite Eh. apply ss_filter. unfold merge. rewrite ET. destruct rest as [|g rest]; cbn [inits].
    + eapply ss_weak; [exact RI|]. intros x y _ _ H H1 H2. apply H; auto.
    + apply ss_filter. assert (S : StronglySorted (ahead B) (psort (inits A))) by (eapply ss_weak; [apply psort_sorted|]; intros x y _ _ H _ _; exact H).
      destruct (_ && _); auto. apply ss_app; auto; [repeat constructor|]. intros x y _ [<-|[]] _ H. exfalso. destruct (LV _ H) as (c & e & H').
      eapply edge_not_acc; eauto.
Qed.

Theorem toEventTA_risen : forall al r n A m, rising al -> plain r -> nclocks r <= 256 -> toEventTA al r n = Ok (A, m) -> risen A.
Proof.
  intros al r n A m Ri. pose proof (rising_inj al Ri) as Inj. revert n A m.
  induction r as [c| |r IH|r1 IH1 r2 IH2|r1 IH1 r2 IH2|r1 IH1 r2 IH2|r IH Iv]; intros n A m P K E.
  - cbn [toEventTA bind fst snd] in E. apply bind_Ok in E as (B & E & X). injection X as <- <-.
    eapply (risen_post al n (S (S n)) (atomTA al c n)); [apply atom_tinv; auto| | |exact E].
    + exists (al (S n)). apply (atom_accepting al n Inj). auto.
    + constructor; cbn; repeat constructor. apply Ri. lia.
  - cbn [toEventTA bind fst snd] in E. apply bind_Ok in E as (B & E & X). injection X as <- <-.
    eapply (risen_post al n (S n) (epsTA al n)); [apply eps_tinv; auto| | |exact E].
    + exists (al n), (mkS true true []). split; [left|]; auto.
    + constructor; cbn; repeat constructor.
  - cbn [toEventTA] in E. cbn [plain nclocks] in P, K. destruct P as (P & F & Nu). pose proof (plain_ok r P) as O. apply bind_Ok in E as (X & E & E2). apply bind_Ok in E2 as (B & E2 & X2).
    injection X2 as <- <-. apply bind_Ok in E as ([A1 n1] & E & X1). injection X1 as <-. cbn [fst snd] in *.
    pose proof (toEventTA_inv al r n A1 n1 Inj O K E) as Bu. pose proof (bu_inv _ _ _ _ _ Bu) as T. destruct (IH n A1 n1 P K E) as [RK RI].
    destruct (le_some _ _ (toEventTA_leaned al r n A1 n1 Inj P K E)) as (a & Ha).
    eapply (risen_post al n n1 (plusTA A1)); [| | |exact E2].
    + apply plus_tinv; [apply Bu|rewrite (bu_clocks _ _ _ _ _ Bu); auto].
    + exists a. apply plus_accepting. auto.
    + constructor; cbn [plusTA states inits]; [rewrite map_keys; auto|]. eapply ss_weak; [exact RI|].
      assert (LV : forall p, leaves (plusTA A1) p -> leaves A1 p).
      { intros p (c & e & s & es & Hs & Hes & He). cbn [plusTA states] in Hs. apply in_map_iff in Hs as ([p0 s0] & Eq & Hs). cbn [fst snd] in Eq. injection Eq as -> <-. cbn [next] in Hes.
        apply in_map_next in Hes as (es0 & Hes & ->). destruct es0 as [|e0 es0]; [destruct He|]. exists c, e0, s0, (e0 :: es0). split; auto. split; auto. left. auto. }
      intros x y _ _ H H1 H2. apply H; auto.
  - cbn [toEventTA] in E. cbn [plain nclocks] in P, K. destruct P as [P1 P2]. pose proof (plain_ok r1 P1) as O1. pose proof (plain_ok r2 P2) as O2.
    apply bind_Ok in E as (X & E & E2). apply bind_Ok in E2 as (B & E2 & X2). injection X2 as <- <-.
    apply bind_Ok in E as ([A1 n1] & Ea & E). apply bind_Ok in E as ([A2 n2] & Eb & X1). injection X1 as <-. cbn [fst snd] in *.
    pose proof (toEventTA_inv al r1 n A1 n1 Inj O1 ltac:(lia) Ea) as Bu1. pose proof (toEventTA_inv al r2 n1 A2 n2 Inj O2 ltac:(lia) Eb) as Bu2.
    assert (KB : clockSize A2 <= 256) by (rewrite (bu_clocks _ _ _ _ _ Bu2); lia).
    destruct (IH1 n A1 n1 P1 ltac:(lia) Ea) as [RK1 RI1]. destruct (IH2 n1 A2 n2 P2 ltac:(lia) Eb) as [RK2 RI2].
    destruct (le_some _ _ (toEventTA_leaned al r2 n1 A2 n2 Inj P2 ltac:(lia) Eb)) as (a & Ha).
    pose proof (TreMild.apart al n n1 n2 r1 r2 A1 A2 Inj Bu1 Bu2) as AP.
    assert (X : forall p q, In p (map fst (states A1)) -> In q (map fst (states A2)) -> p < q).
    { intros p q Hp Hq. apply (ti_rng _ _ _ _ (bu_inv _ _ _ _ _ Bu1)) in Hp as (k1 & L1 & ->). apply (ti_rng _ _ _ _ (bu_inv _ _ _ _ _ Bu2)) in Hq as (k2 & L2 & ->). apply Ri. lia. }
    pose proof (wf_inits _ (ti_wf _ _ _ _ (bu_inv _ _ _ _ _ Bu1))) as WI1. pose proof (wf_inits _ (ti_wf _ _ _ _ (bu_inv _ _ _ _ _ Bu2))) as WI2.
    eapply (risen_post al n n2 (concat2 A1 A2)); [| | |exact E2].
    + eapply cat_tinv; eauto using bu_inv, bu_le.
    + exists a. apply (cat_accepting A1 A2). auto.
    + assert (KR : map fst (states (concat2 A1 A2)) = map fst (states A1) ++ map fst (states A2)).
      { cbn [concat2 states]. rewrite map_app. f_equal; [apply map_keys; auto|]. unfold cat_right. destruct (cat_jumps A1); auto. apply map_keys. auto. }
      assert (LV : forall p, leaves (concat2 A1 A2) p -> (In p (map fst (states A1)) -> leaves A1 p) /\ (In p (map fst (states A2)) -> leaves A2 p)).
      { intros p (c & e & H). apply (catE al n n1 r1 A1 A2 Bu1) in H as [H|[H|(e1 & q1 & i & H & _)]].
        - split; [intros _; exists c, e; auto|]. intros H2. destruct (AP p (edge_source _ _ _ _ H) H2).
        - split; [|intros _; exists c, e; auto]. intros H2. destruct (AP p H2 (edge_source _ _ _ _ H)).
        - split; [intros _; exists c, e1; auto|]. intros H2. destruct (AP p (edge_source _ _ _ _ H) H2). }
      constructor.
      * rewrite KR. apply ss_app; auto.
      * cbn [concat2 inits].
        assert (S2 : StronglySorted (ahead (concat2 A1 A2)) (if existsb (match_at A1) (inits A1) then inits A2 else [])).
        { destruct (existsb (match_at A1) (inits A1)); [|constructor]. eapply ss_weak; [exact RI2|]. intros x y Hx Hy H L1 L2. apply H; [apply (LV x L1); auto|apply (LV y L2); auto]. }
        apply ss_app; auto.
        -- eapply ss_weak; [exact RI1|]. intros x y Hx Hy H L1 L2. apply H; [apply (LV x L1); auto|apply (LV y L2); auto].
        -- intros x y Hx Hy _ _. destruct (existsb (match_at A1) (inits A1)); [|destruct Hy]. specialize (X x y ltac:(auto) ltac:(auto)). lia.
  - cbn [toEventTA] in E. cbn [plain nclocks] in P, K. destruct P as [P1 P2]. pose proof (plain_ok r1 P1) as O1. pose proof (plain_ok r2 P2) as O2.
    apply bind_Ok in E as (X & E & E2). apply bind_Ok in E2 as (B & E2 & X2). injection X2 as <- <-.
    apply bind_Ok in E as ([A1 n1] & Ea & E). apply bind_Ok in E as ([A2 n2] & Eb & X1). injection X1 as <-. cbn [fst snd] in *.
    pose proof (toEventTA_inv al r1 n A1 n1 Inj O1 ltac:(lia) Ea) as Bu1. pose proof (toEventTA_inv al r2 n1 A2 n2 Inj O2 ltac:(lia) Eb) as Bu2.
    destruct (IH1 n A1 n1 P1 ltac:(lia) Ea) as [RK1 RI1]. destruct (IH2 n1 A2 n2 P2 ltac:(lia) Eb) as [RK2 RI2].
    destruct (le_some _ _ (toEventTA_leaned al r2 n1 A2 n2 Inj P2 ltac:(lia) Eb)) as (a & Ha).
    pose proof (TreMild.apart al n n1 n2 r1 r2 A1 A2 Inj Bu1 Bu2) as AP.
    assert (X : forall p q, In p (map fst (states A1)) -> In q (map fst (states A2)) -> p < q).
    { intros p q Hp Hq. apply (ti_rng _ _ _ _ (bu_inv _ _ _ _ _ Bu1)) in Hp as (k1 & L1 & ->). apply (ti_rng _ _ _ _ (bu_inv _ _ _ _ _ Bu2)) in Hq as (k2 & L2 & ->). apply Ri. lia. }
    pose proof (wf_inits _ (ti_wf _ _ _ _ (bu_inv _ _ _ _ _ Bu1))) as WI1. pose proof (wf_inits _ (ti_wf _ _ _ _ (bu_inv _ _ _ _ _ Bu2))) as WI2.
    eapply (risen_post al n n2 (altTA A1 A2)); [| | |exact E2].
    + eapply alt_tinv; eauto using bu_inv, bu_le.
    + exists a. apply alt_accepting. auto.
    + assert (LV : forall p, leaves (altTA A1 A2) p -> (In p (map fst (states A1)) -> leaves A1 p) /\ (In p (map fst (states A2)) -> leaves A2 p)).
      { intros p (c & e & H). apply alt_edge in H as [H|H].
        - split; [intros _; exists c, e; auto|]. intros H2. destruct (AP p (edge_source _ _ _ _ H) H2).
        - split; [|intros _; exists c, e; auto]. intros H2. destruct (AP p H2 (edge_source _ _ _ _ H)). }
      constructor; cbn [altTA states inits].
      * rewrite map_app. apply ss_app; auto.
      * apply ss_app.
        -- eapply ss_weak; [exact RI1|]. intros x y Hx Hy H L1 L2. apply H; [apply (LV x L1); auto|apply (LV y L2); auto].
        -- eapply ss_weak; [exact RI2|]. intros x y Hx Hy H L1 L2. apply H; [apply (LV x L1); auto|apply (LV y L2); auto].
        -- intros x y Hx Hy _ _. specialize (X x y ltac:(auto) ltac:(auto)). lia.
  - cbn [toEventTA] in E. cbn [plain nclocks] in P, K. destruct P as (P1 & P2 & F1 & F2). pose proof (plain_ok r1 P1) as O1. pose proof (plain_ok r2 P2) as O2.
    apply bind_Ok in E as (X & E & E2). apply bind_Ok in E2 as (B & E2 & X2). injection X2 as <- <-.
    apply bind_Ok in E as ([A1 n1] & Ea & E). apply bind_Ok in E as ([A2 n2] & Eb & X1). injection X1 as <-. cbn [fst snd] in *.
    pose proof (toEventTA_inv al r1 n A1 n1 Inj O1 ltac:(lia) Ea) as Bu1. pose proof (toEventTA_inv al r2 n1 A2 n2 Inj O2 ltac:(lia) Eb) as Bu2.
    assert (KA : clockSize A1 + clockSize A2 <= 256) by (rewrite (bu_clocks _ _ _ _ _ Bu1), (bu_clocks _ _ _ _ _ Bu2); lia).
    pose proof (bu_flg _ _ _ _ _ Bu1) as G1. rewrite F1 in G1. pose proof (bu_flg _ _ _ _ _ Bu2) as G2. rewrite F2 in G2.
    destruct (IH1 n A1 n1 P1 ltac:(lia) Ea) as [RK1 RI1]. destruct (IH2 n1 A2 n2 P2 ltac:(lia) Eb) as [RK2 RI2].
    pose proof (ca_nodup _ _ (toEventTA_calmed al r1 n A1 n1 Inj P1 ltac:(lia) Ea)) as ND1. pose proof (ca_nodup _ _ (toEventTA_calmed al r2 n1 A2 n2 Inj P2 ltac:(lia) Eb)) as ND2.
    pose proof (wf_inits _ (ti_wf _ _ _ _ (bu_inv _ _ _ _ _ Bu1))) as WI1. pose proof (wf_inits _ (ti_wf _ _ _ _ (bu_inv _ _ _ _ _ Bu2))) as WI2.
    assert (FL : forall p1 p2 q1 q2, In p1 (map fst (states A1)) -> In q1 (map fst (states A1)) -> In p2 (map fst (states A2)) -> In q2 (map fst (states A2)) -> p1 < q1 -> fr al n2 A1 A2 p1 p2 < fr al n2 A1 A2 q1 q2).
    { intros p1 p2 q1 q2 H1 H2 H3 H4 L. unfold fr. apply Ri. pose proof (pos_lt_mono _ _ _ RK1 H1 H2 L) as Lp. pose proof (pos_lt _ _ H3) as L3.
      apply Nat.add_lt_mono_l, rows; auto. }
    assert (FR : forall p1 p2 q2, In p2 (map fst (states A2)) -> In q2 (map fst (states A2)) -> p2 < q2 -> fr al n2 A1 A2 p1 p2 < fr al n2 A1 A2 p1 q2).
    { intros p1 p2 q2 H3 H4 L. unfold fr. apply Ri. apply Nat.add_lt_mono_l, Nat.add_lt_mono_l. apply pos_lt_mono; auto. }
    eapply (risen_post al n (n2 + length (states A1) * length (states A2)) (andTA al n2 A1 A2)); [| | |exact E2].
    + eapply and_tinv; eauto using bu_inv, bu_le, bu_free.
    + apply (and_some al n n1 n2 r1 r2); auto; [apply (le_some _ _ (toEventTA_leaned al r1 n A1 n1 Inj P1 ltac:(lia) Ea))|apply (le_some _ _ (toEventTA_leaned al r2 n1 A2 n2 Inj P2 ltac:(lia) Eb))].
    + assert (LV : forall p1 p2, In p1 (map fst (states A1)) -> In p2 (map fst (states A2)) -> leaves (andTA al n2 A1 A2) (fr al n2 A1 A2 p1 p2) -> leaves A1 p1 /\ leaves A2 p2).
      { intros p1 p2 H1 H2 (c & e & H). apply (and_edge al n n1 n2) in H as (q1 & q2 & e1 & t1 & e2 & t2 & Eq & He1 & _ & He2 & _); eauto using bu_inv, bu_le, bu_free.
        apply (fr_inj al n n1 n2) in Eq as [-> ->]; eauto using bu_le, edge_source. split; [exists c, e1|exists c, e2]; auto. }
      unfold andTA, intersectionTA in *. constructor; cbn [states inits] in *.
      * rewrite flat_map_concat_map, concat_map, map_map, <- flat_map_concat_map.
        assert (RK1' : StronglySorted (fun a b : ptr * tastate => fst a < fst b) (states A1)).
        { revert RK1. clear. induction (states A1) as [|x l IH]; intros S; [constructor|]. inversion S; subst. constructor; auto. apply Forall_forall. rewrite Forall_forall in H2. intros y Hy. apply H2, in_map. auto. }
        assert (RK2' : StronglySorted (fun a b : ptr * tastate => fst a < fst b) (states A2)).
        { revert RK2. clear. induction (states A2) as [|x l IH]; intros S; [constructor|]. inversion S; subst. constructor; auto. apply Forall_forall. rewrite Forall_forall in H2. intros y Hy. apply H2, in_map. auto. }
        assert (N1 : NoDup (states A1)) by (apply (NoDup_map_inv fst), lt_nodup; auto). assert (N2 : NoDup (states A2)) by (apply (NoDup_map_inv fst), lt_nodup; auto).
        apply (ss_flat_map _ _ _ _ RK1' N1).
        -- intros x Hx. rewrite flat_map_concat_map, concat_map, map_map, <- flat_map_concat_map. apply (ss_flat_map _ _ _ _ RK2' N2).
           ++ intros y Hy. destruct (Bool.eqb _ _); cbn; repeat constructor.
           ++ intros y y' z z' Hy Hy' _ L Hz Hz'. destruct (Bool.eqb _ _) in Hz; [|destruct Hz]. destruct (Bool.eqb _ _) in Hz'; [|destruct Hz']. destruct Hz as [<-|[]], Hz' as [<-|[]]. cbn [fst].
              apply FR; auto; apply in_map; auto.
        -- intros x x' z z' Hx Hx' _ L Hz Hz'. apply in_map_iff in Hz as ([u su] & <- & Hz). apply in_map_iff in Hz' as ([u' su'] & <- & Hz').
           apply in_flat_map in Hz as (y & Hy & Hz). apply in_flat_map in Hz' as (y' & Hy' & Hz'). destruct (Bool.eqb _ _) in Hz; [|destruct Hz]. destruct (Bool.eqb _ _) in Hz'; [|destruct Hz'].
           destruct Hz as [[= <- <-]|[]], Hz' as [[= <- <-]|[]]. cbn [fst]. apply FL; auto; apply in_map; auto.
      * unfold prod_inits.
        assert (TI : forall p1 p2 q, toI A1 A2 (fr al n2 A1 A2) p1 p2 = Some q -> q = fr al n2 A1 A2 p1 p2).
        { intros p1 p2 q. unfold toI. destruct (deref A1 p1), (deref A2 p2); try discriminate. destruct (Bool.eqb _ _); congruence. }
        apply (ss_flat_map _ _ _ _ RI1 ND1).
        -- intros p1 Hp1. apply (ss_flat_map _ _ _ _ RI2 ND2).
           ++ intros p2 Hp2. destruct (toI _ _ _ _ _); repeat constructor.
           ++ intros p2 q2 z z' Hp2 Hq2 Np Ah Hz Hz'. destruct (toI A1 A2 _ p1 p2) as [y|] eqn:Ty; [|destruct Hz]. destruct (toI A1 A2 _ p1 q2) as [y'|] eqn:Ty'; [|destruct Hz'].
              destruct Hz as [<-|[]], Hz' as [<-|[]]. apply TI in Ty, Ty'. subst y y'. intros L1 L2. apply LV in L1 as [_ L1]; auto. apply LV in L2 as [_ L2]; auto.
              specialize (Ah L1 L2). pose proof (FR p1 p2 q2 ltac:(auto) ltac:(auto) ltac:(lia)). lia.
        -- intros p1 q1 z z' Hp1 Hq1 Np Ah Hz Hz'. apply in_flat_map in Hz as (p2 & Hp2 & Hz). apply in_flat_map in Hz' as (q2 & Hq2 & Hz').
           destruct (toI A1 A2 _ p1 p2) as [y|] eqn:Ty; [|destruct Hz]. destruct (toI A1 A2 _ q1 q2) as [y'|] eqn:Ty'; [|destruct Hz'].
           destruct Hz as [<-|[]], Hz' as [<-|[]]. apply TI in Ty, Ty'. subst y y'. intros L1 L2. apply LV in L1 as [L1 _]; auto. apply LV in L2 as [L2 _]; auto.
           specialize (Ah L1 L2). pose proof (FL p1 p2 q1 q2 ltac:(auto) ltac:(auto) ltac:(auto) ltac:(auto) ltac:(lia)). lia.
  - cbn [toEventTA] in E. cbn [plain nclocks] in P, K. destruct P as (P & F & Nu & lo & up & E1 & E2 & Lu). pose proof (plain_ok r P) as O.
    apply bind_Ok in E as (X & E & E3). apply bind_Ok in E3 as (B & E3 & X2). injection X2 as <- <-.
    apply bind_Ok in E as ([A1 n1] & Ea & E). apply bind_Ok in E as (B1 & Ew & X1). injection X1 as <-. cbn [fst snd] in *.
    pose proof (toEventTA_inv al r n A1 n1 Inj O ltac:(lia) Ea) as Bu.
    assert (KA : clockSize A1 < 256) by (rewrite (bu_clocks _ _ _ _ _ Bu); lia).
    rewrite (withinTA_ok al n n1 A1 Iv lo up (bu_inv _ _ _ _ _ Bu) E1 E2 KA) in Ew. injection Ew as <-.
    destruct (IH n A1 n1 P ltac:(lia) Ea) as [RK RI]. destruct (le_some _ _ (toEventTA_leaned al r n A1 n1 Inj P ltac:(lia) Ea)) as (a & Ha).
    eapply (risen_post al n (S n1) (wTA A1 Iv lo up)); [| | |exact E3].
    + eapply w_tinv; eauto using bu_inv, bu_le.
    + exists a. apply w_accepting. auto.
    + constructor; cbn [wTA states inits]; [rewrite map_keys; auto|]. apply ss_filter. eapply ss_weak; [exact RI|]. intros x y _ _ H (c1 & e1 & L1) (c2 & e2 & L2).
      apply (w_edge al n n1 A1 Iv lo up (bu_inv _ _ _ _ _ Bu)) in L1 as (f1 & q1 & L1 & _), L2 as (f2 & q2 & L2 & _). apply H; [exists c1, f1|exists c2, f2]; auto.
Qed.

(* A pattern that does not match the empty word: all its initial states are in order. *)
Lemma risen_sorted : forall al r n A m, rising al -> plain r -> nclocks r <= 256 -> nullable r = false -> toEventTA al r n = Ok (A, m) -> StronglySorted le (inits A).
Proof.
  intros al r n A m Ri P K N E. pose proof (toEventTA_risen al r n A m Ri P K E) as [_ RI].
  pose proof (toEventTA_inv al r n A m (rising_inj al Ri) (plain_ok r P) K E) as Bu. pose proof (ti_wf _ _ _ _ (bu_inv _ _ _ _ _ Bu)) as W.
  assert (LV : forall i, In i (inits A) -> leaves A i).
  { intros i Hi. pose proof (wf_inits _ W i Hi) as Hk. apply in_map_iff in Hk as ([p s] & Ep & Hp). cbn in Ep. subst p.
    destruct (next s) as [|[c es] nx] eqn:Nx.
    2:{ destruct es as [|e es]; [exfalso; apply (ti_full _ _ _ _ (bu_inv _ _ _ _ _ Bu) i s c [] Hp); [rewrite Nx; left|]; auto|].
        exists c, e, s, (e :: es). split; auto. split; [rewrite Nx; left|left]; auto. }
    exfalso. apply (no_init_acc al r n m A Bu N i Hi). exists s. split; auto. apply (bu_free _ _ _ _ _ Bu i s Hp Nx). }
  eapply ss_weak; [exact RI|]. intros x y Hx Hy H. apply H; auto.
Qed.
