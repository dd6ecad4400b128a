(* What one configuration, one transition and one accepting edge of the matcher
   mean. *)
From Coq Require Import QArith Lqa Bool List ZArith Arith Lia.
From Verif Require Import Num NumFacts Outcome Constraint Zone ZoneFacts TA Spec TAFacts Word ZA Monaa.
Import ListNotations.
Open Scope nat_scope.

(* When the clock whose recorded reset time is [r] was last zero, the match
   starting at [t]. *)
Definition ref (r t : Q) : Q := if Qeq_bool r 0 then t else r.

(* The constraint holds at time [tau] when the match starts at [t]. *)
Definition gholds (rst : list Q) (t tau : Q) (g : constr) : Prop := holds g (tau - ref (qnth rst (cx g)) t).

Lemma good_bnd : forall q b, good (bnd q b). Proof. intros. exact I. Qed.
#[export] Hint Resolve good_bnd good_min good_add good_zero : bnd.

Ltac unq := unfold inject_Z in *.

Lemma step_guard_spec : forall rst tau t gs up lo, good up -> good lo ->
  match step_guard rst tau gs up lo with
  | Some (up', lo') =>
      good up' /\ good lo' /\
      (below up' t /\ below lo' (- t) <-> below up t /\ below lo (- t) /\ forall g, In g gs -> gholds rst t tau g)
  | None => ~ (forall g, In g gs -> gholds rst t tau g)
  end.
Proof.
  induction gs as [|g gs IH]; intros up lo Gu Gl.
  - cbn. repeat split; auto; try tauto. all: intros; tauto.
  - cbn [step_guard]. unfold is_reset. destruct (Qeq_bool (qnth rst (cx g)) 0) eqn:E; cbn [negb].
    + assert (Hg : (forall g', In g' (g :: gs) -> gholds rst t tau g') <->
                   (gholds rst t tau g /\ forall g', In g' gs -> gholds rst t tau g')).
      { split; [intros H; split; intros; apply H; cbn; auto|].
        intros [H1 H2] g' [<-|]; auto. }
      assert (HE : gholds rst t tau g <-> holds g (tau - t)).
      { unfold gholds, ref. rewrite E. tauto. }
      destruct (codr g) eqn:O; cbn [is_le is_ge];
        (match goal with |- context [step_guard rst tau gs ?u ?l] => specialize (IH u l) end;
         match type of IH with _ -> _ -> match ?x with _ => _ end => destruct x as [[up' lo']|] end;
         [ rewrite Hg, HE; destruct IH as (G1 & G2 & IH); [solve [auto with bnd]|solve [auto with bnd]|];
           split; [exact G1|split; [exact G2|]]; rewrite IH, below_min by auto with bnd;
           unfold holds; rewrite O; unfold below at 2 3, bnd; cbn;
           split; intros; repeat split; try tauto; try lra
         | rewrite Hg; intros [H1 H2]; apply IH; auto with bnd ]).
    + assert (HE : gholds rst t tau g <-> satisfy g (tau - qnth rst (cx g)) = true).
      { unfold gholds, ref. rewrite E, satisfy_holds. tauto. }
      destruct (satisfy g (tau - qnth rst (cx g))) eqn:S.
      * specialize (IH up lo Gu Gl). destruct (step_guard rst tau gs up lo) as [[up' lo']|].
        -- destruct IH as (G1 & G2 & IH). split; [auto|split; [auto|]]. rewrite IH.
           split; intros (A & B & C); repeat split; auto.
           ++ intros g' [<-|Hg]; auto. now apply HE.
           ++ intros. apply C. now right.
        -- intros H. apply IH. intros. apply H. now right.
      * intros H. specialize (H g (or_introl eq_refl)). apply HE in H. discriminate.
Qed.

(* ---- six bounds ---- *)
Definition good6 (b : six) : Prop :=
  good (ub b) /\ good (lb b) /\ good (ue b) /\ good (le6 b) /\ good (ud b) /\ good (ld b).

(* The pairs (begin, end) allowed by the six bounds. *)
Definition in6 (b : six) (t t' : Q) : Prop :=
  below (ub b) t /\ below (lb b) (- t) /\ below (ue b) t' /\ below (le6 b) (- t') /\
  below (ud b) (t' - t) /\ below (ld b) (t - t').

Lemma below_sum : forall a b d e f, good a -> good b -> below a d -> below b e -> f == d + e -> below (badd a b) f.
Proof. intros. eapply below_eq; [|apply below_add; eauto]. now symmetry. Qed.

Lemma acc_guard1_good : forall rst b g, good6 b -> good6 (acc_guard1 rst b g).
Proof.
  intros rst b g (A & B & C & D & E & F). unfold acc_guard1, good6.
  destruct (is_reset rst (cx g)), (codr g); cbn [ub lb ue le6 ud ld]; repeat split; auto 8 with bnd.
Qed.

Ltac batom :=
  first [ assumption
        | rewrite below_min by auto 8 with bnd; split; [assumption | unfold below, bnd; cbn; lra] ].
Ltac bpick d e := apply (below_sum _ _ d e); [solve [auto 8 with bnd] | solve [auto 8 with bnd] | solve [batom] | solve [batom] | lra].

Lemma acc_guard1_in6 : forall rst b g t t', good6 b ->
  (in6 (acc_guard1 rst b g) t t' <-> in6 b t t' /\ gholds rst t t' g).
Proof.
  intros rst b g t t' (A & B & C & D & E & F). unfold acc_guard1, in6, gholds, ref, is_reset.
  destruct (Qeq_bool (qnth rst (cx g)) 0) eqn:Eq; cbn [negb]; destruct (codr g) eqn:O;
    cbn [ub lb ue le6 ud ld is_le is_ge]; unfold holds; rewrite O;
    repeat rewrite below_min by auto 8 with bnd;
    (split;
     [ intros (H1 & H2 & H3 & H4 & H5 & H6); repeat split; try tauto;
       unfold below, bnd in *; cbn in *; lra
     | intros ((H1 & H2 & H3 & H4 & H5 & H6) & H7); repeat split; auto ]).
  all: try (unfold below, bnd; cbn; lra).
  all: first [ bpick t' (- t)%Q | bpick (- t)%Q t' | bpick (- t')%Q t | bpick t (- t')%Q
             | bpick (t - t')%Q t' | bpick t' (t - t')%Q | bpick (t' - t)%Q t | bpick t (t' - t)%Q
             | bpick (- t)%Q (t - t')%Q | bpick (t - t')%Q (- t)%Q
             | bpick (- t')%Q (t' - t)%Q | bpick (t' - t)%Q (- t')%Q ].
Qed.

Lemma acc_guards_good : forall rst gs b, good6 b -> good6 (fold_left (acc_guard1 rst) gs b).
Proof. induction gs; cbn; intros; auto. apply IHgs. now apply acc_guard1_good. Qed.

Lemma acc_guards_in6 : forall rst gs b t t', good6 b ->
  (in6 (fold_left (acc_guard1 rst) gs b) t t' <-> in6 b t t' /\ forall g, In g gs -> gholds rst t t' g).
Proof.
  induction gs as [|g gs IH]; cbn [fold_left]; intros b t t' G.
  - split; [intros H; split; [auto|intros ? []]|tauto].
  - rewrite IH by now apply acc_guard1_good. rewrite acc_guard1_in6 by auto. split.
    + intros ((H1 & H2) & H3). split; auto. intros g' [<-|]; auto.
    + intros (H1 & H2). split; [split; [auto|apply H2; now left]|intros; apply H2; now right].
Qed.

Lemma six_init_good : forall cfg up lo, good (iup cfg) -> good (ilo cfg) -> good up -> good lo -> good6 (six_init cfg up lo).
Proof. intros. unfold six_init, good6. cbn [ub lb ue le6 ud ld]. repeat split; auto with bnd. Qed.

Lemma six_init_in6 : forall cfg up lo t t', good (iup cfg) -> good (ilo cfg) -> good up -> good lo ->
  (in6 (six_init cfg up lo) t t' <->
   below (iup cfg) t /\ below (ilo cfg) (- t) /\ below up t' /\ below lo (- t') /\ (t <= t')%Q).
Proof.
  intros. unfold six_init, in6. cbn [ub lb ue le6 ud ld]. rewrite below_min by auto with bnd. split.
  - intros (A & B & C & D & E & F & G). repeat split; auto. unfold below in G. cbn in G. lra.
  - intros (A & B & C & D & E). repeat split; auto.
    + bpick t' (- t)%Q.
    + bpick (- t')%Q t.
    + unfold below. cbn. lra.
Qed.

(* The valuation (begin, end). *)
Definition pairv (t t' : Q) : valuation := fun x => match x with O => t | _ => t' end.

Lemma ans_zone_square : forall b, square 3 (ans_zone b).
Proof. intros. split; [reflexivity|]. repeat constructor. Qed.

Lemma lt3 : forall i, i < 3 -> i = 0 \/ i = 1 \/ i = 2. Proof. intros. lia. Qed.

Lemma ans_zone_good : forall b, good6 b -> mgood 3 (ans_zone b).
Proof.
  intros b (A & B & C & D & E & F) i j Hi Hj.
  destruct (lt3 i Hi) as [->|[->| ->]], (lt3 j Hj) as [->|[->| ->]]; cbn; auto; exact I.
Qed.

Lemma ans_zone_zin : forall b t t', zin 3 (ans_zone b) (pairv t t') <-> in6 b t t'.
Proof.
  intros b t t'. split.
  - intros H. unfold in6.
    pose proof (H 1 0 ltac:(lia) ltac:(lia)) as H1. pose proof (H 0 1 ltac:(lia) ltac:(lia)) as H2.
    pose proof (H 2 0 ltac:(lia) ltac:(lia)) as H3. pose proof (H 0 2 ltac:(lia) ltac:(lia)) as H4.
    pose proof (H 2 1 ltac:(lia) ltac:(lia)) as H5. pose proof (H 1 2 ltac:(lia) ltac:(lia)) as H6.
    unfold mget in *. cbn [ans_zone nth ev pairv] in *.
    repeat split; (eapply below_eq; [|eassumption]); lra.
  - intros (A & B & C & D & E & F) i j Hi Hj.
    destruct (lt3 i Hi) as [->|[->| ->]], (lt3 j Hj) as [->|[->| ->]];
      unfold mget; cbn [ans_zone nth ev pairv];
      try (unfold bzero, below; cbn; lra); (eapply below_eq; [|eassumption]); lra.
Qed.

(* ---- closure ---- *)
Definition closed6 (b : six) : Prop :=
  ble (ub b) (badd (ld b) (ue b)) /\ ble (lb b) (badd (le6 b) (ud b)) /\
  ble (ue b) (badd (ud b) (ub b)) /\ ble (le6 b) (badd (lb b) (ld b)) /\
  ble (ud b) (badd (ue b) (lb b)) /\ ble (ld b) (badd (ub b) (le6 b)).

Definition valid6 (b : six) : Prop :=
  ble bzero (badd (ub b) (lb b)) /\ ble bzero (badd (ue b) (le6 b)) /\ ble bzero (badd (ud b) (ld b)).

Lemma ble_add_min : forall a x y z, good x -> good y -> good z ->
  ble a (badd x z) -> ble a (badd y z) -> ble a (badd (bmin x y) z).
Proof. intros. destruct (bmin_cases x y) as [->| ->]; auto. Qed.

Lemma ble_add_min_r : forall a x y z, good x -> good y -> good z ->
  ble a (badd z x) -> ble a (badd z y) -> ble a (badd z (bmin x y)).
Proof. intros. destruct (bmin_cases x y) as [->| ->]; auto. Qed.

(* Everything below is an inequality between sums of at most three bounds. *)
Lemma ble_3 : forall a b c, good a -> good b -> good c -> ble bzero (badd b c) ->
  ble a (badd b (badd c a)).
Proof.
  intros. apply ble_trans with (badd (badd b c) a); auto with bnd.
  - apply badd_nonneg_l; auto with bnd.
  - apply badd_assoc_ge; auto.
Qed.
Lemma ble_3' : forall a b c, good a -> good b -> good c -> ble bzero (badd b c) ->
  ble a (badd (badd a b) c).
Proof.
  intros. apply ble_trans with (badd a (badd b c)); auto with bnd.
  - apply badd_nonneg_r; auto with bnd.
  - apply badd_assoc_le; auto.
Qed.
Lemma bcomm0 : forall a b, good a -> good b -> ble bzero (badd a b) -> ble bzero (badd b a).
Proof. intros. eapply ble_trans; [| | |eassumption|apply badd_comm_le]; auto with bnd. Qed.

Lemma tri_comm : forall a b c, good a -> good b -> good c -> ble a (badd b c) -> ble a (badd c b).
Proof. intros. eapply ble_trans; [| | |eassumption|apply badd_comm_le]; auto with bnd. Qed.

(* Tightening the entry xy of a closed matrix over three points x, y, z. *)
Lemma tighten3 : forall xy yx xz zx yz zy c s1 s2,
  good xy -> good yx -> good xz -> good zx -> good yz -> good zy -> good c -> good s1 -> good s2 ->
  ble xy (badd xz zy) -> ble yx (badd yz zx) -> ble xz (badd xy yz) ->
  ble zx (badd zy yx) -> ble yz (badd yx xz) -> ble zy (badd zx xy) ->
  let xy' := bmin xy c in
  ble s1 (badd xy' yz) -> ble (badd xy' yz) s1 -> ble s2 (badd zx xy') -> ble (badd zx xy') s2 ->
  let xz' := bmin xz s1 in
  let zy' := bmin zy s2 in
  ble bzero (badd xy' yx) -> ble bzero (badd xz' zx) -> ble bzero (badd yz zy') ->
  ble xy' (badd xz' zy') /\ ble yx (badd yz zx) /\ ble xz' (badd xy' yz) /\
  ble zx (badd zy' yx) /\ ble yz (badd yx xz') /\ ble zy' (badd zx xy').
Proof.
  intros xy yx xz zx yz zy c s1 s2 G1 G2 G3 G4 G5 G6 Gc Gs1 Gs2 T1 T2 T3 T4 T5 T6 xy' L1 L1' L2 L2' xz' zy' V1 V2 V3.
  assert (Gxy : good xy') by (apply good_min; auto).
  assert (Gxz : good xz') by (apply good_min; auto).
  assert (Gzy : good zy') by (apply good_min; auto).
  assert (Vxz : ble bzero (badd xz zx)).
  { eapply ble_trans; [| | |exact V2|]; auto with bnd. apply badd_mono_l; auto. apply bmin_l; auto. }
  assert (Vzy : ble bzero (badd yz zy)).
  { eapply ble_trans; [| | |exact V3|]; auto with bnd. apply badd_mono_r; auto. apply bmin_l; auto. }
  split; [|split; [exact T2|split; [|split; [|split]]]].
  - unfold xz', zy'. apply ble_add_min; auto; apply ble_add_min_r; auto.
    + eapply ble_trans; [| | |apply bmin_l|exact T1]; auto with bnd.
    + (* xz + zx + xy' *)
      apply ble_trans with (badd xz (badd zx xy')); auto with bnd.
      * apply ble_3; auto.
      * apply badd_mono_r; auto with bnd.
    + apply ble_trans with (badd (badd xy' yz) zy); auto with bnd.
      * apply ble_3'; auto.
      * apply badd_mono_l; auto with bnd.
    + (* xy' + yz + zx + xy' *)
      apply ble_trans with (badd (badd xy' yz) (badd zx xy')); auto with bnd.
      * apply ble_trans with (badd (badd (badd xy' yz) zx) xy'); [auto with bnd| auto with bnd|auto with bnd| |apply badd_assoc_ge; auto with bnd].
        apply badd_nonneg_l; auto with bnd.
        apply ble_trans with (badd xy' (badd yz zx)); [auto with bnd| auto with bnd|auto with bnd| |apply badd_assoc_le; auto with bnd].
        apply ble_trans with (badd xy' yx); auto with bnd. apply badd_mono_r; auto with bnd.
      * apply badd_mono; auto with bnd.
  - eapply ble_trans; [| | |apply bmin_r|exact L1]; auto with bnd.
  - unfold zy'. apply ble_add_min; auto.
    apply ble_trans with (badd (badd zx xy') yx); auto with bnd.
    + apply ble_3'; auto.
    + apply badd_mono_l; auto with bnd.
  - unfold xz'. apply ble_add_min_r; auto.
    apply ble_trans with (badd yx (badd xy' yz)); auto with bnd.
    + apply ble_3; auto. apply bcomm0; auto.
    + apply badd_mono_r; auto with bnd.
  - eapply ble_trans; [| | |apply bmin_r|exact L2]; auto with bnd.
Qed.

Ltac tr := first [ assumption | apply tri_comm; [auto 8 with bnd|auto 8 with bnd|auto 8 with bnd|assumption]
                 | apply ble_refl; auto 8 with bnd | apply badd_comm_le; auto 8 with bnd ].

Lemma acc_guard1_closed : forall rst b g, good6 b -> closed6 b -> valid6 (acc_guard1 rst b g) ->
  closed6 (acc_guard1 rst b g).
Proof.
  intros rst b g (A & B & C & D & E & F) (T1 & T2 & T3 & T4 & T5 & T6).
  unfold acc_guard1, closed6, valid6.
  destruct (is_reset rst (cx g)), (codr g); cbn [ub lb ue le6 ud ld is_le is_ge]; intros (V1 & V2 & V3).
  Ltac t3 x1 x2 x3 x4 x5 x6 c s1 s2 :=
    destruct (tighten3 x1 x2 x3 x4 x5 x6 c s1 s2) as (R1 & R2 & R3 & R4 & R5 & R6);
    [auto 8 with bnd ..|tr|tr|tr|tr|tr|tr|tr|tr|tr|tr|tr|tr|tr|repeat split; tr].
  all: match type of V1 with context [bnd ?q ?f] => pose proof (good_bnd q f) as Gc; set (c := bnd q f) in *; clearbody c
       | _ => match type of V2 with context [bnd ?q ?f] => pose proof (good_bnd q f) as Gc; set (c := bnd q f) in *; clearbody c end
       | _ => match type of V3 with context [bnd ?q ?f] => pose proof (good_bnd q f) as Gc; set (c := bnd q f) in *; clearbody c end
       end.
  1,2: t3 (ue b) (le6 b) (ud b) (ld b) (lb b) (ub b) c (badd (bmin (ue b) c) (lb b)) (badd (ld b) (bmin (ue b) c)).
  1,2: t3 (le6 b) (ue b) (lb b) (ub b) (ud b) (ld b) c (badd (bmin (le6 b) c) (ud b)) (badd (ub b) (bmin (le6 b) c)).
  1,2: t3 (ud b) (ld b) (ue b) (le6 b) (ub b) (lb b) c (badd (bmin (ud b) c) (ub b)) (badd (le6 b) (bmin (ud b) c)).
  1,2: t3 (ld b) (ud b) (ub b) (lb b) (ue b) (le6 b) c (badd (bmin (ld b) c) (ue b)) (badd (lb b) (bmin (ld b) c)).
Qed.

(* Every entry only gets tighter, so a valid result has valid predecessors. *)
Lemma acc_guard1_valid : forall rst b g, good6 b -> valid6 (acc_guard1 rst b g) -> valid6 b.
Proof.
  intros rst b g (A & B & C & D & E & F). unfold acc_guard1, valid6.
  destruct (is_reset rst (cx g)), (codr g); cbn [ub lb ue le6 ud ld is_le is_ge]; intros (V1 & V2 & V3);
    (split; [|split]);
    match goal with
    | H : ble bzero (badd ?x ?y) |- ble bzero (badd ?x' ?y') =>
        apply ble_trans with (badd x y); [auto 8 with bnd|auto 8 with bnd|auto 8 with bnd|exact H|];
        apply badd_mono; [auto 8 with bnd|auto 8 with bnd|auto 8 with bnd|auto 8 with bnd|
          first [apply ble_refl; solve [auto 8 with bnd]|apply bmin_l; solve [auto 8 with bnd]]|
          first [apply ble_refl; solve [auto 8 with bnd]|apply bmin_l; solve [auto 8 with bnd]]]
    end.
Qed.

Lemma acc_guards_closed : forall rst gs b, good6 b -> closed6 b -> valid6 (fold_left (acc_guard1 rst) gs b) ->
  closed6 (fold_left (acc_guard1 rst) gs b).
Proof.
  induction gs as [|g gs IH]; cbn [fold_left]; intros b G K V; auto.
  apply IH; auto using acc_guard1_good.
  apply acc_guard1_closed; auto.
  clear - V G. assert (forall gs b, good6 b -> valid6 (fold_left (acc_guard1 rst) gs b) -> valid6 b) as X.
  { clear. induction gs as [|g gs IH]; cbn [fold_left]; intros; auto.
    apply (acc_guard1_valid rst b g); auto. apply IH; auto using acc_guard1_good. }
  eapply X; [|exact V]. now apply acc_guard1_good.
Qed.

Lemma valid6_iff : forall b, good6 b ->
  (isValidConstraint (ub b) (lb b) && isValidConstraint (ue b) (le6 b) && isValidConstraint (ud b) (ld b) = true
   <-> valid6 b).
Proof.
  intros b (A & B & C & D & E & F). unfold isValidConstraint, valid6.
  rewrite !andb_true_iff, !bgeb_zero by auto with bnd. tauto.
Qed.

Lemma in6_valid : forall b t t', good6 b -> in6 b t t' -> valid6 b.
Proof.
  intros b t t' (A & B & C & D & E & F) (H1 & H2 & H3 & H4 & H5 & H6).
  assert (X : forall a c d e, good a -> good c -> below a d -> below c e -> (d + e == 0)%Q -> ble bzero (badd a c)).
  { intros a c d e Ga Gc Ha Hc Hz. apply below_zero; auto with bnd. eapply below_sum; eauto. now symmetry. }
  split; [|split]; (eapply X; [auto|auto|eassumption|eassumption|lra]).
Qed.

Lemma closed6_canonical : forall b, good6 b -> closed6 b -> valid6 b -> canonical 3 (ans_zone b).
Proof.
  intros b (A & B & C & D & E & F) (T1 & T2 & T3 & T4 & T5 & T6) (V1 & V2 & V3).
  assert (Z : forall a, good a -> ble a (badd bzero a)) by (intros; apply badd_nonneg_l; auto with bnd; apply ble_refl; exact I).
  assert (Z' : forall a, good a -> ble a (badd a bzero)) by (intros; apply badd_nonneg_r; auto with bnd; apply ble_refl; exact I).
  split.
  - intros i Hi. destruct (lt3 i Hi) as [->|[->| ->]]; apply ble_refl; exact I.
  - intros i j k Hi Hj Hk.
    destruct (lt3 i Hi) as [->|[->| ->]], (lt3 j Hj) as [->|[->| ->]], (lt3 k Hk) as [->|[->| ->]];
      unfold mget; cbn [ans_zone nth]; first [apply Z; solve [auto with bnd]|apply Z'; solve [auto with bnd]|tr|apply bcomm0; solve [auto]].
Qed.

Lemma six_init_closed : forall cfg up lo, good (iup cfg) -> good (ilo cfg) -> good up -> good lo ->
  ble (iup cfg) up -> ble lo (ilo cfg) -> valid6 (six_init cfg up lo) -> closed6 (six_init cfg up lo).
Proof.
  intros cfg up lo G1 G2 G3 G4 L1 L2. unfold valid6, closed6, six_init. cbn [ub lb ue le6 ud ld].
  intros (V1 & V2 & V3).
  split; [|split; [|split; [|split; [|split]]]].
  - apply ble_add_min; auto with bnd.
    + apply tri_comm; auto with bnd. apply ble_3; auto.
    + eapply ble_trans; [| | |exact L1|apply badd_nonneg_l]; auto with bnd; apply ble_refl; exact I.
  - apply ble_3; auto. apply bcomm0; auto.
  - apply ble_3'; auto. apply bcomm0; auto.
  - apply ble_add_min_r; auto with bnd.
    + apply tri_comm; auto with bnd. apply ble_3'; auto.
    + eapply ble_trans; [| | |exact L2|apply badd_nonneg_r]; auto with bnd; apply ble_refl; exact I.
  - apply ble_refl. auto with bnd.
  - eapply ble_trans; [| | |apply bmin_l|apply badd_comm_le]; auto with bnd.
Qed.

(* The pairs an accepting edge allows. *)
Definition acc_pairs (cfg : iconf) (up lo : bound) (e : edge) (t t' : Q) : Prop :=
  below (iup cfg) t /\ below (ilo cfg) (- t) /\ below up t' /\ below lo (- t') /\ (t <= t')%Q /\
  forall g, In g (eguard e) -> gholds (irst cfg) t t' g.

Lemma acc_edge_spec : forall cfg up lo e, good (iup cfg) -> good (ilo cfg) -> good up -> good lo ->
  match acc_edge cfg up lo e with
  | Some z => square 3 z /\ mgood 3 z /\ (forall t t', zin 3 z (pairv t t') <-> acc_pairs cfg up lo e t t') /\
              (ble (iup cfg) up -> ble lo (ilo cfg) -> canonical 3 z)
  | None => forall t t', ~ acc_pairs cfg up lo e t t'
  end.
Proof.
  intros cfg up lo e G1 G2 G3 G4. unfold acc_edge.
  set (b := fold_left (acc_guard1 (irst cfg)) (eguard e) (six_init cfg up lo)).
  pose proof (six_init_good cfg up lo G1 G2 G3 G4) as GI.
  assert (GB : good6 b) by now apply acc_guards_good.
  assert (I6 : forall t t', in6 b t t' <-> acc_pairs cfg up lo e t t').
  { intros. unfold b. rewrite acc_guards_in6, six_init_in6 by auto. unfold acc_pairs. tauto. }
  destruct (_ && _ && _)%bool eqn:V.
  - apply valid6_iff in V; auto. split; [apply ans_zone_square|]. split; [now apply ans_zone_good|]. split.
    + intros. rewrite ans_zone_zin. apply I6.
    + intros L1 L2. apply closed6_canonical; auto. apply acc_guards_closed; auto.
      apply six_init_closed; auto.
      assert (forall gs b, good6 b -> valid6 (fold_left (acc_guard1 (irst cfg)) gs b) -> valid6 b) as X.
      { clear. induction gs as [|g gs IH]; cbn [fold_left]; intros; auto.
        apply (acc_guard1_valid (irst cfg) b g); auto. apply IH; auto using acc_guard1_good. }
      eapply X; eauto.
  - intros t t' H. apply I6 in H. apply in6_valid in H; auto. apply valid6_iff in H; auto. congruence.
Qed.

(* ---- configurations ---- *)
Lemma qreset_spec : forall t xs l, length (fold_left (fun r x => set_nth r x t) xs l) = length l /\
  forall x, x < length l -> qnth (fold_left (fun r x => set_nth r x t) xs l) x = if in_dec Nat.eq_dec x xs then t else qnth l x.
Proof.
  induction xs as [|y xs IH]; simpl; intros l; auto.
  destruct (IH (set_nth l y t)) as [E1 E2]. rewrite set_nth_length in *. split; auto.
  intros x Hx. rewrite E2 by auto.
  destruct (in_dec Nat.eq_dec x xs), (Nat.eq_dec y x); auto.
  - subst. unfold qnth. rewrite nth_set_nth by auto. rewrite Nat.eqb_refl. auto.
  - unfold qnth. rewrite nth_set_nth_other; auto.
Qed.

Definition wf_cfg (n : nat) (cfg : iconf) : Prop := good (iup cfg) /\ good (ilo cfg) /\ length (irst cfg) = n.

(* The configuration stands for the valuation [v] reached at time [T] by a match
   that starts at [t]. *)
Definition rep (n : nat) (cfg : iconf) (t T : Q) (v : valuation) : Prop :=
  below (iup cfg) t /\ below (ilo cfg) (- t) /\ forall x, x < n -> (v x == T - ref (qnth (irst cfg) x) t)%Q.

Lemma rep_guard : forall n cfg t T v tau gs, rep n cfg t T v -> Forall (fun g => cx g < n) gs ->
  (sat_guard (delay v (tau - T)) gs <-> forall g, In g gs -> gholds (irst cfg) t tau g).
Proof.
  intros n cfg t T v tau gs (_ & _ & R) F. rewrite Forall_forall in F. unfold sat_guard, gholds, delay. split.
  - intros H g Hg. eapply holds_eq; [|apply H; auto]. rewrite (R _ (F g Hg)). lra.
  - intros H g Hg. eapply holds_eq; [|apply H; auto]. rewrite (R _ (F g Hg)). lra.
Qed.

Lemma step_edge_spec : forall n cfg tau e q, wf_cfg n cfg -> etgt e = Some q ->
  Forall (fun g => cx g < n) (eguard e) ->
  (forall cfg', step_edge cfg tau e = Some cfg' -> wf_cfg n cfg' /\ ist cfg' = q /\
     ble bzero (badd (iup cfg') (ilo cfg')) /\
     (forall t, below (iup cfg') t -> below (ilo cfg') (- t) ->
        below (iup cfg) t /\ below (ilo cfg) (- t) /\
        forall T v, ~ (tau == 0)%Q -> rep n cfg t T v -> sat_guard (delay v (tau - T)) (eguard e) /\
                    rep n cfg' t tau (reset_set (delay v (tau - T)) (eresets e)))) /\
  (forall t T v, ~ (tau == 0)%Q -> rep n cfg t T v -> sat_guard (delay v (tau - T)) (eguard e) ->
     exists cfg', step_edge cfg tau e = Some cfg' /\ rep n cfg' t tau (reset_set (delay v (tau - T)) (eresets e))).
Proof.
  intros n cfg tau e q (Gu & Gl & Ln) Eq Fg. unfold step_edge. rewrite Eq.
  pose proof (fun t => step_guard_spec (irst cfg) tau t (eguard e) (iup cfg) (ilo cfg) Gu Gl) as SG.
  destruct (qreset_spec tau (eresets e) (irst cfg)) as [L1 L2].
  assert (VR : forall up lo t T v, ~ (tau == 0)%Q -> rep n cfg t T v -> below up t -> below lo (- t) ->
     rep n (mkI q (fold_left (fun r x => set_nth r x tau) (eresets e) (irst cfg)) up lo) t tau
       (reset_set (delay v (tau - T)) (eresets e))).
  { intros up lo t T v Nz (_ & _ & R) B1 B2. split; [exact B1|split; [exact B2|]]. cbn [irst]. intros x Hx.
    rewrite L2 by lia. unfold reset_set. destruct (in_dec Nat.eq_dec x (eresets e)).
    - unfold ref. destruct (Qeq_bool tau 0) eqn:E; [apply Qeq_bool_iff in E; contradiction|]. lra.
    - unfold delay. rewrite (R x Hx). lra. }
  destruct (step_guard (irst cfg) tau (eguard e) (iup cfg) (ilo cfg)) as [[up lo]|].
  - assert (Gup : good up) by apply (SG 0%Q). assert (Glo : good lo) by apply (SG 0%Q).
    split.
    + intros cfg' H. unfold isValidConstraint in H.
      destruct (bgeb (badd up lo) bzero) eqn:V; [|discriminate]. injection H as <-. cbn [iup ilo ist].
      split; [split; [auto|split; [auto|]]; cbn; congruence|]. split; [auto|].
      split; [apply bgeb_zero in V; auto with bnd|].
      intros t B1 B2. destruct (SG t) as (_ & _ & S). destruct (proj1 S (conj B1 B2)) as (C1 & C2 & C3).
      split; [auto|split; [auto|]]. intros T v Nz R. split; [eapply rep_guard; eauto|]. now apply VR.
    + intros t T v Nz R HS. destruct (SG t) as (_ & _ & S). pose proof R as (R1 & R2 & _).
      rewrite (rep_guard n cfg t T v tau _ R Fg) in HS.
      destruct (proj2 S) as (B1 & B2); [auto|].
      assert (V : isValidConstraint up lo = true).
      { unfold isValidConstraint. apply bgeb_zero; auto with bnd. apply below_zero; auto with bnd.
        eapply below_sum; [auto|auto|exact B1|exact B2|lra]. }
      rewrite V. eexists. split; [reflexivity|]. now apply VR.
  - split; [discriminate|]. intros t T v Nz R HS. exfalso. apply (SG t). now apply (rep_guard n cfg t T v tau _ R Fg).
Qed.

(* ---- runs ---- *)
Lemma run_app : forall A w1 w2 p v T q v' T' r v'' T'',
  run A p v T w1 q v' T' -> run A q v' T' w2 r v'' T'' -> run A p v T (w1 ++ w2) r v'' T''.
Proof. induction 1; intros; cbn; auto. econstructor; eauto. Qed.

Lemma run_app_inv : forall A w1 w2 p v T r v'' T'', run A p v T (w1 ++ w2) r v'' T'' ->
  exists q v' T', run A p v T w1 q v' T' /\ run A q v' T' w2 r v'' T''.
Proof.
  induction w1 as [|[c t] w1 IH]; cbn; intros.
  - exists p, v, T. split; [constructor|auto].
  - inversion H as [|? ? ? ? ? e0 ? q0 ? ? ? He0 Ht0 Hg0 Rr0]; subst. apply IH in Rr0. destruct Rr0 as (q' & v' & T' & R1 & R2).
    exists q', v', T'. split; auto. econstructor; eauto.
Qed.

Lemma last_cons' : forall {X} (l : list X) a d, last (a :: l) d = last l a.
Proof. induction l; intros; auto. change (last (a0 :: a :: l) d) with (last (a :: l) d). rewrite !IHl. reflexivity. Qed.

Lemma run_time : forall A p v T w q v' T', run A p v T w q v' T' -> T' = last (map snd w) T.
Proof. induction 1; auto. cbn [map snd]. now rewrite last_cons'. Qed.
