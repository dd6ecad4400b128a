(* Facts about intervals. *)
From Coq Require Import QArith Qround Lqa Bool List ZArith Arith Lia.
From Verif Require Import Num NumFacts Outcome Interval.
Import ListNotations.
Open Scope Q_scope.

Ltac iunf := unfold iin, above, below, good, iand, iadd, badd, bmax, bmin, bltb, neqb, nltb, nadd, Qltb in *; cbn [fst snd lob upb negb andb] in *.

Lemma nleb_fin : forall x y, nleb (Fin x) (Fin y) = true <-> x <= y.
Proof.
  intros x y. unfold nleb, nltb, neqb. rewrite orb_true_iff, Qltb_true, Qeq_bool_iff. split; intros.
  - destruct H; lra.
  - destruct (Qlt_le_dec x y); auto. right. lra.
Qed.

Lemma contain_low : forall (b : bound) d,
  (if snd b then nleb (fst b) (Fin d) else nltb (fst b) (Fin d)) = true <-> above b d.
Proof.
  intros [[| |q|] []] d; unfold above; cbn [fst snd]; try rewrite nleb_fin; try (simpl; rewrite Qltb_true);
    unfold nleb, nltb, neqb; cbn [orb]; intuition discriminate.
Qed.

Lemma contain_up : forall (b : bound) d,
  (if snd b then nleb (Fin d) (fst b) else nltb (Fin d) (fst b)) = true <-> below b d.
Proof.
  intros [[| |q|] []] d; unfold below; cbn [fst snd]; try rewrite nleb_fin; try (simpl; rewrite Qltb_true);
    unfold nleb, nltb, neqb; cbn [orb]; intuition discriminate.
Qed.

Lemma contain_iin : forall I d, contain I d = true <-> iin I d.
Proof.
  intros I d. unfold contain, iin. rewrite andb_true_iff, contain_low, contain_up. tauto.
Qed.

Lemma bmin_below_iff : forall a b d, good a -> good b -> (below (bmin a b) d <-> below a d /\ below b d).
Proof. intros a b d Ha Hb. apply below_min; auto. Qed.

(* The lower bounds do not tie with different closedness. *)
Definition tie (a b : bound) : Prop :=
  match fst a, fst b with
  | Fin x, Fin y => x == y /\ snd a <> snd b
  | _, _ => False
  end.

Lemma bmax_above : forall a b d, (exists x, fst a = Fin x) -> (exists y, fst b = Fin y) -> ~ tie a b ->
  (above (bmax a b) d <-> above a d /\ above b d).
Proof.
  intros [a fa] [b fb] d [x Hx] [y Hy] NT. simpl in *. subst. unfold tie in NT. cbn [fst snd] in NT.
  unfold above, bmax, bltb, neqb, nltb; cbn [fst snd].
  destruct (Qeq_bool x y) eqn:E.
  - apply Qeq_bool_iff in E. destruct fa, fb; cbn [negb andb fst snd]; try (exfalso; apply NT; split; [auto|discriminate]);
    intuition lra.
  - apply Qeq_bool_false in E. destruct (Qltb x y) eqn:L.
    + apply Qltb_true in L. cbn [fst snd]. destruct fa, fb; intuition lra.
    + apply Qltb_false in L. cbn [fst snd]. destruct fa, fb; intuition lra.
Qed.

Lemma iand_spec : forall I J d, wf_interval I -> wf_interval J -> ~ tie (lob I) (lob J) ->
  (iin (iand I J) d <-> iin I d /\ iin J d).
Proof.
  intros I J d [HI GI] [HJ GJ] NT. unfold iin, iand; cbn [lob upb].
  rewrite bmax_above, bmin_below_iff by auto. tauto.
Qed.

Lemma crossed_empty : forall I d, wf_interval I -> bgtb (lob I) (upb I) = true -> ~ iin I d.
Proof.
  intros [[l fl] [u fu]] d [[x Hx] GU] H [Ha Hb]. simpl in *. subst.
  unfold bgtb, bltb, above, below, neqb, nltb, good in *; cbn [fst snd] in *.
  destruct u; try contradiction; try discriminate.
  destruct (Qeq_bool q x) eqn:E.
  - apply Qeq_bool_iff in E. destruct fu, fl; try discriminate. lra.
  - apply Qeq_bool_false in E. apply Qltb_true in H. destruct fl, fu; lra.
Qed.

Lemma wf_iand : forall I J, wf_interval I -> wf_interval J -> wf_interval (iand I J).
Proof.
  intros I J [[x HI] GI] [[y HJ] GJ]. split; cbn [iand lob upb].
  - unfold bmax. destruct bltb; eauto.
  - unfold bmin. destruct bltb; auto.
Qed.

Lemma land1_spec : forall L J d, (forall I, In I L -> wf_interval I) -> wf_interval J ->
  (forall I, In I L -> ~ tie (lob I) (lob J)) ->
  (iins (land1 L J) d <-> iins L d /\ iin J d).
Proof.
  intros L J d WL WJ NT. unfold iins, land1. split.
  - intros (K & HK & Hd). apply filter_In in HK as [HK _]. apply in_map_iff in HK as (I & <- & HI).
    apply iand_spec in Hd; auto. destruct Hd. eauto.
  - intros [(I & HI & Hd) HJ]. exists (iand I J).
    assert (iin (iand I J) d) by (apply iand_spec; auto). split; auto.
    apply filter_In. split; [apply (in_map (fun I => iand I J)); auto|].
    destruct (bgtb _ _) eqn:E; auto. exfalso. apply (crossed_empty (iand I J) d); auto using wf_iand.
Qed.

Lemma land_spec : forall L R d, (forall I, In I L -> wf_interval I) -> (forall I, In I R -> wf_interval I) ->
  (forall I J, In I L -> In J R -> ~ tie (lob I) (lob J)) ->
  (iins (land L R) d <-> iins L d /\ iins R d).
Proof.
  intros L R d WL WR NT. split.
  - intros (K & HK & Hd). apply in_flat_map in HK as (J & HJ & HK).
    assert (H : iins (land1 L J) d) by (exists K; auto). apply land1_spec in H; auto.
    destruct H. split; auto. exists J; auto.
  - intros [HL (J & HJ & Hd)]. assert (H : iins (land1 L J) d) by (apply land1_spec; auto).
    destruct H as (K & HK & H). exists K. split; auto. apply in_flat_map. eauto.
Qed.

(* ---------- sums ---------- *)

Lemma iadd_spec : forall I J d, wf_interval I -> wf_interval J ->
  (exists x, iin I x) -> (exists y, iin J y) ->
  (iin (iadd I J) d <-> exists x y, iin I x /\ iin J y /\ x + y == d).
Proof.
  intros [[l fl] [u fu]] [[l' fl'] [u' fu']] d [[a Ha] GU] [[b Hb] GU'] [x0 Hx] [y0 Hy].
  simpl in Ha, Hb. subst l l'.
  unfold wf_interval, iin, iadd, badd, nadd, above, below, good in *; cbn [fst snd lob upb] in *.
  destruct Hx as [Hx1 Hx2], Hy as [Hy1 Hy2].
  split.
  - intros [H1 H2].
    (* candidate: move y0 as little as possible *)
    assert (K : exists x y : Q, (if fl then a <= x else a < x) /\
       match u with NaN => False | MInf => False | Fin q => if fu then x <= q else x < q | PInf => True end /\
       (if fl' then b <= y else b < y) /\
       match u' with NaN => False | MInf => False | Fin q => if fu' then y <= q else y < q | PInf => True end /\
       x + y == d).
    { destruct (Qlt_le_dec d (x0 + y0)) as [L|L].
      - (* d smaller: scale down towards (a,b) *)
        set (s := x0 + y0 - (a + b)).
        assert (Hs : a + b <= d) by (destruct fl, fl'; simpl in *; lra).
        assert (Hs0 : 0 < s) by (unfold s; lra).
        set (r := (d - (a + b)) / s).
        assert (Er : r * s == d - (a + b)) by (unfold r; field; lra).
        assert (Hr0 : 0 <= r) by (apply Qle_shift_div_l; auto; lra).
        assert (Hr1 : r < 1) by (apply Qlt_shift_div_r; auto; unfold s in *; lra).
        assert (Hx0 : 0 <= x0 - a) by (destruct fl; lra).
        assert (Hy0 : 0 <= y0 - b) by (destruct fl'; lra).
        assert (Bx : r * (x0 - a) <= x0 - a) by nra.
        assert (By : r * (y0 - b) <= y0 - b) by nra.
        exists (a + r * (x0 - a)), (b + r * (y0 - b)).
        assert (P1 : 0 <= r * (x0 - a)) by nra.
        assert (P2 : 0 <= r * (y0 - b)) by nra.
        assert (Hpos : fl && fl' = false -> 0 < r).
        { intros E. rewrite E in H1. apply Qlt_shift_div_l; auto. lra. }
        repeat split.
        + destruct fl; [lra|]. assert (0 < r) by (apply Hpos; auto). nra.
        + destruct u; auto. destruct fu; lra.
        + destruct fl'; [lra|]. assert (0 < r) by (apply Hpos; rewrite andb_comm; auto). nra.
        + destruct u'; auto. destruct fu'; lra.
        + setoid_replace (a + r * (x0 - a) + (b + r * (y0 - b))) with (a + b + r * s) by (unfold s; ring). lra.
      - destruct u as [| |p|]; try contradiction.
        + destruct u' as [| |q|]; try contradiction.
          * (* both upper bounds finite *)
            destruct (Qlt_le_dec (x0 + y0) d) as [L'|L'].
            -- set (s := p + q - (x0 + y0)).
               assert (Hs : d <= p + q) by (destruct fu, fu'; simpl in *; lra).
               assert (Hs0 : 0 < s) by (unfold s; lra).
               set (r := (p + q - d) / s).
               assert (Er : r * s == p + q - d) by (unfold r; field; lra).
               assert (Hr0 : 0 <= r) by (apply Qle_shift_div_l; auto; lra).
               assert (Hr1 : r < 1) by (apply Qlt_shift_div_r; auto; unfold s in *; lra).
               assert (Hx0 : 0 <= p - x0) by (destruct fu; lra).
               assert (Hy0 : 0 <= q - y0) by (destruct fu'; lra).
               assert (Bx : r * (p - x0) <= p - x0) by nra.
               assert (By : r * (q - y0) <= q - y0) by nra.
               assert (P1 : 0 <= r * (p - x0)) by nra.
               assert (P2 : 0 <= r * (q - y0)) by nra.
               assert (Hpos : fu && fu' = false -> 0 < r).
               { intros E. rewrite E in H2. apply Qlt_shift_div_l; auto. lra. }
               exists (p - r * (p - x0)), (q - r * (q - y0)).
               repeat split.
               ++ destruct fl; lra.
               ++ destruct fu; [lra|]. assert (0 < r) by (apply Hpos; auto). nra.
               ++ destruct fl'; lra.
               ++ destruct fu'; [lra|]. assert (0 < r) by (apply Hpos; rewrite andb_comm; auto). nra.
               ++ setoid_replace (p - r * (p - x0) + (q - r * (q - y0))) with (p + q - r * s) by (unfold s; ring). lra.
            -- exists x0, y0. repeat split; auto. lra.
          * exists x0, (d - x0). repeat split; auto; try (destruct fl'; lra); lra.
        + exists (d - y0), y0. repeat split; auto; try (destruct fl; lra); lra. }
    destruct K as (x & y & K1 & K2 & K3 & K4 & K5). exists x, y. auto.
  - intros (x & y & [A1 A2] & [B1 B2] & E). split.
    + destruct fl, fl'; simpl; lra.
    + destruct u as [| |p|]; try contradiction; destruct u' as [| |q|]; try contradiction; auto.
      destruct fu, fu'; simpl; lra.
Qed.

Lemma isum_spec : forall L R d,
  (forall I, In I L -> wf_interval I /\ exists x, iin I x) ->
  (forall I, In I R -> wf_interval I /\ exists x, iin I x) ->
  (iins (isum L R) d <-> exists x y, iins L x /\ iins R y /\ x + y == d).
Proof.
  intros L R d HL HR. unfold iins, isum. split.
  - intros (K & HK & Hd). apply in_flat_map in HK as (I & HI & HK). apply in_map_iff in HK as (J & <- & HJ).
    destruct (HL I HI), (HR J HJ). apply iadd_spec in Hd; auto. destruct Hd as (x & y & A & B & E).
    exists x, y. repeat split; eauto.
  - intros (x & y & (I & HI & Hx) & (J & HJ & Hy) & E). exists (iadd I J). split.
    + apply in_flat_map. exists I. split; auto. apply in_map_iff. eauto.
    + destruct (HL I HI), (HR J HJ). apply iadd_spec; eauto.
Qed.

Lemma wf_iadd : forall I J, wf_interval I -> wf_interval J -> wf_interval (iadd I J).
Proof.
  intros [[l fl] [u fu]] [[l' fl'] [u' fu']] [[a Ha] GU] [[b Hb] GU'].
  simpl in *; subst. unfold wf_interval, iadd, badd, nadd, good in *; cbn [fst snd lob upb] in *. split; eauto.
  destruct u, u'; auto.
Qed.

(* ---------- Kleene plus ---------- *)

Lemma qsum_repeat : forall n x, qsum (repeat x n) == inject_Z (Z.of_nat n) * x.
Proof.
  induction n as [|n IH]; intros x.
  - simpl. unfold qsum. simpl. ring.
  - change (qsum (repeat x (S n))) with (x + qsum (repeat x n)). rewrite IH, Nat2Z.inj_succ.
    unfold Z.succ. rewrite inject_Z_plus. ring.
Qed.

(* i * I for i >= 1 *)
Lemma iscale_spec : forall i I d, (0 < i)%Z -> wf_interval I ->
  (iin (iscale i I) d <-> iin I (d / inject_Z i)).
Proof.
  intros i [[l fl] [u fu]] d Hi [[a Ha] GU]. simpl in Ha. subst.
  assert (P : 0 < inject_Z i) by (change 0 with (inject_Z 0); rewrite <- Zlt_Qlt; auto).
  set (k := inject_Z i) in *.
  assert (E : k * (d / k) == d) by (field; lra).
  unfold iin, iscale, bscale, above, below, good in *; cbn [fst snd lob upb] in *. fold k.
  set (e := d / k) in *. clearbody e k.
  assert (A : forall q, (q <= e <-> k * q <= d) /\ (q < e <-> k * q < d) /\ (e <= q <-> d <= k * q) /\ (e < q <-> d < k * q)).
  { intros q. rewrite <- E. repeat split; intros; nra. }
  assert (F1 : (if fl then k * a <= d else k * a < d) <-> (if fl then a <= e else a < e)).
  { destruct (A a) as (? & ? & _). destruct fl; tauto. }
  destruct u; try contradiction.
  - destruct (A q) as (_ & _ & ? & ?). destruct fu; tauto.
  - tauto.
Qed.

Lemma iin_eq : forall I d e, d == e -> iin I d -> iin I e.
Proof.
  intros [[l []] [u []]] d e E; unfold iin, above, below; cbn [fst snd lob upb]; destruct l, u; intuition lra.
Qed.

Lemma sum_scale : forall I l, wf_interval I -> l <> [] -> (forall x, In x l -> iin I x) ->
  iin (iscale (Z.of_nat (length l)) I) (qsum l).
Proof.
  intros I l W. induction l as [|x l IH]; [congruence|]. intros _ H.
  destruct l as [|y l].
  - apply iscale_spec; auto; [simpl; lia|]. eapply iin_eq; [|apply (H x); left; auto].
    unfold qsum; simpl. field.
  - assert (H1 : iin (iscale (Z.of_nat (length (y :: l))) I) (qsum (y :: l))).
    { apply IH; [congruence|]. intros; apply H; right; auto. }
    set (k := length (y :: l)) in *. assert (Hk : (0 < k)%nat) by (subst k; simpl; lia).
    assert (H2 : iin I x) by (apply H; left; auto).
    change (qsum (x :: y :: l)) with (x + qsum (y :: l)).
    change (length (x :: y :: l)) with (S k). set (s := qsum (y :: l)) in *. clearbody s k.
    destruct W as [[a Ha] GU]. destruct I as [[lo fl] [u fu]]. simpl in Ha. subst.
    unfold iin, iscale, bscale, above, below, good in *; cbn [fst snd lob upb] in *.
    rewrite Nat2Z.inj_succ. unfold Z.succ.
    assert (E : inject_Z (Z.of_nat k + 1) == inject_Z (Z.of_nat k) + 1) by (rewrite inject_Z_plus; reflexivity).
    assert (E' : forall q, inject_Z (Z.of_nat k + 1) * q == inject_Z (Z.of_nat k) * q + q) by (intro; rewrite E; ring).
    destruct H1 as [A1 A2], H2 as [B1 B2]. split.
    + specialize (E' a). destruct fl; lra.
    + destruct u; auto. specialize (E' q). destruct fu; lra.
Qed.

(* d is a sum of one or more members exactly when it is in some multiple *)
Lemma kleene_scale : forall I d, wf_interval I ->
  (kleene_plus (iin I) d <-> exists i, (0 < i)%Z /\ iin (iscale i I) d).
Proof.
  intros I d W. split.
  - intros (l & NE & H & E). exists (Z.of_nat (length l)). split.
    + destruct l; [congruence|simpl; lia].
    + eapply iin_eq; [exact E|]. apply sum_scale; auto.
  - intros (i & Hi & H). apply iscale_spec in H; auto.
    exists (repeat (d / inject_Z i) (Z.to_nat i)). split; [|split].
    + destruct (Z.to_nat i) eqn:Ei; [lia|simpl; congruence].
    + intros x Hx. apply repeat_spec in Hx. subst. auto.
    + rewrite qsum_repeat. rewrite Z2Nat.id by lia. field.
      intros F. assert (0 < inject_Z i) by (change 0 with (inject_Z 0); rewrite <- Zlt_Qlt; auto). lra.
Qed.

(* The shape for which Interval::plus is right: not both ends open with the
   length dividing the (positive) lower end. *)
Definition plus_shape (I : interval) : Prop :=
  match fst (lob I), fst (upb I) with
  | Fin l, Fin u => 0 <= l /\ l < u /\
      (snd (lob I) = true \/ snd (upb I) = true \/ l == 0 \/
       forall i : Z, ~ inject_Z i * (u - l) == l)
  | Fin l, PInf => 0 <= l
  | _, _ => False
  end.

Lemma injZ_le : forall a b, (a <= b)%Z -> inject_Z a <= inject_Z b.
Proof. intros. rewrite <- Zle_Qle. auto. Qed.
Lemma injZ_pos : forall a, (0 < a)%Z -> 0 < inject_Z a.
Proof. intros. change 0 with (inject_Z 0). rewrite <- Zlt_Qlt. auto. Qed.
Lemma injZ_lt_inv : forall a b, inject_Z a < inject_Z b -> (a < b)%Z.
Proof. intros. rewrite <- Zlt_Qlt in H. auto. Qed.
Lemma injZ_le_inv : forall a b, inject_Z a <= inject_Z b -> (a <= b)%Z.
Proof. intros. rewrite <- Zle_Qle in H. auto. Qed.

(* beyond m*l everything is covered by some multiple *)
Lemma beyond_m : forall l u fl fu d, 0 <= l -> l < u ->
  (fl = true \/ fu = true \/ l == 0 \/ forall i : Z, ~ inject_Z i * (u - l) == l) ->
  let m := Qceiling (l / (u - l)) in
  (if (fl : bool) then inject_Z m * l <= d else inject_Z m * l < d) ->
  exists i, (0 < i)%Z /\ (m <= i)%Z /\ iin (iscale i (mkI (Fin l, fl) (Fin u, fu))) d.
Proof.
  intros l u fl fu d Hl Hu HS m Hd.
  assert (Pd : 0 < u - l) by lra.
  assert (Hm : l / (u - l) <= inject_Z m) by apply Qle_ceiling.
  assert (Hm' : l <= inject_Z m * (u - l)).
  { assert (l == (l / (u - l)) * (u - l)) by (field; lra). nra. }
  assert (Mnn : (0 <= m)%Z).
  { destruct (Z_lt_le_dec m 0) as [N|]; auto. exfalso.
    assert (inject_Z m < 0) by (change 0 with (inject_Z 0); rewrite <- Zlt_Qlt; auto). nra. }
  assert (Mnq : 0 <= inject_Z m) by (change 0 with (inject_Z 0); rewrite <- Zle_Qle; auto).
  unfold iin, iscale, bscale, above, below; cbn [fst snd lob upb].
  destruct (Qlt_le_dec 0 l) as [L|L].
  - (* l > 0 *)
    assert (Mp : (0 < m)%Z).
    { destruct (Z.eq_dec m 0) as [E|]; [|lia]. exfalso. rewrite E in Hm'. change (inject_Z 0) with 0 in Hm'. lra. }
    assert (Step : forall i, (m <= i)%Z -> inject_Z (i + 1) * l <= inject_Z i * u).
    { intros i Hi. rewrite inject_Z_plus. change (inject_Z 1) with 1.
      assert (inject_Z m <= inject_Z i) by (apply injZ_le; auto). nra. }
    destruct fl.
    + set (i := Qfloor (d / l)).
      assert (D : d == (d / l) * l) by (field; lra).
      assert (F1 : inject_Z i <= d / l) by apply Qfloor_le.
      assert (F2 : d / l < inject_Z (i + 1)) by apply Qlt_floor.
      set (e := d / l) in *. clearbody e i.
      assert (Hmi : (m <= i)%Z).
      { assert (inject_Z m < inject_Z (i + 1)) by nra. apply injZ_lt_inv in H. lia. }
      exists i. split; [lia|]. split; auto. specialize (Step i Hmi). split; [nra|].
      assert (d < inject_Z (i + 1) * l) by nra. destruct fu; lra.
    + set (i := (Qceiling (d / l) - 1)%Z).
      assert (D : d == (d / l) * l) by (field; lra).
      assert (F1 : inject_Z i < d / l) by apply Qceiling_lt.
      assert (F2 : d / l <= inject_Z (i + 1)) by (unfold i; rewrite Z.sub_add; apply Qle_ceiling).
      set (e := d / l) in *. clearbody e i.
      assert (Hmi : (m <= i)%Z).
      { assert (inject_Z m < inject_Z (i + 1)) by nra. apply injZ_lt_inv in H. lia. }
      exists i. split; [lia|]. split; auto. pose proof (Step i Hmi) as St. split; [nra|].
      assert (D2 : d <= inject_Z (i + 1) * l) by nra.
      destruct fu; [lra|]. destruct HS as [?|[?|[?|HS]]]; try discriminate; [lra|].
      assert (NE : ~ inject_Z (i + 1) * l == inject_Z i * u).
      { intros E. apply (HS i). rewrite inject_Z_plus in E. change (inject_Z 1) with 1 in E. lra. }
      destruct (Qlt_le_dec (inject_Z (i + 1) * l) (inject_Z i * u)); [lra|]. exfalso. apply NE. lra.
  - (* l = 0 *)
    assert (E0 : l == 0) by lra.
    assert (M0 : m = 0%Z).
    { unfold m. assert (E : l / (u - l) == inject_Z 0) by (rewrite E0; unfold Qdiv; ring).
      rewrite E. apply Qceiling_Z. }
    assert (Hd0 : if fl then 0 <= d else 0 < d) by (destruct fl; nra).
    set (i := (Qfloor (d / u) + 1)%Z).
    assert (F2 : d / u < inject_Z i) by (apply Qlt_floor).
    assert (D : d == (d / u) * u) by (field; lra).
    assert (Dn : 0 <= d) by (destruct fl; lra).
    assert (Ip : (0 < i)%Z).
    { apply injZ_lt_inv. change (inject_Z 0) with 0. set (e := d / u) in *. clearbody e i.
      destruct (Qlt_le_dec 0 (inject_Z i)); auto. exfalso. nra. }
    set (e := d / u) in *. clearbody e i.
    exists i. split; auto. split; [lia|].
    assert (d < inject_Z i * u) by nra.
    assert (inject_Z i * l == 0) by (rewrite E0; ring).
    split; [destruct fl; lra|destruct fu; lra].
Qed.

Theorem iplus_correct : forall I, plus_shape I ->
  exists L, iplus I = Ok L /\ forall d, iins L d <-> kleene_plus (iin I) d.
Proof.
  intros [[l fl] [u fu]] S. unfold plus_shape in S; cbn [fst snd lob upb] in S.
  destruct l as [| |l|]; try contradiction. destruct u as [| |u|]; try contradiction.
  - destruct S as (Hl & Hu & HS). unfold iplus; cbn [fst snd lob upb].
    destruct (Qeq_bool (u - l) 0) eqn:E; [apply Qeq_bool_iff in E; lra|].
    set (m := Qceiling (l / (u - l))).
    assert (Mnn : (0 <= m)%Z).
    { assert (H : l / (u - l) <= inject_Z m) by apply Qle_ceiling.
      assert (0 <= l / (u - l)) by (apply Qle_shift_div_l; lra).
      apply injZ_le_inv. change (inject_Z 0) with 0. lra. }
    destruct (Z.ltb_spec (m + 1) 0); [lia|].
    eexists. split; [reflexivity|]. intros d.
    assert (W : wf_interval (mkI (Fin l, fl) (Fin u, fu))) by (split; [simpl; eauto|unfold good; simpl; auto]).
    rewrite kleene_scale by auto. split.
    + intros (K & HK & Hd). apply in_app_or in HK as [HK|[HK|[]]].
      * apply in_map_iff in HK as (i & <- & Hi). apply in_seq in Hi. exists (Z.of_nat i). split; [lia|auto].
      * subst K. destruct Hd as [Hd _]. unfold above, bscale in Hd; cbn [fst snd lob upb] in Hd.
        destruct (beyond_m l u fl fu d Hl Hu HS Hd) as (i & Hi & _ & Hin). eauto.
    + intros (i & Hi & Hd). destruct (Z_lt_le_dec i m) as [Lt|Ge].
      * exists (iscale i (mkI (Fin l, fl) (Fin u, fu))). split; auto. apply in_or_app. left.
        apply in_map_iff. exists (Z.to_nat i). rewrite Z2Nat.id by lia. split; auto. apply in_seq. lia.
      * eexists. split; [apply in_or_app; right; left; reflexivity|].
        destruct Hd as [Hd _]. unfold iin, iscale, above, bscale, below in *; cbn [fst snd lob upb binf] in *.
        split; auto. assert (HM : inject_Z m <= inject_Z i) by (apply injZ_le; auto).
        pose proof (Qmult_le_compat_r _ _ l HM Hl). destruct fl; lra.
  - exists [mkI (Fin l, fl) (PInf, fu)]. split; [reflexivity|]. intros d.
    assert (W : wf_interval (mkI (Fin l, fl) (PInf, fu))) by (split; [simpl; eauto|unfold good; simpl; auto]).
    rewrite kleene_scale by auto. unfold iins. split.
    + intros (K & [<-|[]] & Hd). exists 1%Z. split; [lia|]. apply iscale_spec; auto; [lia|].
      eapply iin_eq; [|exact Hd]. change (inject_Z 1) with 1. field.
    + intros (i & Hi & Hd). eexists. split; [left; reflexivity|].
      destruct Hd as [Hd _]. unfold iin, iscale, above, bscale, below in *; cbn [fst snd lob upb] in *.
      split; auto. assert (1 <= inject_Z i) by (change 1 with (inject_Z 1); apply injZ_le; lia).
      pose proof (Qmult_le_compat_r _ _ l H S). destruct fl; lra.
Qed.

(* ---------- Kleene plus of a set ---------- *)

Definition nonempty_wf (I : interval) : Prop := wf_interval I /\ exists x, iin I x.

Lemma nw_iadd : forall I J, nonempty_wf I -> nonempty_wf J -> nonempty_wf (iadd I J).
Proof.
  intros I J [W [x Hx]] [W' [y Hy]]. split; [apply wf_iadd; auto|].
  exists (x + y). apply iadd_spec; eauto. exists x, y. split; [exact Hx|split; [exact Hy|reflexivity]].
Qed.

Lemma nw_isum : forall L R, (forall I, In I L -> nonempty_wf I) -> (forall I, In I R -> nonempty_wf I) ->
  forall I, In I (isum L R) -> nonempty_wf I.
Proof.
  intros L R HL HR I H. unfold isum in H. apply in_flat_map in H as (A & HA & H).
  apply in_map_iff in H as (B & <- & HB). apply nw_iadd; auto.
Qed.

Lemma kleene_nonempty_scale : forall i I, (0 < i)%Z -> nonempty_wf I -> nonempty_wf (iscale i I).
Proof.
  intros i I Hi [W [x Hx]]. pose proof (injZ_pos i Hi) as P. split.
  - destruct W as [[a Ha] G]. destruct I as [[l fl] [u fu]]. simpl in Ha; subst. split.
    + simpl. eauto.
    + unfold good, iscale, bscale in *; cbn [fst snd lob upb] in *. destruct u; auto.
  - exists (inject_Z i * x). apply iscale_spec; auto. eapply iin_eq; [|exact Hx]. field. lra.
Qed.

Lemma iplus_nw : forall I L, plus_shape I -> iplus I = Ok L -> forall J, In J L -> nonempty_wf J.
Proof.
  intros [[l fl] [u fu]] L S E J HJ. unfold plus_shape in S; cbn [fst snd lob upb] in S.
  destruct l as [| |l|]; try contradiction. destruct u as [| |u|]; try contradiction.
  - destruct S as (Hl & Hu & _). unfold iplus in E; cbn [fst snd lob upb] in E.
    destruct (Qeq_bool (u - l) 0); [discriminate|].
    destruct (_ <? 0)%Z; [discriminate|]. injection E as <-.
    assert (NW : nonempty_wf (mkI (Fin l, fl) (Fin u, fu))).
    { split; [split; [simpl; eauto|unfold good; simpl; auto]|].
      exists ((l + u) * (1 # 2)). unfold iin, above, below; cbn [fst snd lob upb]. destruct fl, fu; lra. }
    apply in_app_or in HJ as [HJ|[HJ|[]]].
    + apply in_map_iff in HJ as (i & <- & Hi). apply in_seq in Hi. apply kleene_nonempty_scale; auto. lia.
    + subst J. split; [split; [simpl; eauto|unfold good; simpl; auto]|].
      exists (inject_Z (Qceiling (l / (u - l))) * l + 1). unfold iin, above, below, bscale; cbn [fst snd lob upb binf].
      split; [|exact I]. destruct fl; lra.
  - unfold iplus in E; cbn [fst snd lob upb] in E. injection E as <-. destruct HJ as [<-|[]].
    split; [split; [simpl; eauto|unfold good; simpl; auto]|].
    exists (l + 1). unfold iin, above, below; cbn [fst snd lob upb]. split; [|exact I]. destruct fl; lra.
Qed.

Lemma omap_Ok : forall (L : list interval), (forall I, In I L -> plus_shape I) ->
  exists ps, omap iplus L = Ok ps /\
    Forall2 (fun I p => (forall d, iins p d <-> kleene_plus (iin I) d) /\ forall J, In J p -> nonempty_wf J) L ps.
Proof.
  induction L as [|I L IH]; intros H.
  - exists []. split; [reflexivity|constructor].
  - destruct (iplus_correct I) as (p & E & Hp); [apply H; left; auto|].
    destruct IH as (ps & E' & F); [intros; apply H; right; auto|].
    exists (p :: ps). split.
    + simpl. rewrite E. simpl. rewrite E'. reflexivity.
    + constructor; auto. split; auto. intros J HJ. eapply iplus_nw; eauto. apply H; left; auto.
Qed.

Lemma masks_shape : forall n m, In m (tl (masks n)) <-> length m = n /\ In true m.
Proof.
  assert (Hd : forall n, exists r, masks n = repeat false n :: r).
  { induction n as [|n [r E]]; simpl; [eauto|]. rewrite E. simpl. eauto. }
  assert (All : forall n m, length m = n -> ~ In true m -> m = repeat false n).
  { induction n as [|n IH]; intros [|b m] HL HN; simpl in *; try lia; auto.
    destruct b; [tauto|]. f_equal. apply IH; [lia|tauto]. }
  induction n as [|n IH]; intros m.
  - simpl. split; [tauto|]. destruct m; simpl; [tauto|lia].
  - destruct (Hd n) as [r E]. assert (E1 : tl (masks n) = r) by (rewrite E; auto). rewrite E1 in IH.
    assert (E2 : tl (masks (S n)) = (true :: repeat false n) :: flat_map (fun m => [false :: m; true :: m]) r)
      by (simpl; rewrite E; auto).
    rewrite E2. clear E2. split.
    + intros [<-|H].
      * simpl. rewrite repeat_length. auto.
      * apply in_flat_map in H as (m' & Hm & H). apply IH in Hm as [HL HT].
        destruct H as [<-|[<-|[]]]; simpl; split; auto.
    + intros [HL HT]. destruct m as [|b m]; [simpl in HL; lia|]. simpl in HL.
      destruct (in_dec bool_dec true m) as [Y|N].
      * right. apply in_flat_map. exists m. split; [apply IH; auto|]. destruct b; simpl; auto.
      * left. destruct HT as [->|]; [|contradiction]. f_equal. symmetry. apply All; [lia|auto].
Qed.

(* sum of the chosen values *)
Fixpoint osum (os : list (option Q)) : Q :=
  match os with
  | [] => 0
  | Some y :: t => y + osum t
  | None :: t => osum t
  end.

Definition okind (L : list interval) (os : list (option Q)) : Prop :=
  Forall2 (fun I o => match o with None => True | Some y => kleene_plus (iin I) y end) L os.

Lemma iins_eq : forall L d e, d == e -> iins L d -> iins L e.
Proof. intros L d e E (I & HI & H). exists I. split; auto. eapply iin_eq; eauto. Qed.
Lemma kleene_eq : forall P d e, d == e -> kleene_plus P d -> kleene_plus P e.
Proof. intros P d e E (l & H1 & H2 & H3). exists l. repeat split; auto. lra. Qed.

Lemma qsum_app : forall l k, qsum (l ++ k) == qsum l + qsum k.
Proof. induction l as [|x l IH]; intros k; unfold qsum in *; simpl; [ring|]. rewrite IH. ring. Qed.

Lemma fold_isum_spec : forall ps acc d,
  (forall I, In I acc -> nonempty_wf I) -> (forall p, In p ps -> forall I, In I p -> nonempty_wf I) ->
  (iins (fold_left isum ps acc) d <->
   exists x ys, iins acc x /\ Forall2 (fun p y => iins p y) ps ys /\ x + qsum ys == d).
Proof.
  induction ps as [|p ps IH]; intros acc d HA HP; simpl.
  - split.
    + intros H. exists d, []. repeat split; auto. unfold qsum; simpl; ring.
    + intros (x & ys & Hx & F & E). inversion F; subst. eapply iins_eq; [|exact Hx]. unfold qsum in E; simpl in E. lra.
  - rewrite IH.
    + split.
      * intros (x & ys & Hx & F & E). apply isum_spec in Hx; [|apply HA|apply HP; left; auto].
        destruct Hx as (a & b & Ha & Hb & Eab). exists a, (b :: ys). repeat split; auto.
        unfold qsum in *; simpl. lra.
      * intros (x & ys & Hx & F & E). inversion F; subst. exists (x + y), l'. repeat split; auto.
        -- apply isum_spec; [apply HA|apply HP; left; auto|]. exists x, y. split; [auto|split; [auto|reflexivity]].
        -- unfold qsum in *; simpl in E. lra.
    + apply nw_isum; auto. apply HP; left; auto.
    + intros q Hq. apply HP. right; auto.
Qed.

(* a chosen value for every selected component *)
Lemma select_os : forall L ps, Forall2 (fun I p => (forall d, iins p d <-> kleene_plus (iin I) d) /\ forall J, In J p -> nonempty_wf J) L ps ->
  forall mask ys, length mask = length L -> Forall2 (fun p y => iins p y) (select mask ps) ys ->
  exists os, okind L os /\ osum os == qsum ys /\ map (fun o => match o with Some _ => true | None => false end) os = mask.
Proof.
  intros L ps F. induction F as [|I p L ps [Hp _] F IH]; intros mask ys HL H.
  - destruct mask; [|simpl in HL; lia]. simpl in H. inversion H; subst. exists []. repeat split; try constructor; reflexivity.
  - destruct mask as [|b mask]; [simpl in HL; lia|]. simpl in H. destruct b.
    + inversion H; subst. destruct (IH mask l' ltac:(simpl in HL; lia) H4) as (os & K1 & K2 & K3).
      exists (Some y :: os). split; [|split].
      * constructor; auto. apply Hp. auto.
      * unfold qsum in *; simpl. rewrite K2. reflexivity.
      * simpl. congruence.
    + destruct (IH mask ys ltac:(simpl in HL; lia) H) as (os & K1 & K2 & K3).
      exists (None :: os). split; [|split].
      * constructor; auto.
      * simpl. auto.
      * simpl. congruence.
Qed.

Lemma os_select : forall L ps, Forall2 (fun I p => (forall d, iins p d <-> kleene_plus (iin I) d) /\ forall J, In J p -> nonempty_wf J) L ps ->
  forall os, okind L os ->
  exists ys, Forall2 (fun p y => iins p y) (select (map (fun o => match o with Some _ => true | None => false end) os) ps) ys /\
    osum os == qsum ys.
Proof.
  intros L ps F. induction F as [|I p L ps [Hp _] F IH]; intros os H.
  - inversion H; subst. exists []. split; [constructor|reflexivity].
  - inversion H; subst. destruct (IH _ H4) as (ys & K1 & K2). destruct y as [y|].
    + exists (y :: ys). split.
      * simpl. constructor; auto. apply Hp; auto.
      * unfold qsum in *; simpl. rewrite K2. reflexivity.
    + exists ys. split; auto.
Qed.

Lemma kleene_os : forall L d, kleene_plus (iins L) d ->
  exists os, okind L os /\ osum os == d /\ exists y, In (Some y) os.
Proof.
  intros L d (l & NE & H & E).
  assert (K : forall l, (forall x, In x l -> iins L x) ->
     exists os, okind L os /\ osum os == qsum l /\ (l <> [] -> exists y, In (Some y) os)).
  { clear. induction l as [|x l IH]; intros H.
    - exists (map (fun _ => None) L). split; [|split].
      + clear H. induction L; simpl; constructor; auto. 
      + clear H. induction L; simpl; auto. reflexivity.
      + congruence.
    - destruct IH as (os & K1 & K2 & _); [intros; apply H; right; auto|].
      destruct (H x (or_introl eq_refl)) as (I & HI & Hx). clear H.
      assert (K : exists os', okind L os' /\ osum os' == x + osum os /\ exists y, In (Some y) os').
      { clear K2. revert os K1. induction L as [|A L IHL]; intros os K1; [contradiction|].
        inversion K1 as [|? o ? os0 Ho K1']; subst. destruct HI as [->|HI].
        - destruct o as [y|].
          + exists (Some (x + y) :: os0). split; [|split].
            * constructor; auto. destruct Ho as (l' & N1 & N2 & N3).
              exists (x :: l'). split; [congruence|split].
              -- intros z [<-|Hz]; auto.
              -- unfold qsum in *; simpl. rewrite N3. reflexivity.
            * simpl. ring.
            * eexists; left; reflexivity.
          + exists (Some x :: os0). split; [|split].
            * constructor; auto. exists [x]. split; [congruence|split].
              -- intros z [<-|[]]; auto.
              -- unfold qsum; simpl. ring.
            * simpl. reflexivity.
            * eexists; left; reflexivity.
        - destruct (IHL HI os0 K1') as (os' & J1 & J2 & y & J3).
          exists (o :: os'). split; [|split].
          + constructor; auto.
          + destruct o; simpl; rewrite J2; ring.
          + exists y. right. auto. }
      destruct K as (os' & J1 & J2 & J3). exists os'. split; [auto|split; auto].
      unfold qsum in *; simpl. rewrite J2, K2. reflexivity. }
  destruct (K l H) as (os & K1 & K2 & K3). exists os. split; auto. split; [lra|auto].
Qed.

Lemma os_kleene : forall L os y, okind L os -> In (Some y) os -> kleene_plus (iins L) (osum os).
Proof.
  intros L os y K HI.
  assert (J : exists l, (forall x, In x l -> iins L x) /\ qsum l == osum os /\ ((exists y, In (Some y) os) -> l <> [])).
  { clear HI y. induction K as [|I o L os Ho K IH].
    - exists []. split; [intros ? []|split; [reflexivity|intros [? []]]].
    - destruct IH as (l & A & B & C).
      assert (A' : forall x, In x l -> iins (I :: L) x).
      { intros x Hx. destruct (A x Hx) as (J & HJ & ?). exists J. split; auto. right; auto. }
      destruct o as [z|].
      + destruct Ho as (l' & N1 & N2 & N3). exists (l' ++ l). split; [|split].
        * intros x Hx. apply in_app_or in Hx as [Hx|Hx]; auto. exists I. split; [left; auto|auto].
        * rewrite qsum_app. simpl. rewrite N3, B. reflexivity.
        * intros _. destruct l'; [congruence|simpl; congruence].
      + exists l. split; [auto|split; [auto|]]. intros [w [Hw|Hw]]; [discriminate|eauto]. }
  destruct J as (l & A & B & C). exists l. split; [eauto|split; auto].
Qed.

Theorem plus_set_correct : forall L, (length L < 32)%nat -> (forall I, In I L -> plus_shape I) ->
  exists R, plus_set L = Ok R /\ forall d, iins R d <-> kleene_plus (iins L) d.
Proof.
  intros L HL HS. unfold plus_set. destruct (Nat.leb_spec 32 (length L)); [lia|].
  destruct (omap_Ok L HS) as (ps & E & F). rewrite E. cbn [bind].
  assert (Gen : forall d, iins (flat_map (fun mask => fold_left isum (select mask ps) [mkI bzero bzero]) (tl (masks (length L)))) d
                 <-> kleene_plus (iins L) d).
  { intros d.
    assert (NW : forall mask p, In p (select mask ps) -> forall I, In I p -> nonempty_wf I).
    { clear -F. intros mask. revert mask. induction F as [|I p L ps [_ Hp] F IH]; intros mask q Hq; destruct mask as [|[] mask]; simpl in Hq; try contradiction.
      - destruct Hq as [<-|Hq]; auto. eapply IH; eauto.
      - eapply IH; eauto. }
    assert (NZ : forall I, In I [mkI bzero bzero] -> nonempty_wf I).
    { intros I [<-|[]]. split; [split; [simpl; eauto|unfold good; simpl; auto]|].
      exists 0. unfold iin, above, below; simpl. lra. }
    split.
    - intros (K & HK & Hd). apply in_flat_map in HK as (mask & Hm & HK). apply masks_shape in Hm as [HmL HmT].
      assert (HI : iins (fold_left isum (select mask ps) [mkI bzero bzero]) d) by (exists K; auto).
      apply fold_isum_spec in HI; auto; [|apply NW]. destruct HI as (x & ys & (I0 & [<-|[]] & Hx) & HF & Ex).
      unfold iin, above, below in Hx; simpl in Hx.
      destruct (select_os L ps F mask ys HmL HF) as (os & K1 & K2 & K3).
      assert (exists y, In (Some y) os) as [y Hy].
      { rewrite <- K3 in HmT. apply in_map_iff in HmT as ([y|] & Hy & ?); [eauto|discriminate]. }
      eapply kleene_eq; [|eapply os_kleene; eauto]. lra.
    - intros H'. destruct (kleene_os L d H') as (os & K1 & K2 & y & Hy).
      destruct (os_select L ps F os K1) as (ys & J1 & J2).
      set (mask := map (fun o => match o with Some _ => true | None => false end) os) in *.
      assert (HI : iins (fold_left isum (select mask ps) [mkI bzero bzero]) d).
      { apply fold_isum_spec; auto; [apply NW|]. exists 0, ys. repeat split; auto.
        - eexists. split; [left; reflexivity|]. unfold iin, above, below; simpl. lra.
        - lra. }
      destruct HI as (K & HK & Hd). exists K. split; auto. apply in_flat_map. exists mask. split; auto.
      apply masks_shape. split.
      + unfold mask. rewrite map_length. clear -K1. induction K1; simpl; auto.
      + unfold mask. apply in_map_iff. exists (Some y). auto. }
  destruct ps as [|p [|p2 ps]].
  - eexists; split; [reflexivity|exact Gen].
  - eexists; split; [reflexivity|]. inversion F as [|I0 ? ? ? [Hp _] F']; subst. inversion F'; subst. intros d. rewrite Hp.
    split; intros (l & A & B & C); exists l; (split; [auto|split; [|auto]]).
    + intros x Hx. exists I0. split; [left; auto|auto].
    + intros x Hx. destruct (B x Hx) as (J & [<-|[]] & ?). auto.
  - eexists; split; [reflexivity|exact Gen].
Qed.
