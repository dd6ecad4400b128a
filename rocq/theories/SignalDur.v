(* Signal mode: the durations the letters of a run may have, and the words of an
   expression. *)
From Coq Require Import QArith Qround Lqa Bool List ZArith Arith Lia.
From Verif Require Import Num NumFacts Outcome Interval IntervalFacts TA Tre TreRun Signal SignalSpec SignalRep SignalBuild.
Import ListNotations.
Open Scope nat_scope.

(* ---------------- which restrictions are allowed ---------------- *)

(* The bounds are integers, the lower one not negative, the upper one possibly
   infinite. *)
Definition int_bounds (Iv : interval) : Prop :=
  (exists l, (0 <= l)%Z /\ fst (lob Iv) = Fin (inject_Z l)) /\ (fst (upb Iv) = PInf \/ exists u, fst (upb Iv) = Fin (inject_Z u)).
Definition zero_low (Iv : interval) : Prop := fst (lob Iv) = Fin 0.
Definition proper (Iv : interval) : Prop :=
  match fst (lob Iv), fst (upb Iv) with Fin l, Fin u => (l < u)%Q | _, _ => True end.
Definition closed_up (Iv : interval) : Prop := snd (upb Iv) = true \/ fst (upb Iv) = PInf.

Fixpoint all_within (P : interval -> Prop) (r : tre) : Prop :=
  match r with
  | Atom _ | Eps => True
  | Plus r1 => all_within P r1
  | Cat r1 r2 | Alt r1 r2 | And r1 r2 => all_within P r1 /\ all_within P r2
  | Within r1 Iv => all_within P r1 /\ P Iv
  end.
Definition no_within : tre -> Prop := all_within (fun _ => False).

(* All lower bounds closed or 0. *)
Definition closed_bounds : tre -> Prop := all_within (fun Iv => int_bounds Iv /\ (snd (lob Iv) = true \/ zero_low Iv)).
(* All lower bounds open or 0; then no restriction stands in another one, and
   what is iterated has lower bounds 0 or no open upper bound. *)
Fixpoint open_bounds (r : tre) : Prop :=
  match r with
  | Atom _ | Eps => True
  | Plus r1 => open_bounds r1 /\ (all_within zero_low r1 \/ all_within closed_up r1)
  | Cat r1 r2 | Alt r1 r2 | And r1 r2 => open_bounds r1 /\ open_bounds r2
  | Within r1 Iv => no_within r1 /\ int_bounds Iv /\ proper Iv /\ (snd (lob Iv) = false \/ zero_low Iv)
  end.

(* ---------------- the intervals that come up ---------------- *)

Definition zint (q : Q) : Prop := exists z, (q == inject_Z z)%Q.
Definition cls_lo (b : bool) (K : interval) : Prop :=
  exists l, fst (lob K) = Fin l /\ zint l /\ ((l == 0)%Q /\ snd (lob K) = true \/ (0 < l)%Q /\ snd (lob K) = b).
Definition cls_up (K : interval) : Prop := fst (upb K) = PInf \/ exists u, fst (upb K) = Fin u /\ zint u.
Definition cls (b : bool) (K : interval) : Prop := cls_lo b K /\ cls_up K /\ exists x, iin K x.
Definition rok (b : bool) (Iv : interval) : Prop :=
  (exists l, fst (lob Iv) = Fin l /\ zint l /\ (0 <= l)%Q /\ ((l == 0)%Q \/ snd (lob Iv) = b)) /\ cls_up Iv.

Lemma zint_add : forall a b, zint a -> zint b -> zint (a + b).
Proof. intros a b (x & X) (y & Y). exists (x + y)%Z. rewrite inject_Z_plus, X, Y. reflexivity. Qed.
Lemma zint_mul : forall i a, zint a -> zint (inject_Z i * a).
Proof. intros i a (x & X). exists (i * x)%Z. rewrite inject_Z_mult, X. reflexivity. Qed.

Lemma cls_nw : forall b K, cls b K -> nonempty_wf K.
Proof.
  intros b K ((l & E & _) & U & N). split; auto. split; [eauto|]. unfold good. destruct U as [->|(u & -> & _)]; exact Logic.I.
Qed.
Lemma cls_pos : forall b K x, cls b K -> iin K x -> (0 <= x)%Q.
Proof.
  intros b K x ((l & E & _ & L) & _) [A _]. unfold above in A. rewrite E in A. destruct (snd (lob K)), L as [[? ?]|[? ?]]; lra.
Qed.

Lemma cls_default : forall b, cls b interval_default.
Proof.
  intros b. split; [|split].
  - exists 0%Q. split; auto. split; [exists 0%Z; reflexivity|]. left. split; [reflexivity|auto].
  - left. auto.
  - exists 0%Q. split; cbn; unfold above; cbn; auto. lra.
Qed.
Lemma cls_up_add : forall I J, cls_up I -> cls_up J -> cls_up (iadd I J).
Proof.
  intros I J UI UJ. unfold cls_up, iadd, badd; cbn [upb fst snd]. destruct UI as [->|(u & -> & Zu)]; destruct UJ as [->|(v & -> & Zv)]; cbn; auto.
  right. exists (u + v)%Q. split; auto. apply zint_add; auto.
Qed.
Lemma cls_lo_add : forall b I J, cls_lo b I -> cls_lo b J -> cls_lo b (iadd I J).
Proof.
  intros b I J (l & E & Z & L) (m & F & Y & M). exists (l + m)%Q. unfold iadd, badd; cbn [lob fst snd]. rewrite E, F. split; auto. split; [apply zint_add; auto|].
  destruct L as [[L1 L2]|[L1 L2]], M as [[M1 M2]|[M1 M2]]; rewrite L2, M2; [left|right|right|right]; split; try lra; auto;
    destruct b; auto.
Qed.
Lemma cls_add : forall b I J, cls b I -> cls b J -> cls b (iadd I J).
Proof.
  intros b I J CI CJ. destruct (nw_iadd I J (cls_nw b I CI) (cls_nw b J CJ)) as (_ & N). destruct CI as (A & B & _), CJ as (C & D & _).
  split; [apply cls_lo_add; auto|]. split; auto. apply cls_up_add; auto.
Qed.
Lemma cls_zero : forall b, cls b (mkI bzero bzero).
Proof.
  intros b. split; [|split].
  - exists 0%Q. split; auto. split; [exists 0%Z; reflexivity|]. left. split; [reflexivity|auto].
  - right. exists 0%Q. split; auto. exists 0%Z. reflexivity.
  - exists 0%Q. split; cbn; unfold above, below; cbn; lra.
Qed.

Lemma bmax_cases : forall a b x y, fst a = Fin x -> fst b = Fin y -> 
  (bmax a b = b /\ ((x < y)%Q \/ ((x == y)%Q /\ snd a = false /\ snd b = true))) \/
  (bmax a b = a /\ ((y < x)%Q \/ ((x == y)%Q /\ (snd a = true \/ snd b = false)))).
Proof.
  intros [a fa] [b fb] x y E F. cbn in E, F. subst. unfold bmax, bltb. cbn [fst snd]. unfold neqb, nltb.
  destruct (Qeq_bool x y) eqn:Q.
  - apply Qeq_bool_iff in Q. destruct fa, fb; cbn; [right|right|left|right]; split; auto; right; auto.
  - apply Qeq_bool_neq in Q. destruct (Qltb x y) eqn:L.
    + apply Qltb_true in L. left. auto.
    + right. split; auto. left. assert (~ (x < y)%Q) by (intros X; apply Qltb_true in X; congruence). lra.
Qed.
Lemma bmin_cases : forall a b, bmin a b = a \/ bmin a b = b.
Proof. intros a b. unfold bmin. destruct (bltb b a); auto. Qed.

Lemma iand_lax : forall b K Iv, cls_lo b K -> rok b Iv -> iand K Iv = iand K (lax Iv).
Proof.
  intros b K [[lv lc] uv] (k & E & _ & L) ((l & F & _ & P & Q) & _). cbn in F. subst lv. unfold iand, lax. cbn [lob upb fst snd]. f_equal.
  unfold neqb. destruct (Qeq_bool l 0) eqn:B.
  - apply Qeq_bool_iff in B. rewrite orb_true_r.
    destruct (bmax_cases (lob K) (Fin l, lc) k l E eq_refl) as [[-> X]|[-> X]];
      destruct (bmax_cases (lob K) (Fin l, true) k l E eq_refl) as [[-> Y]|[-> Y]]; auto; cbn [snd] in *; exfalso.
    + destruct X as [X|(X1 & X2 & X3)]; destruct L as [[L1 L2]|[L1 L2]]; try lra. congruence.
    + destruct X as [X|(X1 & X2 & X3)]; destruct L as [[L1 L2]|[L1 L2]]; try lra. congruence.
    + destruct Y as [Y|(X1 & X2 & X3)]; destruct L as [[L1 L2]|[L1 L2]]; try lra. congruence.
  - rewrite orb_false_r. reflexivity.
Qed.
Lemma land1_lax : forall b v Iv, (forall K, In K v -> cls_lo b K) -> rok b Iv -> land1 v Iv = land1 v (lax Iv).
Proof. intros b v Iv C R. unfold land1. f_equal. apply map_ext_in. intros K HK. eapply iand_lax; eauto. Qed.

(* The lax restriction as a class. *)
Lemma lax_lo : forall b Iv, rok b Iv -> cls_lo b (lax Iv) /\ cls_up (lax Iv).
Proof.
  intros b [[lv lc] uv] ((l & F & Z & P & Q) & U). cbn in F, Q. subst lv. split; [|exact U]. exists l. split; auto. split; auto. unfold lax, neqb. cbn [lob fst snd].
  destruct (Qeq_bool l 0) eqn:B.
  - apply Qeq_bool_iff in B. left. split; auto. apply orb_true_r.
  - apply Qeq_bool_neq in B. right. destruct Q as [Q|Q]; [contradiction|]. split; [lra|]. rewrite orb_false_r. auto.
Qed.
Lemma lo_no_tie : forall b I J, cls_lo b I -> cls_lo b J -> ~ tie (lob I) (lob J).
Proof.
  intros b I J (l & E & _ & L) (m & F & _ & M) T. unfold tie in T. rewrite E, F in T. destruct T as (T1 & T2). apply T2.
  destruct L as [[L1 L2]|[L1 L2]], M as [[M1 M2]|[M1 M2]]; try lra; congruence.
Qed.
Lemma lo_wf : forall b I, cls_lo b I -> cls_up I -> wf_interval I.
Proof. intros b I (l & E & _) U. split; [eauto|]. unfold good. destruct U as [->|(u & -> & _)]; exact Logic.I. Qed.

Lemma cls_lo_iand : forall b I J, cls_lo b I -> cls_lo b J -> cls_lo b (iand I J).
Proof.
  intros b I J CI CJ. unfold cls_lo, iand. cbn [lob]. unfold bmax. destruct (bltb (lob I) (lob J)); auto.
Qed.
Lemma cls_up_iand : forall I J, cls_up I -> cls_up J -> cls_up (iand I J).
Proof. intros I J CI CJ. unfold cls_up, iand. cbn [upb]. unfold bmin. destruct (bltb (upb J) (upb I)); auto. Qed.

Lemma within_in : forall b v Iv d, (forall K, In K v -> cls b K) -> rok b Iv -> (iins (land1 v Iv) d <-> iins v d /\ iin (lax Iv) d).
Proof.
  intros b v Iv d C R. rewrite (land1_lax b) by (auto; intros K HK; apply C; auto). destruct (lax_lo b Iv R) as (LL & LU). apply land1_spec.
  - intros K HK. apply cls_nw with b. auto.
  - eapply lo_wf; eauto.
  - intros K HK. eapply lo_no_tie; eauto. apply C. auto.
Qed.

(* With closed lower bounds, what is kept is not empty. *)
Lemma closed_ne : forall K, cls_lo true K -> cls_up K -> bgtb (lob K) (upb K) = false -> exists x, iin K x.
Proof.
  intros [[lv lc] [uv uc]] (l & E & _ & L) U B. unfold cls_up in U. cbn in *. subst lv. assert (lc = true) as -> by (destruct L as [[_ L]|[_ L]]; auto).
  exists l. split; [unfold above; cbn; lra|]. unfold below. cbn. destruct U as [->|(u & -> & _)]; auto.
  unfold bgtb, bltb in B. cbn [fst snd] in B. unfold neqb, nltb in B. destruct (Qeq_bool u l) eqn:Q.
  - apply Qeq_bool_iff in Q. rewrite andb_true_r in B. apply negb_false_iff in B. subst. lra.
  - apply Qeq_bool_neq in Q. assert (~ (u < l)%Q) by (intros X; apply Qltb_true in X; congruence). destruct uc; lra.
Qed.
Lemma cls_within_closed : forall v Iv K, (forall K, In K v -> cls true K) -> rok true Iv -> In K (land1 v Iv) -> cls true K.
Proof.
  intros v Iv K C R H. rewrite (land1_lax true) in H by (auto; intros J HJ; apply C; auto). destruct (lax_lo true Iv R) as (LL & LU).
  unfold land1 in H. apply filter_In in H as [H B]. apply in_map_iff in H as (J & <- & HJ). destruct (C J HJ) as (A1 & A2 & _). apply negb_true_iff in B.
  assert (B1 : cls_lo true (iand J (lax Iv))) by (apply cls_lo_iand; auto). assert (B2 : cls_up (iand J (lax Iv))) by (apply cls_up_iand; auto).
  split; auto. split; auto. apply closed_ne; auto.
Qed.

(* An interval that contains all durations. *)
Definition full (K : interval) : Prop := cls true K /\ (exists l, fst (lob K) = Fin l /\ (l == 0)%Q) /\ fst (upb K) = PInf.
Lemma full_cls : forall b K, full K -> cls b K.
Proof.
  intros b K ((L & U & N) & (l & E & Z) & F). split; auto. destruct L as (l' & E' & Y & L). exists l. split; auto. assert (l' = l) as -> by congruence. split; auto.
  left. split; auto. destruct L as [[_ L]|[L _]]; auto. lra.
Qed.
Lemma bmin_inf : forall a b, fst a = PInf -> cls_up (mkI bzero b) -> fst (bmin a b) = fst b /\ (snd (bmin a b) = snd b \/ fst b = PInf).
Proof.
  intros [a fa] [b fb] E U. unfold cls_up in U. cbn in *. subst a. unfold bmin, bltb. cbn [fst snd]. destruct U as [U|(u & U & _)]; cbn in U; subst b; cbn; auto.
  destruct (negb fb && fa); auto.
Qed.
Lemma open_ne : forall K, cls_lo false K -> cls_up K -> proper K -> exists x, iin K x.
Proof.
  intros [[lv lc] [uv uc]] (l & E & _ & L) U P. unfold cls_up in U. cbn in *. subst lv. unfold proper in P. cbn in P. destruct U as [->|(u & -> & _)].
  - exists (l + 1)%Q. split; cbn; auto. unfold above; cbn. destruct lc; lra.
  - exists ((l + u) / 2)%Q. assert (l < (l + u) / 2 /\ (l + u) / 2 < u)%Q.
    { split; [apply Qlt_shift_div_l; [reflexivity|lra]|apply Qlt_shift_div_r; [reflexivity|lra]]. }
    split; unfold above, below; cbn; [destruct lc|destruct uc]; lra.
Qed.
Lemma cls_within_full : forall v Iv K, (forall K, In K v -> full K) -> rok false Iv -> proper Iv -> In K (land1 v Iv) -> 
  cls false K /\ (zero_low Iv -> exists l, fst (lob K) = Fin l /\ (l == 0)%Q) /\ (closed_up Iv -> closed_up K).
Proof.
  intros v Iv K C R P H. rewrite (land1_lax false) in H by (auto; intros J HJ; destruct (full_cls false J (C J HJ)); auto). destruct (lax_lo false Iv R) as (LL & LU).
  unfold land1 in H. apply filter_In in H as [H B]. apply in_map_iff in H as (J & <- & HJ).
  pose proof (full_cls false J (C J HJ)) as (A1 & A2 & _). destruct (C J HJ) as (_ & (k & E & Z) & F).
  assert (B1 : cls_lo false (iand J (lax Iv))) by (apply cls_lo_iand; auto). assert (B2 : cls_up (iand J (lax Iv))) by (apply cls_up_iand; auto).
  destruct R as ((l & El & Zl & Pl & Ql) & Ul). destruct (bmin_inf (upb J) (upb Iv) F Ul) as (X1 & X2).
  assert (Lo : exists m, fst (lob (iand J (lax Iv))) = Fin m /\ (m == l)%Q).
  { unfold iand, lax. cbn [lob upb fst snd]. rewrite El. destruct (bmax_cases (lob J) (Fin l, snd (lob Iv) || neqb (Fin l) (Fin 0)) k l E eq_refl) as [[-> Y]|[-> Y]].
    - cbn. exists l. split; auto. reflexivity.
    - exists k. split; auto. destruct Y as [Y|[Y _]]; lra. }
  destruct Lo as (m & Em & Lm). split; [|split].
  - split; auto. split; auto. apply open_ne; auto. unfold proper. rewrite Em. cbn [iand lax upb]. rewrite X1. unfold proper in P. rewrite El in P.
    destruct (fst (upb Iv)); auto. lra.
  - intros ZL. exists m. split; auto. unfold zero_low in ZL. rewrite ZL in El. injection El as <-. auto.
  - intros CU. unfold closed_up in *. cbn [iand lax upb]. destruct CU as [CU|CU]; [|right; congruence]. destruct X2 as [X2|X2]; [left|right]; congruence.
Qed.

(* ---------------- what holds of all intervals ---------------- *)

Definition ok_for (Q : interval -> Prop) (V : durs) : Prop := forall v K, V = Ok v -> In K v -> Q K.
Definition pV (Q : interval -> Prop) (r : tre) : Prop := forall ch o, In ch (pch r) -> In o ch -> ok_for Q (snd o).

Definition addy (Q : interval -> Prop) : Prop := forall I J, Q I -> Q J -> Q (iadd I J).
Definition padd (Q : interval -> Prop) : Prop := forall I, Q I -> Q (iadd (mkI bzero bzero) I).

Lemma isum_all : forall (Q : interval -> Prop) L R, addy Q -> (forall K, In K L -> Q K) -> (forall K, In K R -> Q K) -> forall K, In K (isum L R) -> Q K.
Proof.
  intros Q L R A HL HR K H. unfold isum in H. apply in_flat_map in H as (I & HI & H). apply in_map_iff in H as (J & <- & HJ). apply A; auto.
Qed.
Lemma fold_isum_all : forall (Q : interval -> Prop) t v, addy Q -> (forall K, In K v -> Q K) -> (forall p, In p t -> forall K, In K p -> Q K) ->
  forall K, In K (fold_left isum t v) -> Q K.
Proof.
  induction t as [|p t IH]; intros v A HV HT K H; cbn in H; auto. apply (IH (isum v p)); auto.
  - apply isum_all; auto. intros; eapply HT; [left|]; eauto.
  - intros q Hq. apply HT. right; auto.
Qed.
Lemma allok_in : forall l vs, allok l = Ok vs -> forall v, In v vs -> In (Ok v) l.
Proof.
  induction l as [|V l IH]; intros vs E v H; cbn in E; [injection E as <-; destruct H|]. destruct V as [w| | | |]; cbn in E; try discriminate.
  destruct (allok l) as [ws| | | |]; cbn in E; try discriminate. injection E as <-. destruct H as [<-|H]; [left; auto|right; eauto].
Qed.
Lemma sumV_ok : forall Q l, addy Q -> (forall V, In V l -> ok_for Q V) -> ok_for Q (sumV l).
Proof.
  intros Q l A H v K E HK. unfold sumV in E. destruct (allok l) as [vs| | | |] eqn:EA; cbn in E; try discriminate. injection E as <-.
  pose proof (allok_in l vs EA) as IN. destruct vs as [|v vs]; [destruct HK|]. cbn in HK. revert K HK. apply fold_isum_all; auto.
  - intros K HK. eapply H; eauto. apply IN. left; auto.
  - intros p Hp K HK. eapply H; eauto. apply IN. right; auto.
Qed.
Lemma och_ok : forall Q r ch, addy Q -> pV Q r -> In ch (pch r) -> ok_for Q (och_V ch).
Proof. intros Q r ch A P H. apply sumV_ok; auto. intros V HV. apply in_map_iff in HV as (o & <- & Ho). eapply P; eauto. Qed.

Lemma omap_in : forall (L : list interval) ps, omap iplus L = Ok ps -> forall p, In p ps -> exists I, In I L /\ iplus I = Ok p.
Proof.
  induction L as [|I L IH]; intros ps E p H; cbn in E; [injection E as <-; destruct H|]. destruct (iplus I) as [q| | | |] eqn:EI; cbn in E; try discriminate.
  destruct (omap iplus L) as [qs| | | |] eqn:EL; cbn in E; try discriminate. injection E as <-. destruct H as [<-|H]; [exists I; split; [left; auto|auto]|].
  destruct (IH qs eq_refl p H) as (J & HJ & X). exists J. split; [right; auto|auto].
Qed.
Lemma omap_out : forall (L : list interval) ps, omap iplus L = Ok ps -> forall I, In I L -> exists p, iplus I = Ok p.
Proof.
  induction L as [|I L IH]; intros ps E J H; [destruct H|]. cbn in E. destruct (iplus I) as [q| | | |] eqn:EI; cbn in E; try discriminate.
  destruct (omap iplus L) as [qs| | | |] eqn:EL; cbn in E; try discriminate. destruct H as [<-|H]; eauto.
Qed.
Lemma omap_len : forall (L : list interval) ps, omap iplus L = Ok ps -> length ps = length L.
Proof.
  induction L as [|I L IH]; intros ps E; cbn in E; [injection E as <-; auto|]. destruct (iplus I) as [q| | | |] eqn:EI; cbn in E; try discriminate.
  destruct (omap iplus L) as [qs| | | |] eqn:EL; cbn in E; try discriminate. injection E as <-. cbn. f_equal. apply IH. auto.
Qed.
Lemma select_in : forall {X} mask (l : list X) x, In x (select mask l) -> In x l.
Proof. induction mask as [|[] mask IH]; intros [|y l] x H; cbn in H; try contradiction; [destruct H; [left; auto|right; auto]|right; auto]. Qed.
Lemma select_ne : forall {X} mask (l : list X), length mask = length l -> In true mask -> select mask l <> [].
Proof. induction mask as [|[] mask IH]; intros [|y l] L H; cbn in *; try discriminate; [destruct H|]. destruct H as [H|H]; [discriminate|]. apply IH; auto. Qed.

Lemma plus_all : forall (Q : interval -> Prop) L R, addy Q -> padd Q -> (forall I p K, In I L -> iplus I = Ok p -> In K p -> Q K) -> plus_set L = Ok R -> forall K, In K R -> Q K.
Proof.
  intros Q L R A Z P E K HK. unfold plus_set in E. destruct (32 <=? length L); [discriminate|]. destruct (omap iplus L) as [ps| | | |] eqn:EO; cbn [bind] in E; try discriminate.
  assert (PS : forall p, In p ps -> forall K, In K p -> Q K) by (intros p Hp J HJ; destruct (omap_in _ _ EO p Hp) as (I & HI & EI); eauto).
  assert (G : In K (flat_map (fun mask => fold_left isum (select mask ps) [mkI bzero bzero]) (tl (masks (length L)))) -> Q K).
  { intros H. apply in_flat_map in H as (mask & Hm & H). apply masks_shape in Hm as (HL & HT).
    pose proof (select_ne mask ps ltac:(rewrite HL; symmetry; apply omap_len; auto) HT) as NE.
    assert (IN : forall p, In p (select mask ps) -> In p ps) by (intros; eapply select_in; eauto).
    destruct (select mask ps) as [|p t]; [congruence|]. cbn [fold_left] in H. revert K H HK. intros K H _. revert K H. apply fold_isum_all; auto.
    - intros K H. unfold isum in H. cbn in H. rewrite app_nil_r in H. apply in_map_iff in H as (J & <- & HJ). apply Z. eapply PS; eauto. apply IN. left; auto.
    - intros q Hq J HJ. eapply PS; eauto. apply IN. right; auto. }
  destruct ps as [|p [|p2 ps]]; injection E as <-; auto. eapply PS; [left; reflexivity|auto].
Qed.

Lemma plusV_ok : forall (Q : interval -> Prop) l, addy Q -> padd Q -> (forall I p K, Q I -> iplus I = Ok p -> In K p -> Q K) -> (forall I, Q I -> Q (iand interval_default I)) ->
  (forall V, In V l -> ok_for Q V) -> ok_for Q (plusV l).
Proof.
  intros Q l A Z P D H v K E HK. unfold plusV in E. destruct (allok l) as [vs| | | |] eqn:EA; cbn [bind] in E; try discriminate.
  eapply plus_all; eauto. intros I p J HI. apply P. apply in_concat in HI as (x & Hx & HI). apply in_map_iff in Hx as (w & <- & Hw).
  unfold land in HI. apply in_flat_map in HI as (M & HM & HI). unfold land1 in HI. apply filter_In in HI as [HI _]. cbn [map] in HI. destruct HI as [<-|[]].
  apply D. apply (H (Ok w) (allok_in l vs EA w Hw) w M); auto.
Qed.

(* The four properties. *)
Lemma iand_default_lo : forall b I, cls_lo b I -> exists l m, fst (lob I) = Fin l /\ fst (lob (iand interval_default I)) = Fin m /\ (l == m)%Q /\ snd (lob (iand interval_default I)) = snd (lob I).
Proof.
  intros b I (l & E & _ & L). exists l. unfold iand, interval_default. cbn [lob].
  destruct (bmax_cases bzero (lob I) 0 l eq_refl E) as [[-> X]|[-> X]].
  - exists l. split; auto. split; auto. split; [reflexivity|auto].
  - exists 0%Q. split; auto. split; auto. cbn in X. destruct L as [[L1 L2]|[L1 L2]]; [|destruct X as [X|[X _]]; lra]. split; auto.
Qed.
Lemma iand_default_up : forall I, cls_up I -> fst (upb (iand interval_default I)) = fst (upb I) /\ (snd (upb (iand interval_default I)) = snd (upb I) \/ fst (upb I) = PInf).
Proof. intros I U. unfold iand, interval_default. cbn [upb]. apply bmin_inf; auto. Qed.
Lemma cls_iand_default : forall b I, cls b I -> cls b (iand interval_default I).
Proof.
  intros b I C. pose proof (cls_nw b I C) as (W & x & X). pose proof (cls_nw b _ (cls_default b)) as (W' & _). pose proof C as (L & U & N). destruct (cls_default b) as (L' & U' & _).
  split; [apply cls_lo_iand; auto|]. split; [apply cls_up_iand; auto|]. exists x. apply iand_spec; auto; [eapply lo_no_tie; eauto|]. split; auto.
  split; cbn; unfold above, below; cbn; auto. eapply cls_pos; eauto.
Qed.

(* The shape the plus of an interval needs, from its being defined. *)
Definition pcond (b : bool) (K : interval) : Prop := b = true \/ (exists l, fst (lob K) = Fin l /\ (l == 0)%Q) \/ closed_up K.
Lemma shape_of : forall b K p, cls b K -> pcond b K -> iplus K = Ok p -> plus_shape K.
Proof.
  intros b [[lv lc] [uv uc]] p ((l & E & _ & L) & U & (x & X1 & X2)) PC EP. unfold pcond, closed_up, cls_up in *. cbn in *. subst lv. unfold plus_shape. cbn.
  destruct U as [->|(u & -> & _)]; [destruct L as [[L _]|[L _]]; lra|]. unfold iplus in EP. cbn in EP. destruct (Qeq_bool (u - l) 0) eqn:Q; [discriminate|]. apply Qeq_bool_neq in Q.
  split; [destruct L as [[L _]|[L _]]; lra|]. split.
  - unfold above, below in *. cbn in *. destruct lc, uc; lra.
  - destruct PC as [->|[(l' & E' & Z)|[->|Y]]]; [left|right; right; left; congruence|auto|discriminate]. destruct L as [[_ L]|[_ L]]; auto.
Qed.

Lemma iplus_cls : forall b K p, cls b K -> pcond b K -> iplus K = Ok p -> forall J, In J p -> cls b J.
Proof.
  intros b K p C PC E J HJ. pose proof (shape_of b K p C PC E) as SH. destruct (iplus_nw K p SH E J HJ) as (_ & N). destruct C as ((l & El & Zl & L) & U & _).
  destruct K as [[lv lc] [uv uc]]. unfold cls_up in U. cbn in El, L, U. subst lv. unfold iplus in E. cbn in E. unfold plus_shape in SH. cbn in SH.
  destruct U as [->|(u & -> & Zu)].
  - injection E as <-. destruct HJ as [<-|[]]. split; [|split; auto]; [exists l|left]; auto.
  - destruct (Qeq_bool (u - l) 0) eqn:Q; [discriminate|]. destruct SH as (S1 & S2 & _). set (m := Qceiling (l / (u - l))) in *.
    assert (M : (0 < l)%Q -> (1 <= m)%Z).
    { intros P. assert (0 < l / (u - l))%Q by (apply Qlt_shift_div_l; lra). pose proof (Qle_ceiling (l / (u - l))) as H0. fold m in H0.
      assert (0 < inject_Z m)%Q by lra. change 0%Q with (inject_Z 0) in H1. rewrite <- Zlt_Qlt in H1. lia. }
    destruct (m + 1 <? 0)%Z; [discriminate|]. injection E as <-. apply in_app_or in HJ as [HJ|[<-|[]]].
    + apply in_map_iff in HJ as (i & <- & Hi). apply in_seq in Hi. split; [|split; auto].
      * exists (inject_Z (Z.of_nat i) * l)%Q. cbn. split; auto. split; [apply zint_mul; auto|]. pose proof (injZ_pos (Z.of_nat i) ltac:(lia)).
        destruct L as [[L1 L2]|[L1 L2]]; [left|right]; split; auto; nra.
      * right. exists (inject_Z (Z.of_nat i) * u)%Q. split; auto. apply zint_mul; auto.
    + split; [|split; auto; left; auto]. exists (inject_Z m * l)%Q. cbn. split; auto. split; [apply zint_mul; auto|].
      destruct L as [[L1 L2]|[L1 L2]]; [left|right]; split; auto; [nra|]. pose proof (injZ_pos m ltac:(specialize (M L1); lia)). nra.
Qed.

Lemma int_rok : forall b Iv, int_bounds Iv -> (snd (lob Iv) = b \/ zero_low Iv) -> rok b Iv.
Proof.
  intros b Iv ((l & P & E) & U) D. split.
  - exists (inject_Z l). split; auto. split; [exists l; reflexivity|]. split; [change 0%Q with (inject_Z 0); rewrite <- Zle_Qle; auto|].
    destruct D as [D|D]; auto. left. unfold zero_low in D. rewrite D in E. injection E as E. rewrite <- E. reflexivity.
  - destruct U as [U|(u & U)]; [left; auto|right]. exists (inject_Z u). split; auto. exists u. reflexivity.
Qed.

Definition zlow (K : interval) : Prop := exists l, fst (lob K) = Fin l /\ (l == 0)%Q.
Lemma zlow_add : forall I J, zlow I -> zlow J -> zlow (iadd I J).
Proof. intros I J (l & E & L) (m & F & M). exists (l + m)%Q. unfold iadd, badd. cbn. rewrite E, F. split; auto. lra. Qed.
Lemma cup_add : forall I J, cls_up I -> cls_up J -> closed_up I -> closed_up J -> closed_up (iadd I J).
Proof.
  intros I J UI UJ CI CJ. unfold closed_up, iadd, badd in *. cbn. destruct UI as [EI|(u & EI & _)], UJ as [EJ|(v & EJ & _)]; rewrite EI, EJ in *; cbn; auto.
  destruct CI as [->|]; [|discriminate]. destruct CJ as [->|]; [|discriminate]. auto.
Qed.
Lemma zlow_iplus : forall K p J, zlow K -> iplus K = Ok p -> In J p -> zlow J.
Proof.
  intros [[lv lc] [uv uc]] p J (l & E & L) EP HJ. cbn in E. subst lv. unfold iplus in EP. cbn in EP. destruct uv as [| |u|]; try discriminate; try (injection EP as <-; destruct HJ as [<-|[]]; exists l; auto).
  destruct (Qeq_bool (u - l) 0); [discriminate|]. destruct (_ <? 0)%Z; [discriminate|]. injection EP as <-. apply in_app_or in HJ as [HJ|[<-|[]]].
  - apply in_map_iff in HJ as (i & <- & _). exists (inject_Z (Z.of_nat i) * l)%Q. split; [reflexivity|]. nra.
  - exists (inject_Z (Qceiling (l / (u - l))) * l)%Q. split; [reflexivity|]. nra.
Qed.
Lemma cup_iplus : forall K p J, cls_up K -> closed_up K -> iplus K = Ok p -> In J p -> closed_up J.
Proof.
  intros [[lv lc] [uv uc]] p J U C EP HJ. unfold cls_up, closed_up in *. cbn in *. unfold iplus in EP. cbn in EP. destruct U as [->|(u & -> & _)].
  - injection EP as <-. destruct HJ as [<-|[]]. cbn. auto.
  - destruct C as [->|]; [|discriminate]. destruct lv as [| |l|]; try discriminate. destruct (Qeq_bool (u - l) 0); [discriminate|]. destruct (_ <? 0)%Z; [discriminate|].
    injection EP as <-. apply in_app_or in HJ as [HJ|[<-|[]]]; [|cbn; auto]. apply in_map_iff in HJ as (i & <- & _). cbn. auto.
Qed.

Record closed_under (Q : interval -> Prop) : Prop := mkCU {
  cu_atom : Q interval_default;
  cu_add : addy Q;
  cu_zero : padd Q;
  cu_def : forall I, Q I -> Q (iand interval_default I);
  cu_plus : forall I p K, Q I -> iplus I = Ok p -> In K p -> Q K }.

Lemma zlow_def : forall b I, cls b I -> zlow I -> zlow (iand interval_default I).
Proof. intros b I (L & _) (l & E & Z). destruct (iand_default_lo b I L) as (l' & m & E1 & E2 & E3 & _). exists m. split; auto. assert (l' = l) by congruence. subst. lra. Qed.
Lemma pinf_add : forall I J, cls_up I -> cls_up J -> fst (upb J) = PInf -> fst (upb (iadd I J)) = PInf.
Proof. intros I J UI UJ E. unfold iadd, badd. cbn. rewrite E. destruct UI as [->|(u & -> & _)]; reflexivity. Qed.

Lemma cu_full : closed_under full.
Proof.
  constructor.
  - split; [apply cls_default|]. split; [exists 0%Q; split; [auto|reflexivity]|auto].
  - intros I J (CI & ZI & UI) (CJ & ZJ & UJ). split; [apply cls_add; auto|]. split; [apply zlow_add; auto|]. apply pinf_add; [apply CI|apply CJ|auto].
  - intros I (CI & ZI & UI). split; [apply cls_add; auto; apply cls_zero|]. split; [apply zlow_add; auto; exists 0%Q; split; [auto|reflexivity]|].
    apply pinf_add; [apply (cls_zero true)|apply CI|auto].
  - intros I (CI & ZI & UI). split; [apply cls_iand_default; auto|]. split; [eapply zlow_def; eauto|]. destruct (iand_default_up I) as (-> & _); auto. apply CI.
  - intros I p K (CI & ZI & UI) E HK. unfold iplus in E. rewrite UI in E. injection E as <-. destruct HK as [<-|[]]. split; auto.
Qed.
Lemma cu_closed : closed_under (cls true).
Proof.
  constructor; [apply cls_default|intros ? ?; apply cls_add|intros I; apply cls_add; apply cls_zero|apply cls_iand_default|].
  intros I p K C E HK. eapply iplus_cls; eauto. left. auto.
Qed.
Lemma cu_zlow : closed_under (fun K => cls false K /\ zlow K).
Proof.
  constructor.
  - split; [apply cls_default|]. exists 0%Q. split; [auto|reflexivity].
  - intros I J (CI & ZI) (CJ & ZJ). split; [apply cls_add; auto|apply zlow_add; auto].
  - intros I (CI & ZI). split; [apply cls_add; auto; apply cls_zero|]. apply zlow_add; auto. exists 0%Q. split; [auto|reflexivity].
  - intros I (CI & ZI). split; [apply cls_iand_default; auto|]. eapply zlow_def; eauto.
  - intros I p K (CI & ZI) E HK. split; [eapply iplus_cls; eauto; right; left; auto|]. eapply zlow_iplus; eauto.
Qed.
Lemma cu_cup : closed_under (fun K => cls false K /\ closed_up K).
Proof.
  constructor.
  - split; [apply cls_default|]. right. auto.
  - intros I J (CI & ZI) (CJ & ZJ). split; [apply cls_add; auto|]. apply cup_add; auto; [apply CI|apply CJ].
  - intros I (CI & ZI). split; [apply cls_add; auto; apply cls_zero|]. apply cup_add; auto; [apply (cls_zero true)|apply CI|left; auto].
  - intros I (CI & ZI). split; [apply cls_iand_default; auto|]. destruct (iand_default_up I) as (X1 & X2); [apply CI|]. unfold closed_up in *. rewrite X1.
    destruct ZI as [ZI|ZI]; auto. destruct X2 as [->|X2]; auto.
  - intros I p K (CI & ZI) E HK. split; [eapply iplus_cls; eauto; right; right; auto|]. eapply cup_iplus; eauto. apply CI.
Qed.

Lemma pV_atom : forall (Q : interval -> Prop) c, Q interval_default -> pV Q (Atom c).
Proof. intros Q c D ch o [<-|[]] [<-|[]] v K E HK. cbn in E. injection E as <-. destruct HK as [<-|[]]. auto. Qed.
Lemma pV_cat : forall Q r1 r2, pV Q r1 -> pV Q r2 -> pV Q (Cat r1 r2).
Proof.
  intros Q r1 r2 P1 P2 ch o Hc Ho. cbn in Hc. apply in_flat_map in Hc as (x & Hx & Hc). apply in_map_iff in Hc as (y & <- & Hy).
  apply in_app_or in Ho as [Ho|Ho]; [eapply P1|eapply P2]; eauto.
Qed.
Lemma pV_alt : forall Q r1 r2, pV Q r1 -> pV Q r2 -> pV Q (Alt r1 r2).
Proof. intros Q r1 r2 P1 P2 ch o Hc Ho. cbn in Hc. apply in_app_or in Hc as [Hc|Hc]; [eapply P1|eapply P2]; eauto. Qed.
Lemma pV_plus : forall (Q Q' : interval -> Prop) r, closed_under Q -> pV Q r -> (forall K, Q K -> Q' K) -> pV Q' (Plus r).
Proof.
  intros Q Q' r C P I ch o [<-|[]] [<-|[]] v K E HK. apply I. revert v K E HK. cbn [snd]. apply plusV_ok; try apply C.
  intros V HV. apply in_map_iff in HV as (ch & <- & Hc). eapply och_ok; eauto. apply C.
Qed.
Lemma pV_within : forall (Q Q' : interval -> Prop) r Iv, addy Q -> pV Q r -> (forall v K, (forall J, In J v -> Q J) -> In K (land1 v Iv) -> Q' K) -> pV Q' (Within r Iv).
Proof.
  intros Q Q' r Iv A P I ch o Hc Ho. cbn in Hc. apply in_map_iff in Hc as (ch1 & <- & Hc). destruct Ho as [<-|[]]. cbn [snd]. intros v K E HK.
  unfold withinV in E. destruct (och_V ch1) as [w| | | |] eqn:EV; cbn in E; try discriminate. injection E as <-. eapply I; eauto.
  intros J HJ. eapply och_ok; eauto.
Qed.
Lemma pV_weak : forall (Q Q' : interval -> Prop) r, pV Q r -> (forall K, Q K -> Q' K) -> pV Q' r.
Proof. intros Q Q' r P I ch o Hc Ho v K E HK. apply I. eapply P; eauto. Qed.

Lemma pV_full : forall r, no_within r -> pV full r.
Proof.
  induction r as [c| |r IH|r1 IH1 r2 IH2|r1 IH1 r2 IH2|r1 IH1 r2 IH2|r IH Iv]; intros N; cbn in N.
  - apply pV_atom. apply cu_full.
  - intros ch o [].
  - eapply pV_plus; eauto. apply cu_full.
  - destruct N. apply pV_cat; auto.
  - destruct N. apply pV_alt; auto.
  - intros ch o [].
  - destruct N as [_ []].
Qed.
Lemma pV_closed : forall r, closed_bounds r -> pV (cls true) r.
Proof.
  induction r as [c| |r IH|r1 IH1 r2 IH2|r1 IH1 r2 IH2|r1 IH1 r2 IH2|r IH Iv]; intros N; cbn in N.
  - apply pV_atom. apply cu_closed.
  - intros ch o [].
  - eapply pV_plus; eauto. apply cu_closed.
  - destruct N. apply pV_cat; auto.
  - destruct N. apply pV_alt; auto.
  - intros ch o [].
  - destruct N as [N (B & D)]. eapply pV_within; [apply cu_closed|auto|]. intros v K HV HK. eapply cls_within_closed; eauto. apply int_rok; auto.
Qed.
Lemma pV_open : forall r, open_bounds r -> pV (cls false) r /\ (all_within zero_low r -> pV (fun K => cls false K /\ zlow K) r) /\
  (all_within closed_up r -> pV (fun K => cls false K /\ closed_up K) r).
Proof.
  induction r as [c| |r IH|r1 IH1 r2 IH2|r1 IH1 r2 IH2|r1 IH1 r2 IH2|r IH Iv]; intros N; cbn in N.
  - split; [|split; intros _]; apply pV_atom; [apply cls_default|apply cu_zlow|apply cu_cup].
  - split; [|split; intros _]; intros ch o [].
  - destruct N as [N D]. destruct (IH N) as (A & B & C). split; [|split].
    + destruct D as [D|D]; [eapply pV_plus; [apply cu_zlow|auto|tauto]|eapply pV_plus; [apply cu_cup|auto|tauto]].
    + intros Z. eapply pV_plus; [apply cu_zlow|auto|tauto].
    + intros Z. eapply pV_plus; [apply cu_cup|auto|tauto].
  - destruct N as [N1 N2]. destruct (IH1 N1) as (A1 & B1 & C1). destruct (IH2 N2) as (A2 & B2 & C2).
    split; [|split; intros [Z1 Z2]]; apply pV_cat; auto.
  - destruct N as [N1 N2]. destruct (IH1 N1) as (A1 & B1 & C1). destruct (IH2 N2) as (A2 & B2 & C2).
    split; [|split; intros [Z1 Z2]]; apply pV_alt; auto.
  - split; [|split; intros _]; intros ch o [].
  - destruct N as (N & B & P & D). pose proof (int_rok false Iv B D) as R. pose proof (pV_full r N) as F.
    split; [|split; intros [_ Z]]; (eapply pV_within; [apply cu_full|exact F|]); intros v K HV HK; destruct (cls_within_full v Iv K HV R P HK) as (X & Y & W); auto.
    split; auto. apply Y; auto.
Qed.

(* What is needed of the intervals below restrictions and iterations. *)
Fixpoint dur_ok (b : bool) (r : tre) : Prop :=
  match r with
  | Atom _ => True
  | Cat r1 r2 | Alt r1 r2 => dur_ok b r1 /\ dur_ok b r2
  | Plus r1 => dur_ok b r1 /\ exists Q, addy Q /\ (forall K, Q K -> Q (iand interval_default K)) /\ (forall K, Q K -> cls b K /\ pcond b K) /\ pV Q r1
  | Within r1 Iv => dur_ok b r1 /\ pV (cls b) r1 /\ rok b Iv
  | _ => True
  end.
Lemma no_within_closed : forall r, no_within r -> closed_bounds r.
Proof.
  induction r as [c| |r IH|r1 IH1 r2 IH2|r1 IH1 r2 IH2|r1 IH1 r2 IH2|r IH Iv]; cbn; auto; try tauto.
  all: intros [? ?]; split; auto.
Qed.
Lemma no_within_open : forall r, no_within r -> open_bounds r.
Proof.
  induction r as [c| |r IH|r1 IH1 r2 IH2|r1 IH1 r2 IH2|r1 IH1 r2 IH2|r IH Iv]; cbn; auto; try tauto.
  intros N. split; auto. left. clear IH. revert N. unfold no_within. induction r; cbn; tauto.
Qed.
Lemma closed_dur : forall r, closed_bounds r -> dur_ok true r.
Proof.
  induction r as [c| |r IH|r1 IH1 r2 IH2|r1 IH1 r2 IH2|r1 IH1 r2 IH2|r IH Iv]; intros N; cbn in N |- *; auto.
  - split; auto. exists (cls true). split; [apply cu_closed|]. split; [apply cu_closed|]. split; [|apply pV_closed; auto]. intros K C. split; auto. left. auto.
  - destruct N. auto.
  - destruct N. auto.
  - destruct N as [N (B & D)]. split; auto. split; [apply pV_closed; auto|]. apply int_rok; auto.
Qed.
Lemma open_dur : forall r, open_bounds r -> dur_ok false r.
Proof.
  induction r as [c| |r IH|r1 IH1 r2 IH2|r1 IH1 r2 IH2|r1 IH1 r2 IH2|r IH Iv]; intros N; cbn in N |- *; auto.
  - destruct N as [N D]. split; auto. destruct (pV_open r N) as (_ & B & C). destruct D as [D|D].
    + exists (fun K => cls false K /\ zlow K). split; [apply cu_zlow|]. split; [apply cu_zlow|]. split; [|auto]. intros K (X & Y). split; auto. right. left. auto.
    + exists (fun K => cls false K /\ closed_up K). split; [apply cu_cup|]. split; [apply cu_cup|]. split; [|auto]. intros K (X & Y). split; auto. right. right. auto.
  - destruct N. auto.
  - destruct N. auto.
  - destruct N as (N & B & P & D). pose proof (no_within_open r N) as O. split; [auto|]. split; [apply pV_open; auto|]. apply int_rok; auto.
Qed.
