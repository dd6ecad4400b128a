(* Signal mode: the words of an expression and the durations of its runs. *)
From Coq Require Import QArith Lqa Bool List ZArith Arith Lia.
From Verif Require Import Num NumFacts Outcome Interval IntervalFacts TA Tre TreRun TreFacts Signal SignalSpec SignalRep SignalBuild SignalDur.
Import ListNotations.
Open Scope nat_scope.

(* ---------------- merging ---------------- *)

Lemma deq_refl : forall u, deq u u.
Proof. induction u; constructor; auto. split; [auto|reflexivity]. Qed.
Lemma deq_trans : forall u v w, deq u v -> deq v w -> deq u w.
Proof.
  intros u v w D. revert w. induction D as [|a b u v [E1 E2] D IH]; intros w D'; inversion D' as [|b' c v' w' [F1 F2] D2]; subst; constructor; [|apply IH; auto].
  split; [congruence|]. rewrite E2. auto.
Qed.
Lemma deq_app : forall u u' v v', deq u u' -> deq v v' -> deq (u ++ v) (u' ++ v').
Proof. intros. apply Forall2_app; auto. Qed.
Lemma dur_cons : forall a u, duration (a :: u) = (snd a + duration u)%Q.
Proof. reflexivity. Qed.
Lemma deq_dur : forall u v, deq u v -> (duration u == duration v)%Q.
Proof. intros u v D. induction D as [|[c d] [c' d'] u v [_ E] D IH]; [reflexivity|]. rewrite !dur_cons. cbn in *. rewrite E, IH. reflexivity. Qed.

Definition mstep (a : nat * Q) (m : dword) : dword :=
  match m with
  | (c', d') :: t' => if fst a =? c' then (fst a, (snd a + d')%Q) :: t' else a :: m
  | [] => [a]
  end.
Lemma merge_cons : forall a w, merge_dw (a :: w) = mstep a (merge_dw w).
Proof. intros [c d] w. cbn [merge_dw]. unfold mstep. cbn [fst snd]. destruct (merge_dw w) as [|[c' d'] t]; auto. Qed.
Lemma mstep_deq : forall a a' m m', fst a = fst a' -> (snd a == snd a')%Q -> deq m m' -> deq (mstep a m) (mstep a' m').
Proof.
  intros [c d] [c' d'] m m' E1 E2 D. cbn in E1, E2. subst c'. destruct D as [|[x y] [x' y'] m m' [F1 F2] D]; unfold mstep; cbn [fst snd].
  - repeat constructor; auto.
  - cbn in F1, F2. subst x'. destruct (c =? x); repeat constructor; auto. cbn. rewrite E2, F2. reflexivity.
Qed.

Fixpoint glue (l m : dword) : dword :=
  match l with
  | [] => m
  | [a] => mstep a m
  | a :: t => a :: glue t m
  end.
Lemma glue_cons2 : forall a b t m, glue (a :: b :: t) m = a :: glue (b :: t) m.
Proof. reflexivity. Qed.
Lemma glue_deq : forall l l' m m', deq l l' -> deq m m' -> deq (glue l m) (glue l' m').
Proof.
  intros l l' m m' D DM. induction D as [|a a' l l' [E1 E2] D IH]; auto. destruct D as [|b b' l l' EB D].
  - cbn [glue]. apply mstep_deq; auto.
  - rewrite !glue_cons2. constructor; auto.
Qed.
Lemma merge_glue : forall w m, deq (fold_right mstep m w) (glue (merge_dw w) m).
Proof.
  induction w as [|a w IH]; intros m; [apply deq_refl|]. cbn [fold_right]. eapply deq_trans; [apply mstep_deq; [reflexivity|reflexivity|apply IH]|]. clear IH.
  rewrite merge_cons. destruct (merge_dw w) as [|[c' d'] t]; [cbn [glue mstep]; apply deq_refl|]. destruct a as [c d].
  change (mstep (c, d) ((c', d') :: t)) with (if c =? c' then (c, (d + d')%Q) :: t else (c, d) :: (c', d') :: t).
  destruct t as [|b t].
  - change (glue [(c', d')] m) with (mstep (c', d') m). destruct m as [|[x y] m].
    + cbn [mstep fst snd]. destruct (c =? c'); cbn; apply deq_refl.
    + destruct (Nat.eqb_spec c c') as [<-|N].
      * cbn [glue mstep fst snd]. destruct (c =? x) eqn:E; cbn [mstep fst snd]; rewrite Nat.eqb_refl; [|apply deq_refl].
        constructor; [cbn; split; [auto|ring]|apply deq_refl].
      * rewrite glue_cons2. cbn [glue]. unfold mstep at 2. cbn [fst snd]. apply Nat.eqb_neq in N. unfold mstep. cbn [fst snd]. destruct (c' =? x); rewrite N; apply deq_refl.
  - rewrite glue_cons2. unfold mstep. cbn [fst snd]. destruct (c =? c'); rewrite ?glue_cons2; apply deq_refl.
Qed.
Lemma merge_fold : forall w, merge_dw w = fold_right mstep [] w.
Proof. induction w as [|a w IH]; auto. rewrite merge_cons, IH. reflexivity. Qed.
Lemma merge_app : forall w1 w2, deq (merge_dw (w1 ++ w2)) (glue (merge_dw w1) (merge_dw w2)).
Proof. intros. rewrite merge_fold, fold_right_app, <- merge_fold. apply merge_glue. Qed.

Definition meq (w w' : dword) : Prop := deq (merge_dw w) (merge_dw w').
Lemma meq_refl : forall w, meq w w.
Proof. intros. apply deq_refl. Qed.
Lemma meq_sym : forall w w', meq w w' -> meq w' w.
Proof. intros. apply deq_sym. auto. Qed.
Lemma meq_trans : forall a b c, meq a b -> meq b c -> meq a c.
Proof. intros a b c. apply deq_trans. Qed.
Lemma meq_app : forall w1 w1' w2 w2', meq w1 w1' -> meq w2 w2' -> meq (w1 ++ w2) (w1' ++ w2').
Proof.
  intros w1 w1' w2 w2' M1 M2. eapply deq_trans; [apply merge_app|]. eapply deq_trans; [apply glue_deq; [exact M1|exact M2]|]. apply deq_sym. apply merge_app.
Qed.
Lemma merge_dur : forall w, (duration (merge_dw w) == duration w)%Q.
Proof.
  induction w as [|[c d] w IH]; [reflexivity|]. rewrite merge_cons, dur_cons, <- IH. destruct (merge_dw w) as [|[c' d'] t]; [reflexivity|]. cbn [mstep fst snd].
  destruct (c =? c'); rewrite ?dur_cons; cbn [snd]; [ring|reflexivity].
Qed.
Lemma meq_dur : forall w w', meq w w' -> (duration w == duration w')%Q.
Proof. intros w w' M. rewrite <- (merge_dur w), <- (merge_dur w'). apply deq_dur. auto. Qed.

Definition letters (w : dword) : list nat := map fst w.
Lemma merge_letters : forall w c, In c (letters w) -> In c (letters (merge_dw w)).
Proof.
  induction w as [|[x d] w IH]; intros c H; auto. rewrite merge_cons. destruct H as [H|H].
  - cbn in H. subst x. unfold mstep. cbn [fst snd]. destruct (merge_dw w) as [|[c' d'] t]; [left; auto|]. destruct (c =? c'); left; auto.
  - specialize (IH c H). unfold mstep. cbn [fst snd]. destruct (merge_dw w) as [|[c' d'] t]; [destruct IH|]. destruct (Nat.eqb_spec x c') as [<-|N]; [exact IH|right; exact IH].
Qed.
Lemma letters_deq : forall u v, deq u v -> letters u = letters v.
Proof. intros u v D. induction D as [|a b u v [E _] D IH]; auto. cbn. f_equal; auto. Qed.
Lemma merge_konst : forall w c, w <> [] -> konst c (letters w) -> deq (merge_dw w) [(c, duration w)].
Proof.
  induction w as [|[x d] w IH]; intros c N K; [congruence|]. assert (x = c) as -> by (apply K; left; auto). destruct w as [|a w].
  - constructor; [split; [auto|unfold duration, qsum; cbn; ring]|constructor].
  - rewrite merge_cons. assert (D : deq (merge_dw (a :: w)) [(c, duration (a :: w))]) by (apply IH; [discriminate|intros y Hy; apply K; right; auto]).
    eapply deq_trans; [apply mstep_deq; [reflexivity|reflexivity|exact D]|]. cbn [mstep fst snd]. rewrite Nat.eqb_refl. apply deq_refl.
Qed.
Lemma meq_konst : forall w c d, meq w [(c, d)] <-> w <> [] /\ konst c (letters w) /\ (duration w == d)%Q.
Proof.
  intros w c d. split.
  - intros M. split; [intros ->; inversion M|]. split.
    + intros x Hx. apply merge_letters in Hx. rewrite (letters_deq _ _ M) in Hx. destruct Hx as [<-|[]]. auto.
    + rewrite (meq_dur _ _ M). unfold duration, qsum. cbn. ring.
  - intros (N & K & D). unfold meq. eapply deq_trans; [apply merge_konst; eauto|]. constructor; [split; auto|constructor].
Qed.
Lemma duration_app : forall u v, (duration (u ++ v) == duration u + duration v)%Q.
Proof. induction u as [|a u IH]; intros v; cbn [app]; [unfold duration at 2, qsum; cbn; ring|]. rewrite !dur_cons, IH. ring. Qed.

(* ---------------- words of a run ---------------- *)

Definition okc (ch : ochain) (cv : chain) : Prop := Forall2 (fun o p => o = (fst p, Ok (snd p))) ch cv.
Definition win (cv : chain) (w : dword) : Prop := Forall2 (fun p a => fst p = fst a /\ iins (snd p) (snd a)) cv w.

Lemma okc_allok : forall ch vs, allok (map snd ch) = Ok vs -> okc ch (combine (map fst ch) vs).
Proof.
  induction ch as [|[c V] ch IH]; intros vs E; cbn in E; [injection E as <-; constructor|]. destruct V as [v| | | |]; cbn in E; try discriminate.
  destruct (allok (map snd ch)) as [ws| | | |]; cbn in E; try discriminate. injection E as <-. cbn. constructor; auto. apply IH; auto.
Qed.
Lemma okc_sum : forall ch cv, okc ch cv -> allok (map snd ch) = Ok (map snd cv) /\ map fst ch = map fst cv.
Proof.
  intros ch cv F. induction F as [|o p ch cv -> F (E1 & E2)]; [split; reflexivity|]. cbn [map fst snd allok bind]. rewrite E1. cbn [bind]. split; [auto|]. f_equal. exact E2.
Qed.
Lemma okc_och : forall ch cv, okc ch cv -> och_V ch = Ok (sum_vs (map snd cv)).
Proof. intros ch cv F. unfold och_V, sumV. destruct (okc_sum ch cv F) as (-> & _). reflexivity. Qed.
Lemma och_okc : forall ch v, och_V ch = Ok v -> exists cv, okc ch cv /\ v = sum_vs (map snd cv).
Proof.
  intros ch v E. unfold och_V, sumV in E. destruct (allok (map snd ch)) as [vs| | | |] eqn:A; cbn in E; try discriminate. injection E as <-.
  pose proof (okc_allok ch vs A) as O. exists (combine (map fst ch) vs). split; auto. destruct (okc_sum _ _ O) as (E & _). congruence.
Qed.
Lemma okc_app : forall a b x y, okc a x -> okc b y -> okc (a ++ b) (x ++ y).
Proof. intros. apply Forall2_app; auto. Qed.
Lemma win_app : forall a b x y, win a x -> win b y -> win (a ++ b) (x ++ y).
Proof. intros. apply Forall2_app; auto. Qed.
Lemma win_letters : forall cv w, win cv w -> map fst cv = letters w.
Proof. intros cv w F. induction F as [|p a cv w [E _] F IH]; auto. unfold letters in *. cbn [map]. f_equal; auto. Qed.
Lemma okc_fst : forall ch cv, okc ch cv -> map fst ch = map fst cv.
Proof. intros ch cv O. apply okc_sum. auto. Qed.

(* The sum of the durations. *)
Definition clsv (b : bool) (v : list interval) : Prop := forall K, In K v -> cls b K.
Lemma sum_in : forall b vs d, vs <> [] -> (forall v, In v vs -> clsv b v) ->
  (iins (sum_vs vs) d <-> exists ds, Forall2 iins vs ds /\ (qsum ds == d)%Q).
Proof.
  intros b [|v vs] d N C; [congruence|]. cbn [sum_vs]. rewrite fold_isum_spec.
  - split.
    + intros (x & ys & X & Y & E). exists (x :: ys). split; auto.
    + intros (ds & F & E). inversion F as [|? x ? ys X Y]; subst. exists x, ys. auto.
  - intros K HK. apply cls_nw with b. apply (C v); [left; auto|auto].
  - intros p Hp K HK. apply cls_nw with b. apply (C p); [right; auto|auto].
Qed.
Lemma win_split : forall cv w, win cv w <-> map fst cv = letters w /\ Forall2 iins (map snd cv) (map snd w).
Proof.
  intros cv w. split.
  - intros F. split; [apply win_letters; auto|]. induction F as [|p a cv w [_ X] F IH]; constructor; auto.
  - revert w. induction cv as [|[c v] cv IH]; intros [|[x d] w] (E & F); cbn in *; try discriminate; [constructor|]. injection E as <- E. inversion F; subst. constructor; auto. apply IH. auto.
Qed.
Lemma sum_win : forall b cv d, cv <> [] -> (forall p, In p cv -> clsv b (snd p)) ->
  (iins (sum_vs (map snd cv)) d <-> exists w, win cv w /\ (duration w == d)%Q).
Proof.
  intros b cv d N C. rewrite (sum_in b); [|destruct cv; [congruence|discriminate]|intros v Hv; apply in_map_iff in Hv as (p & <- & Hp); auto]. split.
  - intros (ds & F & E). exists (combine (map fst cv) ds). assert (L : length ds = length cv) by (rewrite <- (map_length snd cv); symmetry; eapply f2_len; eauto).
    assert (L2 : length (map fst cv) = length ds) by (rewrite map_length; auto).
    rewrite win_split. unfold letters, duration. rewrite (combine_fst _ _ L2), (combine_snd _ _ L2). auto.
  - intros (w & W & E). apply win_split in W as (_ & F). exists (map snd w). auto.
Qed.

Lemma iins_nonneg : forall b v d, clsv b v -> iins v d -> (0 <= d)%Q.
Proof. intros b v d C (K & HK & X). eapply cls_pos; eauto. Qed.

Definition defined (r : tre) : Prop := forall ch, In ch (pch r) -> exists cv, okc ch cv.
Lemma okc_cls : forall Q r ch cv, pV Q r -> In ch (pch r) -> okc ch cv -> forall p, In p cv -> forall K, In K (snd p) -> Q K.
Proof.
  intros Q r ch cv P Hc O p Hp K HK. assert (X : In (fst p, Ok (snd p)) ch).
  { clear - O Hp. induction O as [|o q ch cv -> O IH]; [destruct Hp|]. destruct Hp as [<-|Hp]; [left; auto|right; auto]. }
  eapply (P ch (fst p, Ok (snd p)) Hc X); [reflexivity|auto].
Qed.

Lemma defined_cat : forall r1 r2, sigfrag r1 -> sigfrag r2 -> defined (Cat r1 r2) -> defined r1 /\ defined r2.
Proof.
  intros r1 r2 F1 F2 D. destruct (pch_ne r1 F1) as (N1 & _). destruct (pch_ne r2 F2) as (N2 & _). split.
  - intros ch Hc. destruct (pch r2) as [|y Y] eqn:E; [congruence|]. destruct (D (ch ++ y)) as (cv & O).
    { cbn. apply in_flat_map. exists ch. split; auto. rewrite E. left. auto. }
    apply Forall2_app_inv_l in O as (a & b & A & B & _). exists a. auto.
  - intros ch Hc. destruct (pch r1) as [|x X] eqn:E; [congruence|]. destruct (D (x ++ ch)) as (cv & O).
    { cbn. apply in_flat_map. exists x. split; [rewrite E; left; auto|]. apply in_map. auto. }
    apply Forall2_app_inv_l in O as (a & b & A & B & _). exists b. auto.
Qed.
Lemma defined_within : forall r Iv, defined (Within r Iv) -> defined r.
Proof.
  intros r Iv D ch Hc. destruct (D [(och_c ch, withinV Iv (och_V ch))]) as (cv & O); [cbn; apply in_map_iff; exists ch; auto|].
  inversion O as [|o p ? ? E _]; subst. injection E as _ E. destruct (och_V ch) as [v| | | |] eqn:EV; cbn in E; try discriminate.
  destruct (och_okc ch v EV) as (cv & O' & _). eauto.
Qed.
Lemma defined_plus : forall r, defined (Plus r) -> defined r /\ exists vs R, allok (map och_V (pch r)) = Ok vs /\
  plus_set (concat (map (fun v => land [interval_default] v) vs)) = Ok R.
Proof.
  intros r D. destruct (D [(och_c (hd [] (pch r)), plusV (map och_V (pch r)))]) as (cv & O); [left; auto|]. inversion O as [|o p ? ? E _]; subst. injection E as _ E.
  unfold plusV in E. destruct (allok (map och_V (pch r))) as [vs| | | |] eqn:EA; cbn in E; try discriminate. split; [|eauto].
  clear E O D. intros ch Hc. revert vs EA. induction (pch r) as [|x X IH]; intros vs EA; [destruct Hc|]. cbn in EA. destruct (och_V x) as [v| | | |] eqn:EV; cbn in EA; try discriminate.
  destruct (allok (map och_V X)) as [ws| | | |]; cbn in EA; try discriminate. destruct Hc as [<-|Hc]; [destruct (och_okc x v EV) as (cv' & O' & _); eauto|eapply IH; eauto].
Qed.
Lemma allok_map : forall {X} (f : X -> durs) l vs, allok (map f l) = Ok vs -> 
  (forall x, In x l -> exists v, f x = Ok v /\ In v vs) /\ (forall v, In v vs -> exists x, In x l /\ f x = Ok v).
Proof.
  intros X f. induction l as [|x l IH]; intros vs E; cbn in E; [injection E as <-; split; intros ? []|]. destruct (f x) as [v| | | |] eqn:EV; cbn in E; try discriminate.
  destruct (allok (map f l)) as [ws| | | |] eqn:EA; cbn in E; try discriminate. injection E as <-. destruct (IH ws eq_refl) as (A & B). split.
  - intros y [<-|Hy]; [exists v; split; [auto|left; auto]|]. destruct (A y Hy) as (w & W1 & W2). exists w. split; [auto|right; auto].
  - intros w [<-|Hw]; [exists x; split; [left; auto|auto]|]. destruct (B w Hw) as (y & Y1 & Y2). exists y. split; [right; auto|auto].
Qed.

(* One run of constant letter: its durations. *)
Lemma run_sum : forall b r ch v c d, sigfrag r -> pV (cls b) r -> In ch (pch r) -> och_V ch = Ok v -> konst c (map fst ch) ->
  (iins v d <-> exists cv w, okc ch cv /\ win cv w /\ w <> [] /\ konst c (letters w) /\ (duration w == d)%Q).
Proof.
  intros b r ch v c d F P Hc E K. destruct (pch_ne r F) as (_ & N). specialize (N ch Hc). destruct (och_okc ch v E) as (cv & O & ->).
  assert (NC : cv <> []) by (intros X; apply N; rewrite X in O; inversion O; reflexivity).
  rewrite (sum_win b); auto; [|intros p Hp J HJ; eapply okc_cls; eauto]. split.
  - intros (w & W & D). exists cv, w. split; auto. split; auto. split; [intros X; apply NC; rewrite X in W; inversion W; reflexivity|]. split; auto.
    rewrite <- (win_letters _ _ W), <- (okc_fst _ _ O). auto.
  - intros (cv' & w & O' & W & _ & _ & D). exists w. split; auto. replace cv with cv'; auto. clear - O O'. revert cv' O'.
    induction O as [|o p ch cv -> O IH]; intros cv' O'; inversion O' as [|? q ? ? E O'']; subst; auto. injection E as E1 E2. destruct p, q. cbn in *. subst. f_equal. auto.
Qed.

Lemma plus_list : forall b r vs d Q, addy Q -> (forall K, Q K -> Q (iand interval_default K)) -> (forall K, Q K -> cls b K /\ pcond b K) -> pV Q r ->
  allok (map och_V (pch r)) = Ok vs -> 
  (iins (concat (map (fun v => land [interval_default] v) vs)) d <-> exists ch v, In ch (pch r) /\ och_V ch = Ok v /\ iins v d) /\
  (forall K, In K (concat (map (fun v => land [interval_default] v) vs)) -> Q K).
Proof.
  intros b r vs d Q A DF CL P EA. destruct (allok_map _ _ _ EA) as (A1 & A2).
  assert (QV : forall v, In v vs -> forall K, In K v -> Q K).
  { intros v Hv K HK. destruct (A2 v Hv) as (ch & Hc & EV). eapply och_ok; eauto. }
  assert (SP : forall v d, In v vs -> (iins (land [interval_default] v) d <-> iins v d)).
  { intros v x Hv. rewrite land_spec.
    - split; [tauto|]. intros X. split; auto. exists interval_default. split; [left; auto|]. split; cbn; unfold above, below; cbn; auto.
      eapply iins_nonneg; eauto. intros K HK. apply CL. eauto.
    - intros K [<-|[]]. apply (cls_nw b). apply cls_default.
    - intros K HK. apply (cls_nw b). apply CL. eauto.
    - intros I J [<-|[]] HJ. destruct (cls_default b) as (L & _). eapply lo_no_tie; eauto. destruct (CL J (QV v Hv J HJ)) as ((L' & _) & _). exact L'. }
  split.
  - split.
    + intros (K & HK & X). apply in_concat in HK as (x & Hx & HK). apply in_map_iff in Hx as (v & <- & Hv). destruct (A2 v Hv) as (ch & Hc & EV).
      exists ch, v. split; auto. split; auto. apply SP; auto. exists K. auto.
    + intros (ch & v & Hc & EV & X). destruct (A1 ch Hc) as (v' & EV' & Hv). assert (v' = v) as -> by congruence. apply (SP v d Hv) in X as (K & HK & X).
      exists K. split; auto. apply in_concat. exists (land [interval_default] v). split; auto. apply (in_map (fun v => land [interval_default] v)). auto.
  - intros K HK. apply in_concat in HK as (x & Hx & HK). apply in_map_iff in Hx as (v & <- & Hv). unfold land in HK. apply in_flat_map in HK as (M & HM & HI).
    unfold land1 in HI. apply filter_In in HI as [HI _]. cbn [map] in HI. destruct HI as [<-|[]]. apply DF. eapply QV; eauto.
Qed.
Lemma plus_spec : forall b r vs R d Q, addy Q -> (forall K, Q K -> Q (iand interval_default K)) -> (forall K, Q K -> cls b K /\ pcond b K) -> pV Q r ->
  allok (map och_V (pch r)) = Ok vs -> plus_set (concat (map (fun v => land [interval_default] v) vs)) = Ok R ->
  (iins R d <-> kleene_plus (fun x => exists ch v, In ch (pch r) /\ och_V ch = Ok v /\ iins v x) d).
Proof.
  intros b r vs R d Q A DF CL P EA EP. set (L := concat _) in *.
  assert (L1 : forall x, iins L x <-> exists ch v, In ch (pch r) /\ och_V ch = Ok v /\ iins v x) by (intros x; apply (plus_list b r vs x Q); auto).
  assert (L2 : forall K, In K L -> Q K) by (apply (plus_list b r vs 0%Q Q); auto).
  assert (LL : length L < 32) by (unfold plus_set in EP; destruct (Nat.leb_spec 32 (length L)); [discriminate|auto]).
  assert (SH : forall K, In K L -> plus_shape K).
  { intros K HK. unfold plus_set in EP. destruct (32 <=? length L); [discriminate|]. destruct (omap iplus L) as [ps| | | |] eqn:EO; cbn [bind] in EP; try discriminate.
    destruct (omap_out L ps EO K HK) as (p & Ep). destruct (CL K (L2 K HK)). eapply shape_of; eauto. }
  destruct (plus_set_correct L LL SH) as (R' & E' & S). assert (R' = R) as -> by congruence. rewrite S. unfold kleene_plus. split.
  - intros (l & N & H & E). exists l. split; auto. split; auto. intros x Hx. apply L1. auto.
  - intros (l & N & H & E). exists l. split; auto. split; auto. intros x Hx. apply L1. auto.
Qed.

(* ---------------- words and runs ---------------- *)

Lemma in_runs : forall r ch, In ch (pch r) -> In (map fst ch) (runs r).
Proof. intros r ch H. rewrite <- pch_runs. apply in_map. auto. Qed.

Lemma konst_och : forall c ch, ch <> [] -> konst c (map fst ch) -> och_c ch = c.
Proof. intros c [|p ch] N K; [congruence|]. apply K. left. auto. Qed.

Lemma words_runs : forall b r, sigfrag r -> dur_ok b r -> pV (cls b) r -> defined r -> forall w, sig_words false r w ->
  exists ch cv w', In ch (pch r) /\ okc ch cv /\ win cv w' /\ meq w w'.
Proof.
  induction r as [c| |r IH|r1 IH1 r2 IH2|r1 IH1 r2 IH2|r1 IH1 r2 IH2|r IH Iv]; intros F DU P D w S; cbn [sigfrag] in F; try contradiction.
  - cbn in S. destruct S as (d & -> & Hd). exists [(c, Ok [interval_default])], [(c, [interval_default])], [(c, d)]. split; [left; auto|]. split; [repeat constructor|].
    split; [|apply meq_refl]. repeat constructor. cbn. exists interval_default. split; [left; auto|]. split; cbn; unfold above, below; cbn; auto.
  - destruct F as (F & c & K). destruct DU as (DU & Q & A & DF & CL & PQ). destruct (defined_plus r D) as (D1 & vs & R & EA & EP).
    assert (P1 : pV (cls b) r) by (eapply pV_weak; [exact PQ|apply CL]). cbn in S. destruct S as (us & NE & FU & ->).
    pose proof (pch_ne r F) as (NP & NC). assert (Hh : In (hd [] (pch r)) (pch r)) by (destruct (pch r); [congruence|left; auto]).
    assert (Ec : och_c (hd [] (pch r)) = c) by (apply konst_och; auto; apply K; apply in_runs; auto).
    (* every part has the letter c and a duration of the body *)
    assert (ONE : forall u, In u us -> u <> [] /\ konst c (letters u) /\ exists ch v, In ch (pch r) /\ och_V ch = Ok v /\ iins v (duration u)).
    { intros u Hu. rewrite Forall_forall in FU. destruct (IH F DU P1 D1 u (FU u Hu)) as (ch & cv & w' & Hc & O & W & M).
      assert (Kc : konst c (map fst ch)) by (apply K; apply in_runs; auto).
      assert (NW : w' <> []) by (intros X; apply (NC ch Hc); rewrite X in W; inversion W; subst; inversion O; reflexivity).
      assert (KW : konst c (letters w')) by (rewrite <- (win_letters _ _ W), <- (okc_fst _ _ O); auto).
      assert (M2 : meq u [(c, duration w')]) by (eapply meq_trans; [exact M|]; apply meq_konst; split; auto; split; auto; reflexivity).
      apply meq_konst in M2 as (N2 & K2 & D2). split; auto. split; auto. exists ch, (sum_vs (map snd cv)). split; auto. split; [apply okc_och; auto|].
      apply (run_sum b r ch _ c); auto; [apply okc_och; auto|]. exists cv, w'. split; auto. split; auto. split; auto. split; auto. symmetry; auto. }
    exists [(c, plusV (map och_V (pch r)))], [(c, R)], [(c, duration (concat us))]. split; [left; cbn; rewrite Ec; auto|].
    split; [constructor; [|constructor]; unfold plusV; rewrite EA; cbn; rewrite EP; auto|]. split.
    + constructor; [|constructor]. cbn [fst snd]. split; auto. apply (plus_spec b r vs R _ Q); auto. exists (map duration us). split; [destruct us; [congruence|discriminate]|].
      split; [intros x Hx; apply in_map_iff in Hx as (u & <- & Hu); apply ONE; auto|]. clear. induction us as [|u us IHu]; [reflexivity|]. cbn [concat map].
      rewrite duration_app, <- IHu. reflexivity.
    + apply meq_konst. split; [|split; [|reflexivity]].
      * destruct us as [|u us]; [congruence|]. destruct (ONE u (or_introl eq_refl)) as (X & _). destruct u; [congruence|discriminate].
      * intros x Hx. unfold letters in Hx. rewrite concat_map in Hx. apply in_concat in Hx as (l & Hl & Hx). apply in_map_iff in Hl as (u & <- & Hu).
        destruct (ONE u Hu) as (_ & X & _). apply X. auto.
  - destruct F as (F1 & F2 & _). destruct DU as (U1 & U2). destruct (defined_cat r1 r2 F1 F2 D) as (D1 & D2). cbn in S. destruct S as (w1 & w2 & -> & S1 & S2).
    pose proof (pch_ne r1 F1) as (N1 & _). pose proof (pch_ne r2 F2) as (N2 & _).
    assert (P1 : pV (cls b) r1).
    { intros ch o Hc Ho. destruct (pch r2) as [|y Y] eqn:E; [congruence|]. apply (P (ch ++ y)); [|apply in_or_app; auto]. cbn. apply in_flat_map. exists ch. split; auto. rewrite E. left. auto. }
    assert (P2 : pV (cls b) r2).
    { intros ch o Hc Ho. destruct (pch r1) as [|x X] eqn:E; [congruence|]. apply (P (x ++ ch)); [|apply in_or_app; auto]. cbn. apply in_flat_map. exists x. split; [rewrite E; left; auto|].
      apply in_map. auto. }
    destruct (IH1 F1 U1 P1 D1 w1 S1) as (c1 & v1 & x1 & A1 & A2 & A3 & A4). destruct (IH2 F2 U2 P2 D2 w2 S2) as (c2 & v2 & x2 & B1 & B2 & B3 & B4).
    exists (c1 ++ c2), (v1 ++ v2), (x1 ++ x2). split; [cbn; apply in_flat_map; exists c1; split; auto; apply in_map; auto|]. split; [apply okc_app; auto|].
    split; [apply win_app; auto|apply meq_app; auto].
  - destruct F as (F1 & F2). destruct DU as (U1 & U2). 
    assert (P1 : pV (cls b) r1) by (intros ch o Hc Ho; apply (P ch); auto; cbn; apply in_or_app; auto).
    assert (P2 : pV (cls b) r2) by (intros ch o Hc Ho; apply (P ch); auto; cbn; apply in_or_app; auto).
    assert (D1 : defined r1) by (intros ch Hc; apply D; cbn; apply in_or_app; auto).
    assert (D2 : defined r2) by (intros ch Hc; apply D; cbn; apply in_or_app; auto).
    cbn in S. destruct S as [S|S]; [destruct (IH1 F1 U1 P1 D1 w S) as (c1 & v1 & x1 & A1 & A2 & A3 & A4)|destruct (IH2 F2 U2 P2 D2 w S) as (c1 & v1 & x1 & A1 & A2 & A3 & A4)];
      exists c1, v1, x1; (split; [cbn; apply in_or_app; auto|auto]).
  - destruct F as (F & K). destruct DU as (DU & P1 & RO). pose proof (defined_within r Iv D) as D1. cbn [sig_words] in S. destruct S as (S & I).
    destruct (IH F DU P1 D1 w S) as (ch & cv & w' & Hc & O & W & M). destruct (K _ (in_runs r ch Hc)) as (c & Kc). pose proof (pch_ne r F) as (_ & NC).
    assert (NW : w' <> []) by (intros X; apply (NC ch Hc); rewrite X in W; inversion W; subst; inversion O; reflexivity).
    assert (KW : konst c (letters w')) by (rewrite <- (win_letters _ _ W), <- (okc_fst _ _ O); auto).
    assert (M2 : meq w [(c, duration w')]) by (eapply meq_trans; [exact M|]; apply meq_konst; split; auto; split; auto; reflexivity).
    exists [(och_c ch, withinV Iv (och_V ch))], [(c, land1 (sum_vs (map snd cv)) Iv)], [(c, duration w')].
    split; [cbn; apply in_map_iff; exists ch; auto|]. split; [constructor; [|constructor]; rewrite (okc_och ch cv O), (konst_och c ch (NC ch Hc) Kc); reflexivity|].
    split; auto. constructor; [|constructor]. cbn [fst snd]. split; auto. apply (within_in b); auto.
    + intros J HJ. exact (och_ok (cls b) r ch (cls_add b) P1 Hc _ J (okc_och ch cv O) HJ).
    + split; [|apply iin_eq with (duration w); [apply (meq_dur _ _ M)|exact I]]. apply (run_sum b r ch _ c); auto; [apply okc_och; auto|]. exists cv, w'.
      split; auto. split; auto. split; auto. split; auto. reflexivity.
Qed.

Lemma runs_words : forall b r, sigfrag r -> dur_ok b r -> pV (cls b) r -> defined r -> forall ch cv w', In ch (pch r) -> okc ch cv -> win cv w' ->
  exists w, sig_words false r w /\ meq w w'.
Proof.
  induction r as [c| |r IH|r1 IH1 r2 IH2|r1 IH1 r2 IH2|r1 IH1 r2 IH2|r IH Iv]; intros F DU P D ch cv w' Hc O W; cbn [sigfrag] in F; try contradiction.
  - destruct Hc as [<-|[]]. inversion O as [|? p ? ? E O']; subst. inversion O'; subst. inversion W as [|? [x d] ? ? [X1 X2] W']; subst. inversion W'; subst. destruct p as [c' v].
    injection E as <- <-. cbn in X1, X2. subst x. exists [(c, d)]. split; [|apply meq_refl]. cbn. exists d. split; auto. destruct X2 as (K & [<-|[]] & (A & _)). unfold above in A. cbn in A. auto.
  - destruct F as (F & c & K). destruct DU as (DU & Q & A & DF & CL & PQ). destruct (defined_plus r D) as (D1 & vs & R & EA & EP).
    assert (P1 : pV (cls b) r) by (eapply pV_weak; [exact PQ|apply CL]).
    pose proof (pch_ne r F) as (NP & NC). assert (Hh : In (hd [] (pch r)) (pch r)) by (destruct (pch r); [congruence|left; auto]).
    destruct Hc as [<-|[]]. inversion O as [|? p ? ? E O']; subst. inversion O'; subst. inversion W as [|? [x d] ? ? [X1 X2] W']; subst. inversion W'; subst. destruct p as [c' v].
    assert (Ec : och_c (hd [] (pch r)) = c) by (apply konst_och; auto; apply K; apply in_runs; auto).
    cbn [fst snd] in *. injection E as <- E. unfold plusV in E. rewrite EA in E. cbn [bind] in E. assert (v = R) as -> by congruence. cbn [fst] in X1. rewrite Ec in X1. subst x.
    apply (plus_spec b r vs R d Q) in X2; auto. destruct X2 as (ds & NE & H & ED).
    assert (US : forall ds, (forall x, In x ds -> exists ch v, In ch (pch r) /\ och_V ch = Ok v /\ iins v x) ->
              exists us, length us = length ds /\ Forall (sig_words false r) us /\ Forall (fun u => u <> [] /\ konst c (letters u)) us /\ (duration (concat us) == qsum ds)%Q).
    { clear - K F DU P1 D1 IH. induction ds as [|x ds IHd]; intros H; [exists []; repeat split; auto|]. destruct IHd as (us & L & A1 & A2 & A3); [intros; apply H; right; auto|].
      destruct (H x (or_introl eq_refl)) as (ch & v & Hc & EV & X). assert (Kc : konst c (map fst ch)) by (apply K; apply in_runs; auto).
      apply (run_sum b r ch v c) in X; auto. destruct X as (cv & w & O & W & N & KW & DW). destruct (IH F DU P1 D1 ch cv w Hc O W) as (u & S & M).
      assert (M2 : meq u [(c, x)]) by (eapply meq_trans; [exact M|]; apply meq_konst; auto). apply meq_konst in M2 as (N2 & K2 & D2).
      exists (u :: us). split; [cbn; auto|]. split; [constructor; auto|]. split; [constructor; auto|]. cbn [concat]. rewrite duration_app, D2, A3. reflexivity. }
    destruct (US ds H) as (us & L & A1 & A2 & A3). assert (NU : us <> []) by (intros ->; destruct ds; [congruence|discriminate]).
    exists (concat us). split; [cbn; exists us; auto|]. rewrite Forall_forall in A2. apply meq_konst. split; [|split].
    + destruct us as [|u us]; [congruence|]. destruct (A2 u (or_introl eq_refl)) as (X & _). destruct u; [congruence|discriminate].
    + intros x Hx. unfold letters in Hx. rewrite concat_map in Hx. apply in_concat in Hx as (l & Hl & Hx). apply in_map_iff in Hl as (u & <- & Hu).
      destruct (A2 u Hu) as (_ & X). apply X. auto.
    + rewrite A3. auto.
  - destruct F as (F1 & F2 & _). destruct DU as (U1 & U2). destruct (defined_cat r1 r2 F1 F2 D) as (D1 & D2).
    pose proof (pch_ne r1 F1) as (N1 & _). pose proof (pch_ne r2 F2) as (N2 & _).
    assert (P1 : pV (cls b) r1).
    { intros ch0 o Hc0 Ho. destruct (pch r2) as [|y Y] eqn:E; [congruence|]. apply (P (ch0 ++ y)); [|apply in_or_app; auto]. cbn. apply in_flat_map. exists ch0. split; auto. rewrite E. left. auto. }
    assert (P2 : pV (cls b) r2).
    { intros ch0 o Hc0 Ho. destruct (pch r1) as [|x X] eqn:E; [congruence|]. apply (P (x ++ ch0)); [|apply in_or_app; auto]. cbn. apply in_flat_map. exists x. split; [rewrite E; left; auto|].
      apply in_map. auto. }
    cbn in Hc. apply in_flat_map in Hc as (c1 & H1 & Hc). apply in_map_iff in Hc as (c2 & <- & H2). apply Forall2_app_inv_l in O as (v1 & v2 & O1 & O2 & ->).
    apply Forall2_app_inv_l in W as (x1 & x2 & W1 & W2 & ->). destruct (IH1 F1 U1 P1 D1 c1 v1 x1 H1 O1 W1) as (w1 & S1 & M1). destruct (IH2 F2 U2 P2 D2 c2 v2 x2 H2 O2 W2) as (w2 & S2 & M2).
    exists (w1 ++ w2). split; [cbn; eauto|apply meq_app; auto].
  - destruct F as (F1 & F2). destruct DU as (U1 & U2). 
    assert (P1 : pV (cls b) r1) by (intros ch0 o Hc0 Ho; apply (P ch0); auto; cbn; apply in_or_app; auto).
    assert (P2 : pV (cls b) r2) by (intros ch0 o Hc0 Ho; apply (P ch0); auto; cbn; apply in_or_app; auto).
    assert (D1 : defined r1) by (intros ch0 Hc0; apply D; cbn; apply in_or_app; auto).
    assert (D2 : defined r2) by (intros ch0 Hc0; apply D; cbn; apply in_or_app; auto).
    cbn in Hc. apply in_app_or in Hc as [Hc|Hc]; [destruct (IH1 F1 U1 P1 D1 ch cv w' Hc O W) as (w & S & M)|destruct (IH2 F2 U2 P2 D2 ch cv w' Hc O W) as (w & S & M)];
      exists w; (split; [cbn; auto|auto]).
  - destruct F as (F & K). destruct DU as (DU & P1 & RO). pose proof (defined_within r Iv D) as D1. cbn in Hc. apply in_map_iff in Hc as (ch1 & <- & Hc).
    destruct (K _ (in_runs r ch1 Hc)) as (c & Kc). pose proof (pch_ne r F) as (_ & NC).
    inversion O as [|? p ? ? E O']; subst. inversion O'; subst. inversion W as [|? [x d] ? ? [X1 X2] W']; subst. inversion W'; subst. destruct p as [c' v]. cbn [fst snd] in *.
    injection E as <- E. cbn [fst] in X1. rewrite (konst_och c ch1 (NC ch1 Hc) Kc) in X1. subst x. destruct (och_V ch1) as [v1| | | |] eqn:EV; cbn in E; try discriminate. injection E as <-.
    apply (within_in b) in X2; auto; [|intros J HJ; exact (och_ok (cls b) r ch1 (cls_add b) P1 Hc _ J EV HJ)]. destruct X2 as (X2 & I).
    apply (run_sum b r ch1 v1 c) in X2; auto. destruct X2 as (cv & w & O1 & W1 & N & KW & DW). destruct (IH F DU P1 D1 ch1 cv w Hc O1 W1) as (u & S & M).
    assert (M2 : meq u [(c, d)]) by (eapply meq_trans; [exact M|]; apply meq_konst; auto). exists u. split; auto. cbn [sig_words]. split; auto.
    eapply iin_eq; [|exact I]. apply meq_konst in M2 as (_ & _ & D2). symmetry. auto.
Qed.

(* ---------------- merged runs ---------------- *)

Lemma iins_ext : forall v d e, (d == e)%Q -> iins v d -> iins v e.
Proof. intros v d e E X. eapply iins_eq; eauto. Qed.
Lemma win_deq : forall cv u w, deq u w -> win cv u -> win cv w.
Proof.
  intros cv u w D W. revert w D. induction W as [|p a cv u [E X] W IH]; intros w D; inversion D as [|? a' ? w' [F1 F2] D']; subst; [constructor|].
  constructor; [|apply IH; exact D']. split; [congruence|]. apply (iins_ext _ _ _ F2). exact X.
Qed.
Lemma clsv_isum : forall b v w, clsv b v -> clsv b w -> clsv b (isum v w).
Proof. intros b v w V W. exact (isum_all (cls b) v w (cls_add b) V W). Qed.
Lemma isum_in : forall b v w d, clsv b v -> clsv b w -> (iins (isum v w) d <-> exists x y, iins v x /\ iins w y /\ (x + y == d)%Q).
Proof. intros b v w d V W. apply isum_spec; intros K HK; apply (cls_nw b); auto. Qed.

Lemma merge_head : forall w, match w with [] => merge_dw w = [] | a :: _ => exists d t, merge_dw w = (fst a, d) :: t end.
Proof.
  intros [|[c d] w]; auto. rewrite merge_cons. unfold mstep. cbn [fst snd]. destruct (merge_dw w) as [|[c' d'] t]; eauto. destruct (c =? c'); eauto.
Qed.

Lemma win_mv : forall b t p u, clsv b (snd p) -> (forall q, In q t -> clsv b (snd q)) ->
  (win (mv p t) u <-> exists w, win (p :: t) w /\ deq (merge_dw w) u).
Proof.
  intros b. induction t as [|q t IH]; intros [c v] u CP CT; cbn [mv].
  - split.
    + intros W. exists u. split; auto. inversion W as [|? [x d] ? ? H W']; subst. inversion W'; subst. apply deq_refl.
    + intros (w & W & D). eapply win_deq; [exact D|]. inversion W as [|? [x d] ? ? H W']; subst. inversion W'; subst. auto.
  - cbn [snd fst] in *. assert (CQ : clsv b (snd q)) by (apply CT; left; auto). assert (CT' : forall q0, In q0 t -> clsv b (snd q0)) by (intros; apply CT; right; auto).
    destruct (Nat.eqb_spec c (fst q)) as [E|N].
    + rewrite IH; cbn [snd]; auto; [|apply clsv_isum; auto]. split.
      * intros (w & W & D). inversion W as [|? [x d] ? w' [X1 X2] W']; subst. cbn [fst snd] in *. subst x. apply (isum_in b) in X2 as (d1 & d2 & H1 & H2 & E2); auto.
        exists ((fst q, d1) :: (fst q, d2) :: w'). split; [repeat constructor; cbn; auto|]. eapply deq_trans; [|exact D].
        rewrite !merge_cons. destruct (merge_dw w') as [|[x y] m]; cbn [mstep fst snd]; [rewrite Nat.eqb_refl; repeat constructor; cbn; auto|].
        destruct (fst q =? x); cbn [mstep fst snd]; rewrite Nat.eqb_refl; (constructor; [cbn; split; [auto|rewrite <- E2; ring]|apply deq_refl]).
      * intros (w & W & D). inversion W as [|? [x d1] ? w1 [X1 X2] W1]; subst. inversion W1 as [|? [y d2] ? w' [Y1 Y2] W']; subst. cbn [fst snd] in *. subst x y.
        exists ((fst q, (d1 + d2)%Q) :: w'). split.
        { constructor; auto. cbn. split; auto. apply (isum_in b); auto. exists d1, d2. split; auto. split; auto. reflexivity. }
        eapply deq_trans; [|exact D]. apply deq_sym.
        rewrite !merge_cons. destruct (merge_dw w') as [|[x y] m]; cbn [mstep fst snd]; [rewrite Nat.eqb_refl; apply deq_refl|].
        destruct (fst q =? x); cbn [mstep fst snd]; rewrite Nat.eqb_refl; (constructor; [cbn; split; [auto|ring]|apply deq_refl]).
    + split.
      * intros W. inversion W as [|? [x d] ? u' [X1 X2] W']; subst. cbn [fst snd] in *. subst x. apply IH in W' as (w & Ww & D); auto. exists ((c, d) :: w). split; [constructor; auto|].
        inversion Ww as [|? a ? w' [Y1 Y2] Ww']; subst. rewrite merge_cons. destruct (merge_head (a :: w')) as (d' & t' & E). rewrite E in *. cbn [mstep fst snd] in *.
        assert (B : c =? fst a = false) by (apply Nat.eqb_neq; congruence). rewrite B. constructor; [split; [auto|reflexivity]|auto].
      * intros (w & W & D). inversion W as [|? [x d] ? w1 [X1 X2] W1]; subst. cbn [fst snd] in *. subst x. 
        pose proof W1 as W2. inversion W1 as [|? a ? w' [Y1 Y2] Ww']; subst. rewrite merge_cons in D. destruct (merge_head (a :: w')) as (d' & t' & E).
        rewrite E in D. cbn [mstep fst snd] in D. assert (B : c =? fst a = false) by (apply Nat.eqb_neq; congruence). rewrite B in D.
        inversion D as [|? [z f] ? u' [Z1 Z2] D']; subst. cbn [fst snd] in *. subst z. constructor; [cbn; split; [auto|eapply iins_ext; eauto]|].
        apply IH; auto. exists (a :: w'). split; auto. rewrite E. auto.
Qed.
Lemma win_mvs : forall b cv u, (forall q, In q cv -> clsv b (snd q)) -> (win (mvs cv) u <-> exists w, win cv w /\ deq (merge_dw w) u).
Proof.
  intros b [|p t] u C; [|cbn [mvs]; apply (win_mv b); [apply C; left; auto|intros; apply C; right; auto]]. cbn [mvs]. split.
  - intros W. inversion W; subst. exists []. split; constructor.
  - intros (w & W & D). inversion W; subst. cbn in D. inversion D; subst. constructor.
Qed.
Lemma mv_cls : forall b t p, clsv b (snd p) -> (forall q, In q t -> clsv b (snd q)) -> forall q, In q (mv p t) -> clsv b (snd q).
Proof.
  intros b. induction t as [|q t IH]; intros p CP CT x Hx; cbn [mv] in Hx; [destruct Hx as [<-|[]]; auto|].
  destruct (fst p =? fst q).
  - apply (IH (fst p, isum (snd p) (snd q))); auto; [cbn; apply clsv_isum; auto; apply CT; left; auto|intros; apply CT; right; auto].
  - destruct Hx as [<-|Hx]; auto. apply (IH q); auto; [apply CT; left; auto|intros; apply CT; right; auto].
Qed.
Lemma mv_letters : forall t p q, In q (mv p t) -> exists q', In q' (p :: t) /\ fst q' = fst q.
Proof.
  induction t as [|q t IH]; intros p x Hx; cbn [mv] in Hx; [destruct Hx as [<-|[]]; exists p; split; [left; auto|auto]|].
  destruct (fst p =? fst q).
  - destruct (IH _ _ Hx) as (y & [<-|Hy] & E); [exists p; split; [left; auto|auto]|exists y; split; [right; right; auto|auto]].
  - destruct Hx as [<-|Hx]; [exists p; split; [left; auto|auto]|]. destruct (IH _ _ Hx) as (y & Hy & E). exists y. split; [right; auto|auto].
Qed.
