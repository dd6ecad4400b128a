(* The order of the edges of a zone automaton is the order of the transitions of
   the timed automaton. *)
From Coq Require Import Bool List Arith Lia.
From Verif Require Import Num Outcome Constraint Zone TA TAFacts ZA ZASpec ZAFacts PropZA SkipFacts.
Import ListNotations.
Open Scope nat_scope.

Definition aedges (s : tastate) : list (nat * edge) := flat_map (fun ce => map (pair (fst ce)) (snd ce)) (next s).
Definition same (m z : mat) : Prop := zone_eqb m z = true \/ m = z.
Definition addl (s : zst) (L : list (nat * nat)) : zst := mkZ (zq s) (zm s) (zacc s) (znx s ++ L) (zlive s).

(* What a list of transitions adds, one after the other. *)
Inductive emits (M : bound) (Z : za) (now : mat) : list (nat * edge) -> list (nat * nat) -> Prop :=
| em_nil : emits M Z now [] []
| em_skip : forall c e l L, (etgt e = None \/ succ_zone M now e = None) -> emits M Z now l L -> emits M Z now ((c, e) :: l) L
| em_put : forall c e q m j s l L, etgt e = Some q -> succ_zone M now e = Some m -> zget Z j = Some s -> zq s = q -> same m (zm s) ->
    emits M Z now l L -> emits M Z now ((c, e) :: l) ((c, j) :: L).

Definition keeps (Z Z' : za) : Prop := forall j s, zget Z j = Some s -> exists s', zget Z' j = Some s' /\ zq s' = zq s /\ zm s' = zm s.
Lemma emits_keeps : forall M Z Z' now l L, keeps Z Z' -> emits M Z now l L -> emits M Z' now l L.
Proof.
  intros M Z Z' now l L K H. induction H as [|c e l L D H IH|c e q m j s l L E1 E2 E3 E4 E5 H IH]; [constructor|constructor; auto|].
  destruct (K _ _ E3) as (s' & G & Q & Em). eapply em_put; eauto; congruence.
Qed.
Lemma emits_app : forall M Z now l L k K, emits M Z now l L -> emits M Z now k K -> emits M Z now (l ++ k) (L ++ K).
Proof. intros M Z now l L k K H1 H2. induction H1; cbn; auto; [apply em_skip; auto|eapply em_put; eauto]. Qed.
Lemma emits_split : forall M Z now l L1 c j L2, emits M Z now l (L1 ++ (c, j) :: L2) ->
  exists l1 e l2 q m s, l = l1 ++ (c, e) :: l2 /\ etgt e = Some q /\ succ_zone M now e = Some m /\ zget Z j = Some s /\ zq s = q /\ same m (zm s) /\ emits M Z now l2 L2.
Proof.
  intros M Z now l L1 c j L2 H. remember (L1 ++ (c, j) :: L2) as L eqn:E. revert L1 E.
  induction H as [|c0 e l L D H IH|c0 e q m j0 s l L E1 E2 E3 E4 E5 H IH]; intros L1 E; [destruct L1; discriminate| |].
  - destruct (IH L1 E) as (l1 & e1 & l2 & q & m & s & -> & X). exists ((c0, e) :: l1), e1, l2, q, m, s. auto.
  - destruct L1 as [|x L1]; cbn in E.
    + injection E as -> -> ->. exists [], e, l, q, m, s. auto 10.
    + injection E as <- E. destruct (IH L1 E) as (l1 & e1 & l2 & q1 & m1 & s1 & -> & X). exists ((c0, e) :: l1), e1, l2, q1, m1, s1. auto.
Qed.
Lemma emits_in : forall M Z now l L c e q m, emits M Z now l L -> In (c, e) l -> etgt e = Some q -> succ_zone M now e = Some m ->
  exists j s, In (c, j) L /\ zget Z j = Some s /\ zq s = q /\ same m (zm s).
Proof.
  intros M Z now l L c e q m H. induction H as [|c0 e0 l L D H IH|c0 e0 q0 m0 j0 s l L E1 E2 E3 E4 E5 H IH]; intros I Et Es; [destruct I| |].
  - destruct I as [I|I]; [|apply IH; auto]. injection I as -> ->. destruct D; congruence.
  - destruct I as [I|I].
    + injection I as -> ->. exists j0, s. rewrite Et in E1. rewrite Es in E2. injection E1 as <-. injection E2 as <-. split; [left; auto|]. auto.
    + destruct (IH I Et Es) as (j & t & X & Y). exists j, t. split; [right; auto|auto].
Qed.

Section Order.
  Variables (A : ta) (M : bound).

  Definition stepped (i : nat) (s : zst) (Z : za) (nq : list nat) (Z' : za) (nq' : list nat) (l : list (nat * edge)) : Prop :=
    (exists L, zget Z' i = Some (addl s L) /\ emits M Z' (elapse (zm s)) l L) /\
    (forall k t, k <> i -> zget Z k = Some t -> zget Z' k = Some t) /\
    (forall k t, length (zsts Z) <= k -> zget Z' k = Some t -> znx t = []) /\
    (exists N, nq' = nq ++ N /\ NoDup N /\ forall j, In j N <-> length (zsts Z) <= j < length (zsts Z')) /\
    length (zsts Z) <= length (zsts Z').

  Lemma stepped_keeps : forall i s Z nq Z' nq' l, zget Z i = Some s -> stepped i s Z nq Z' nq' l -> keeps Z Z'.
  Proof.
    intros i s Z nq Z' nq' l G ((L & G' & _) & O & _) k t Gk. destruct (Nat.eq_dec k i) as [->|N]; [|exists t; split; auto].
    rewrite G in Gk. injection Gk as <-. exists (addl s L). auto.
  Qed.
  Lemma addl_addl : forall s L K, addl (addl s L) K = addl s (L ++ K).
  Proof. intros s L K. unfold addl. cbn. rewrite app_assoc. reflexivity. Qed.

  Lemma stepped_nil : forall i s Z nq, zget Z i = Some s -> stepped i s Z nq Z nq [].
  Proof.
    intros i s Z nq G. split; [|split; [|split; [|split]]]; auto.
    - exists []. split; [|constructor]. unfold addl. rewrite app_nil_r. destruct s; auto.
    - intros k t H Gk. apply zget_lt in Gk. lia.
    - exists []. rewrite app_nil_r. split; auto. split; [constructor|]. cbn. lia.
  Qed.

  Lemma stepped_trans : forall i s Z nq Z1 q1 Z2 q2 l1 l2 s1, zget Z i = Some s -> stepped i s Z nq Z1 q1 l1 -> zget Z1 i = Some s1 -> stepped i s1 Z1 q1 Z2 q2 l2 ->
    stepped i s Z nq Z2 q2 (l1 ++ l2).
  Proof.
    intros i s Z nq Z1 q1 Z2 q2 l1 l2 s1 G H1 G1 H2. pose proof (zget_lt _ _ _ G) as Li. pose proof (stepped_keeps _ _ _ _ _ _ _ G1 H2) as K2.
    destruct H1 as ((L1 & Ga & Em1) & O1 & N1 & (X1 & Eq1 & ND1 & R1) & Le1). destruct H2 as ((L2 & Gb & Em2) & O2 & N2 & (X2 & Eq2 & ND2 & R2) & Le2).
    rewrite G1 in Ga. injection Ga as ->. split; [|split; [|split; [|split]]].
    - exists (L1 ++ L2). rewrite Gb, addl_addl. split; auto. apply emits_app; [eapply emits_keeps; eauto|exact Em2].
    - intros k t N H. auto.
    - intros k t H Gk. destruct (Nat.lt_ge_cases k (length (zsts Z1))) as [Lk|Lk]; [|eapply N2; eauto].
      destruct (zget_some Z1 k Lk) as (t1 & Gt). rewrite (O2 k t1) in Gk by (auto; lia). injection Gk as <-. eapply N1; eauto.
    - exists (X1 ++ X2). rewrite Eq2, Eq1, <- app_assoc. split; auto. split.
      + clear - ND1 ND2 R1 R2. induction ND1 as [|x X1 NI ND1 IH] in R1 |- *; cbn; auto. assert (forall j, In j (x :: X1) -> j < length (zsts Z1)) by (intros j Hj; apply R1 in Hj; lia).
        assert (D : forall Y, (forall j, In j Y -> j < length (zsts Z1)) -> NoDup Y -> NoDup (Y ++ X2)).
        { clear - ND2 R2. induction Y as [|y Y IH]; intros H ND; cbn; auto. inversion ND; subst. constructor.
          - intros I. apply in_app_or in I as [I|I]; [contradiction|]. apply R2 in I. specialize (H y (or_introl eq_refl)). lia.
          - apply IH; auto. intros j Hj. apply H. right. auto. }
        apply (D (x :: X1)); auto. constructor; auto.
      + intros j. rewrite in_app_iff, R1, R2. lia.
    - lia.
  Qed.

  Lemma edge_step : forall Z nq i s c e Z' nq', zget Z i = Some s ->
    ta2za_edge A M i (elapse (zm s)) c e (Z, nq) = Ok (Z', nq') -> stepped i s Z nq Z' nq' [(c, e)].
  Proof.
    intros Z nq i s c e Z' nq' G H. unfold ta2za_edge in H. pose proof (zget_lt _ _ _ G) as Li.
    assert (Triv : Z' = Z /\ nq' = nq -> (etgt e = None \/ succ_zone M (elapse (zm s)) e = None) -> stepped i s Z nq Z' nq' [(c, e)]).
    { intros [-> ->] D. destruct (stepped_nil i s Z nq G) as ((L & GL & E) & X). split; auto. exists L. split; auto. constructor; auto. }
    destruct (etgt e) as [q|] eqn:Et; [|injection H as <- <-; apply Triv; auto].
    destruct (succ_zone M (elapse (zm s)) e) as [m|] eqn:Es; [|injection H as <- <-; apply Triv; auto]. clear Triv.
    destruct (char_max <=? c); [discriminate|]. destruct (zfind Z q m) as [j|] eqn:EF.
    - injection H as <- <-. apply zfind_spec in EF as (sj & Gj & _ & Qj & Ej).
      assert (Gi : zget (zupd Z i (zpush c j)) i = Some (addl s [(c, j)])) by (rewrite zget_zupd, Nat.eqb_refl, G; reflexivity).
      split; [|split; [|split; [|split]]].
      + exists [(c, j)]. split; auto. destruct (Nat.eq_dec j i) as [->|N].
        * rewrite G in Gj. injection Gj as <-. eapply em_put; [exact Et|exact Es|exact Gi|exact Qj|left; exact Ej|constructor].
        * eapply em_put; [exact Et|exact Es| |exact Qj|left; exact Ej|constructor]. rewrite zget_zupd. destruct (Nat.eqb_spec j i); [contradiction|auto].
      + intros k t N Gk. rewrite zget_zupd. destruct (Nat.eqb_spec k i); [contradiction|auto].
      + intros k t L Gk. apply zget_lt in Gk. rewrite zupd_length in Gk. lia.
      + exists []. rewrite app_nil_r, zupd_length. split; auto. split; [constructor|]. cbn. lia.
      + rewrite zupd_length. lia.
    - destruct (deref A q) as [ts|]; [|discriminate]. injection H as <- <-.
      set (new := mkZ q m (isMatch ts) [] true). set (Z1 := mkZA (zsts Z ++ [new]) (zinit Z)). set (j := length (zsts Z)) in *.
      assert (Gn : forall k, zget Z1 k = if k =? j then Some new else zget Z k) by (intros; apply zget_app).
      split; [|split; [|split; [|split]]].
      + exists [(c, j)]. split; [rewrite zget_zupd, Nat.eqb_refl, Gn; destruct (Nat.eqb_spec i j); [lia|]; rewrite G; reflexivity|].
        eapply (em_put _ _ _ _ _ q m j new); [exact Et|exact Es| |reflexivity|right; reflexivity|constructor].
        rewrite zget_zupd, !Gn, Nat.eqb_refl. destruct (Nat.eqb_spec j i); [lia|auto].
      + intros k t N Gk. pose proof (zget_lt _ _ _ Gk). rewrite zget_zupd, !Gn. destruct (Nat.eqb_spec k i); [contradiction|]. destruct (Nat.eqb_spec k j); [lia|auto].
      + intros k t L Gk. rewrite zget_zupd, !Gn in Gk. destruct (Nat.eqb_spec k i); [lia|]. destruct (Nat.eqb_spec k j); [injection Gk as <-; auto|]. apply zget_lt in Gk. lia.
      + exists [j]. split; auto. split; [constructor; [intros []|constructor]|]. intros k. rewrite zupd_length. unfold Z1; cbn [zsts]. rewrite app_length. cbn. lia.
      + rewrite zupd_length. unfold Z1; cbn [zsts]. rewrite app_length. lia.
  Qed.

  Lemma conf_step : forall Z i s Z' nq', zget Z i = Some s -> ta2za_conf A M i (Z, []) = Ok (Z', nq') ->
    exists ts, deref A (zq s) = Some ts /\ stepped i s Z [] Z' nq' (aedges ts).
  Proof.
    intros Z i s Z' nq' G H. unfold ta2za_conf in H. cbn [fst] in H. rewrite G in H. destruct (deref A (zq s)) as [ts|]; [|discriminate]. exists ts. split; auto.
    apply (fold_out_inv _ (fun d p => stepped i s Z [] (fst p) (snd p) (flat_map (fun ce => map (pair (fst ce)) (snd ce)) d))) in H; [exact H|apply stepped_nil; auto|].
    intros d [c es] [Z1 q1] [Z2 q2] _ S1 H1. cbn [fst snd] in *. rewrite flat_map_app. cbn [flat_map fst snd]. rewrite app_nil_r.
    apply (fold_out_inv _ (fun d' p => stepped i s Z [] (fst p) (snd p) (flat_map (fun ce => map (pair (fst ce)) (snd ce)) d ++ map (pair c) d'))) in H1; [exact H1|cbn [map]; rewrite app_nil_r; exact S1|].
    intros d' e [Z3 q3] [Z4 q4] _ S3 H3. cbn [fst snd] in *. rewrite map_app, app_assoc. cbn [map]. pose proof S3 as ((L & G3 & _) & _).
    eapply stepped_trans; [exact G|exact S3|exact G3|]. apply edge_step; auto.
  Qed.

  Definition ordered (Z : za) (i : nat) : Prop := forall s, zget Z i = Some s ->
    exists ts, deref A (zq s) = Some ts /\ emits M Z (elapse (zm s)) (aedges ts) (znx s).

  Lemma loop_order : forall fuel Z queue Z', NoDup queue -> (forall i, In i queue -> i < length (zsts Z)) ->
    (forall i s, In i queue -> zget Z i = Some s -> znx s = []) -> (forall i, ~ In i queue -> ordered Z i) ->
    ta2za_loop fuel A M Z queue = Ok Z' -> forall i, ordered Z' i.
  Proof.
    induction fuel as [|f IH]; intros Z queue Z' ND LT NX OR H; destruct queue as [|i rest]; cbn [ta2za_loop] in H; try discriminate; try (injection H as <-; auto).
    apply bind_Ok in H as ([Z1 nq] & E & H). cbn [fst snd] in H. destruct (zget_some Z i) as (s & G); [apply LT; left; auto|].
    destruct (conf_step Z i s Z1 nq G E) as (ts & Ed & ST). pose proof (stepped_keeps _ _ _ _ _ _ _ G ST) as KE.
    destruct ST as ((L & G1 & EM) & O & NW & (N & -> & NDN & RN) & LE). cbn [app] in *. inversion ND as [|? ? NI ND']; subst.
    pose proof (NX i s (or_introl eq_refl) G) as Nx.
    eapply IH; [| | | |exact H].
    - clear - ND' NDN RN LT. assert (L2 : forall j, In j rest -> j < length (zsts Z)) by (intros j Hj; apply LT; right; auto). clear LT.
      induction rest as [|x rest IH]; cbn; auto. inversion ND'; subst. constructor.
      + intros I. apply in_app_or in I as [I|I]; [contradiction|]. apply RN in I. specialize (L2 x (or_introl eq_refl)). lia.
      + apply IH; auto. intros j Hj. apply L2. right. auto.
    - intros j Hj. apply in_app_or in Hj as [Hj|Hj]; [specialize (LT j (or_intror Hj)); lia|apply RN in Hj; lia].
    - intros j t Hj Gj. apply in_app_or in Hj as [Hj|Hj]; [|apply RN in Hj; apply (NW j t); [lia|auto]].
      assert (j <> i) by (intros ->; contradiction). destruct (zget_some Z j) as (t0 & Gt); [apply LT; right; auto|].
      rewrite (O j t0) in Gj by auto. injection Gj as <-. apply (NX j t0); [right; auto|auto].
    - intros j Hj t Gt. destruct (Nat.eq_dec j i) as [->|Nj].
      + rewrite G1 in Gt. injection Gt as <-. exists ts. split; auto. cbn [addl zm znx]. rewrite Nx. exact EM.
      + pose proof (zget_lt _ _ _ Gt) as Lj. destruct (Nat.lt_ge_cases j (length (zsts Z))) as [L0|L0]; [|exfalso; apply Hj; apply in_or_app; right; apply RN; lia].
        destruct (zget_some Z j L0) as (t0 & G0). rewrite (O j t0) in Gt by auto. injection Gt as <-.
        destruct (OR j) with (s := t0) as (ts0 & E0 & EM0); auto; [intros [X|X]; [congruence|apply Hj; apply in_or_app; auto]|].
        exists ts0. split; auto. eapply emits_keeps; eauto.
  Qed.
End Order.

Lemma ta2za_order : forall fuel A Z, wf_ta A -> ta2za fuel A zempty [] = Ok Z -> forall i, ordered A (max_const A) Z i.
Proof.
  intros fuel A Z W H. unfold ta2za in H. set (z := fill (S (clockSize A)) bzero) in *. set (new := filter _ (inits A)) in *.
  assert (NewS : forall p, In p new -> In p (map fst (states A))) by (intros p Hp; apply filter_In in Hp as [Hp _]; apply (wf_inits _ W); auto).
  destruct new as [|p0 l] eqn:EN; [injection H as <-; intros i s G; destruct i; discriminate|]. rewrite <- EN in *. clear p0 l EN.
  rewrite (new_states_ok A z new []) in H by auto. cbn [app bind] in H.
  intros i. eapply (loop_order A (max_const A)); [| | | |exact H].
  - apply seq_NoDup.
  - intros j Hj. cbn [zsts zempty app length] in *. apply in_seq in Hj. rewrite map_length. lia.
  - intros j s _ G. unfold zget in G. cbn [zsts zempty app] in G. apply nth_error_In in G. apply in_map_iff in G as (p & <- & Hp). reflexivity.
  - intros j Hj s G. exfalso. apply Hj. apply zget_lt in G. cbn [zsts zempty app length] in *. rewrite map_length in G. apply in_seq. lia.
Qed.
