(* What removeDeadStates leaves: paths inside of what is left. *)
From Coq Require Import QArith Lqa Bool List ZArith Arith Lia.
From Verif Require Import Num Outcome Constraint Zone TA TAFacts ZA ZASpec ZAFacts ZAGraph PropZA SkipFacts.
Import ListNotations.
Open Scope nat_scope.

Section Live.
  Variable Z : za.
  Hypothesis W : za_wf Z.
  Hypothesis AA : all_alive Z.

  (* a path whose states all lie in [R] *)
  Inductive rpath (R : list nat) : nat -> nat -> Prop :=
  | rp_nil : forall i, In i R -> rpath R i i
  | rp_cons : forall i c j k, In i R -> zedge Z i c j -> rpath R j k -> rpath R i k.

  Lemma rpath_mono : forall R R' i j, incl R R' -> rpath R i j -> rpath R' i j.
  Proof. intros R R' i j H P. induction P; [apply rp_nil; auto|eapply rp_cons; eauto]. Qed.
  Lemma rpath_trans : forall R i j k, rpath R i j -> rpath R j k -> rpath R i k.
  Proof. intros R i j k P Q. induction P; auto. eapply rp_cons; eauto. Qed.
  Lemma rpath_snoc : forall R i j c k, rpath R i j -> zedge Z j c k -> In k R -> rpath R i k.
  Proof.
    intros R i j c k P E H. eapply rpath_trans; [exact P|].
    assert (In j R) by (clear - P; induction P; auto). eapply rp_cons; eauto. apply rp_nil; auto.
  Qed.

  Inductive chain : list nat -> nat -> Prop :=
  | ch_init : forall i, In i (zinit Z) -> chain [] i
  | ch_step : forall P i c j, chain P i -> zedge Z i c j -> chain (P ++ [i]) j.

  Lemma chain_paths : forall P i, chain P i -> forall R, incl P R -> In i R ->
    (forall p, In p P \/ p = i -> rpath R p i /\ exists i0, In i0 (zinit Z) /\ rpath R i0 p).
  Proof.
    intros P i H. induction H as [i Hi|P i c j H IH E]; intros R HP HR p Hp.
    - destruct Hp as [[]| ->]. split; [apply rp_nil; auto|]. exists i. split; auto. apply rp_nil; auto.
    - assert (HiR : In i R) by (apply HP, in_or_app; right; left; auto).
      assert (HPR : incl P R) by (intros x Hx; apply HP, in_or_app; auto).
      destruct (IH R HPR HiR i (or_intror eq_refl)) as (_ & i0 & Hi0 & P0).
      destruct Hp as [Hp| ->].
      + assert (Hp' : In p P \/ p = i) by (apply in_app_or in Hp as [Hp|[<-|[]]]; auto).
        destruct (IH R HPR HiR p Hp') as (P1 & P2). split; auto. eapply rpath_snoc; eauto.
      + split; [apply rp_nil; auto|]. exists i0. split; auto. eapply rpath_snoc; eauto.
  Qed.

  (* every element of [R] lies on a path in [R] from an initial to an accepting state *)
  Definition useful (R : list nat) : Prop := forall y, In y R ->
    (exists i0, In i0 (zinit Z) /\ rpath R i0 y) /\ exists k, rpath R y k /\ zaccepting Z k.

  Lemma useful_add : forall R P i, useful R -> chain P i -> zaccepting Z i \/ (exists c j, zedge Z i c j /\ In j R) ->
    useful (fold_left sadd P (sadd R i)).
  Proof.
    intros R P i U C G. set (R' := fold_left sadd P (sadd R i)).
    assert (HR' : forall y, In y R' <-> (In y R \/ y = i) \/ In y P) by (intros y; unfold R'; rewrite in_sadds, in_sadd; tauto).
    assert (I1 : incl R R') by (intros y Hy; apply HR'; auto).
    assert (I2 : incl P R') by (intros y Hy; apply HR'; auto).
    assert (I3 : In i R') by (apply HR'; auto).
    assert (Gi : exists k, rpath R' i k /\ zaccepting Z k).
    { destruct G as [A|(c & j & E & Hj)].
      - exists i. split; auto. apply rp_nil; auto.
      - destruct (U j Hj) as (_ & k & P1 & A). exists k. split; auto. apply rp_cons with (c := c) (j := j); auto. apply (rpath_mono R); auto. }
    intros y Hy. apply HR' in Hy as [[Hy|Hy]|Hy].
    - destruct (U y Hy) as ((i0 & Hi0 & P0) & k & P1 & A). split; [exists i0|exists k]; split; auto; apply (rpath_mono R); auto.
    - destruct (chain_paths P i C R' I2 I3 y (or_intror Hy)) as (P1 & P0). split; auto. destruct Gi as (k & Pk & A). exists k. split; auto. eapply rpath_trans; eauto.
    - destruct (chain_paths P i C R' I2 I3 y (or_introl Hy)) as (P1 & P0). split; auto. destruct Gi as (k & Pk & A). exists k. split; auto. eapply rpath_trans; eauto.
  Qed.

  Definition sok (st : list (nat * list nat)) : Prop := forall i P, In (i, P) st -> chain P i.

  Lemma dead_edges_ok : forall i P js st R, chain P i -> (forall j, In j js -> exists c, zedge Z i c j) -> sok st -> useful R ->
    sok (fst (fold_left (dead_edge i P) js (st, R))) /\ useful (snd (fold_left (dead_edge i P) js (st, R))).
  Proof.
    intros i P js. induction js as [|j js IH]; intros st R C E S U; cbn [fold_left]; [auto|].
    unfold dead_edge at 2 4. destruct (mem i P) eqn:EM; cbn [fst snd].
    - apply IH; auto. intros; apply E; right; auto.
    - destruct (mem j R) eqn:EJ.
      + apply IH; auto; [intros; apply E; right; auto|]. apply useful_add; auto. right.
        destruct (E j (or_introl eq_refl)) as (c & Hc). exists c, j. split; auto. apply mem_In; auto.
      + apply IH; auto; [intros; apply E; right; auto|]. intros i' P' [H|H]; [|apply S; auto]. injection H as <- <-.
        unfold sadd. rewrite EM. destruct (E j (or_introl eq_refl)) as (c & Hc). eapply ch_step; eauto.
  Qed.

  Lemma dead_loop_useful : forall fuel st R R', sok st -> useful R -> dead_loop fuel Z st R = Ok R' -> useful R'.
  Proof.
    induction fuel as [|f IH]; intros st R R' S U H; destruct st as [|[i P] st]; cbn [dead_loop] in H; try discriminate;
      try (apply Ok_inj in H; subst; exact U).
    destruct (zlock Z i) as [s|] eqn:L; [|discriminate].
    assert (Hs : nth_error (zsts Z) i = Some s).
    { unfold zlock, zget in L. destruct (nth_error (zsts Z) i) as [s'|]; [|discriminate]. destruct (zlive s'); congruence. }
    pose proof (S i P (or_introl eq_refl)) as C.
    set (R1 := if zacc s then fold_left sadd P (sadd R i) else R) in H.
    assert (U1 : useful R1).
    { unfold R1. destruct (zacc s) eqn:EA; auto. apply useful_add; auto. left. exists s. auto. }
    destruct (dead_edges_ok i P (zedges s) st R1 C) as [S2 U2]; auto.
    - intros j Hj. apply (zedges_edge Z W AA i s j Hs). exact Hj.
    - intros i' P' Hin. apply S. right; auto.
    - eapply IH; [exact S2|exact U2|exact H].
  Qed.

  (* Every state that is kept is, inside of the result, reachable from an
     initial state and can reach an accepting state. *)
  Lemma removeDead_live : forall fuel Z', removeDeadStates fuel Z = Ok Z' ->
    za_wf Z' /\ (forall i, alive Z' i -> zreachable Z' i /\ zproductive Z' i) /\ (forall i c j, zedge Z' i c j -> zedge Z i c j).
  Proof.
    intros fuel Z' H. pose proof H as H0. unfold removeDeadStates in H. apply bind_Ok in H as (R & HR & H). apply Ok_inj in H.
    assert (U : useful R).
    { eapply dead_loop_useful; [| |exact HR]; [|intros y []]. intros i P Hin. apply in_map_iff in Hin as (x & E & Hx).
      injection E as <- <-. apply ch_init. apply in_rev. exact Hx. }
    assert (Al : forall i, alive Z' i <-> i < length (zsts Z) /\ In i R) by (intros i; subst Z'; apply kept_iff; auto).
    assert (G : forall (l : list zst) k i, nth_error (combine (seq k (length l)) l) i = match nth_error l i with Some s => Some (k + i, s) | None => None end).
    { clear. induction l as [|a l IH]; intros k i; destruct i; simpl; auto; [rewrite Nat.add_0_r; auto|].
      rewrite IH. destruct (nth_error l i); auto. do 2 f_equal. lia. }
    assert (Get : forall i s', nth_error (zsts Z') i = Some s' -> exists s, nth_error (zsts Z) i = Some s /\ znx s' = znx s /\ zacc s' = zacc s).
    { intros i s' Hs. subst Z'. cbn [zsts] in Hs. rewrite nth_error_map, G in Hs. destruct (nth_error (zsts Z) i) as [s|]; [|discriminate].
      injection Hs as <-. exists s. auto. }
    assert (Get2 : forall i s, nth_error (zsts Z) i = Some s -> exists s', nth_error (zsts Z') i = Some s' /\ znx s' = znx s /\ zacc s' = zacc s).
    { intros i s Hs. subst Z'. cbn [zsts]. rewrite nth_error_map, G, Hs. cbn. eauto. }
    assert (Len : length (zsts Z') = length (zsts Z)).
    { subst Z'. cbn [zsts]. rewrite map_length, combine_length, seq_length. lia. }
    assert (Edge : forall i c j, In i R -> In j R -> zedge Z i c j -> zedge Z' i c j).
    { intros i c j Hi Hj (s & Hs & Ls & Hc & Aj).
      assert (Ai' : alive Z' i) by (apply Al; split; auto; apply nth_error_Some; congruence).
      assert (Aj' : alive Z' j) by (apply Al; split; auto; apply alive_lt; auto).
      destruct Ai' as (s' & Hs' & Ls'). exists s'. split; auto. split; auto. split; auto.
      destruct (Get2 i s Hs) as (s2 & H2 & E2 & _). assert (s2 = s') by congruence. subst s2. rewrite E2. exact Hc. }
    assert (Path : forall i j, rpath R i j -> exists w, zpath Z' i w j).
    { intros i j P. induction P as [i Hi|i c j k Hi E P (w & IH)]; [exists []; constructor|].
      assert (Hj : In j R) by (clear - P; inversion P; auto). exists (c :: w). econstructor; [apply Edge; eauto|exact IH]. }
    split.
    - constructor.
      + intros i Hi. apply Al. subst Z'. cbn [zinit] in Hi. apply filter_In in Hi as [Hi Hm]. apply mem_In in Hm. split; auto.
        apply alive_lt. apply (zwf_init Z W); auto.
      + intros i s c j Hs Hc. destruct (Get i s Hs) as (s0 & H1 & E1 & _). rewrite E1 in Hc. rewrite Len. apply (zwf_edge Z W i s0 c j); auto.
    - split; [|intros i c j (s' & Hs & Ls & Hc & Aj); destruct (Get i s' Hs) as (s & H1 & E1 & _); exists s; split; auto;
        split; [apply AA; eapply nth_error_In; eauto|]; split; [rewrite <- E1; exact Hc|];
        apply Al in Aj as [Lj _]; apply all_alive_i; auto].
      intros i Hi. apply Al in Hi as [_ Hi]. destruct (U i Hi) as ((i0 & Hi0 & P0) & k & P1 & (s & Hs & Ea)). split.
      + destruct (Path _ _ P0) as (w & Pw). exists i0, w. split; auto. subst Z'. cbn [zinit]. apply filter_In. split; auto. apply mem_In.
        clear - P0. inversion P0; auto.
      + destruct (Path _ _ P1) as (w & Pw). exists w, k. split; auto. destruct (Get2 k s Hs) as (s' & H' & _ & E'). exists s'. split; auto. congruence.
  Qed.
End Live.
