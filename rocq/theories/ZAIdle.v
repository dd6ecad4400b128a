(* Automata whose only cycles are self-loops that do nothing: their zone automata
   have no other cycles either, and removeDeadStates loses nothing useful. *)
From Coq Require Import QArith Lqa Bool List ZArith Arith Lia.
From Verif Require Import Num NumFacts Outcome Constraint Zone ZoneFacts ZoneOps TA Spec TAFacts PropBase ZA ZASpec ZAFacts PropZA SkipFacts Sunday ZATerm ZAFin.
Import ListNotations.
Open Scope nat_scope.

(* ---------- equal zones ---------- *)

Lemma beqb_ble : forall a b, good a -> good b -> beqb a b = true -> ble a b /\ ble b a.
Proof.
  intros [[| |x|] s] [[| |y|] t]; unfold good, ble, beqb; cbn [fst snd]; intros Ga Gb E; try contradiction; try (apply andb_true_iff in E as [E1 E2]; discriminate); auto.
  apply andb_true_iff in E as [E1 E2]. cbn in E1. apply Qeq_bool_iff in E1. apply eqb_prop in E2. subst t. destruct s; cbn; split; lra.
Qed.
Lemma beqb_trans : forall a b c, beqb a b = true -> beqb b c = true -> beqb a c = true.
Proof.
  intros [[| |x|] s] [[| |y|] t] [[| |z|] u]; unfold beqb; cbn [fst snd]; rewrite !andb_true_iff; intros [E1 E2] [E3 E4]; cbn in *; try discriminate;
    apply eqb_prop in E2, E4; subst; split; auto using eqb_reflx.
  apply Qeq_bool_iff in E1, E3. apply Qeq_bool_iff. rewrite E1. exact E3.
Qed.
Lemma zone_eqb_trans : forall n m z y, 0 < n -> square n m -> square n z -> square n y -> mgood n m ->
  zone_eqb m z = true -> zone_eqb z y = true -> zone_eqb m y = true.
Proof.
  intros n m z y Hn S1 S2 S3 G E1 E2. apply (zone_eqb_intro n); auto. intros i j Hi Hj N.
  eapply beqb_trans; [apply (zone_eqb_entries n m z)|apply (zone_eqb_entries n z y)]; auto.
Qed.

Lemma elapse_mle : forall n m z, square n m -> square n z -> mgood n m -> mgood n z -> zone_eqb m z = true -> mle n (elapse m) (elapse z).
Proof.
  intros n m z S1 S2 G1 G2 E i j Hi Hj. rewrite !(mget_elapse n) by auto. destruct (Nat.eqb_spec j 0) as [->|Nj]; [exact Logic.I|].
  destruct (beqb_ble _ _ (G1 i j Hi Hj) (G2 i j Hi Hj) (zone_eqb_entries n m z S1 S2 E i j Hi Hj ltac:(congruence))) as [L _].
  destruct (Nat.eqb_spec i 0) as [->|]; auto. revert L. generalize (G1 0 j Hi Hj) (G2 0 j Hi Hj).
  destruct (mget m 0 j) as [[| |x|] s], (mget z 0 j) as [[| |y|] t]; unfold ble, good; cbn; try tauto. intros _ _. destruct s, t; cbn; lra.
Qed.

Lemma idle_cong : forall n c m z, 0 < n -> square n m -> square n z -> mgood n m -> mgood n z ->
  (exists v, zin n (elapse m) v) -> (exists v, zin n (elapse z) v) -> zone_eqb m z = true -> zone_eqb z m = true ->
  zone_eqb (idle (Fin c, true) m) (idle (Fin c, true) z) = true.
Proof.
  intros n c m z Hn S1 S2 G1 G2 N1 N2 E E'.
  destruct (idle_facts n c Hn m S1 G1 N1) as (Sr & Gr & _ & _ & Tr & Sa & Ga & _).
  destruct (idle_facts n c Hn z S2 G2 N2) as (Sr2 & Gr2 & _ & _ & Tr2 & Sa2 & Ga2 & _).
  assert (X : forall m z, square n m -> square n z -> mgood n m -> mgood n z -> zone_eqb m z = true ->
    mle n (abstractize (Fin c, true) (canonize (elapse m))) (abstractize (Fin c, true) (canonize (elapse z)))).
  { clear. intros m z S1 S2 G1 G2 E. pose proof (elapse_square n m S1) as Se1. pose proof (elapse_square n z S2) as Se2.
    pose proof (elapse_good n m S1 G1) as Ge1. pose proof (elapse_good n z S2 G2) as Ge2.
    pose proof (canonize_mono n _ _ Se1 Se2 Ge1 Ge2 (elapse_mle n m z S1 S2 G1 G2 E)) as L.
    pose proof (canonize_square n _ Se1 Ge1) as Sc1. pose proof (canonize_square n _ Se2 Ge2) as Sc2.
    pose proof (canonize_good n _ Se1 Ge1) as Gc1. pose proof (canonize_good n _ Se2 Ge2) as Gc2.
    intros i j Hi Hj. rewrite !(mget_abstractize n) by auto. specialize (L i j Hi Hj).
    destruct (bgeb (mget (canonize (elapse z)) i j) (Fin c, true)) eqn:B2.
    - destruct (bgeb (mget (canonize (elapse m)) i j) (Fin c, true)); [exact Logic.I|]. generalize (Gc1 i j Hi Hj). destruct (mget (canonize (elapse m)) i j) as [[] ?]; unfold good, ble; cbn; tauto.
    - destruct (bgeb (mget (canonize (elapse m)) i j) (Fin c, true)) eqn:B1; [|exact L].
      rewrite (bgeb_mono c _ _ (Gc1 i j Hi Hj) (Gc2 i j Hi Hj) L B1) in B2. discriminate. }
  apply (zone_eqb_intro n); auto. intros i j Hi Hj _. apply eqv_beqb; auto; [apply Tr; auto|apply Tr2; auto|]. split; unfold idle; apply (canonize_mono n); auto.
Qed.

(* ---------- no configuration twice ---------- *)

Definition once (Z : za) : Prop := forall i j s s', i < j -> zget Z i = Some s -> zget Z j = Some s' -> zq s' = zq s -> zone_eqb (zm s') (zm s) = false.

Lemma once_push : forall Z i c j, once Z -> once (zupd Z i (zpush c j)).
Proof.
  intros Z i c j H a b s s' L Ga Gb E. rewrite zget_zupd in Ga, Gb.
  assert (X : forall k t, (if k =? i then match zget Z i with Some s => Some (zpush c j s) | None => None end else zget Z k) = Some t ->
    exists t0, zget Z k = Some t0 /\ zq t0 = zq t /\ zm t0 = zm t).
  { intros k t G. destruct (Nat.eqb_spec k i) as [->|]; [|eauto]. destruct (zget Z i) as [t0|]; [|discriminate]. injection G as <-. exists t0. auto. }
  destruct (X a s Ga) as (s0 & G0 & Q0 & M0). destruct (X b s' Gb) as (s1 & G1 & Q1 & M1). rewrite <- M0, <- M1. apply (H a b); auto. congruence.
Qed.

Section Once.
  Variable A : ta.
  Hypothesis W : wf_ta A.
  Hypothesis K : clockSize A <= 255.
  Let M := max_const A.

  Lemma once_edge : forall Z nq i s c e Z' nq', Inv A M Z -> once Z -> zget Z i = Some s ->
    ta2za_edge A M i (elapse (zm s)) c e (Z, nq) = Ok (Z', nq') -> once Z'.
  Proof.
    intros Z nq i s c e Z' nq' HI HO G H. unfold ta2za_edge in H. destruct (etgt e) as [q|] eqn:Et; [|inversion H; subst; auto].
    destruct (succ_zone M (elapse (zm s)) e) as [m|] eqn:Em; [|inversion H; subst; auto].
    destruct (char_max <=? c); [discriminate|]. destruct (zfind Z q m) eqn:EF; [inversion H; subst; apply once_push; auto|].
    destruct (deref A q) as [ts|]; [|discriminate]. injection H as <- <-. apply once_push. intros a b s1 s2 L Ga Gb E.
    unfold zget in Ga, Gb. cbn [zsts] in Ga, Gb.
    assert (Lb : b < length (zsts Z) + 1) by (replace 1 with (length [mkZ q m (isMatch ts) [] true]) by reflexivity; rewrite <- app_length; apply nth_error_Some; rewrite Gb; discriminate).
    rewrite nth_error_app1 in Ga by lia. destruct (Nat.lt_ge_cases b (length (zsts Z))) as [Hb|Hb].
    - rewrite nth_error_app1 in Gb by auto. apply (HO a b); auto.
    - rewrite nth_error_app2 in Gb by auto. replace (b - length (zsts Z)) with 0 in Gb by lia. injection Gb as <-. cbn [zq zm] in *.
      destruct (zone_eqb m (zm s1)) eqn:X; auto. exfalso. destruct (HI _ _ Ga) as [(_ & _ & _ & _ & LV) _].
      destruct (zfind_from_some (zsts Z) 0 a s1 q m Ga LV E X) as (y & Y). unfold zfind in EF. congruence.
  Qed.

  Lemma once_conf : forall Z i s Z' nq', Inv A M Z -> once Z -> zget Z i = Some s -> ta2za_conf A M i (Z, []) = Ok (Z', nq') -> once Z'.
  Proof.
    intros Z i s Z' nq' HI HO Hs H. unfold ta2za_conf in H. cbn [fst] in H. rewrite Hs in H.
    destruct (deref A (zq s)) as [ts|] eqn:Ed; [|discriminate].
    assert (Hts : In (zq s, ts) (states A)) by (apply assoc_In; auto).
    pose (Q := fun (p : za * list nat) => grows A M Z [] (fst p) (snd p) /\ once (fst p)).
    assert (X : Q (Z', nq')); [|destruct X as (_ & X); exact X].
    apply (fold_out_inv _ (fun _ => Q)) in H; [exact H| |].
    - split; [apply grows_refl; auto|]. auto.
    - intros d [c es] [Z1 q1] [Z2 q2] Hce G1 H1. cbn [fst snd] in *.
      apply (fold_out_inv _ (fun _ => Q)) in H1; [exact H1|exact G1|].
      intros d' e [Z3 q3] [Z4 q4] He (G3 & F3) H3. cbn [fst snd] in *.
      pose proof G3 as (I3 & X3 & N3 & (l & L & R) & A3). destruct (X3 _ _ Hs) as (l0 & Hl).
      assert (Hed : is_edge A (zq s) c e) by (exists ts, es; auto).
      destruct (ta2za_edge_inv A M W K Z3 q3 i _ c e Z4 q4 I3 Hl Hed H3) as (A1 & A2 & A4 & A5 & A6 & A7).
      pose proof (once_edge Z3 q3 i _ c e Z4 q4 I3 F3 Hl H3) as F4.
      split; [|exact F4]. eapply grows_trans; [exact K|exact G3|]. repeat (split; auto).
  Qed.

  Lemma once_loop : forall fuel Z queue Z', Inv A M Z -> once Z -> (forall i, In i queue -> i < length (zsts Z)) ->
    ta2za_loop fuel A M Z queue = Ok Z' -> once Z'.
  Proof.
    induction fuel as [|f IH]; intros Z queue Z' HI HO HQ H; destruct queue as [|i rest]; cbn [ta2za_loop] in H; try discriminate; try (injection H as <-; exact HO).
    apply bind_Ok in H as ([Z1 nq] & E & H). destruct (zget_some Z i) as (s & G); [apply HQ; left; auto|].
    pose proof (once_conf Z i s Z1 nq HI HO G E) as O1.
    destruct (ta2za_conf_inv A M W K _ _ _ _ HI E) as [(I1 & X1 & _ & (l & El & R) & _) _]. cbn [fst snd] in *. cbn [app] in El. subst l.
    eapply IH; eauto. intros j Hj. apply in_app_or in Hj as [Hj|Hj]; [pose proof (ext_length _ _ X1); assert (j < length (zsts Z)) by (apply HQ; right; auto); lia|apply R in Hj; lia].
  Qed.

  Lemma once_fresh : forall fuel Z, NoDup (inits A) -> ta2za fuel A zempty [] = Ok Z -> once Z.
  Proof.
    intros fuel Z ND H. unfold ta2za in H. set (z := fill (S (clockSize A)) bzero) in *. set (new := filter _ (inits A)) in *.
    assert (NewS : forall p, In p new -> In p (map fst (states A))) by (intros p Hp; apply filter_In in Hp as [Hp _]; apply (wf_inits _ W); auto).
    assert (NN : NoDup new) by (apply NoDup_filter; auto).
    destruct new as [|p0 l] eqn:EN; [injection H as <-; intros i j s s' _ G; destruct i; discriminate|]. rewrite <- EN in *. clear p0 l EN.
    rewrite (new_states_ok A z new []) in H by auto. cbn [app bind] in H. destruct (zero_zone_ok A) as [(Z1 & Z2 & Z3) _].
    apply once_loop in H; auto.
    - intros i s G. unfold zget in G. cbn [zsts zempty app] in G. apply nth_error_In in G. apply in_map_iff in G as (p & <- & Hp). split; [|intros c j []]. repeat (split; auto).
    - intros i j s s' L Gi Gj E. exfalso. unfold zget in Gi, Gj. cbn [zsts zempty app] in Gi, Gj. rewrite nth_error_map in Gi, Gj.
      destruct (nth_error new i) as [p|] eqn:Ei; [|discriminate]. destruct (nth_error new j) as [q|] eqn:Ej; [|discriminate].
      injection Gi as <-. injection Gj as <-. cbn [new_state zq] in E. assert (i = j); [|lia].
      apply (proj1 (NoDup_nth_error new) NN); [apply nth_error_Some; rewrite Ei; discriminate|]. congruence.
    - intros i Hi. cbn [zsts zempty app length] in *. apply in_seq in Hi. rewrite map_length. lia.
  Qed.
End Once.

(* ---------- the cycles of the zone automaton ---------- *)

Lemma keeps_useful_idle : forall fuel A rk, wf_ta A -> clockSize A <= 255 -> NoDup (inits A) -> idle_loops A rk -> keeps_useful fuel A.
Proof.
  intros fuel A rk WF K ND RK Z Z' HZ HZ' i RE PR. pose proof (once_fresh A WF K fuel Z ND HZ) as ON.
  destruct (ta2za_fresh fuel A Z WF K HZ) as (I & EX & WZ & AA & _ & _ & _). destruct (max_const_fin A) as (x & EM).
  set (M := max_const A) in *. set (n := S (clockSize A)). assert (Hn : 0 < n) by (unfold n; lia).
  assert (NEl : forall s, st_ok A s -> exists v, zin n (elapse (zm s)) v).
  { intros s (S1 & G1 & (v & Hv) & _). eexists. apply (elapse_forward n _ v 1%Q); auto. lra. }
  destruct (C25_complete_partial Z (fun i => match zget Z i with Some s => 2 * rk (zq s) + (if zone_eqb (idle M (zm s)) (zm s) then 0 else 1) | None => 0 end) WZ AA) as (f0 & Z2 & H1 & H2).
  - intros a c b (s & Hs & Ls & Hc & Ab) Nab. assert (Ga : zget Z a = Some s) by exact Hs. rewrite Ga. destruct (I a s Hs) as [SO EO].
    destruct (EO c b Hc) as (_ & s' & e & q & m & Gb & He & Et & Em & Eq & Ez). rewrite Gb. subst q. destruct (I b s' Gb) as [SO' _].
    destruct (RK _ _ _ _ He Et) as [L|(E0 & E1 & E2)].
    + destruct (zone_eqb (idle M (zm s)) (zm s)), (zone_eqb (idle M (zm s')) (zm s')); lia.
    + destruct (idle_succ _ _ _ _ E1 E2 Em) as [Hm Sat]. fold M in Hm. rewrite E0.
      pose proof SO as (S1 & G1 & _). pose proof SO' as (S2 & G2 & _).
      destruct (idle_facts n x Hn (zm s) S1 G1 (NEl s SO)) as (Sr & Gr & _ & (v & Hv) & _). fold (idle (Fin x, true) (zm s)) in Sr, Gr, Hv.
      rewrite EM in *. rewrite <- Hm in Sr, Gr, Hv.
      assert (NEm : exists v, zin n (elapse m) v).
      { eexists. apply (elapse_forward n _ v 1%Q); auto. lra. }
      assert (Ezs : zone_eqb (zm s') m = true) by (apply (C15_symmetric n); auto).
      assert (X1 : zone_eqb (idle (Fin x, true) m) m = true) by (rewrite Hm; apply (idle_idle n); auto).
      destruct (idle_facts n x Hn (zm s') S2 G2 (NEl s' SO')) as (Sr2 & Gr2 & _). fold (idle (Fin x, true) (zm s')) in Sr2, Gr2.
      destruct (idle_facts n x Hn m Sr Gr NEm) as (Sr3 & Gr3 & _). fold (idle (Fin x, true) m) in Sr3, Gr3.
      assert (X2 : zone_eqb (idle (Fin x, true) (zm s')) (zm s') = true).
      { apply (zone_eqb_trans n _ m); auto. apply (zone_eqb_trans n _ (idle (Fin x, true) m)); auto. apply (idle_cong n); auto. }
      rewrite X2. destruct (zone_eqb (idle (Fin x, true) (zm s)) (zm s)) eqn:X3; [exfalso|lia]. rewrite <- Hm in X3.
      destruct (Nat.lt_total a b) as [L|[L|L]]; [|congruence|].
      * assert (F : zone_eqb (zm s') (zm s) = true); [|rewrite (ON a b s s' L Ga Gb E0) in F; discriminate].
        apply (zone_eqb_trans n _ m); auto.
      * assert (F : zone_eqb (zm s) (zm s') = true); [|rewrite (ON b a s' s L Gb Ga (eq_sym E0)) in F; discriminate].
        apply (zone_eqb_trans n _ m); auto. apply (C15_symmetric n); auto.
  - assert (Z2 = Z').
    { assert (X : forall fuel f st R r, dead_loop fuel Z st R = Ok r -> dead_loop (fuel + f) Z st R = Ok r).
      { clear. induction fuel; intros f st R r H; destruct st as [|[a P] st]; cbn [dead_loop Nat.add] in *; auto; [destruct f; auto|discriminate|].
        destruct (zlock Z a) as [s|]; [|discriminate]. apply IHfuel; auto. }
      assert (Y : forall fuel f Z', removeDeadStates fuel Z = Ok Z' -> removeDeadStates (fuel + f) Z = Ok Z').
      { intros fu f Z1 H. unfold removeDeadStates in *. apply bind_Ok in H as (R & HR & H). rewrite (X _ f _ _ _ HR). exact H. }
      apply (Y _ f0) in HZ'. rewrite Nat.add_comm in HZ'. rewrite H1 in HZ'. congruence. }
    subst Z2. apply H2. auto.
Qed.
