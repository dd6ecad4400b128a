(* Properties C20-C25: zone automata. *)
From Coq Require Import QArith Qround Lqa Bool List ZArith Arith Lia.
From Verif Require Import Num NumFacts Outcome Constraint Zone ZoneFacts ZoneOps TA Spec TAFacts WfDec ZA ZASpec ZAFacts ZAGraph.
Import ListNotations.
Open Scope nat_scope.

Lemma Inv_empty : forall A M, Inv A M zempty /\ forall i, expanded A M zempty i.
Proof. intros A M. split; [intros i s H|intros i s c e H]; unfold zget in H; destruct i; discriminate. Qed.

(* ta2za on an empty zone automaton with the default initial zone *)
Lemma ta2za_fresh : forall fuel A Z, wf_ta A -> clockSize A <= 255 -> ta2za fuel A zempty [] = Ok Z ->
  Inv A (max_const A) Z /\ (forall i, expanded A (max_const A) Z i) /\ za_wf Z /\ all_alive Z /\
  (forall i, In i (zinit Z) -> exists s, zget Z i = Some s /\ In (zq s) (inits A)) /\
  (forall p, In p (inits A) -> exists i s, In i (zinit Z) /\ zget Z i = Some s /\ zq s = p /\ zin (S (clockSize A)) (zm s) zeroval) /\
  (forall j s, zget Z j = Some s -> zacc s = match_at A (zq s)).
Proof.
  intros fuel A Z W K H. destruct (Inv_empty A (max_const A)) as [I0 E0].
  destruct (zero_zone_ok A) as [Z0 Z0'].
  apply (ta2za_inv A (max_const A) W K) in H; auto.
  destruct H as (I & X & EX & NI & PI & AC).
  split; auto. split; auto.
  assert (NI' : forall i, In i (zinit Z) -> exists s, zget Z i = Some s /\ In (zq s) (inits A)).
  { intros i Hi. apply NI in Hi as [[]|(s & p & _ & G & Hp & Q & _)]. exists s. rewrite Q. auto. }
  split; [|split; [|split; [|split]]]; auto.
  - constructor.
    + intros i Hi. destruct (NI' i Hi) as (s & G & _). exists s. split; auto. apply (proj1 (I i s G)).
    + intros i s c j G Hc. destruct (I i s G) as [_ EO]. destruct (EO c j Hc) as (Lc & s' & e & q & m & G' & _).
      split; auto. apply (zget_lt _ _ _ G').
  - intros s Hs. apply In_nth_error in Hs as (i & G). apply (proj1 (I i s G)).
  - intros p Hp. destruct (PI p Hp) as (i & s & G & Q & _ & E). destruct (E eq_refl) as [Hi Em]. exists i, s.
    split; auto. split; auto. split; auto. rewrite Em. exact Z0'.
  - intros j s G. apply (AC j); auto. simpl. lia.
Qed.

(* no undefined behaviour *)
Lemma ta2za_fine : forall fuel A, wf_ta A -> clockSize A <= 255 -> labels_ok A ->
  ta2za fuel A zempty [] = OutOfFuel \/ exists Z, ta2za fuel A zempty [] = Ok Z.
Proof.
  intros fuel A W K LB. unfold ta2za. set (z := fill (S (clockSize A)) bzero).
  set (new := filter _ (inits A)).
  assert (NewS : forall p, In p new -> In p (map fst (states A))) by (intros p Hp; apply filter_In in Hp as [Hp _]; apply (wf_inits _ W); auto).
  destruct new as [|p0 l] eqn:EN; [eauto|]. rewrite <- EN in *.
  rewrite (new_states_ok A z new []) by auto. simpl.
  destruct (zero_zone_ok A) as [(Z1 & Z2 & Z3) _].
  apply ta2za_loop_fine; auto.
  - intros i s G. unfold zget in G. simpl in G. apply nth_error_In in G. apply in_map_iff in G as (p & <- & Hp).
    split; [|intros c j []]. repeat (split; auto).
  - intros i Hi. apply in_seq in Hi. simpl. rewrite map_length. lia.
Qed.

(* ================= C20 the zone automaton simulates every run ================= *)

Theorem C20_simulation : forall fuel A Z p q v T w T', wf_ta A -> clockSize A <= 255 ->
  ta2za fuel A zempty [] = Ok Z ->
  In p (inits A) -> run A p zeroval T w q v T' -> increasing T w ->
  exists i j, In i (zinit Z) /\ zpath Z i (map fst w) j /\ (accepting A q -> zaccepting Z j).
Proof.
  intros fuel A Z p q v T w T' W K H Hp R Inc.
  destruct (ta2za_fresh fuel A Z W K H) as (I & EX & _ & _ & _ & PI & AC).
  destruct (PI p Hp) as (i & s & Hi & G & Q & Z0).
  destruct (ta2za_run A (max_const A) W K Z I EX _ _ _ _ _ _ _ R Inc i s G Q Z0) as (j & s' & P & G' & Q' & _).
  exists i, j. split; auto. split; auto. intros Ha. exists s'. split; auto. rewrite (AC j s' G'), Q'.
  apply match_at_spec; auto. apply (wf_nodup _ W).
Qed.

Theorem C20_empty : forall fuel A Z, wf_ta A -> clockSize A <= 255 ->
  ta2za fuel A zempty [] = Ok Z -> zempty_check Z = Ok true ->
  forall w, increasing 0 w -> ~ accepts A w.
Proof.
  intros fuel A Z W K H HE w Inc (p & q & v & T' & Hp & R & Ha).
  destruct (C20_simulation _ _ _ _ _ _ _ _ _ W K H Hp R Inc) as (i & j & Hi & P & Hj).
  destruct (ta2za_fresh fuel A Z W K H) as (_ & _ & WZ & _).
  destruct (zempty_check_spec Z WZ) as (b & Eb & Hb). rewrite HE in Eb. inversion Eb; subst b.
  apply (proj1 Hb eq_refl j); auto. exists i, (map fst w). auto.
Qed.

(* 0 -a, x<2, x:=0-> 1 -b, x>1, x,y:=0-> 1, 1 -a, x<=1, y<5-> 2 (accepting). *)
Definition exZ : ta := mkTA
  [(0, mkS false false [(97, [mkE (Some 1) [0] [mkC 0 Lt 2]])]);
   (1, mkS false false [(97, [mkE (Some 2) [] [mkC 0 Le 1; mkC 1 Lt 5]]); (98, [mkE (Some 1) [0; 1] [mkC 0 Gt 1]])]);
   (2, mkS true false [])]
  [0] [2%Z; 5%Z].
(* the last edge can never be taken *)
Definition exZ0 : ta := mkTA
  [(0, mkS false false [(97, [mkE (Some 1) [0] [mkC 1 Lt 2]])]);
   (1, mkS false false [(97, [mkE (Some 2) [] [mkC 0 Ge 3; mkC 1 Lt 3]])]);
   (2, mkS true false [])]
  [0] [3%Z; 3%Z].
Lemma exZ_wf : wf_ta exZ. Proof. apply wf_tab_ok. vm_compute. reflexivity. Qed.
Lemma exZ0_wf : wf_ta exZ0. Proof. apply wf_tab_ok. vm_compute. reflexivity. Qed.

Example C20_case : (exists Z, ta2za 100 exZ zempty [] = Ok Z /\ length (zsts Z) = 5 /\ zempty_check Z = Ok false) /\
  accepts exZ [(97, 1%Q); (98, (5#2)%Q); (97, 3%Q)] /\ increasing 0 [(97, 1%Q); (98, (5#2)%Q); (97, 3%Q)] /\
  (exists Z, ta2za 100 exZ0 zempty [] = Ok Z /\ length (zsts Z) = 2 /\ zempty_check Z = Ok true).
Proof.
  split; [eexists; split; [vm_compute; reflexivity|]; vm_compute; auto|]. split.
  - apply isMember_correct; [exact exZ_wf|vm_compute; reflexivity].
  - split; [repeat split; reflexivity|]. eexists; split; [vm_compute; reflexivity|]; vm_compute; auto.
Qed.

(* ================= C21 termination of the construction ================= *)

(* One state with the loop a, y>=1, y:=0; x is never reset.  The lower bound on
   x grows for ever, and abstractize only forgets bounds above M. *)
Definition exLoop : edge := mkE (Some 0) [1] [mkC 1 Ge 1].
Definition exDiv : ta := mkTA [(0, mkS true false [(97, [exLoop])])] [0] [0%Z; 1%Z].
Lemma exDiv_wf : wf_ta exDiv. Proof. apply wf_tab_ok. vm_compute. reflexivity. Qed.
Lemma exDiv_edge : forall p c e, is_edge exDiv p c e -> p = 0 /\ c = 97 /\ e = exLoop.
Proof.
  intros p c e (s & es & [H1|[]] & H2 & H3). inversion H1; subst. simpl in H2. destruct H2 as [H2|[]]. inversion H2; subst.
  destruct H3 as [<-|[]]. auto.
Qed.

Definition negb_i (i : nat) : bound := (Fin (- inject_Z (Z.of_nat i)), true).

Lemma exDiv_step : forall s m i, st_ok exDiv s -> succ_zone (max_const exDiv) (elapse (zm s)) exLoop = Some m ->
  ble (mget (zm s) 2 1) (negb_i i) -> ble (mget m 2 1) (negb_i (S i)).
Proof.
  intros s m i SO H HB. pose proof SO as (S1 & G1 & _). destruct (elapse_ok exDiv s SO) as [ES EG].
  change (S (clockSize exDiv)) with 3 in *.
  unfold succ_zone in H.
  assert (FG : Forall (fun g => cx g < 2) (eguard exLoop)) by (repeat constructor).
  destruct (tg_ok 2 ltac:(lia) (eguard exLoop) (elapse (zm s)) ES EG FG) as (S2 & G2 & Z2).
  pose proof (isSatisfiable_canonical 3 _ S2 ltac:(lia) G2) as CA.
  destruct (isSatisfiable (tighten_guard (elapse (zm s)) (eguard exLoop))) as [sat m1] eqn:ES1. destruct sat; [|discriminate].
  simpl in CA. specialize (CA eq_refl).
  assert (M1 : m1 = canonize (tighten_guard (elapse (zm s)) (eguard exLoop))) by (unfold isSatisfiable in ES1; congruence).
  assert (S3 : square 3 m1) by (subst; apply canonize_square; auto).
  assert (G3 : mgood 3 m1) by (subst; apply canonize_good; auto).
  assert (T : ble (mget m1 0 1) (negb_i (S i))).
  { apply (canonical_tight 3); auto; try lia; [exact I|]. intros v Hv. subst m1. apply (proj1 (canonize_zin 3 _ v S2 G2)) in Hv.
    apply Z2 in Hv as [Hv Hg]. specialize (Hg (mkC 1 Ge 1) (or_introl eq_refl)). unfold holds in Hg. simpl in Hg.
    specialize (Hv 2 1 ltac:(lia) ltac:(lia)). rewrite (mget_elapse 3) in Hv by (auto; lia). simpl in Hv.
    apply (below_ble _ (negb_i i)) in Hv; [|apply G1; lia|exact I|auto].
    unfold negb_i, below in *. cbn [fst snd ev] in *. rewrite Nat2Z.inj_succ, <- Z.add_1_r, inject_Z_plus.
    change (inject_Z 1) with 1%Q in *. lra. }
  simpl in H. inversion H; subst m. clear H.
  set (m2 := reset m1 1).
  assert (S4 : square 3 m2) by (apply reset_square; auto; lia).
  assert (G4 : mgood 3 m2) by (apply reset_good; auto; lia).
  assert (E2 : mget m2 2 1 = mget m1 0 1) by (unfold m2; rewrite (mget_reset 3) by (auto; lia); reflexivity).
  apply (ble_trans _ (mget (abstractize (max_const exDiv) m2) 2 1)).
  - exact (canonize_good 3 _ (abstractize_square 3 _ _ S4) (abstractize_good 3 _ _ S4 G4) 2 1 ltac:(lia) ltac:(lia)).
  - exact (abstractize_good 3 _ _ S4 G4 2 1 ltac:(lia) ltac:(lia)).
  - exact I.
  - apply (canonize_le 3); auto using abstractize_square, abstractize_good; lia.
  - rewrite (mget_abstractize 3) by (auto; lia). rewrite E2.
    destruct (bgeb (mget m1 0 1) (max_const exDiv)) eqn:B; auto. exfalso.
    assert (T2 : ble (max_const exDiv) (negb_i (S i))).
    { apply (ble_trans _ (mget m1 0 1)); [exact I|apply G3; lia|exact I| |exact T].
      revert B. pose proof (G3 0 1 ltac:(lia) ltac:(lia)) as Gd. revert Gd. generalize (mget m1 0 1).
      change (max_const exDiv) with ((Fin (inject_Z 1), true) : bound). intros [[| |x|] []]; bunf; bgo. }
    change (max_const exDiv) with ((Fin (inject_Z 1), true) : bound) in T2. unfold negb_i, ble in T2. cbn [fst snd andb negb] in T2.
    rewrite <- inject_Z_opp, <- Zle_Qle in T2. lia.
Qed.

Lemma exDiv_run : forall k v T, (0 <= v 1%nat)%Q -> exists w v' T', length w = k /\ increasing T w /\ run exDiv 0 v T w 0 v' T'.
Proof.
  induction k as [|k IH]; intros v T Hv.
  - exists [], v, T. split; auto. split; [exact I|constructor].
  - destruct (IH (reset_set (delay v ((T + 2) - T)) [1]) (T + 2)%Q) as (w & v' & T' & L & Inc & R).
    { unfold reset_set. simpl. lra. }
    exists ((97, (T + 2)%Q) :: w), v', T'. split; [simpl; auto|]. split; [split; [lra|auto]|].
    econstructor; [exists (mkS true false [(97, [exLoop])]), [exLoop]; simpl; auto|reflexivity| |exact R].
    intros g [<-|[]]. unfold holds, delay. simpl. change (inject_Z 1) with 1%Q. lra.
Qed.

Lemma exDiv_path : forall Z i w j, Inv exDiv (max_const exDiv) Z -> zpath Z i w j ->
  forall k s, zget Z i = Some s -> ble (mget (zm s) 2 1) (negb_i k) ->
  exists s', zget Z j = Some s' /\ ble (mget (zm s') 2 1) (negb_i (length w + k)).
Proof.
  intros Z i w j HI P. induction P as [|i c j w l He P IH]; intros k s G B; [eauto|].
  destruct He as (s0 & G0 & _ & Hin & _). unfold zget in G. assert (s0 = s) by congruence. subst s0.
  destruct (HI i s G) as [SO EO]. destruct (EO c j Hin) as (_ & s' & e & q & m & G' & Hed & Et & Em & Eq & Ez).
  apply exDiv_edge in Hed as (_ & _ & ->).
  pose proof (exDiv_step s m k SO Em B) as B'.
  destruct (HI j s' G') as [(S' & Gd & _) _]. change (S (clockSize exDiv)) with 3 in *.
  destruct (elapse_ok exDiv s SO) as [ES EG]. change (S (clockSize exDiv)) with 3 in *.
  destruct (succ_zone_ok 2 ltac:(lia) (max_const exDiv) _ exLoop m ES EG) as (Sm & Gm & _); [repeat constructor|repeat constructor|auto|].
  pose proof (zone_eqb_entries 3 m (zm s') Sm S' Ez 2 1 ltac:(lia) ltac:(lia) ltac:(congruence)) as EE.
  destruct (IH (S k) s' G') as (s2 & G2 & B2).
  - revert B' EE. pose proof (Gm 2 1 ltac:(lia) ltac:(lia)) as g1. pose proof (Gd 2 1 ltac:(lia) ltac:(lia)) as g2.
    revert g1 g2. unfold negb_i, beqb. generalize (mget m 2 1), (mget (zm s') 2 1). intros [[| |x|] []] [[| |y|] []]; bunf; bgo.
  - exists s2. split; auto. simpl. replace (S (length w + k)) with (length w + S k) by lia. auto.
Qed.

Lemma exDiv_bound : forall l, (forall s, In s l -> st_ok exDiv s) ->
  exists b, forall s, In s l -> exists v, zin 3 (zm s) v /\ (- inject_Z (Z.of_nat b) < v 1%nat - v 0%nat)%Q.
Proof.
  induction l as [|s l IH]; intros H; [exists 0; intros s []|].
  destruct IH as (b & Hb); [intros; apply H; right; auto|].
  destruct (H s (or_introl eq_refl)) as (_ & _ & (v & Hv) & _).
  exists (max b (S (Z.to_nat (Qceiling (v 0%nat - v 1%nat))))).
  assert (Mono : forall x y : nat, x <= y -> (inject_Z (Z.of_nat x) <= inject_Z (Z.of_nat y))%Q) by (intros; rewrite <- Zle_Qle; lia).
  intros s' [<-|Hs'].
  - exists v. split; auto. pose proof (Qle_ceiling (v 0%nat - v 1%nat)) as C.
    set (z := Qceiling (v 0%nat - v 1%nat)) in *.
    pose proof (Mono _ _ (Nat.le_max_r b (S (Z.to_nat z)))) as Mx.
    assert (inject_Z z < inject_Z (Z.of_nat (S (Z.to_nat z))))%Q by (rewrite <- Zlt_Qlt; lia). lra.
  - destruct (Hb s' Hs') as (u & Hu & Lu). exists u. split; auto.
    pose proof (Mono _ _ (Nat.le_max_l b (S (Z.to_nat (Qceiling (v 0%nat - v 1%nat)))))). lra.
Qed.

(* No amount of fuel is enough: the construction does not terminate. *)
Theorem C21_termination_refuted : wf_ta exDiv /\ labels_ok exDiv /\
  forall fuel, ta2za fuel exDiv zempty [] = OutOfFuel.
Proof.
  assert (LB : labels_ok exDiv).
  { intros p c e H. apply exDiv_edge in H as (_ & -> & _). unfold char_max. lia. }
  split; [exact exDiv_wf|]. split; [exact LB|]. intros fuel.
  assert (K : clockSize exDiv <= 255) by (vm_compute; lia).
  destruct (ta2za fuel exDiv zempty []) as [Z| | | |] eqn:E; auto; exfalso.
  - destruct (ta2za_fresh fuel exDiv Z exDiv_wf K E) as (I & EX & WZ & AA & NI & _ & _).
    destruct (exDiv_bound (zsts Z)) as (b & Hb).
    { intros s Hs. apply In_nth_error in Hs as (i & G). apply (I i s G). }
    destruct (exDiv_run b zeroval 0) as (w & v' & T' & L & Inc & R); [unfold zeroval; lra|].
    destruct (Inv_empty exDiv (max_const exDiv)) as [I0 E0].
    destruct (zero_zone_ok exDiv) as [Z0 Z0'].
    pose proof (ta2za_inv exDiv (max_const exDiv) exDiv_wf K fuel zempty [] Z eq_refl I0 E0 Z0 E) as (_ & _ & _ & _ & PI & _).
    destruct (PI 0 (or_introl eq_refl)) as (i & s & G & Q & _ & Em). destruct (Em eq_refl) as [Hi Em'].
    destruct (ta2za_run exDiv (max_const exDiv) exDiv_wf K Z I EX _ _ _ _ _ _ _ R Inc i s G Q) as (j & s' & P & _).
    { rewrite Em'. exact Z0'. }
    destruct (exDiv_path Z i (map fst w) j I P 0 s G) as (s2 & G2 & B2).
    { rewrite Em'. vm_compute. discriminate. }
    assert (L2 : length (map fst w) = b) by (rewrite map_length; exact L). rewrite L2, Nat.add_0_r in B2.
    destruct (Hb s2) as (v & Hv & Lv); [eapply nth_error_In; exact G2|].
    destruct (I j s2 G2) as [(_ & Gd & _) _]. change (S (clockSize exDiv)) with 3 in Gd.
    specialize (Hv 2 1 ltac:(lia) ltac:(lia)). apply (below_ble _ (negb_i b)) in Hv; [|apply Gd; lia|exact I0 || exact Logic.I|auto].
    unfold negb_i, below in Hv. cbn [fst snd ev] in Hv. lra.
  - destruct (ta2za_fine fuel exDiv exDiv_wf K LB) as [X|(Z & X)]; congruence.
  - destruct (ta2za_fine fuel exDiv exDiv_wf K LB) as [X|(Z & X)]; congruence.
  - destruct (ta2za_fine fuel exDiv exDiv_wf K LB) as [X|(Z & X)]; congruence.
Qed.

(* Termination for automata without cycles: [rk] decreases along every
   transition.  Missing: any automaton with a cycle (the general claim is
   refuted above). *)
Section Acyclic.
  Variables (A : ta) (rk : ptr -> nat) (D : nat).
  Hypothesis W : wf_ta A.
  Hypothesis K : clockSize A <= 255.
  Hypothesis LB : labels_ok A.
  Hypothesis RK : forall p c e q, is_edge A p c e -> etgt e = Some q -> rk q < rk p.
  Hypothesis HD : forall p s, In (p, s) (states A) -> length (flat_map snd (next s)) <= D.
  Let M := max_const A.

  Definition wt1 (Z : za) (i : nat) : nat := match zget Z i with Some s => (S D) ^ rk (zq s) | None => 0 end.
  Definition wt (Z : za) (q : list nat) : nat := list_sum (map (wt1 Z) q).

  Lemma wt_ext : forall Z Z' q, ext Z Z' -> (forall i, In i q -> i < length (zsts Z)) -> wt Z' q = wt Z q.
  Proof.
    intros Z Z' q X H. unfold wt. f_equal. apply map_ext_in. intros i Hi. unfold wt1.
    destruct (zget_some Z i (H i Hi)) as (s & G). rewrite G. destruct (X _ _ G) as (l & ->). auto.
  Qed.

  Lemma wt_app : forall Z q r, wt Z (q ++ r) = wt Z q + wt Z r.
  Proof. intros. unfold wt. rewrite map_app, list_sum_app. auto. Qed.

  (* one transition adds at most one configuration of lower rank *)
  Lemma edge_wt : forall Z nq i s c e Z' nq', Inv A M Z -> zget Z i = Some s -> is_edge A (zq s) c e ->
    ta2za_edge A M i (elapse (zm s)) c e (Z, nq) = Ok (Z', nq') -> (forall j, In j nq -> j < length (zsts Z)) ->
    S D * wt Z' nq' <= S D * wt Z nq + (S D) ^ rk (zq s).
  Proof.
    intros Z nq i s c e Z' nq' HI G He H HQ.
    destruct (ta2za_edge_inv A M W K Z nq i s c e Z' nq' HI G He H) as (_ & X & _).
    unfold ta2za_edge in H. destruct (etgt e) as [q|] eqn:Et; [|inversion H; subst; lia].
    destruct (succ_zone M (elapse (zm s)) e) as [m|]; [|inversion H; subst; lia].
    destruct (char_max <=? c); [discriminate|].
    destruct (zfind Z q m); [inversion H; subst; rewrite (wt_ext Z _ nq' X HQ); lia|].
    destruct (deref A q) as [ts|]; [|discriminate]. inversion H; subst.
    rewrite wt_app. rewrite (wt_ext Z _ nq X HQ). pose proof (RK _ _ _ _ He Et) as L.
    set (Z' := zupd _ _ _) in *.
    assert (E1 : wt Z' [length (zsts Z)] = S D ^ rk q).
    { unfold wt. simpl. unfold wt1. unfold Z'. rewrite zget_zupd. apply zget_lt in G.
      destruct (Nat.eqb_spec (length (zsts Z)) i); [lia|]. unfold zget. simpl.
      rewrite nth_error_app2 by lia. rewrite Nat.sub_diag. simpl. apply Nat.add_0_r. }
    rewrite E1, Nat.mul_add_distr_l. apply Nat.add_le_mono_l. rewrite <- Nat.pow_succ_r'. apply Nat.pow_le_mono_r; lia.
  Qed.

  Lemma conf_wt : forall Z i s Z' nq', Inv A M Z -> zget Z i = Some s -> ta2za_conf A M i (Z, []) = Ok (Z', nq') ->
    wt Z' nq' < (S D) ^ rk (zq s).
  Proof.
    intros Z i s Z' nq' HI Hs H. unfold ta2za_conf in H. simpl in H. rewrite Hs in H.
    destruct (deref A (zq s)) as [ts|] eqn:Ed; [|discriminate].
    assert (Hts : In (zq s, ts) (states A)) by (apply assoc_In; auto).
    pose proof (HD _ _ Hts) as HL.
    set (B := (S D) ^ rk (zq s)) in *.
    assert (G : S D * wt Z' nq' <= length (flat_map snd (next ts)) * B).
    { assert (G1 : grows A M Z [] Z' nq' /\ S D * wt Z' nq' <= length (flat_map snd (next ts)) * B); [|tauto].
      apply (fold_out_inv _ (fun d (p : za * list nat) => grows A M Z [] (fst p) (snd p) /\
         S D * wt (fst p) (snd p) <= length (flat_map snd d) * B)) in H; [exact H| |].
      - split; [apply grows_refl; auto|]. simpl. unfold wt. simpl. lia.
      - intros d [c es] [Z1 q1] [Z2 q2] Hce [G1 C1] H1. cbn [fst snd] in *.
        apply (fold_out_inv _ (fun d' (p : za * list nat) => grows A M Z [] (fst p) (snd p) /\
           S D * wt (fst p) (snd p) <= length (flat_map snd d) * B + length d' * B)) in H1.
        + destruct H1 as [G2 C2]. cbn [fst snd] in *. split; auto. rewrite flat_map_app, app_length. simpl. rewrite app_nil_r. lia.
        + split; auto. simpl. lia.
        + intros d' e [Z3 q3] [Z4 q4] He [G3 C3] H3. cbn [fst snd] in *.
          pose proof G3 as (I3 & X3 & N3 & (l & L & R) & A3). destruct (X3 _ _ Hs) as (l0 & Hl).
          assert (Hed : is_edge A (zq s) c e) by (exists ts, es; auto).
          destruct (ta2za_edge_inv A M W K Z3 q3 i _ c e Z4 q4 I3 Hl Hed H3) as (A1 & A2 & A4 & A5 & A6 & A7).
          split.
          * eapply grows_trans; [exact K|exact G3|]. repeat (split; auto).
          * rewrite app_length. simpl. simpl in L. subst q3.
            assert (HQ : forall j, In j l -> j < length (zsts Z3)) by (intros j Hj; apply R in Hj; lia).
            pose proof (edge_wt Z3 l i _ c e Z4 q4 I3 Hl Hed H3 HQ) as E. simpl zq in E. fold B in E. lia. }
    assert (0 < B) by (unfold B; apply Nat.neq_0_lt_0, Nat.pow_nonzero; lia).
    destruct (Nat.lt_ge_cases (wt Z' nq') B) as [X|X]; auto. exfalso. nia.
  Qed.

  Lemma loop_acyclic : forall fuel Z queue, Inv A M Z -> (forall i, In i queue -> i < length (zsts Z)) ->
    wt Z queue <= fuel -> exists Z', ta2za_loop fuel A M Z queue = Ok Z'.
  Proof.
    induction fuel as [|f IH]; intros Z queue HI HQ HF; destruct queue as [|i rest]; simpl; eauto.
    - exfalso. unfold wt in HF. simpl in HF. destruct (zget_some Z i) as (s & G); [apply HQ; left; auto|].
      unfold wt1 in HF. rewrite G in HF. assert (S D ^ rk (zq s) <> 0) by (apply Nat.pow_nonzero; lia). lia.
    - assert (Hi : i < length (zsts Z)) by (apply HQ; left; auto). destruct (zget_some Z i Hi) as (s & G).
      destruct (ta2za_conf_fine A M W K Z i LB HI Hi) as (Z' & nq' & E). rewrite E. simpl.
      pose proof (conf_wt Z i s Z' nq' HI G E) as L.
      destruct (ta2za_conf_inv A M W K _ _ _ _ HI E) as [(I1 & X1 & _ & (l & -> & R) & _) _]. simpl in *.
      assert (HR : forall j, In j rest -> j < length (zsts Z)) by (intros; apply HQ; right; auto).
      apply IH; auto.
      + intros j Hj. apply in_app_or in Hj as [Hj|Hj]; [pose proof (ext_length _ _ X1); apply HR in Hj; lia|apply R in Hj; lia].
      + rewrite wt_app, (wt_ext Z Z' rest X1 HR). unfold wt in HF at 1. simpl in HF. unfold wt1 at 1 in HF. rewrite G in HF.
        fold (wt Z rest) in HF. lia.
  Qed.

  Lemma ta2za_acyclic : exists fuel Z, ta2za fuel A zempty [] = Ok Z.
  Proof.
    unfold ta2za. set (z := fill (S (clockSize A)) bzero).
    set (new := filter _ (inits A)).
    assert (NewS : forall p, In p new -> In p (map fst (states A))) by (intros p Hp; apply filter_In in Hp as [Hp _]; apply (wf_inits _ W); auto).
    destruct new as [|p0 l] eqn:EN; [exists 0; eauto|]. rewrite <- EN in *.
    rewrite (new_states_ok A z new []) by auto. simpl.
    destruct (zero_zone_ok A) as [(Z1 & Z2 & Z3) _].
    set (Z0 := mkZA _ _). exists (wt Z0 (seq 0 (length new))). apply loop_acyclic; auto.
    - intros i s G. unfold zget in G. simpl in G. apply nth_error_In in G. apply in_map_iff in G as (p & <- & Hp).
      split; [|intros c j []]. repeat (split; auto).
    - intros i Hi. apply in_seq in Hi. simpl. rewrite map_length. lia.
  Qed.
End Acyclic.

Theorem C21_termination_acyclic_partial : forall A rk, wf_ta A -> clockSize A <= 255 -> labels_ok A ->
  (forall p c e q, is_edge A p c e -> etgt e = Some q -> rk q < rk p) ->
  exists fuel Z, ta2za fuel A zempty [] = Ok Z.
Proof.
  intros A rk W K LB RK.
  apply (ta2za_acyclic A rk (list_max (map (fun ps => length (flat_map snd (next (snd ps)))) (states A)))); auto.
  intros p s H. pose proof (proj1 (list_max_le _ _) (Nat.le_refl (list_max (map (fun ps => length (flat_map snd (next (snd ps)))) (states A))))) as F.
  rewrite Forall_forall in F. apply F. apply in_map_iff. exists (p, s). auto.
Qed.

Example C21_case : wf_ta exZ0 /\ labels_ok exZ0 /\ (forall p c e q, is_edge exZ0 p c e -> etgt e = Some q -> 3 - q < 3 - p).
Proof.
  split; [exact exZ0_wf|].
  assert (H : forall p c e, is_edge exZ0 p c e -> c = 97 /\ ((p = 0 /\ etgt e = Some 1) \/ (p = 1 /\ etgt e = Some 2))).
  { intros p c e (s & es & H1 & H2 & H3). simpl in H1. destruct H1 as [H1|[H1|[H1|[]]]]; inversion H1; subst; simpl in H2;
      try (destruct H2 as [H2|[]]; inversion H2; subst; destruct H3 as [<-|[]]; simpl; auto); destruct H2. }
  split.
  - intros p c e He. apply H in He as [-> _]. unfold char_max. lia.
  - intros p c e q He Et. apply H in He as (_ & [[-> E]|[-> E]]); rewrite E in Et; inversion Et; subst; lia.
Qed.

(* ================= C22 emptiness check ================= *)

Theorem C22_empty : forall Z, za_wf Z -> exists b, zempty_check Z = Ok b /\
  (b = true <-> forall i, zreachable Z i -> ~ zaccepting Z i).
Proof. intros Z W. apply zempty_check_spec; auto. Qed.

(* A decision procedure for za_wf, for the examples. *)
Definition za_wfb (Z : za) : bool :=
  forallb (fun i => match nth_error (zsts Z) i with Some s => zlive s | None => false end) (zinit Z) &&
  forallb (fun s => forallb (fun e => (fst e <? char_max) && (snd e <? length (zsts Z))) (znx s)) (zsts Z).
Lemma za_wfb_ok : forall Z, za_wfb Z = true -> za_wf Z.
Proof.
  intros Z H. apply andb_true_iff in H as [H1 H2]. rewrite forallb_forall in H1, H2. constructor.
  - intros i Hi. specialize (H1 i Hi). unfold alive. destruct (nth_error (zsts Z) i) as [s|]; [eauto|discriminate].
  - intros i s c j Hs Hc. specialize (H2 s (nth_error_In _ _ Hs)). rewrite forallb_forall in H2. specialize (H2 _ Hc).
    apply andb_true_iff in H2 as [A B]. apply Nat.ltb_lt in A, B. auto.
Qed.

(* states without zones; the third component lists the edges *)
Definition gz (acc : bool) (es : list (nat * nat)) : zst := mkZ 0 [] acc es true.
(* 0 -a-> 1 -b-> 0, 1 -ε-> 2 -ε-> 1, 3 accepting and unreachable *)
Definition exG : za := mkZA [gz false [(97, 1)]; gz false [(98, 0); (0, 2)]; gz false [(0, 1)]; gz true [(97, 0)]] [0].
Definition exG' : za := mkZA (zsts exG) [0; 3].

Example C22_case : za_wf exG /\ zempty_check exG = Ok true /\ za_wf exG' /\ zempty_check exG' = Ok false.
Proof. split; [apply za_wfb_ok; vm_compute; reflexivity|]. split; [vm_compute; reflexivity|].
  split; [apply za_wfb_ok|]; vm_compute; reflexivity. Qed.

(* ================= C23 epsilon closure ================= *)

Theorem C23_epsilonClosure : forall Z S, za_wf Z -> NoDup S -> (forall i, In i S -> alive Z i) ->
  exists R, epsilonClosure Z S = Ok R /\
    forall j, In j R <-> exists i n, In i S /\ zpath Z i (repeat 0 n) j.
Proof.
  intros Z S W D H. destruct (epsilonClosure_spec Z S D H) as (R & E & HR). exists R. split; auto.
  intros j. rewrite HR. split; [intros (i & Hi & n & P)|intros (i & n & Hi & P)]; eauto. exists i. split; auto. exists n; auto.
Qed.

Example C23_case : za_wf exG /\ alive exG 1 /\ epsilonClosure exG [1] = Ok [1; 2] /\ epsilonClosure exG [0] = Ok [0].
Proof.
  split; [apply za_wfb_ok; vm_compute; reflexivity|]. split; [eexists; split; [reflexivity|reflexivity]|]. vm_compute. auto.
Qed.

(* ================= C24, C25 removal of dead states ================= *)

(* [kept Z' i]: state i survives. *)
Definition kept (Z : za) (i : nat) : Prop := alive Z i.

Lemma kept_iff : forall Z R i, all_alive Z ->
  (alive (mkZA (map (fun is => let (i, s) := (is : nat * zst) in mkZ (zq s) (zm s) (zacc s) (znx s) (zlive s && mem i R))
              (combine (seq 0 (length (zsts Z))) (zsts Z))) (filter (fun i => mem i R) (zinit Z))) i
   <-> i < length (zsts Z) /\ In i R).
Proof.
  intros Z R i AA. unfold alive. simpl.
  assert (NE : nth_error (map (fun is => let (i, s) := (is : nat * zst) in mkZ (zq s) (zm s) (zacc s) (znx s) (zlive s && mem i R))
              (combine (seq 0 (length (zsts Z))) (zsts Z))) i =
    match nth_error (zsts Z) i with Some s => Some (mkZ (zq s) (zm s) (zacc s) (znx s) (zlive s && mem i R)) | None => None end).
  { rewrite nth_error_map. generalize (zsts Z). clear. intros l.
    assert (G : forall k, nth_error (combine (seq k (length l)) l) i = match nth_error l i with Some s => Some (k + i, s) | None => None end).
    { revert i. induction l as [|a l IH]; intros i k; destruct i; simpl; auto; [rewrite Nat.add_0_r; auto|].
      rewrite IH. destruct (nth_error l i); auto. do 2 f_equal. lia. }
    rewrite G. destruct (nth_error l i); auto. }
  rewrite NE. destruct (nth_error (zsts Z) i) as [s|] eqn:E.
  - assert (L : zlive s = true) by (apply AA; eapply nth_error_In; eauto).
    assert (i < length (zsts Z)) by (apply nth_error_Some; congruence). split.
    + intros (s' & H1 & H2). inversion H1; subst. simpl in H2. apply andb_true_iff in H2 as [_ H2]. apply mem_In in H2. auto.
    + intros [_ H1]. eexists. split; [reflexivity|]. simpl. rewrite L. apply mem_In. auto.
  - split; [intros (s & H & _); discriminate|]. intros [H _]. apply nth_error_None in E. lia.
Qed.

(* It finishes, and what survives is reachable and productive in the original
   automaton; nothing else is changed. *)
Theorem C24_removeDeadStates : forall Z, za_wf Z -> all_alive Z ->
  exists fuel0 Z', (forall fuel, removeDeadStates (fuel0 + fuel) Z = Ok Z') /\
    (forall i, kept Z' i -> zreachable Z i /\ zproductive Z i) /\
    (forall i, In i (zinit Z') <-> In i (zinit Z) /\ kept Z' i) /\
    length (zsts Z') = length (zsts Z) /\
    (forall i s', nth_error (zsts Z') i = Some s' -> exists s, nth_error (zsts Z) i = Some s /\
        zq s' = zq s /\ zm s' = zm s /\ zacc s' = zacc s /\ znx s' = znx s).
Proof.
  intros Z W AA. destruct (dead_search Z W AA) as (k & R & H1 & H2 & _). exists k. eexists. split; [|split; [|split]].
  - intros fuel. unfold removeDeadStates. rewrite H1. simpl. reflexivity.
  - intros i Hi. unfold kept in Hi. rewrite kept_iff in Hi by auto. apply H2. tauto.
  - intros i. unfold kept. rewrite kept_iff by auto. simpl. rewrite filter_In, mem_In. split; [|tauto].
    intros [A B]. split; auto. split; auto. apply alive_lt. apply (zwf_init Z W); auto.
  - split.
    + simpl. rewrite map_length, combine_length, seq_length. lia.
    + intros i s' H. simpl in H. rewrite nth_error_map in H.
      destruct (nth_error (combine (seq 0 (length (zsts Z))) (zsts Z)) i) as [[i0 s]|] eqn:E; [|discriminate].
      simpl in H. inversion H; subst. exists s. simpl. split; auto. 
      assert (G : forall l k i, nth_error (combine (seq k (length l)) l) i = Some (i0, s) -> nth_error l i = Some s).
      { clear. induction l as [|a l IH]; intros k i; destruct i; simpl; try discriminate; [congruence|apply IH]. }
      eapply G; eauto.
Qed.

(* 1 -a-> 2, 2 -b-> 3, 2 -c-> 4, 4 -d-> 2, 3 accepting (numbered from 0): state 3
   is reachable and leads to the accepting state through the cycle. *)
Definition exDead : za := mkZA
  [gz false [(97, 1)]; gz false [(98, 2); (99, 3)]; gz true []; gz false [(100, 1)]; gz false [(97, 4)]] [0; 4].

Example C24_case : za_wf exDead /\ all_alive exDead /\
  exists Z', removeDeadStates 100 exDead = Ok Z' /\ map zlive (zsts Z') = [true; true; true; false; false].
Proof.
  split; [apply za_wfb_ok; vm_compute; reflexivity|]. split.
  - intros s Hs. simpl in Hs. destruct Hs as [<-|[<-|[<-|[<-|[<-|[]]]]]]; reflexivity.
  - eexists. split; vm_compute; reflexivity.
Qed.

Theorem C25_complete_refuted : za_wf exDead /\ all_alive exDead /\
  zreachable exDead 3 /\ zproductive exDead 3 /\
  forall fuel Z', removeDeadStates fuel exDead = Ok Z' -> ~ kept Z' 3.
Proof.
  split; [apply za_wfb_ok; vm_compute; reflexivity|]. 
  assert (AA : all_alive exDead) by (intros s Hs; simpl in Hs; destruct Hs as [<-|[<-|[<-|[<-|[<-|[]]]]]]; reflexivity).
  assert (W : za_wf exDead) by (apply za_wfb_ok; vm_compute; reflexivity).
  split; [exact AA|].
  assert (ED : forall i c j, nth_error (zsts exDead) i <> None -> In (c, j) (match nth_error (zsts exDead) i with Some s => znx s | None => [] end) -> j < 5 -> zedge exDead i c j).
  { intros i c j Hi Hc Hj. destruct (nth_error (zsts exDead) i) as [s|] eqn:E; [|congruence].
    exists s. split; auto. split; [apply AA; eapply nth_error_In; eauto|]. split; auto. apply all_alive_i; auto. }
  split; [|split].
  - exists 0, [97; 99]. split; [left; auto|]. econstructor; [apply ED; [discriminate|left; reflexivity|lia]|].
    econstructor; [apply ED; [discriminate|right; left; reflexivity|lia]|]. constructor.
  - exists [100; 98], 2. split.
    + econstructor; [apply ED; [discriminate|left; reflexivity|lia]|]. econstructor; [apply ED; [discriminate|left; reflexivity|lia]|]. constructor.
    + eexists. split; reflexivity.
  - intros fuel Z' H.
    assert (E : exists Z0, (forall f, removeDeadStates (100 + f) exDead = Ok Z0) /\ ~ kept Z0 3).
    { eexists. split; [intros f; vm_compute; destruct f; reflexivity|]. intros (s & Hs & L). vm_compute in Hs. inversion Hs; subst. discriminate. }
    destruct E as (Z0 & E & N).
    assert (Mono : forall f k st R R0, dead_loop f exDead st R = Ok R0 -> dead_loop (f + k) exDead st R = Ok R0).
    { induction f as [|f IH]; intros k st R R0 HH; destruct st as [|[i P] st]; simpl in *; auto; try discriminate.
      - destruct k; auto.
      - destruct (zlock exDead i); [|discriminate]. apply IH; auto. }
    unfold removeDeadStates in H, E. destruct (dead_loop fuel exDead _ []) as [R| | | |] eqn:DL; try discriminate.
    specialize (E fuel). apply (Mono _ 100) in DL. rewrite Nat.add_comm in DL. rewrite DL in E. simpl in E, H.
    inversion E; subst. inversion H; subst. exact N.
Qed.

(* Complete when every cycle is a self-loop.  Missing: automata with longer
   cycles (refuted above). *)
Theorem C25_complete_partial : forall Z rk, za_wf Z -> all_alive Z ->
  (forall i c j, zedge Z i c j -> i <> j -> rk j < rk i) ->
  exists fuel0 Z', (forall fuel, removeDeadStates (fuel0 + fuel) Z = Ok Z') /\
    (forall i, kept Z' i <-> zreachable Z i /\ zproductive Z i).
Proof.
  intros Z rk W AA RK. destruct (dead_search Z W AA) as (k & R & H1 & H2 & H3). exists k. eexists. split.
  - intros fuel. unfold removeDeadStates. rewrite H1. simpl. reflexivity.
  - intros i. unfold kept. rewrite kept_iff by auto. split; [intros [_ H]; auto|]. intros [A B]. split; [|eapply H3; eauto].
    destruct A as (i0 & w & Hi & P). apply alive_lt. eapply zpath_alive; eauto. apply (zwf_init Z W); auto.
Qed.

Example C25_case : let Z := mkZA [gz false [(97, 0); (97, 1)]; gz false [(98, 2); (97, 3)]; gz true [(98, 2)]; gz false []] [0] in
  za_wf Z /\ all_alive Z /\ (forall i c j, zedge Z i c j -> i <> j -> 4 - j < 4 - i) /\
  exists Z', removeDeadStates 100 Z = Ok Z' /\ map zlive (zsts Z') = [true; true; true; false].
Proof.
  intros Z. split; [apply za_wfb_ok; vm_compute; reflexivity|]. split.
  - intros s Hs. simpl in Hs. destruct Hs as [<-|[<-|[<-|[<-|[]]]]]; reflexivity.
  - split.
    + intros i c j (s & Hs & _ & Hc & _) Ne. destruct i as [|[|[|[|i]]]]; simpl in Hs; inversion Hs; subst; simpl in Hc;
        [| | | |destruct i; discriminate]; repeat (destruct Hc as [Hc|Hc]; [inversion Hc; subst; lia|]); destruct Hc.
    + eexists. split; vm_compute; reflexivity.
Qed.
