(* The branch of monaa for patterns with unobservable transitions, on a word held
   in memory. *)
From Coq Require Import QArith Lqa Bool List ZArith Arith Lia.
From Verif Require Import Num NumFacts Outcome Constraint Zone ZoneFacts ZoneOps TA Spec TAFacts ZA Word Monaa MonaaFacts MonaaVec Skip SkipFacts EpsZone EpsZoneFacts EpsZoneOps EpsSpec.
Import ListNotations.
Open Scope nat_scope.

Lemma nondecreasing_snoc : forall u lo c t, nondecreasing lo u -> (last (map snd u) lo <= t)%Q -> nondecreasing lo (u ++ [(c, t)]).
Proof.
  induction u as [|[d s] u IH]; intros lo c t N L; cbn [app nondecreasing map snd] in *; [auto|].
  destruct N as [N1 N2]. split; auto. apply IH; auto. rewrite last_cons' in L. auto.
Qed.

Lemma observe_app : forall a b, observe (a ++ b) = observe a ++ observe b.
Proof. intros. unfold observe. apply filter_app. Qed.

Lemma rset_spec : forall r xs rst, Forall (fun x => x < length rst) xs ->
  exists l, rset r xs rst = Ok l /\ length l = length rst /\
    (forall x d, x < length rst -> nth x l d = if in_dec Nat.eq_dec x xs then r else nth x rst d) /\
    (forall s, In s l -> In s rst \/ (s = r /\ xs <> [])).
Proof.
  intros r xs rst F. unfold rset. replace (forallb _ xs) with true.
  2: { symmetry. apply forallb_forall. intros x Hx. rewrite Forall_forall in F. apply Nat.ltb_lt; auto. }
  eexists. split; [reflexivity|]. revert rst F. induction xs as [|y xs IH]; intros rst F; cbn [fold_left].
  - split; [auto|split; [|auto]]. intros x d Hx. destruct (in_dec Nat.eq_dec x []) as [[]|]; auto.
  - inversion F as [|? ? F1 F2]; subst. destruct (IH (set_nth rst y r)) as (A & B & C).
    { rewrite len_set_nth. auto. }
    rewrite len_set_nth in *. split; [auto|split].
    + intros x d Hx. rewrite B by auto. rewrite ZoneFacts.nth_set_nth by auto.
      destruct (in_dec Nat.eq_dec x xs) as [I1|I1], (in_dec Nat.eq_dec x (y :: xs)) as [I2|I2]; auto.
      * exfalso. apply I2. now right.
      * destruct I2 as [->|]; [rewrite Nat.eqb_refl; auto|contradiction].
      * destruct (Nat.eqb_spec x y); auto. subst. exfalso. apply I2. now left.
    + intros s Hs. destruct (C s Hs) as [I|[I _]]; [|right; split; [auto|discriminate]].
      apply In_nth with (d := r) in I as (k & K1 & K2). rewrite len_set_nth in K1. rewrite ZoneFacts.nth_set_nth in K2 by auto.
      destruct (k =? y); [right; split; [congruence|discriminate]|]. left. rewrite <- K2. apply nth_In; auto.
Qed.

Lemma zin_unused : forall n z k v v', iwf n z -> ~ used k z -> (forall j, j <> k -> ev v' j = ev v j) ->
  zin n (iz_mat z) v -> zin n (iz_mat z) v'.
Proof.
  intros n z k v v' W U E Z a b Ha Hb.
  destruct (Nat.lt_ge_cases k n) as [Hk|Hk].
  - assert (D : dead n (iz_mat z) k).
    { pose proof W as [Sh K]. destruct z as [l p|m al p].
      - exfalso. apply U. destruct l as [|[l0 u0] [|[l1 u1] [|[l2 u2] [|d l]]]]; cbn [shape] in Sh; try contradiction; destruct Sh; subst; cbn; lia.
      - cbn [iz_mat shape used] in *. destruct Sh as (B1 & B2 & B3 & B4 & B5 & B6). apply B6; auto. destruct (nth k al false); auto. exfalso; auto. }
    destruct D as [D0 D]. destruct (Nat.eq_dec a k) as [->|Na], (Nat.eq_dec b k) as [->|Nb].
    + apply below_eq with 0%Q; [ring|]. apply below_zero; auto. apply W; auto.
    + unfold below. destruct (D b Hb Nb) as [-> _]. exact I.
    + unfold below. destruct (D a Ha Na) as [_ ->]. exact I.
    + rewrite !E by auto. apply Z; auto.
  - rewrite !E by lia. apply Z; auto.
Qed.

Lemma fold_collect : forall {X E Y} (f : X -> E -> outcome (list Y)) (g : X -> E -> list Y -> outcome (list Y)) (es : X -> list E),
  (forall x e acc, g x e acc = do k <- f x e ; Ok (acc ++ k)) ->
  forall l acc, (forall x e, In x l -> In e (es x) -> exists k, f x e = Ok k) ->
  exists r, fold_out (fun x acc => fold_out (fun e acc => g x e acc) (es x) acc) l acc = Ok r /\
    forall y, In y r <-> In y acc \/ exists x e k, In x l /\ In e (es x) /\ f x e = Ok k /\ In y k.
Proof.
  intros X E Y f g es G.
  assert (H : forall x k acc, (forall e, In e k -> exists r, f x e = Ok r) ->
    exists r, fold_out (fun e acc => g x e acc) k acc = Ok r /\
      forall y, In y r <-> In y acc \/ exists e r', In e k /\ f x e = Ok r' /\ In y r').
  { intros x k. induction k as [|e k IH]; intros acc H; cbn [fold_out].
    - exists acc. split; auto. intros y. split; [auto|]. intros [H'|(e & r & [] & _)]; auto.
    - destruct (H e (or_introl eq_refl)) as (r1 & E1). rewrite G, E1. cbn [bind].
      destruct (IH (acc ++ r1)) as (r & R1 & R2); [intros; apply H; now right|]. exists r. split; auto.
      intros y. rewrite R2, in_app_iff. split.
      + intros [[H'|H']|(e' & r' & K1 & K2 & K3)]; auto.
        * right. exists e, r1. split; [now left|auto].
        * right. exists e', r'. split; [now right|auto].
      + intros [H'|(e' & r' & [<-|K1] & K2 & K3)]; auto.
        * left. right. rewrite E1 in K2. apply Ok_inj in K2. subst. auto.
        * right. exists e', r'. auto. }
  induction l as [|x l IH]; intros acc F; cbn [fold_out].
  - exists acc. split; auto. intros y. split; [auto|]. intros [H'|(x & e & r & [] & _)]; auto.
  - destruct (H x (es x) acc) as (r1 & R1 & R2); [intros; apply (F x); auto; now left|]. rewrite R1. cbn [bind].
    destruct (IH r1) as (r & R3 & R4); [intros; eapply F; eauto; now right|]. exists r. split; auto.
    intros y. rewrite R4, R2. split.
    + intros [[H'|(e & r' & K1 & K2 & K3)]|(x' & e & r' & K0 & K1 & K2 & K3)]; auto.
      * right. exists x, e, r'. split; [now left|auto].
      * right. exists x', e, r'. split; [now right|auto].
    + intros [H'|(x' & e & r' & [<-|K0] & K1 & K2 & K3)]; auto.
      * left. right. exists e, r'. auto.
      * right. exists x', e, r'. auto.
Qed.

Section EpsVec.
  Variable A : ta.
  Hypothesis WF : wf_ta A.
  Variable w : tword.
  Hypothesis ND : nondecreasing 0 w.
  (* The events are observable. *)
  Hypothesis OB : forall e, In e w -> fst e <> 0.
  Variable fx : bool.
  Hypothesis FX : fx = true \/ forall p e, is_edge A p 0 e -> eresets e = [].
  Notation n := (clockSize A).

  Definition epair (i j : nat) (cfg : econf) (v : valuation) (p0 : ptr) (u : tword) (va : valuation) (T : Q) : Prop :=
    In p0 (inits A) /\ run A p0 zeroval (v 0) u (est cfg) va T /\ observe u = slice w i j /\ nondecreasing (v 0) u /\
    ((T <= ev v (newestClock (ez cfg)))%Q \/ (i < j /\ (T <= tm w (j - 1))%Q)) /\
    forall x, x < n -> (va x == T - reft v (nth x (erst cfg) (RTime 0)))%Q.

  (* What is known of a configuration after the events i .. j-1. *)
  Record einv (i j : nat) (cfg : econf) (N : nat) : Prop := mkEinv {
    ei_wf : iwf N (ez cfg);
    ei_begin : ble (mget (iz_mat (ez cfg)) 1 0) (bnd (tm w i) false);
    ei_new : j < length w -> ble (mget (iz_mat (ez cfg)) (newestClock (ez cfg)) 0) (bnd (tm w j) true);
    ei_lo : newestClock (ez cfg) = 1 -> ble (lo_end w j) (mget (iz_mat (ez cfg)) 0 1);
    ei_len : length (erst cfg) = n;
    ei_rt : Forall (rt_ok (ez cfg)) (erst cfg);
    ei_state : In (est cfg) (map fst (states A));
    ei_live : (exists t, start_in w i t) -> iz_sat (ez cfg) = true;
    ei_sound : forall v, zin N (iz_mat (ez cfg)) v -> start_in w i (v 0) /\ exists p0 u va T, epair i j cfg v p0 u va T
  }.

  Lemma lo_end_below : forall j x, below (lo_end w j) (- x) <-> (if 0 <? j then (tm w (j - 1) < x)%Q else (0 <= x)%Q).
  Proof. intros j x. unfold lo_end. destruct (0 <? j); unfold below, bnd, bzero; cbn [fst snd]; lra. Qed.

  Lemma good_lo : forall j, good (lo_end w j).
  Proof. intros j. unfold lo_end. destruct (0 <? j); exact I. Qed.

  (* alloc and tighten up to the event j. *)
  Lemma end_zone_spec : forall i j cfg N e, i <= j -> j < length w -> einv i j cfg N -> Forall (fun g => cx g < n) (eguard e) ->
    exists N' z, end_zone vecC w j cfg e = Ok z /\ iwf N' z /\ N <= N' /\ ~ used (newestClock z) (ez cfg) /\
      (forall k, used k z <-> used k (ez cfg) \/ k = newestClock z) /\
      (forall v, zin N' (iz_mat z) v <->
         zin N (iz_mat (ez cfg)) v /\ (ev v (newestClock z) <= tm w j)%Q /\ below (lo_end w j) (- ev v (newestClock z)) /\
         (ev v (newestClock (ez cfg)) <= ev v (newestClock z))%Q /\
         forall g, In g (eguard e) -> holds g (ev v (newestClock z) - reft v (nth (cx g) (erst cfg) (RTime 0)))%Q) /\
      (forall a b, used a (ez cfg) -> used b (ez cfg) -> ble (mget (iz_mat z) a b) (mget (iz_mat (ez cfg)) a b)) /\
      (iz_sat z = true -> ble (mget (iz_mat z) (newestClock z) 0) (bnd (tm w j) true)).
  Proof.
    intros i j cfg N e L1 L2 E F. unfold end_zone. cbn [cat vecC]. unfold vec_at. rewrite (nth_error_nth' w (0, 0%Q)) by auto.
    cbn [bind]. rewrite low_end_vec by lia. cbn [bind].
    destruct (iz_alloc_spec N (ez cfg) (bnd (tm w j) true) (lo_end w j)) as (N' & z1 & A1 & A2 & A3 & A4 & A5 & A6 & A7);
      [apply E|exact I|apply good_lo|apply (ei_new _ _ _ _ E); auto|apply (ei_lo _ _ _ _ E)|].
    change (bnd (snd (nth j w (0, 0%Q))) true) with (bnd (tm w j) true). rewrite A1. cbn [bind].
    pose proof (ei_rt _ _ _ _ E) as RT. rewrite Forall_forall in RT.
    destruct (iz_guard_spec N' (erst cfg) (eguard e) z1 A2) as (z2 & B1 & B2 & B3 & B4 & B5).
    - apply Forall_forall. intros r Hr. specialize (RT r Hr). destruct r as [|k]; cbn in *; auto. rewrite A5. tauto.
    - intros Hin. apply RT in Hin. cbn in Hin. tauto.
    - rewrite (ei_len _ _ _ _ E). auto.
    - destruct B3 as [B3 B3'].
      pose proof (fun k => used_lt _ _ k (ei_wf _ _ _ _ E)) as UL0.
      assert (UL : forall k, used k (ez cfg) -> k < N') by (intros k Hk; specialize (UL0 k Hk); lia).
      assert (Z2 : forall v, zin N' (iz_mat z2) v <->
         zin N (iz_mat (ez cfg)) v /\ (ev v (newestClock z1) <= tm w j)%Q /\ below (lo_end w j) (- ev v (newestClock z1)) /\
         (ev v (newestClock (ez cfg)) <= ev v (newestClock z1))%Q /\
         forall g, In g (eguard e) -> holds g (ev v (newestClock z1) - reft v (nth (cx g) (erst cfg) (RTime 0)))%Q).
      { intros v. rewrite B4, A6. unfold below at 1, bnd. cbn [fst snd]. tauto. }
      exists N', z2. split; [auto|split; [auto|split; [auto|]]]. rewrite B3. split; [auto|split; [|split; [|split]]].
      + intros k. rewrite B3', A5. tauto.
      + exact Z2.
      + intros a b Ha Hb. pose proof (A7 a b Ha Hb).
        apply ble_trans with (mget (iz_mat z1) a b); [apply B2; auto|apply A2; auto|apply (ei_wf _ _ _ _ E); auto|apply B5; auto|auto].
      + intros Sa. pose proof (new_pos _ _ B2) as Pn. rewrite B3 in Pn.
        apply (canonical_tight N'); [apply iz_sat_canonical; auto|apply B2|lia|lia|lia|exact I|].
        intros v Z. apply Z2 in Z. unfold below, bnd. cbn [fst snd ev]. destruct Z as (_ & Z & _). lra.
  Qed.

  Definition econfs (i j : nat) (cs : list econf) : Prop := forall cfg, In cfg cs -> exists N, einv i j cfg N.

  Lemma reft_eq : forall v v' z r, rt_ok z r -> (forall k, used k z -> ev v' k = ev v k) -> reft v' r = reft v r.
  Proof. intros v v' z [q|k] R H; cbn in *; auto. apply H. tauto. Qed.

  Lemma ev_1 : forall v, ev v 1 = v 0. Proof. reflexivity. Qed.

  Lemma run_snoc : forall p v t u q va T c s e q', run A p v t u q va T -> is_edge A q c e -> etgt e = Some q' ->
    sat_guard (delay va (s - T)) (eguard e) -> run A p v t (u ++ [(c, s)]) q' (reset_set (delay va (s - T)) (eresets e)) s.
  Proof.
    intros. eapply run_app; [eassumption|]. econstructor; eauto. constructor.
  Qed.

  Lemma guard_delay : forall gs va s T (rf : nat -> Q), Forall (fun g => cx g < n) gs -> (forall x, x < n -> (va x == T - rf x)%Q) ->
    (sat_guard (delay va (s - T)) gs <-> forall g, In g gs -> holds g (s - rf (cx g))%Q).
  Proof.
    intros gs va s T rf F H. rewrite Forall_forall in F. unfold sat_guard.
    split; intros X g Hg; specialize (X g Hg); (eapply holds_eq; [|exact X]); unfold delay; rewrite H by auto; ring.
  Qed.

  Lemma reset_delay : forall va s T xs rst l r v x, Forall (fun x => x < length rst) xs -> rset r xs rst = Ok l -> x < length rst ->
    (xs <> [] -> (reft v r == s)%Q) -> (va x == T - reft v (nth x rst (RTime 0)))%Q ->
    (reset_set (delay va (s - T)) xs x == s - reft v (nth x l (RTime 0)))%Q.
  Proof.
    intros va s T xs rst l r v x F E Hx Hr Hv. destruct (rset_spec r xs rst F) as (l' & E' & L & X & _).
    rewrite E in E'. apply Ok_inj in E'. subst l'. rewrite X by auto. unfold reset_set, delay.
    destruct (in_dec Nat.eq_dec x xs) as [I|I]; [rewrite Hr; [ring|]; intros ->; inversion I|rewrite Hv; ring].
  Qed.

  (* ---------------- unobservable transitions ---------------- *)

  Lemma eps_edge_spec : forall i j cfg N e, i <= j -> j < length w -> einv i j cfg N -> is_edge A (est cfg) 0 e ->
    exists l, eps_edge vecC fx w j cfg e = Ok l /\ (econfs i j l /\ forall c, In c l -> etgt e = Some (est c)) /\
      forall q v s, etgt e = Some q -> zin N (iz_mat (ez cfg)) v -> (s <= tm w j)%Q -> below (lo_end w j) (- s) ->
        (ev v (newestClock (ez cfg)) <= s)%Q ->
        (forall g, In g (eguard e) -> holds g (s - reft v (nth (cx g) (erst cfg) (RTime 0)))%Q) ->
        exists cfg' N' v', In cfg' l /\ einv i j cfg' N' /\ est cfg' = q /\ zin N' (iz_mat (ez cfg')) v' /\
          v' 0 = v 0 /\ ev v' (newestClock (ez cfg')) = s /\
          forall x T va, x < n -> (va x == T - reft v (nth x (erst cfg) (RTime 0)))%Q ->
            (reset_set (delay va (s - T)) (eresets e) x == s - reft v' (nth x (erst cfg') (RTime 0)))%Q.
  Proof.
    intros i j cfg N e L1 L2 E He. pose proof (wf_is_edge _ _ _ _ WF He) as (WE1 & WE2 & WE3).
    destruct (end_zone_spec i j cfg N e L1 L2 E WE3) as (N' & z & Z1 & Z2 & Z3 & Z4 & Z5 & Z6 & Z7 & Z8).
    pose proof (ei_wf _ _ _ _ E) as W0.
    unfold eps_edge. destruct (etgt e) as [q|] eqn:Et; [|exists []; split; [auto|split; [split; intros ? []|intros; discriminate]]].
    rewrite Z1. cbn [bind]. destruct (iz_sat z) eqn:Sa.
    2: { exists []. split; [auto|split; [split; intros ? []|]]. intros q' v s _ V1 V2 V3 V4 V5. exfalso.
         set (v' := fun k => if S k =? newestClock z then s else v k).
         pose proof (new_pos _ _ Z2) as Pn.
         assert (Ev : forall k, k <> newestClock z -> ev v' k = ev v k).
         { intros [|k] Hk; auto. cbn. unfold v'. destruct (Nat.eqb_spec (S k) (newestClock z)); auto. contradiction. }
         assert (En : ev v' (newestClock z) = s).
         { destruct (newestClock z) as [|k] eqn:Ek; [lia|]. cbn [ev]. unfold v'. rewrite ?Ek, Nat.eqb_refl. auto. }
         assert (iz_sat z = true); [|congruence]. apply (iz_sat_spec N'); auto. exists v'. apply Z6. rewrite En.
         split; [eapply zin_unused; eauto|]. split; [auto|split; [auto|split]].
         - rewrite Ev; auto. intros Eq. apply Z4. rewrite <- Eq. apply (used_new N); auto.
         - intros g Hg. rewrite (reft_eq v v' (ez cfg)); auto.
           + pose proof (ei_rt _ _ _ _ E) as RT. rewrite Forall_forall in RT, WE3. apply RT. apply nth_In. rewrite (ei_len _ _ _ _ E). auto.
           + intros k Hk. apply Ev. intros ->. contradiction. }
    set (r := RClock (if fx then newestClock z else 0)).
    assert (WE2' : Forall (fun x => x < length (erst cfg)) (eresets e)) by (rewrite (ei_len _ _ _ _ E); auto).
    destruct (rset_spec r (eresets e) (erst cfg) WE2') as (rst' & R1 & R2 & R3 & R4). rewrite R1. cbn [bind].
    pose proof (ei_rt _ _ _ _ E) as RT. rewrite Forall_forall in RT. pose proof (new_pos _ _ Z2) as Pn.
    assert (RZ : eresets e <> [] -> r = RClock (newestClock z)).
    { intros H. unfold r. destruct FX as [->|H']; auto. exfalso. apply H. eapply H'; eauto. }
    assert (RT' : Forall (rt_ok z) rst').
    { apply Forall_forall. intros s Hs. destruct (R4 s Hs) as [Hs'|[-> Hs']].
      - specialize (RT s Hs'). destruct s as [|k]; cbn in *; auto. rewrite Z5. tauto.
      - rewrite RZ by auto. cbn. split; [lia|]. apply (used_new N'); auto. }
    destruct (iz_update_spec N' z rst' Z2 Sa RT') as (z' & U1 & U2 & U3 & U4 & U5 & U6 & U7 & U8 & U9).
    rewrite U1. cbn [bind]. exists [mkEC q rst' z']. split; [auto|].
    pose proof (used_new _ _ U2) as Un. rewrite U4 in Un. pose proof (used_0 _ _ U2) as Uz. pose proof (used_1 _ _ U2) as Ui.
    pose proof (used_0 _ _ W0) as Vz. pose proof (used_1 _ _ W0) as Vi.
    assert (Inv : einv i j (mkEC q rst' z') N').
    { constructor; cbn [est erst ez]; auto.
      - rewrite U9 by auto. apply ble_trans with (mget (iz_mat (ez cfg)) 1 0); [| | |apply Z7; auto|apply (ei_begin _ _ _ _ E)].
        + apply Z2; pose proof (iwf_dim _ _ Z2); lia.
        + apply W0; pose proof (iwf_dim _ _ W0); lia.
        + exact I.
      - intros _. rewrite U4. rewrite U9 by auto. apply Z8. auto.
      - rewrite U4. intros Eq. exfalso. apply Z4. rewrite Eq. auto.
      - rewrite R2. apply E.
      - intros v Hv. destruct (U8 v Hv) as (v1 & V1 & V2). apply Z6 in V1. destruct V1 as (V1 & V3 & V4 & V5 & V6).
        destruct (ei_sound _ _ _ _ E v1 V1) as (S1 & p0 & u & va & T & P1 & P2 & P3 & P4 & P5 & P6).
        assert (E0 : v1 0 = v 0) by (change (ev v1 1 = ev v 1); auto). rewrite <- E0. split; auto.
        set (s := ev v (newestClock z)). assert (Es : ev v1 (newestClock z) = s) by (apply V2; auto).
        rewrite Es in *. apply lo_end_below in V4.
        assert (TS : (T <= s)%Q).
        { destruct P5 as [P5|[P5 P5']]; [lra|]. destruct (Nat.ltb_spec 0 j); [lra|lia]. }
        exists p0, (u ++ [(0, s)]), (reset_set (delay va (s - T)) (eresets e)), s. split; [auto|split; [|split; [|split; [|split]]]].
        + rewrite <- E0. eapply run_snoc; eauto. eapply (guard_delay (eguard e) va s T (fun x => reft v1 (nth x (erst cfg) (RTime 0)))); auto.
        + rewrite observe_app. rewrite P3. cbn. rewrite app_nil_r. auto.
        + rewrite <- E0. apply nondecreasing_snoc; auto. rewrite <- (run_time _ _ _ _ _ _ _ _ P2). auto.
        + left. cbn [ez]. rewrite U4. unfold s. lra.
        + intros x Hx. cbn [erst].
          assert (Lx : x < length rst') by (rewrite R2, (ei_len _ _ _ _ E); auto).
          rewrite <- (reft_eq v v1 z' (nth x rst' (RTime 0))); auto.
          * eapply reset_delay; eauto; [rewrite R2 in Lx; auto|]. intros H. rewrite RZ by auto. cbn. rewrite Es. lra.
          * rewrite Forall_forall in U6. apply U6. apply nth_In; auto. }
    split.
    - split; intros c [<-|[]]; [exists N'; exact Inv|auto].
    - intros q' v s Eq V1 V2 V3 V4 V5. injection Eq as <-.
      set (v' := fun k => if S k =? newestClock z then s else v k).
      assert (Ev : forall k, k <> newestClock z -> ev v' k = ev v k).
      { intros [|k] Hk; auto. cbn. unfold v'. destruct (Nat.eqb_spec (S k) (newestClock z)); auto. contradiction. }
      assert (En : ev v' (newestClock z) = s).
      { destruct (newestClock z) as [|k] eqn:Ek; [lia|]. cbn [ev]. unfold v'. rewrite ?Ek, Nat.eqb_refl. auto. }
      assert (Er : forall x, x < n -> reft v' (nth x (erst cfg) (RTime 0)) = reft v (nth x (erst cfg) (RTime 0))).
      { intros x Hx. apply (reft_eq v v' (ez cfg)); [apply RT; apply nth_In; rewrite (ei_len _ _ _ _ E); auto|].
        intros k Hk. apply Ev. intros ->. contradiction. }
      exists (mkEC q rst' z'), N', v'. split; [now left|]. split; [auto|]. split; [auto|]. cbn [ez erst]. split; [|split; [|split]].
      + apply U7. apply Z6. rewrite En. split; [eapply zin_unused; eauto|]. split; [auto|split; [auto|split]].
        * rewrite Ev; auto. intros Eq. apply Z4. rewrite <- Eq. apply (used_new N); auto.
        * intros g Hg. rewrite Er; auto. rewrite Forall_forall in WE3. auto.
      + change (ev v' 1 = ev v 1). apply Ev. intros Eq. apply Z4. rewrite <- Eq. auto.
      + rewrite U4. auto.
      + intros x T va Hx Hv. eapply reset_delay; eauto; [rewrite (ei_len _ _ _ _ E); auto| |rewrite Er; auto].
        intros H. rewrite RZ by auto. cbn. rewrite En. lra.
  Qed.

  Lemma eps_step_spec : forall i j cs, i <= j -> j < length w -> econfs i j cs ->
    exists nx, eps_step vecC A fx w j cs = Ok nx /\ econfs i j nx /\
      (forall c, In c nx -> exists cfg e, In cfg cs /\ is_edge A (est cfg) 0 e /\ etgt e = Some (est c)) /\
      forall cfg e l, In cfg cs -> is_edge A (est cfg) 0 e -> eps_edge vecC fx w j cfg e = Ok l -> incl l nx.
  Proof.
    intros i j cs L1 L2 C. unfold eps_step.
    destruct (fold_collect (eps_edge vecC fx w j) (fun cfg e acc => do l <- eps_edge vecC fx w j cfg e ; Ok (acc ++ l)) (fun cfg => edges_at A (est cfg) 0)
      (fun _ _ _ => eq_refl) cs []) as (r & R1 & R2).
    - intros cfg e H1 H2. apply edges_at_spec in H2; auto. destruct (C _ H1) as (N & E).
      destruct (eps_edge_spec i j cfg N e L1 L2 E H2) as (l & X & _). eauto.
    - exists r. split; auto. split; [|split].
      + intros cfg Hc. apply R2 in Hc. destruct Hc as [[]|(c0 & e & k & K1 & K2 & K3 & K4)].
        apply edges_at_spec in K2; auto. destruct (C _ K1) as (N & E).
        destruct (eps_edge_spec i j c0 N e L1 L2 E K2) as (l & X1 & (X2 & _) & _). rewrite K3 in X1. apply Ok_inj in X1. subst. auto.
      + intros cfg Hc. apply R2 in Hc. destruct Hc as [[]|(c0 & e & k & K1 & K2 & K3 & K4)].
        apply edges_at_spec in K2; auto. destruct (C _ K1) as (N & E). exists c0, e. split; [auto|split; [auto|]].
        destruct (eps_edge_spec i j c0 N e L1 L2 E K2) as (l & X1 & (_ & X2) & _). rewrite K3 in X1. apply Ok_inj in X1. subst. auto.
      + intros cfg e l H1 H2 H3 y Hy. apply R2. right. exists cfg, e, l. repeat split; auto. apply edges_at_spec; auto.
  Qed.

  (* All the configurations reached by the unobservable transitions of [cfg]. *)
  Definition succ_in (j : nat) (cfg : econf) (cs : list econf) : Prop :=
    forall e l, is_edge A (est cfg) 0 e -> eps_edge vecC fx w j cfg e = Ok l -> incl l cs.

  (* The unobservable transitions make no cycle. *)
  Definition descends (rk : ptr -> nat) : Prop := forall p e q, is_edge A p 0 e -> etgt e = Some q -> rk q < rk p.

  Lemma eps_rounds_spec : forall i j, i <= j -> j < length w -> forall fuel cur cs, econfs i j cs -> incl cur cs ->
    (forall cfg, In cfg cs -> In cfg cur \/ succ_in j cfg cs) ->
    (eps_rounds vecC A fx fuel w j cur cs = OutOfFuel /\ forall rk, descends rk -> exists cfg, In cfg cur /\ fuel <= rk (est cfg)) \/
    exists r, eps_rounds vecC A fx fuel w j cur cs = Ok r /\ econfs i j r /\ incl cs r /\ forall cfg, In cfg r -> succ_in j cfg r.
  Proof.
    intros i j L1 L2. induction fuel; intros cur cs C I H; destruct cur as [|c cur]; cbn [eps_rounds].
    1,3: right; exists cs; split; [auto|split; [auto|split; [apply incl_refl|]]]; intros cfg Hc; destruct (H cfg Hc) as [[]|]; auto.
    - left. split; auto. intros rk _. exists c. split; [now left|lia].
    - destruct (eps_step_spec i j (c :: cur) L1 L2) as (nx & N1 & N2 & N4 & N3); [intros x Hx; apply C; auto|]. rewrite N1. cbn [bind].
      destruct (IHfuel nx (cs ++ nx)) as [[F1 F2]|(r & R1 & R2 & R3 & R4)].
      + intros x Hx. apply in_app_or in Hx. destruct Hx; [apply C|apply N2]; auto.
      + apply incl_appr, incl_refl.
      + intros cfg Hc. apply in_app_or in Hc. destruct Hc as [Hc|Hc]; [|auto]. right.
        destruct (H cfg Hc) as [Hc'|Hc'].
        * intros e l H1 H2. apply incl_appr. eapply N3; eauto.
        * intros e l H1 H2. apply incl_appl. eapply Hc'; eauto.
      + left. split; auto. intros rk Hr. destruct (F2 rk Hr) as (c1 & Hc1 & Hl). destruct (N4 c1 Hc1) as (c2 & e & K1 & K2 & K3).
        exists c2. split; auto. specialize (Hr _ _ _ K2 K3). lia.
      + right. exists r. split; [auto|split; [auto|split; [|auto]]]. intros x Hx. apply R3, in_or_app. auto.
  Qed.

  Lemma has_eps_edge : forall p e, is_edge A p 0 e -> has_eps A p = true.
  Proof.
    intros p e H. apply edges_at_spec in H; auto. unfold edges_at in H. unfold has_eps.
    destruct (deref A p) as [s|]; [|inversion H]. unfold next_find in H. destruct (assoc 0 (next s)); auto; inversion H.
  Qed.

  Lemma eps_close_spec : forall i j, i <= j -> j < length w -> forall fuel cs, econfs i j cs ->
    (eps_close vecC A fx fuel w j cs = OutOfFuel /\ forall rk, descends rk -> exists p, fuel <= rk p) \/
    exists r, eps_close vecC A fx fuel w j cs = Ok r /\ econfs i j r /\ incl cs r /\ forall cfg, In cfg r -> succ_in j cfg r.
  Proof.
    intros i j L1 L2 fuel cs C. unfold eps_close.
    destruct (eps_rounds_spec i j L1 L2 fuel (filter (fun cfg => has_eps A (est cfg)) cs) cs C) as [[F1 F2]|F].
    - intros x Hx. apply filter_In in Hx. tauto.
    - intros cfg Hc. destruct (has_eps A (est cfg)) eqn:E; [left; apply filter_In; auto|]. right.
      intros e l He _. apply has_eps_edge in He. congruence.
    - left. split; auto. intros rk Hr. destruct (F2 rk Hr) as (c & _ & H). eauto.
    - right. auto.
  Qed.

  (* ---------------- observed events ---------------- *)

  Lemma obs_edge_spec : forall i j cfg N e, i <= j -> j < length w -> einv i j cfg N -> is_edge A (est cfg) (fst (nth j w (0, 0%Q))) e ->
    exists l, obs_edge (tm w j) cfg e = Ok l /\ econfs i (S j) l /\
      forall q v, etgt e = Some q -> zin N (iz_mat (ez cfg)) v ->
        (forall g, In g (eguard e) -> holds g (tm w j - reft v (nth (cx g) (erst cfg) (RTime 0)))%Q) ->
        exists cfg' N', In cfg' l /\ einv i (S j) cfg' N' /\ est cfg' = q /\ zin N' (iz_mat (ez cfg')) v /\
          newestClock (ez cfg') = newestClock (ez cfg) /\
          forall x T va, x < n -> (va x == T - reft v (nth x (erst cfg) (RTime 0)))%Q ->
            (reset_set (delay va (tm w j - T)) (eresets e) x == tm w j - reft v (nth x (erst cfg') (RTime 0)))%Q.
  Proof.
    intros i j cfg N e L1 L2 E He. pose proof (wf_is_edge _ _ _ _ WF He) as (WE1 & WE2 & WE3).
    pose proof (ei_wf _ _ _ _ E) as W0. pose proof (ei_rt _ _ _ _ E) as RT0. pose proof (ei_len _ _ _ _ E) as LE.
    unfold obs_edge. destruct (etgt e) as [q|] eqn:Et; [|exists []; split; [auto|split; [intros ? []|intros; discriminate]]].
    destruct (iz_guard_at_spec N (tm w j) (erst cfg) (eguard e) (ez cfg) W0 RT0) as (z & G1 & G2 & G3); [rewrite LE; auto|].
    rewrite G1. cbn [bind]. destruct (iz_sat z) eqn:Sa.
    2: { exists []. split; [auto|split; [intros ? []|]]. intros q' v Eq V1 V2. exfalso.
         destruct G3 as [(G3 & G4 & _)|(_ & G4)]; [|apply (G4 v); auto].
         assert (iz_sat z = true); [|congruence]. apply (iz_sat_spec N); auto. exists v. apply G4. auto. }
    destruct G3 as [(G3 & G4 & G5)|(G3 & _)]; [|congruence].
    set (t := tm w j) in *.
    assert (WE2' : Forall (fun x => x < length (erst cfg)) (eresets e)) by (rewrite LE; auto).
    destruct (rset_spec (RTime t) (eresets e) (erst cfg) WE2') as (rst' & R1 & R2 & R3 & R4). rewrite R1. cbn [bind].
    pose proof RT0 as RT. rewrite Forall_forall in RT.
    assert (RT' : Forall (rt_ok z) rst').
    { apply Forall_forall. intros s Hs. destruct (R4 s Hs) as [Hs'|[-> Hs']]; [|exact I]. eapply rt_ok_same; eauto. }
    destruct (iz_update_spec N z rst' G3 Sa RT') as (z' & U1 & U2 & U3 & U4 & U5 & U6 & U7 & U8 & U9).
    rewrite U1. cbn [bind]. exists [mkEC q rst' z']. split; [auto|].
    pose proof (used_new _ _ U2) as Un. rewrite U4 in Un. pose proof (used_0 _ _ U2) as Uz. pose proof (used_1 _ _ U2) as Ui.
    assert (En : newestClock z = newestClock (ez cfg)) by apply G2.
    assert (UL : forall k, used k z' -> k < N) by (intros; eapply used_lt; eauto).
    assert (B10 : ble (mget (iz_mat z') 1 0) (bnd (tm w i) false)).
    { rewrite U9 by auto. apply ble_trans with (mget (iz_mat (ez cfg)) 1 0); [apply G3; auto|apply W0; auto|exact I|apply G5; auto|apply (ei_begin _ _ _ _ E)]. }
    assert (Inv : einv i (S j) (mkEC q rst' z') N).
    { constructor; cbn [est erst ez]; auto.
      - intros L3. rewrite U4. rewrite U9 by auto.
        apply ble_trans with (bnd (tm w j) true); [apply G3; auto|exact I|exact I| |].
        + apply ble_trans with (mget (iz_mat (ez cfg)) (newestClock z) 0); [apply G3; auto|apply W0; auto|exact I|apply G5; auto|].
          rewrite En. apply (ei_new _ _ _ _ E); auto.
        + pose proof (tm_mono w ND j (S j) ltac:(lia) L3). unfold ble, bnd. cbn. lra.
      - intros Eq1. pose proof (iz_sat_canonical N z' U2 U3) as Can.
        destruct (canonical_nonempty N _ Can ltac:(apply U2) ltac:(pose proof (iwf_dim _ _ U2); lia)) as (v0 & V0).
        (* the lower bound of the begin point is below the event *)
        assert (X : ble bzero (badd (mget (iz_mat z') 1 0) (mget (iz_mat z') 0 1))).
        { assert (H1 : 1 < N) by auto. assert (H0 : 0 < N) by auto.
          destruct Can as [C1 C2]. apply ble_trans with (mget (iz_mat z') 1 1); [exact I|apply U2; auto|apply good_add; apply U2; auto|apply C1; auto|apply C2; auto]. }
        pose proof (tm_mono w ND i j L1 L2) as Mo. unfold lo_end. cbn [Nat.ltb Nat.leb]. replace (S j - 1) with j by lia.
        assert (Ga : good (mget (iz_mat z') 1 0)) by (apply U2; auto). assert (Gb : good (mget (iz_mat z') 0 1)) by (apply U2; auto).
        revert X B10 Ga Gb. generalize (mget (iz_mat z') 1 0) (mget (iz_mat z') 0 1). intros [[| |x|] a] [[| |y|] b]; unfold ble, badd, bzero, bnd, good; cbn; try tauto.
        intros X1 X2 _ _. destruct a, b; cbn in *; lra.
      - rewrite R2. auto.
      - intros v Hv. destruct (U8 v Hv) as (v1 & V1 & V2). apply G4 in V1. destruct V1 as (V1 & V3).
        destruct (ei_sound _ _ _ _ E v1 V1) as (S1 & p0 & u & va & T & P1 & P2 & P3 & P4 & P5 & P6).
        assert (E0 : v1 0 = v 0) by (change (ev v1 1 = ev v 1); auto). rewrite <- E0. split; auto.
        assert (NT : (ev v1 (newestClock (ez cfg)) <= t)%Q).
        { pose proof (V1 (newestClock (ez cfg)) 0 ltac:(rewrite <- En; auto) ltac:(auto)) as Z.
          assert (Y : below (bnd (tm w j) true) (ev v1 (newestClock (ez cfg)) - ev v1 0)).
          {  eapply below_ble; [| |apply (ei_new _ _ _ _ E); auto|exact Z]; [apply W0; auto; rewrite <- En; auto|exact I]. }
          unfold below, bnd in Y. cbn in Y. unfold t. lra. }
        assert (TS : (T <= t)%Q).
        { destruct P5 as [P5|[P5 P5']]; [lra|]. pose proof (tm_mono w ND (j - 1) j ltac:(lia) L2). unfold t. lra. }
        exists p0, (u ++ [(fst (nth j w (0, 0%Q)), t)]), (reset_set (delay va (t - T)) (eresets e)), t. split; [auto|split; [|split; [|split; [|split]]]].
        + rewrite <- E0. eapply run_snoc; eauto. eapply (guard_delay (eguard e) va t T (fun x => reft v1 (nth x (erst cfg) (RTime 0)))); auto.
        + rewrite observe_app, P3, slice_snoc by auto. f_equal. unfold observe. cbn [filter fst].
          assert (fst (nth j w (0, 0%Q)) <> 0) by (apply OB, nth_In; auto).
          destruct (Nat.eqb_spec (fst (nth j w (0, 0%Q))) 0); [contradiction|]. cbn. unfold t, tm. rewrite <- surjective_pairing. auto.
        + rewrite <- E0. apply nondecreasing_snoc; auto. rewrite <- (run_time _ _ _ _ _ _ _ _ P2). auto.
        + right. split; [lia|]. replace (S j - 1) with j by lia. unfold t. lra.
        + intros x Hx. cbn [erst].
          assert (Lx : x < length rst') by (rewrite R2, LE; auto).
          rewrite <- (reft_eq v v1 z' (nth x rst' (RTime 0))); auto.
          * eapply reset_delay; eauto; [rewrite R2 in Lx; auto|]. intros H. cbn. lra.
          * rewrite Forall_forall in U6. apply U6. apply nth_In; auto. }
    split.
    - intros c [<-|[]]. exists N. exact Inv.
    - intros q' v Eq V1 V2. injection Eq as <-. exists (mkEC q rst' z'), N. split; [now left|]. split; [auto|]. split; [auto|]. cbn [ez erst].
      split; [apply U7, G4; auto|]. split; [congruence|].
      intros x T va Hx Hv. eapply reset_delay; eauto; [rewrite LE; auto|]. intros; cbn; lra.
  Qed.

  Lemma obs_step_spec : forall i j cs, i <= j -> j < length w -> econfs i j cs ->
    exists nx, obs_step A (fst (nth j w (0, 0%Q))) (tm w j) cs = Ok nx /\ econfs i (S j) nx /\
      forall cfg e l, In cfg cs -> is_edge A (est cfg) (fst (nth j w (0, 0%Q))) e -> obs_edge (tm w j) cfg e = Ok l -> incl l nx.
  Proof.
    intros i j cs L1 L2 C. unfold obs_step.
    destruct (fold_collect (obs_edge (tm w j)) (fun cfg e acc => do l <- obs_edge (tm w j) cfg e ; Ok (acc ++ l))
      (fun cfg => edges_at A (est cfg) (fst (nth j w (0, 0%Q)))) (fun _ _ _ => eq_refl) cs []) as (r & R1 & R2).
    - intros cfg e H1 H2. apply edges_at_spec in H2; auto. destruct (C _ H1) as (N & E).
      destruct (obs_edge_spec i j cfg N e L1 L2 E H2) as (l & X & _). eauto.
    - exists r. split; auto. split.
      + intros cfg Hc. apply R2 in Hc. destruct Hc as [[]|(c0 & e & k & K1 & K2 & K3 & K4)].
        apply edges_at_spec in K2; auto. destruct (C _ K1) as (N & E).
        destruct (obs_edge_spec i j c0 N e L1 L2 E K2) as (l & X1 & X2 & _). rewrite K3 in X1. apply Ok_inj in X1. subst. auto.
      + intros cfg e l H1 H2 H3 y Hy. apply R2. right. exists cfg, e, l. repeat split; auto. apply edges_at_spec; auto.
  Qed.

  (* ---------------- accepting transitions ---------------- *)

  (* A reported zone: all its pairs are matches, and there is one. *)
  Definition ezone_ok (i : nat) (z : mat) : Prop :=
    square 3 z /\ mgood 3 z /\ (exists v, zin 3 z v) /\
    forall t t', zin 3 z (pairv t t') -> start_in w i t /\ eps_matches A w t t'.

  Lemma split_at : forall (w : tword) j, j < length w -> w = firstn j w ++ nth j w (0, 0%Q) :: skipn (S j) w.
  Proof.
    intros w0 j L. rewrite <- (firstn_skipn j w0) at 1. f_equal.
    revert j L. induction w0 as [|a l IH]; cbn [length]; intros [|j] L; try lia; [reflexivity|]. cbn [skipn nth]. rewrite IH by lia. reflexivity.
  Qed.

  Definition acc1 (j : nat) (cfg : econf) (e : edge) : outcome (list mat) :=
    if match etgt e with Some q => match_at A q | None => false end then
      do z <- end_zone vecC w j cfg e ; Ok (if iz_sat z then [iz_ans z] else [])
    else Ok [].

  Lemma acc1_spec : forall i j cfg N e, i <= j -> j < length w -> einv i j cfg N -> is_edge A (est cfg) (fst (nth j w (0, 0%Q))) e ->
    exists l, acc1 j cfg e = Ok l /\ (forall z, In z l -> ezone_ok i z) /\
      forall q v t', etgt e = Some q -> accepting A q -> zin N (iz_mat (ez cfg)) v -> end_in w j t' -> (v 0%nat <= t')%Q ->
        (ev v (newestClock (ez cfg)) <= t')%Q ->
        (forall g, In g (eguard e) -> holds g (t' - reft v (nth (cx g) (erst cfg) (RTime 0)))%Q) ->
        exists z, In z l /\ zin 3 z (pairv (v 0) t').
  Proof.
    intros i j cfg N e L1 L2 E He. pose proof (wf_is_edge _ _ _ _ WF He) as (WE1 & WE2 & WE3).
    destruct (end_zone_spec i j cfg N e L1 L2 E WE3) as (N' & z & Z1 & Z2 & Z3 & Z4 & Z5 & Z6 & Z7 & Z8).
    pose proof (ei_wf _ _ _ _ E) as W0. pose proof (ei_len _ _ _ _ E) as LE.
    assert (N1 : newestClock z <> 1) by (intros Eq; apply Z4; rewrite Eq; apply (used_1 N); auto).
    unfold acc1.
    assert (COMP : forall v t', zin N (iz_mat (ez cfg)) v -> end_in w j t' -> (0 <= t')%Q ->
        (ev v (newestClock (ez cfg)) <= t')%Q ->
        (forall g, In g (eguard e) -> holds g (t' - reft v (nth (cx g) (erst cfg) (RTime 0)))%Q) ->
        exists v', zin N' (iz_mat z) v' /\ ev v' 1 = v 0 /\ ev v' (newestClock z) = t').
    { intros v s V1 [V2 V3] V4 V5 V6. set (v' := fun k => if S k =? newestClock z then s else v k).
      pose proof (new_pos _ _ Z2) as Pn.
      assert (Ev : forall k, k <> newestClock z -> ev v' k = ev v k).
      { intros [|k] Hk; auto. cbn. unfold v'. destruct (Nat.eqb_spec (S k) (newestClock z)); auto. contradiction. }
      assert (En : ev v' (newestClock z) = s).
      { destruct (newestClock z) as [|k] eqn:Ek; [lia|]. cbn [ev]. unfold v'. rewrite ?Ek, Nat.eqb_refl. auto. }
      exists v'. split; [|split; [rewrite Ev; auto|auto]]. apply Z6. rewrite En.
      split; [eapply zin_unused; eauto|]. split; [auto|split; [|split]].
      - apply lo_end_below. destruct (Nat.ltb_spec 0 j); auto.
      - rewrite Ev; auto. intros Eq. apply Z4. rewrite <- Eq. apply (used_new N); auto.
      - intros g Hg. rewrite (reft_eq v v' (ez cfg)); auto.
        + pose proof (ei_rt _ _ _ _ E) as RT. rewrite Forall_forall in RT, WE3. apply RT. apply nth_In. rewrite LE. auto.
        + intros k Hk. apply Ev. intros ->. contradiction. }
    destruct (etgt e) as [q|] eqn:Et; [|exists []; split; [auto|split; [intros ? []|intros; discriminate]]].
    destruct (match_at A q) eqn:Em.
    2: { exists []. split; [auto|split; [intros ? []|]]. intros q' v t' Eq Ac. injection Eq as <-.
         apply match_at_spec in Ac; [congruence|apply WF]. }
    rewrite Z1. cbn [bind]. apply match_at_spec in Em; [|apply WF].
    destruct (iz_sat z) eqn:Sa.
    2: { exists []. split; [auto|split; [intros ? []|]]. intros q' v t' Eq _ V1 V2 V3 V4 V5. exfalso.
         destruct (ei_sound _ _ _ _ E v V1) as [(S1 & _) _].
         destruct (COMP v t' V1 V2 ltac:(lra) V4 V5) as (v' & V' & _).
         assert (iz_sat z = true); [|congruence]. apply (iz_sat_spec N'); eauto. }
    exists [iz_ans z]. split; [auto|]. destruct (iz_ans_spec N' z Z2 Sa N1) as (A1 & A2 & A3 & A4). split.
    - intros z0 [<-|[]]. split; [auto|split; [auto|split; [auto|]]]. intros t t' Z. apply A4 in Z. destruct Z as (v & V1 & <- & <-).
      apply Z6 in V1. destruct V1 as (V1 & V2 & V3 & V4 & V5). set (t' := ev v (newestClock z)) in *.
      destruct (ei_sound _ _ _ _ E v V1) as (S1 & p0 & u & va & T & P1 & P2 & P3 & P4 & P5 & P6). cbn [ev].
      split; auto. apply lo_end_below in V3.
      assert (EI : end_in w j t').
      { split; [|auto]. intros Hj. apply Nat.ltb_lt in Hj. rewrite Hj in V3. auto. }
      assert (TS : (T <= t')%Q).
      { destruct P5 as [P5|[P5 P5']]; [lra|]. destruct EI as [EI _]. specialize (EI ltac:(lia)). lra. }
      assert (NU : nondecreasing (v 0) (u ++ [(fst (nth j w (0, 0%Q)), t')])).
      { apply nondecreasing_snoc; auto. rewrite <- (run_time _ _ _ _ _ _ _ _ P2). auto. }
      assert (VT : (v 0%nat <= t')%Q).
      { destruct (nondecreasing_nth _ _ NU) as [B _]. specialize (B (length u)). unfold tm in B. rewrite app_nth2, Nat.sub_diag in B by lia.
        apply B. rewrite app_length. cbn. lia. }
      exists u. split; [apply S1|split; [auto|]].
      exists (firstn j w), (fst (nth j w (0, 0%Q))), (tm w j), (skipn (S j) w), p0, (est cfg), va, T, e, q.
      split; [unfold tm; rewrite <- surjective_pairing; apply split_at; auto|].
      split; [|split; [auto|split; [auto|split; [|repeat split; auto]]]].
      + intros x Hx. apply in_firstn_nth in Hx as (k & K1 & K2 & ->). pose proof (tm_mono w ND k (j - 1) ltac:(lia) ltac:(lia)).
        destruct EI as [EI _]. specialize (EI ltac:(lia)). unfold tm in *. lra.
      + rewrite P3. symmetry. apply between_slice; auto; lia.
      + eapply (guard_delay (eguard e) va t' T (fun x => reft v (nth x (erst cfg) (RTime 0)))); auto.
    - intros q' v t' _ _ V1 V2 V3 V4 V5. exists (iz_ans z). split; [now left|]. apply A4.
      destruct (ei_sound _ _ _ _ E v V1) as [(S1 & _) _].
      destruct (COMP v t' V1 V2 ltac:(lra) V4 V5) as (v' & B1 & B2 & B3). exists v'. auto.
  Qed.

  Lemma eps_accept_spec : forall i j cs ans, i <= j -> j < length w -> econfs i j cs ->
    exists r, eps_accept vecC A (fst (nth j w (0, 0%Q))) w j cs ans = Ok r /\ incl ans r /\
      (forall z, In z r -> In z ans \/ ezone_ok i z) /\
      forall cfg e l, In cfg cs -> is_edge A (est cfg) (fst (nth j w (0, 0%Q))) e -> acc1 j cfg e = Ok l -> incl l r.
  Proof.
    intros i j cs ans L1 L2 C. unfold eps_accept.
    destruct (fold_collect (acc1 j) (fun cfg e ans => if match etgt e with Some q => match_at A q | None => false end then
          do z <- end_zone vecC w j cfg e ; Ok (if iz_sat z then ans ++ [iz_ans z] else ans) else Ok ans)
      (fun cfg => edges_at A (est cfg) (fst (nth j w (0, 0%Q))))) with (l := cs) (acc := ans) as (r & R1 & R2).
    - intros cfg e acc. unfold acc1. destruct (match etgt e with Some q => match_at A q | None => false end); cbn [bind]; [|rewrite app_nil_r; auto].
      destruct (end_zone vecC w j cfg e) as [z| | | |]; cbn [bind]; auto. destruct (iz_sat z); rewrite ?app_nil_r; auto.
    - intros cfg e H1 H2. apply edges_at_spec in H2; auto. destruct (C _ H1) as (N & E).
      destruct (acc1_spec i j cfg N e L1 L2 E H2) as (l & X & _). eauto.
    - exists r. split; auto. split; [|split].
      + intros z Hz. apply R2. auto.
      + intros z Hz. apply R2 in Hz. destruct Hz as [Hz|(c0 & e & k & K1 & K2 & K3 & K4)]; auto. right.
        apply edges_at_spec in K2; auto. destruct (C _ K1) as (N & E).
        destruct (acc1_spec i j c0 N e L1 L2 E K2) as (l & X1 & X2 & _). rewrite K3 in X1. apply Ok_inj in X1. subst. auto.
      + intros cfg e l H1 H2 H3 y Hy. apply R2. right. exists cfg, e, l. repeat split; auto. apply edges_at_spec; auto.
  Qed.

  (* ---------------- what is reached ---------------- *)

  (* The runs the matching loop follows from time t: unobservable steps strictly
     after the last event of the word and no later than the next one. *)
  Inductive ereach (i : nat) (t : Q) : nat -> ptr -> valuation -> Q -> Prop :=
  | er_init : forall p, In p (inits A) -> ereach i t i p zeroval t
  | er_eps : forall j q va T e q' s, ereach i t j q va T -> j < length w -> is_edge A q 0 e -> etgt e = Some q' ->
      (T <= s)%Q -> (0 < j -> (tm w (j - 1) < s)%Q) -> (s <= tm w j)%Q -> sat_guard (delay va (s - T)) (eguard e) ->
      ereach i t j q' (reset_set (delay va (s - T)) (eresets e)) s
  | er_obs : forall j q va T e q', ereach i t j q va T -> j < length w -> is_edge A q (fst (nth j w (0, 0%Q))) e -> etgt e = Some q' ->
      (T <= tm w j)%Q -> sat_guard (delay va (tm w j - T)) (eguard e) ->
      ereach i t (S j) q' (reset_set (delay va (tm w j - T)) (eresets e)) (tm w j).

  Definition erep (i j : nat) (t : Q) (cs : list econf) (q : ptr) (va : valuation) (T : Q) : Prop :=
    exists cfg N v, In cfg cs /\ einv i j cfg N /\ est cfg = q /\ zin N (iz_mat (ez cfg)) v /\ v 0 = t /\
      (ev v (newestClock (ez cfg)) <= T)%Q /\ forall x, x < n -> (va x == T - reft v (nth x (erst cfg) (RTime 0)))%Q.

  (* Reached, the last step not being unobservable. *)
  Definition ebase (i : nat) (t : Q) (j : nat) (q : ptr) (va : valuation) (T : Q) : Prop :=
    (j = i /\ In q (inits A) /\ va = zeroval /\ T = t) \/
    exists j' q0 va0 T0 e, j = S j' /\ ereach i t j' q0 va0 T0 /\ j' < length w /\ is_edge A q0 (fst (nth j' w (0, 0%Q))) e /\ etgt e = Some q /\
      (T0 <= tm w j')%Q /\ sat_guard (delay va0 (tm w j' - T0)) (eguard e) /\
      va = reset_set (delay va0 (tm w j' - T0)) (eresets e) /\ T = tm w j'.

  Lemma ereach_ge : forall i t j q va T, start_in w i t -> i < length w -> ereach i t j q va T -> i <= j /\ (t <= T)%Q.
  Proof. intros i t j q va T S L R. induction R; [split; [lia|lra]| |]; (destruct IHR as [I1 I2]; [auto..|]; split; [lia|lra]). Qed.

  Lemma close_covers : forall i t j cs, i <= j -> j < length w -> start_in w i t -> (forall cfg, In cfg cs -> succ_in j cfg cs) ->
    (forall q va T, ebase i t j q va T -> erep i j t cs q va T) ->
    forall q va T, ereach i t j q va T -> erep i j t cs q va T.
  Proof.
    intros i t j cs L1 L2 St SU B q va T R. revert SU B L1 L2. induction R; intros SU B L1 L2.
    - apply B. left. auto.
    - destruct (IHR SU B L1 L2) as (cfg & N & v & C1 & C2 & C3 & C4 & C5 & C6 & C7). subst q.
      pose proof (wf_is_edge _ _ _ _ WF H0) as (_ & _ & WE3).
      destruct (ereach_ge _ _ _ _ _ _ St ltac:(lia) R) as [_ GE]. pose proof St as (St0 & _).
      destruct (eps_edge_spec i j cfg N e L1 L2 C2 H0) as (l & E1 & _ & E3).
      destruct (E3 q' v s H1 C4 H4) as (cfg' & N' & v' & D1 & D2 & D3 & D4 & D5 & D6 & D7).
      + apply lo_end_below. destruct (Nat.ltb_spec 0 j); auto. lra.
      + lra.
      + apply (guard_delay (eguard e) va s T (fun x => reft v (nth x (erst cfg) (RTime 0)))); auto.
      + exists cfg', N', v'. split; [eapply SU; eauto|]. split; [auto|split; [auto|split; [auto|split; [congruence|split; [rewrite D6; lra|]]]]].
        intros x Hx. apply D7; auto.
    - apply B. right. exists j, q, va, T, e. repeat split; auto.
  Qed.

  Lemma obs_covers : forall i t j cs nx, i <= j -> j < length w ->
    (forall q va T, ereach i t j q va T -> erep i j t cs q va T) ->
    (forall cfg e l, In cfg cs -> is_edge A (est cfg) (fst (nth j w (0, 0%Q))) e -> obs_edge (tm w j) cfg e = Ok l -> incl l nx) ->
    forall q va T, ebase i t (S j) q va T -> erep i (S j) t nx q va T.
  Proof.
    intros i t j cs nx L1 L2 R O q va T [(E & _)|(j' & q0 & va0 & T0 & e & E & B1 & B2 & B3 & B4 & B5 & B6 & -> & ->)]; [lia|].
    injection E as <-. destruct (R _ _ _ B1) as (cfg & N & v & C1 & C2 & C3 & C4 & C5 & C6 & C7). subst q0.
    pose proof (wf_is_edge _ _ _ _ WF B3) as (_ & _ & WE3).
    destruct (obs_edge_spec i j cfg N e L1 L2 C2 B3) as (l & E1 & E2 & E3).
    destruct (E3 q v B4 C4) as (cfg' & N' & D1 & D2 & D3 & D4 & D5 & D6).
    - apply (guard_delay (eguard e) va0 (tm w j) T0 (fun x => reft v (nth x (erst cfg) (RTime 0)))); auto.
    - exists cfg', N', v. split; [eapply O; eauto|]. split; [auto|split; [auto|split; [auto|split; [auto|split; [rewrite D5; lra|]]]]].
      intros x Hx. apply D6; auto.
  Qed.

  Lemma ereach_base : forall i t k q va T, ereach i t k q va T -> forall j, i <= j -> j <= k -> exists q0 va0 T0, ebase i t j q0 va0 T0.
  Proof.
    intros i t k q va T R. induction R; intros j0 J1 J2; auto.
    - assert (j0 = i) by lia. subst. exists p, zeroval, t. left. auto.
    - destruct (Nat.eq_dec j0 (S j)) as [->|]; [|apply IHR; lia].
      eexists _, _, _. right. exists j, q, va, T, e. repeat split; eauto.
  Qed.

  (* ---------------- the matching loop ---------------- *)

  Definition reports (i j : nat) (t : Q) (zs : list mat) : Prop :=
    forall k q va T e acc t', ereach i t k q va T -> j <= k -> k < length w -> is_edge A q (fst (nth k w (0, 0%Q))) e ->
      etgt e = Some acc -> accepting A acc -> (T <= t')%Q -> end_in w k t' -> sat_guard (delay va (t' - T)) (eguard e) ->
      exists z, In z zs /\ zin 3 z (pairv t t').

  (* Fuel enough for the word from event j on. *)
  Definition enough (fuel j : nat) : Prop := exists rk R, descends rk /\ (forall p, rk p <= R) /\ length w - j + R < fuel.

  Lemma eps_match_spec : forall fuel i j cs ls ans, i <= j -> j <= length w -> i < length w -> econfs i j cs ->
    match eps_match vecC A fx fuel w j cs ls ans with
    | Ok (w', j', cs', ls', ans') =>
        w' = w /\ j <= j' <= length w /\ econfs i j' cs' /\ (cs' = [] \/ j' = length w) /\ incl ans ans' /\
        (forall z, In z ans' -> In z ans \/ ezone_ok i z) /\
        ((ls' = ls /\ j' = j /\ cs' = cs) \/ (j < j' /\ econfs i (j' - 1) ls')) /\
        forall t, start_in w i t -> (forall q va T, ebase i t j q va T -> erep i j t cs q va T) -> reports i j t ans'
    | OutOfFuel => ~ enough fuel j
    | _ => False
    end.
  Proof.
    assert (STOP : forall i j cs ls ans, i <= j -> j <= length w -> econfs i j cs -> cs = [] \/ j = length w ->
        w = w /\ j <= j <= length w /\ econfs i j cs /\ (cs = [] \/ j = length w) /\ incl ans ans /\
        (forall z, In z ans -> In z ans \/ ezone_ok i z) /\
        ((ls = ls /\ j = j /\ cs = cs) \/ (j < j /\ econfs i (j - 1) (ls : list econf))) /\
        forall t, start_in w i t -> (forall q va T, ebase i t j q va T -> erep i j t cs q va T) -> reports i j t ans).
    { intros i j cs ls ans L1 L2 C X. split; [auto|split; [lia|split; [auto|split; [auto|split; [apply incl_refl|split; [auto|split; [auto|]]]]]]].
      intros t St B k q va T e acc t' R Lk Hk. destruct X as [->|X]; [|lia].
      destruct (ereach_base _ _ _ _ _ _ R j L1 Lk) as (q0 & va0 & T0 & Bj). destruct (B _ _ _ Bj) as (cfg & N & v & [] & _). }
    induction fuel; intros i j cs ls ans L1 L2 L3 C; destruct cs as [|c0 cs0]; cbn [eps_match]; try (apply STOP; auto; fail).
    all: set (cs := c0 :: cs0) in *; change (cfetch vecC w j) with (j <? length w, w); cbv beta iota;
      (destruct (Nat.ltb_spec j (length w)) as [Hj|Hj]; [|apply STOP; auto; right; lia]).
    { intros (rk & R & _ & _ & H). lia. }
    destruct (eps_close_spec i j L1 Hj (S fuel) cs C) as [[-> F]|(r & -> & R1 & R2 & R3)]; cbn [bind].
    { intros (rk & R & H1 & H2 & H3). destruct (F rk H1) as (p & Hp). specialize (H2 p). lia. }
    rewrite vec_at_nth by auto. cbn [bind].
    destruct (eps_accept_spec i j r ans L1 Hj R1) as (an & -> & A1 & A2 & A3). cbn [bind].
    change (snd (nth j w (0, 0%Q))) with (tm w j).
    destruct (obs_step_spec i j r L1 Hj R1) as (nx & -> & N1 & N2). cbn [bind].
    specialize (IHfuel i (S j) nx r an ltac:(lia) ltac:(lia) L3 N1).
    destruct (eps_match vecC A fx fuel w (S j) nx r an) as [[[[[w' j'] cs'] ls'] ans']| | | |]; auto.
    2: { intros (rk & R & H1 & H2 & H3). apply IHfuel. exists rk, R. split; [auto|split; [auto|lia]]. }
    destruct IHfuel as (-> & J & K1 & K2 & K3 & K4 & K5 & K6).
    split; [auto|split; [lia|split; [auto|split; [auto|split; [|split; [|split]]]]]].
    - eapply incl_tran; eauto.
    - intros z Hz. destruct (K4 z Hz) as [Hz'|]; auto.
    - right. split; [lia|]. destruct K5 as [(-> & -> & ->)|(K5 & K5')]; auto. replace (S j - 1) with j by lia. auto.
    - intros t St B.
      assert (BR : forall q va T, ereach i t j q va T -> erep i j t r q va T).
      { apply close_covers; auto. intros q va T Hb. destruct (B _ _ _ Hb) as (cfg & N & v & C1 & CC). exists cfg, N, v. split; auto. }
      specialize (K6 t St (obs_covers i t j r nx L1 Hj BR N2)).
      intros k q va T e acc t' R Lk Hk He Et Ac Tt En Sg.
      destruct (Nat.eq_dec k j) as [->|Nk]; [|eapply K6; eauto; lia].
      destruct (BR _ _ _ R) as (cfg & N & v & C1 & C2 & C3 & C4 & C5 & C6 & C7). subst q.
      pose proof (wf_is_edge _ _ _ _ WF He) as (_ & _ & WE3).
      destruct (acc1_spec i j cfg N e L1 Hj C2 He) as (l & E1 & E2 & E3).
      destruct (ereach_ge _ _ _ _ _ _ St L3 R) as [_ GE].
      destruct (E3 acc v t' Et Ac C4 En) as (z & Z1 & Z2).
      + rewrite C5. lra.
      + lra.
      + apply (guard_delay (eguard e) va t' T (fun x => reft v (nth x (erst cfg) (RTime 0)))); auto.
      + rewrite C5 in Z2. exists z. split; auto. apply K3. eapply A3; eauto.
  Qed.

  (* ---------------- the start ---------------- *)

  Lemma eps_start_spec : forall i, i < length w ->
    exists cs, eps_start vecC A n w i = Ok cs /\ econfs i i cs /\ (inits A = [] -> cs = []) /\ (cs = [] -> inits A = []) /\
      forall t q va T, start_in w i t -> ebase i t i q va T -> erep i i t cs q va T.
  Proof.
    intros i Hi. unfold eps_start. rewrite vec_at_nth by auto. cbn [bind].
    set (lo := if 0 <? i then bnd (tm w (i - 1)) true else bzero).
    assert (EL : (if 0 <? i then do e <- cat vecC w (i - 1); Ok (bnd (snd e) true) else Ok bzero) = Ok lo).
    { unfold lo. destruct (Nat.ltb_spec 0 i); auto. rewrite vec_at_nth by lia. reflexivity. }
    rewrite EL. cbn [bind]. eexists. split; [reflexivity|]. change (snd (nth i w (0, 0%Q))) with (tm w i).
    set (z := iz_init lo (bnd (tm w i) false)).
    assert (lo_q : exists q, lo = (Fin q, true) /\ (0 <= q)%Q /\ (0 < i -> q = tm w (i - 1)) /\ (i = 0 -> q = 0%Q)).
    { unfold lo. destruct (Nat.ltb_spec 0 i).
      - exists (tm w (i - 1)). split; [reflexivity|]. split; [apply (tm_nonneg w ND); lia|]. split; [auto|lia].
      - exists 0%Q. split; [reflexivity|]. split; [lra|]. split; [lia|auto]. }
    destruct lo_q as (q0 & Eq0 & Q1 & Q2 & Q3).
    assert (Zi : forall v, zin 2 (iz_mat z) v <-> (q0 <= v 0%nat /\ v 0%nat < tm w i)%Q).
    { intros v. unfold z, iz_init, iz_mat. rewrite Eq0. rewrite zin2. cbn [nopp fst snd]. unfold below, bnd. cbn [fst snd ev]. split; intros; lra. }
    assert (Wz : iwf 2 z).
    { split; [cbn; auto|]. unfold z, iz_init, iz_mat. rewrite Eq0. apply mat_ok2; exact I. }
    assert (Inv : forall p, In p (inits A) -> einv i i (mkEC p (repeat (RClock initialClock) n) z) 2).
    { intros p Hp. constructor; cbn [est erst ez]; auto.
      - unfold z, iz_init. rewrite Eq0. cbn. lra.
      - intros _. unfold z, iz_init. rewrite Eq0. cbn. lra.
      - intros _. unfold z, iz_init. rewrite Eq0. unfold lo_end. destruct (Nat.ltb_spec 0 i); cbn.
        + rewrite Q2 by auto. lra.
        + rewrite Q3 by lia. lra.
      - apply repeat_length.
      - apply Forall_forall. intros r Hr. apply repeat_spec in Hr. subst r. unfold initialClock. split; [lia|]. apply (used_1 2); auto.
      - apply WF. auto.
      - intros (t & T1 & T2 & T3). apply (iz_sat_spec 2); auto. exists (fun _ => t). apply Zi. split; [|auto].
        destruct (Nat.eq_dec i 0) as [E|E]; [rewrite Q3; auto|rewrite Q2 by lia; apply T2; lia].
      - intros v Hv. apply Zi in Hv. split.
        + split; [lra|]. split; [|lra]. intros H. rewrite <- Q2 by auto. lra.
        + exists p, [], zeroval, (v 0). split; [auto|]. split; [constructor|]. split; [rewrite slice_nil; reflexivity|]. split; [exact I|].
          split; [left; unfold z; cbn; lra|]. intros x Hx. cbn [erst]. rewrite nth_repeat_in by auto. cbn. unfold zeroval. ring. }
    split; [|split; [|split]].
    - intros cfg Hc. apply in_map_iff in Hc. destruct Hc as (p & <- & Hp). exists 2. auto.
    - intros ->. reflexivity.
    - intros H. destruct (inits A); [auto|discriminate].
    - intros t q va T (S1 & S2 & S3) [(_ & Hq & -> & ->)|(j' & q1 & va0 & T0 & e & E & R & _)].
      + exists (mkEC q (repeat (RClock initialClock) n) z), 2, (fun _ => t). split; [apply in_map_iff; eauto|].
        split; [auto|split; [auto|]]. cbn [ez erst]. split; [|split; [auto|split]].
        * apply Zi. split; [|auto]. destruct (Nat.eq_dec i 0) as [E|E]; [rewrite Q3; auto|rewrite Q2 by lia; apply S2; lia].
        * cbn. lra.
        * intros x Hx. rewrite nth_repeat_in by auto. cbn. unfold zeroval. ring.
      + destruct (ereach_ge i t j' q1 va0 T0 (conj S1 (conj S2 S3)) Hi R). lia.
  Qed.

  (* ---------------- runs of the specification ---------------- *)

  Lemma slice_cons : forall i j, i < j -> j <= length w -> slice w i j = nth i w (0, 0%Q) :: slice w (S i) j.
  Proof.
    intros i j L1 L2. unfold slice. replace (j - i) with (S (j - S i)) by lia.
    assert (H : skipn i w = nth i w (0, 0%Q) :: skipn (S i) w).
    { clear - L1 L2. assert (L : i < length w) by lia. clear L1 L2. revert i L. induction w as [|a l IH]; cbn [length]; intros [|i] L; try lia; [reflexivity|].
      cbn [skipn nth]. rewrite IH by lia. reflexivity. }
    rewrite H. reflexivity.
  Qed.

  Fixpoint wlate (j : nat) (u : tword) : Prop :=
    match u with
    | [] => True
    | (c, s) :: u' => if c =? 0 then (0 < j -> (tm w (j - 1) < s)%Q) /\ (s <= tm w j)%Q /\ wlate j u' else wlate (S j) u'
    end.

  Lemma run_reach : forall i t j0, j0 < length w -> forall u j q0 va0 T0 q va T, ereach i t j q0 va0 T0 -> run A q0 va0 T0 u q va T ->
    nondecreasing T0 u -> observe u = slice w j j0 -> j <= j0 -> wlate j u -> ereach i t j0 q va T.
  Proof.
    intros i t j0 L0. induction u as [|[c s] u IH]; intros j q0 va0 T0 q va T R0 R N O Lj WL.
    - inversion R; subst. destruct (Nat.eq_dec j j0) as [->|]; auto. exfalso.
      rewrite slice_cons in O by lia. discriminate.
    - inversion R as [|? ? ? ? ? e ? q1 ? ? ? He Et Sg R']; subst. destruct N as [N1 N2]. cbn [wlate] in WL. unfold observe in O. cbn [filter fst] in O.
      destruct (Nat.eqb_spec c 0) as [->|Nc]; cbn [negb] in O.
      + destruct WL as (W1 & W2 & W3). apply (IH j q1 (reset_set (delay va0 (s - T0)) (eresets e)) s); auto. eapply er_eps; eauto. lia.
      + destruct (Nat.eq_dec j j0) as [->|Nj]; [rewrite slice_nil in O; discriminate|].
        rewrite slice_cons in O by lia. injection O as O1 O2.
        assert (Ec : c = fst (nth j w (0, 0%Q))) by (rewrite <- O1; auto). assert (Es : s = tm w j) by (unfold tm; rewrite <- O1; auto). subst c s.
        apply (IH (S j) q1 (reset_set (delay va0 (tm w j - T0)) (eresets e)) (tm w j)); auto; [|lia].
        eapply er_obs; eauto. lia.
  Qed.

  Lemma nondecreasing_in : forall u lo e, nondecreasing lo u -> In e u -> (lo <= snd e)%Q.
  Proof.
    induction u as [|[c s] u IH]; intros lo e N I; [inversion I|]. destruct N as [N1 N2]. destruct I as [<-|I]; [auto|]. pose proof (IH _ _ N2 I). lra.
  Qed.

  Lemma late_wlate : forall i t j0 c t', start_in w i t -> j0 < length w -> end_in w j0 t' ->
    forall u j pre lo, nondecreasing lo (u ++ [(c, t')]) -> observe u = slice w j j0 -> observe pre = slice w i j -> i <= j -> j <= j0 ->
    (forall u1 s u2, u = u1 ++ (0, s) :: u2 -> (forall x, In x w -> (snd x <= t)%Q -> (snd x < s)%Q) /\ (forall x, In x (observe (pre ++ u1)) -> (snd x < s)%Q)) ->
    wlate j u.
  Proof.
    intros i t j0 c t' (S1 & S2 & S3) L0 [En1 En2]. induction u as [|[d s] u IH]; intros j pre lo N O P L1 L2 La; cbn [wlate]; auto.
    destruct N as [N1 N2]. unfold observe in O. cbn [filter fst] in O.
    assert (Next : forall u1 s0 u2, u = u1 ++ (0, s0) :: u2 -> (forall x, In x w -> (snd x <= t)%Q -> (snd x < s0)%Q) /\ (forall x, In x (observe ((pre ++ [(d, s)]) ++ u1)) -> (snd x < s0)%Q)).
    { intros u1 s0 u2 ->. destruct (La ((d, s) :: u1) s0 u2 eq_refl) as [X1 X2]. split; auto. intros x Hx. apply X2. rewrite <- app_assoc in Hx. exact Hx. }
    destruct (Nat.eqb_spec d 0) as [->|Nd]; cbn [negb] in O.
    - destruct (La [] s u eq_refl) as [La1 La2]. rewrite app_nil_r in La2. split; [|split].
      + intros Hj. destruct (Nat.eq_dec j i) as [->|Nj].
        * apply (La1 (nth (i - 1) w (0, 0%Q))); [apply nth_In; lia|]. apply S2. auto.
        * apply (La2 (nth (j - 1) w (0, 0%Q))). rewrite P. replace j with (S (j - 1)) at 2 by lia. rewrite slice_snoc by lia. apply in_or_app. right. now left.
      + destruct (Nat.eq_dec j j0) as [->|Nj].
        * apply Qle_trans with t'; auto. apply (nondecreasing_in _ _ (c, t') N2). apply in_or_app. right. now left.
        * rewrite slice_cons in O by lia.
          assert (H : In (nth j w (0, 0%Q)) u).
          { assert (H : In (nth j w (0, 0%Q)) (filter (fun e => negb (fst e =? 0)) u)) by (rewrite O; now left). apply filter_In in H. tauto. }
          apply (nondecreasing_in _ _ (nth j w (0, 0%Q)) N2). apply in_or_app. auto.
      + apply (IH j (pre ++ [(0, s)]) s); auto. rewrite observe_app, P. cbn. apply app_nil_r.
    - destruct (Nat.eq_dec j j0) as [->|Nj]; [rewrite slice_nil in O; discriminate|].
      rewrite slice_cons in O by lia. injection O as O1 O2.
      apply (IH (S j) (pre ++ [(d, s)]) s); auto; [|lia].
      rewrite observe_app, P, slice_snoc, <- O1 by lia. unfold observe. cbn [filter fst]. destruct (Nat.eqb_spec d 0); [contradiction|reflexivity].
  Qed.

  Lemma late_reports : forall i t t' u zs, start_in w i t -> i < length w -> (t < t')%Q -> eps_matches_by A w t t' u -> late w t u ->
    reports i i t zs -> exists z, In z zs /\ zin 3 z (pairv t t').
  Proof.
    intros i t t' u zs S L Lt (M1 & M2 & pre & c & tau & post & p & q & v & T & e & acc & Ew & Hpre & Htau & Hp & Ob & Nu & R & He & Et & Ha & Hg) La Rp.
    set (j0 := length pre).
    assert (LW : length w = j0 + Datatypes.S (length post)) by (rewrite Ew, app_length; reflexivity).
    assert (En : nth j0 w (0, 0%Q) = (c, tau)) by (unfold j0; rewrite Ew, app_nth2, Nat.sub_diag by lia; reflexivity).
    assert (J1 : i <= j0).
    { destruct (Nat.lt_ge_cases j0 i) as [K|K]; auto. exfalso. pose proof (tm_mono w ND j0 (i - 1) ltac:(lia) ltac:(lia)) as Mo.
      destruct S as (_ & S2 & _). specialize (S2 ltac:(lia)). unfold tm in Mo at 1. rewrite En in Mo. cbn in Mo. lra. }
    assert (J3 : end_in w j0 t').
    { split.
      - intros K. assert (I1 : In (nth (j0 - 1) w (0, 0%Q)) pre).
        { rewrite Ew, app_nth1 by (fold j0; lia). apply nth_In. fold j0. lia. }
        apply Hpre in I1. unfold tm. lra.
      - intros _. unfold tm. rewrite En. exact Htau. }
    rewrite (between_slice w i j0 t t' ND J1 ltac:(lia) L S J3) in Ob.
    assert (WL : wlate i u).
    { apply (late_wlate i t j0 c t' S ltac:(lia) J3 u i [] t); auto. rewrite slice_nil. reflexivity. }
    assert (Nu' : nondecreasing t u /\ (T <= t')%Q).
    { rewrite (run_time _ _ _ _ _ _ _ _ R). clear - Nu. revert t Nu. induction u as [|[d s] u IH]; intros t Nu; cbn [Datatypes.app nondecreasing map snd] in *.
      - split; [auto|]. cbn. lra.
      - destruct Nu as [N1 N2]. destruct (IH _ N2) as [I1 I2]. split; auto. rewrite last_cons'. auto. }
    destruct Nu' as [Nu1 Nu2].
    assert (RE : ereach i t j0 q v T).
    { eapply (run_reach i t j0 ltac:(lia) u i); eauto. now apply er_init. }
    apply (Rp j0 q v T e acc t'); auto; [lia|]. rewrite En. auto.
  Qed.

  (* ---------------- the outer loop ---------------- *)

  Variable T : skips.

  Lemma eps_greatest_spec : forall ls,
    match eps_greatest T ls with
    | Ok k => 1 <= k /\ (k = 1 \/ exists cfg, In cfg ls /\ sk_beta T (est cfg) = Some k)
    | Throw => exists cfg, In cfg ls /\ sk_beta T (est cfg) = None
    | _ => False
    end.
  Proof.
    intros ls. unfold eps_greatest.
    assert (forall ls k0, match fold_out (fun cfg k => match sk_beta T (est cfg) with
                           | Some b => Ok (if b <? k then k else b) | None => Throw end) ls k0 with
      | Ok k => k0 <= k /\ (k = k0 \/ exists cfg, In cfg ls /\ sk_beta T (est cfg) = Some k)
      | Throw => exists cfg, In cfg ls /\ sk_beta T (est cfg) = None
      | _ => False end) as X.
    { clear. induction ls as [|cfg ls IH]; intros k0; cbn [fold_out]; [auto|].
      destruct (sk_beta T (est cfg)) as [b|] eqn:Eb; cbn [bind].
      - specialize (IH (if b <? k0 then k0 else b)).
        destruct (fold_out _ ls _); try contradiction; auto.
        + destruct IH as [IH1 IH2]. destruct (Nat.ltb_spec b k0).
          * split; [lia|]. destruct IH2 as [->|(c & ? & ?)]; [auto|]. right. exists c. cbn. auto.
          * split; [lia|]. right. destruct IH2 as [->|(c & ? & ?)].
            -- exists cfg. cbn. auto.
            -- exists c. cbn. auto.
        + destruct IH as (c & ? & ?). exists c. cbn. auto.
      - exists cfg. cbn. auto. }
    apply X.
  Qed.

  Hypothesis Tm : 1 <= sk_m T.
  Hypothesis Td : forall c d, sk_delta T c = Some d -> 1 <= d.

  (* Positions at which nothing starts; used for completeness. *)
  Variable P : nat -> Prop.
  Hypothesis Plen : forall k, length w < k + sk_m T -> P k.
  Hypothesis Pend : forall k, 1 < sk_m T -> k + sk_m T <= length w ->
    mem (fst (nth (k + sk_m T - 1) w (0, 0%Q))) (sk_end T) = false -> P k.
  Hypothesis Pdelta : forall i k d, 1 < sk_m T -> i + sk_m T < length w ->
    sk_delta T (fst (nth (i + sk_m T) w (0, 0%Q))) = Some d -> i < k -> k < i + d -> P k.
  Hypothesis Pbeta : forall i j cs cfg b k, i < length w -> i <= j -> j <= length w -> econfs i j cs ->
    In cfg cs -> sk_beta T (est cfg) = Some b -> i < k -> k < i + b -> P k.

  Definition ecovered (i : nat) (zs : list mat) : Prop :=
    forall k t t' u, i <= k -> k < length w -> start_in w k t -> (t < t')%Q -> eps_matches_by A w t t' u -> late w t u ->
      P k \/ exists z, In z zs /\ zin 3 z (pairv t t').

  Theorem eps_outer_vec : forall fuel i ls ans, (inits A = [] -> ls = []) ->
    match eps_outer vecC A T fx n fuel w i ls ans with
    | Ok zs => incl ans zs /\ (forall z, In z zs -> In z ans \/ exists i, i < length w /\ ezone_ok i z) /\ ecovered i zs
    | UB => exists k, k < length w /\ sk_delta T (fst (nth k w (0, 0%Q))) = None
    | Throw => exists p, sk_beta T p = None /\ In p (map fst (states A))
    | OutOfFuel => ~ enough fuel i
    | Exit _ => False
    end.
  Proof.
    assert (DONE : forall i ans, (forall k, i <= k -> P k) ->
       incl ans ans /\ (forall z, In z ans -> In z ans \/ exists i, i < length w /\ ezone_ok i z) /\ ecovered i ans).
    { intros i ans H. split; [apply incl_refl|]. split; [auto|].
      intros k t t' u K1 K2 K3 K4 K5. left. auto. }
    induction fuel; intros i ls ans HL; cbn [eps_outer]; rewrite vec_fetch; cbv beta iota;
      (destruct (i + sk_m T - 1 <? length w) eqn:E;
       [apply Nat.ltb_lt in E|apply Nat.ltb_ge in E; apply DONE; intros k K; apply Plen; lia]); [intros (rk & R & _ & _ & H); lia|].
    assert (SS : match sunday_shift vecC T (S fuel) w i with
      | Ok (w', Some i') => w' = w /\ i <= i' /\ i' + sk_m T <= length w /\ forall k, i <= k -> k < i' -> P k
      | Ok (w', None) => w' = w /\ forall k, i <= k -> P k
      | UB => exists k, k < length w /\ sk_delta T (fst (nth k w (0, 0%Q))) = None
      | OutOfFuel => S fuel < length w - i
      | _ => False end).
    { unfold sunday_shift. destruct (1 <? sk_m T) eqn:Em.
      - apply Nat.ltb_lt in Em. rewrite vec_fetch. cbv beta iota. apply Nat.ltb_lt in E as E'. rewrite E'.
        apply sunday_vec; auto. lia.
      - repeat split; auto; [lia|intros; lia]. }
    destruct (sunday_shift vecC T (S fuel) w i) as [[w' [i'|]]| | | |]; cbn [bind fst snd]; auto; try contradiction.
    3: { intros (rk & R & _ & _ & H). lia. }
    2: { destruct SS as (_ & SS). now apply DONE. }
    destruct SS as (-> & I1 & I2 & I3). rewrite vec_fetch. cbv beta iota.
    assert (Li : i' < length w) by lia. apply Nat.ltb_lt in Li as Li'. rewrite Li'.
    destruct (eps_start_spec i' Li) as (st & -> & S1 & S2 & S3 & S4). cbn [bind].
    pose proof (eps_match_spec (S fuel) i' i' st ls ans ltac:(lia) ltac:(lia) Li S1) as ML.
    destruct (eps_match vecC A fx (S fuel) w i' st ls ans) as [[[[[w' j] cs] ls'] ans']| | | |] eqn:EM; cbn [bind]; auto; try contradiction.
    2: { intros (rk & R & H1 & H2 & H3). apply ML. exists rk, R. split; [auto|split; [auto|lia]]. }
    destruct ML as (-> & J & C & X & K1 & K2 & LS & K3).
    rewrite vec_fetch. cbv beta iota.
    set (last := if j <? length w then ls' else cs).
    assert (R3 : last = [] \/ exists j', i' <= j' /\ j' <= length w /\ econfs i' j' last).
    { unfold last. destruct (Nat.ltb_spec j (length w)) as [Hj|Hj].
      - destruct LS as [(-> & -> & ->)|(LS1 & LS2)].
        + left. apply HL. destruct X as [X|X]; [|lia]. auto.
        + right. exists (j - 1). split; [lia|]. split; [lia|auto].
      - right. exists j. split; [lia|split; [lia|auto]]. }
    pose proof (eps_greatest_spec last) as G.
    destruct (eps_greatest T last) as [k| | | |]; cbn [bind]; try contradiction.
    2: { destruct G as (cfg & G1 & G2). exists (est cfg). split; auto. destruct R3 as [->|(j' & _ & _ & C')]; [contradiction|].
         destruct (C' _ G1) as (N & EI). apply EI. }
    destruct G as [G1 G2]. rewrite vec_front. cbn [bind].
    assert (H1 : inits A = [] -> last = []).
    { intros Hi. rewrite (S2 Hi) in EM. cbn [eps_match] in EM. apply Ok_inj in EM. injection EM as <- <- <- <-.
      unfold last. rewrite (HL Hi). destruct (i' <? length w); auto. }
    specialize (IHfuel (i' + k) last ans' H1).
    destruct (eps_outer vecC A T fx n fuel w (i' + k) last ans'); auto; try lia.
    2: { intros (rk & R & H2 & H3 & H4). apply IHfuel. exists rk, R. split; [auto|split; [auto|lia]]. }
    destruct IHfuel as (N1 & N2 & N3). split; [eapply incl_tran; eauto|]. split.
    - intros z Hz. destruct (N2 z Hz) as [Hz'|]; auto. destruct (K2 z Hz') as [|Hz2]; auto. right. eauto.
    - intros k0 t t' u L1 L2 St Lt Mt La. destruct (Nat.lt_trichotomy k0 i') as [K|[->|K]].
      + left. apply I3; auto.
      + right. destruct (late_reports i' t t' u ans' St Li Lt Mt La) as (z & Z3 & Z4); [apply K3; auto|]. exists z. split; auto.
      + destruct (Nat.lt_ge_cases k0 (i' + k)) as [K'|K'].
        * left. destruct G2 as [->|(cfg & G2 & G3)]; [lia|].
          destruct R3 as [->|(j' & K4 & K5 & C')]; [contradiction|].
          eapply (Pbeta i' j' last cfg); eauto.
        * apply (N3 k0 t t' u); auto.
  Qed.
End EpsVec.
