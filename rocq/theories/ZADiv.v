(* Cycles on which the construction of zone automata does not end. *)
From Coq Require Import QArith Qround Lqa Bool List ZArith Arith Lia.
From Verif Require Import Num NumFacts Outcome Constraint Zone ZoneFacts ZoneOps TA Spec TAFacts PropBase ZA ZASpec ZAFacts PropZA.
Import ListNotations.
Open Scope nat_scope.

Lemma fold_max_ge : forall l a, (a <= fold_left Z.max l a)%Z /\ forall k, In k l -> (k <= fold_left Z.max l a)%Z.
Proof.
  induction l as [|b l IH]; intros a; cbn [fold_left]; [split; [lia|intros k []]|]. destruct (IH (Z.max a b)) as [I1 I2]. split; [lia|].
  intros k [<-|Hk]; [lia|auto].
Qed.

Lemma max_const_ge : forall A k, In k (maxC A) -> exists z, max_const A = (Fin (inject_Z z), true) /\ (k <= z)%Z.
Proof.
  intros A k H. unfold max_const. destruct (maxC A) as [|c t]; [contradiction|]. eexists. split; [reflexivity|].
  destruct (fold_max_ge t c) as [I1 I2]. destruct H as [<-|H]; auto.
Qed.

(* One after the other the transitions [es] are taken, each after some time. *)
Inductive turn (A : ta) : ptr -> valuation -> list (nat * edge) -> ptr -> valuation -> Prop :=
| turn_nil : forall p v, turn A p v [] p v
| turn_cons : forall p v c e q d es p' v', is_edge A p c e -> etgt e = Some q -> (0 < d)%Q -> sat_guard (delay v d) (eguard e) ->
    turn A q (reset_set (delay v d) (eresets e)) es p' v' -> turn A p v ((c, e) :: es) p' v'.

(* The guard asks for x >= 1 or more. *)
Definition waits (x : nat) (e : edge) : bool :=
  existsb (fun g => (cx g =? x) && (1 <=? cc g)%Z && match codr g with Ge => true | Gt => true | _ => false end) (eguard e).

(* First x is waited for, then it is reset. *)
Fixpoint paced (st : nat) (x : nat) (es : list (nat * edge)) : bool :=
  match es with
  | [] => st =? 2
  | (_, e) :: es =>
      match st with
      | 0 => if waits x e then paced (if mem x (eresets e) then 2 else 1) x es else negb (mem x (eresets e)) && paced 0 x es
      | 1 => paced (if mem x (eresets e) then 2 else 1) x es
      | _ => negb (mem x (eresets e)) && paced 2 x es
      end
  end.
Definition spares (y : nat) (es : list (nat * edge)) : Prop := forall c e, In (c, e) es -> ~ In y (eresets e).

Section Zones.
  Variables (A : ta) (z : Z).
  Hypothesis K : clockSize A <= 255.
  Hypothesis MC : max_const A = (Fin (inject_Z z), true).
  Hypothesis Z1 : (1 <= z)%Z.

  Local Notation n := (S (clockSize A)).
  Let M := max_const A.

  Lemma not_big : forall b k, good b -> ble b (negb_i k) -> bgeb b M = false.
  Proof.
    intros b k Gb H. destruct (bgeb b M) eqn:B; auto. exfalso.
    assert (T2 : ble M (negb_i k)).
    { apply (ble_trans _ b); [unfold M; rewrite MC; exact I|exact Gb|exact I| |exact H].
      revert B Gb. unfold M. rewrite MC. clear. generalize (inject_Z z). intros q. destruct b as [[| |u|] []]; bunf; bgo. }
    unfold M in T2. rewrite MC in T2. unfold negb_i, ble in T2. cbn [fst snd andb negb] in T2.
    rewrite <- inject_Z_opp, <- Zle_Qle in T2. lia.
  Qed.

  (* The bound on the difference of the clocks i and j (0 is the constant 0). *)
  Definition at_most (m : mat) (i j k : nat) : Prop := ble (mget m i j) (negb_i k).

  (* the matrix before the resets *)
  Lemma succ_parts : forall s e m, st_ok A s -> wf_edge A e -> succ_zone M (elapse (zm s)) e = Some m ->
    exists m1, m = canonize (abstractize M (fold_left reset (eresets e) m1)) /\ square n m1 /\ mgood n m1 /\ canonical n m1 /\
      (forall v, zin n m1 v <-> zin n (elapse (zm s)) v /\ sat_guard v (eguard e)).
  Proof.
    intros s e m SO (_ & WR & WG) H. destruct (elapse_ok A s SO) as [ES EG].
    unfold succ_zone in H. destruct (tg_ok (clockSize A) K (eguard e) (elapse (zm s)) ES EG WG) as (S2 & G2 & Z2).
    pose proof (isSatisfiable_canonical n _ S2 ltac:(lia) G2) as CA.
    destruct (isSatisfiable (tighten_guard (elapse (zm s)) (eguard e))) as [sat m1] eqn:ES1. destruct sat; [|discriminate].
    cbn [snd] in CA. specialize (CA eq_refl).
    assert (M1 : m1 = canonize (tighten_guard (elapse (zm s)) (eguard e))) by (unfold isSatisfiable in ES1; congruence).
    injection H as <-. exists m1. split; auto. subst m1. split; [apply canonize_square; auto|]. split; [apply canonize_good; auto|]. split; auto.
    intros v. rewrite (canonize_zin n _ v S2 G2). apply Z2.
  Qed.

  Lemma elapse_below : forall s i j k v, st_ok A s -> i < n -> 1 <= j < n -> at_most (zm s) i j k -> zin n (elapse (zm s)) v ->
    (ev v i - ev v j <= - inject_Z (BinInt.Z.of_nat k))%Q.
  Proof.
    intros s i j k v (S1 & GG & _) Hi Hj P Hv. specialize (Hv i j Hi ltac:(lia)). rewrite (mget_elapse n) in Hv by (auto; lia).
    replace (j =? 0) with false in Hv by (symmetry; apply Nat.eqb_neq; lia). pose proof (GG i j Hi ltac:(lia)) as g. unfold at_most, negb_i in P.
    destruct (Nat.eqb_spec i 0) as [->|]; revert g P Hv; [generalize (mget (zm s) 0 j)|generalize (mget (zm s) i j)]; intros [[| |u|] []]; unfold ble, below, good; cbn [fst snd andb negb]; try tauto; intros; lra.
  Qed.

  Lemma m1_tight : forall m1 i j k, square n m1 -> mgood n m1 -> canonical n m1 -> i < n -> j < n -> i <> j ->
    (forall v, zin n m1 v -> (ev v i - ev v j <= - inject_Z (BinInt.Z.of_nat k))%Q) -> at_most m1 i j k.
  Proof. intros m1 i j k S1 G1 C1 Hi Hj N H. apply (canonical_tight n); auto. exact I. Qed.

  (* what the resets keep *)
  Lemma resets_keep : forall i j k l m1, i < n -> 1 <= j < n -> Forall (fun a => a < clockSize A) l -> square n m1 -> mgood n m1 ->
    ~ In (j - 1) l -> (i = 0 \/ ~ In (i - 1) l) -> at_most m1 i j k -> 
    square n (fold_left reset l m1) /\ mgood n (fold_left reset l m1) /\ at_most (fold_left reset l m1) i j k.
  Proof.
    intros i j k. induction l as [|a l IH]; intros m1 Hi Hj F Sq Gd Nj Ni P; cbn [fold_left]; auto. inversion F as [|? ? Ha F']; subst.
    apply IH; auto; [apply reset_square; auto; lia|apply reset_good; auto; lia|intros X; apply Nj; right; auto|destruct Ni as [->|Ni]; [auto|right; intros X; apply Ni; right; auto]|].
    unfold at_most. rewrite (mget_reset n) by (auto; lia).
    destruct (Nat.eqb_spec i (S a)) as [->|_]; [exfalso; destruct Ni as [Ni|Ni]; [discriminate|apply Ni; left; lia]|].
    destruct (Nat.eqb_spec j (S a)) as [->|_]; [exfalso; apply Nj; left; lia|auto].
  Qed.

  Lemma resets_make : forall x j k l m1, 1 <= j < n -> Forall (fun a => a < clockSize A) l -> square n m1 -> mgood n m1 ->
    ~ In (j - 1) l -> In x l -> at_most m1 0 j k ->
    square n (fold_left reset l m1) /\ mgood n (fold_left reset l m1) /\ at_most (fold_left reset l m1) (S x) j k.
  Proof.
    intros x j k. induction l as [|a l IH]; intros m1 Hj F Sq Gd Nj Hx P; [destruct Hx|]. cbn [fold_left]. inversion F as [|? ? Ha F']; subst.
    assert (Sq' : square n (reset m1 a)) by (apply reset_square; auto; lia).
    assert (Gd' : mgood n (reset m1 a)) by (apply reset_good; auto; lia).
    assert (Nj' : ~ In (j - 1) l) by (intros X; apply Nj; right; auto).
    assert (P0 : at_most (reset m1 a) 0 j k).
    { unfold at_most. rewrite (mget_reset n) by (auto; lia). cbn [Nat.eqb]. destruct (Nat.eqb_spec j (S a)) as [->|_]; [exfalso; apply Nj; left; lia|auto]. }
    destruct (in_dec Nat.eq_dec x l) as [I|N]; [apply IH; auto|]. destruct Hx as [->|Hx]; [|contradiction].
    apply resets_keep; auto; [lia|right; replace (S x - 1) with x by lia; auto|]. unfold at_most. rewrite (mget_reset n) by (auto; lia).
    rewrite Nat.eqb_refl. replace (j =? 0) with false by (symmetry; apply Nat.eqb_neq; lia).
    destruct (Nat.eqb_spec j (S x)) as [->|_]; [exfalso; apply Nj; left; lia|]. cbn [orb]. exact P.
  Qed.

  Lemma finish : forall i j k m2, i < n -> j < n -> square n m2 -> mgood n m2 -> at_most m2 i j k -> at_most (canonize (abstractize M m2)) i j k.
  Proof.
    intros i j k m2 Hi Hj S2 G2 P. unfold at_most in *.
    apply (ble_trans _ (mget (abstractize M m2) i j)); [| |exact I|apply (canonize_le n); auto using abstractize_square, abstractize_good|].
    - refine (canonize_good n _ _ _ _ _ _ _); auto using abstractize_square, abstractize_good.
    - refine (abstractize_good n _ _ _ _ _ _ _ _); auto.
    - rewrite (mget_abstractize n) by auto. rewrite (not_big _ k); auto.
  Qed.

  (* all clocks are at least 0 *)
  Definition pos (m : mat) : Prop := forall j, 1 <= j < n -> at_most m 0 j 0.

  Lemma edge_pos : forall s e m, st_ok A s -> wf_edge A e -> succ_zone M (elapse (zm s)) e = Some m -> pos (zm s) -> pos m.
  Proof.
    intros s e m SO WE H P. destruct (succ_parts s e m SO WE H) as (m1 & -> & S1 & G1 & C1 & Z2). destruct WE as (_ & WR & WG).
    assert (P1 : pos m1) by (intros j Hj; apply m1_tight; auto; try lia; intros v Hv; apply Z2 in Hv as [Hv _]; apply (elapse_below s 0 j 0 v); auto; lia).
    assert (R : forall l m0, Forall (fun a => a < clockSize A) l -> square n m0 -> mgood n m0 -> pos m0 ->
      square n (fold_left reset l m0) /\ mgood n (fold_left reset l m0) /\ pos (fold_left reset l m0)).
    { induction l as [|a l IH]; intros m0 F Sq Gd Po; cbn [fold_left]; auto. inversion F as [|? ? Ha F']; subst. apply IH; auto.
      - apply reset_square; auto; lia.
      - apply reset_good; auto; lia.
      - intros j Hj. unfold at_most. rewrite (mget_reset n) by (auto; lia). cbn [Nat.eqb]. destruct (Nat.eqb_spec j (S a)); [|apply Po; auto].
        vm_compute. discriminate. }
    destruct (R (eresets e) m1 WR S1 G1 P1) as (S4 & G4 & P4). intros j Hj. apply finish; auto; lia.
  Qed.

  (* one transition *)
  Section Edge.
    Variables (x y : nat) (s : zst) (e : edge) (m : mat).
    Hypothesis HX : x < clockSize A.
    Hypothesis HY : y < clockSize A.
    Hypothesis XY : x <> y.
    Hypothesis SO : st_ok A s.
    Hypothesis WE : wf_edge A e.
    Hypothesis H : succ_zone M (elapse (zm s)) e = Some m.
    Hypothesis Ny : ~ In y (eresets e).

    Lemma keep_diff : forall k, ~ In x (eresets e) -> at_most (zm s) (S x) (S y) k -> at_most m (S x) (S y) k.
    Proof.
      intros k Nx P. destruct (succ_parts s e m SO WE H) as (m1 & -> & S1 & G1 & C1 & Z2). destruct WE as (_ & WR & WG).
      assert (P1 : at_most m1 (S x) (S y) k) by (apply m1_tight; auto; try lia; intros v Hv; apply Z2 in Hv as [Hv _]; apply (elapse_below s); auto; lia).
      destruct (resets_keep (S x) (S y) k (eresets e) m1) as (S4 & G4 & P4); auto; try lia; [replace (S y - 1) with y by lia; auto|right; replace (S x - 1) with x by lia; auto|].
      apply finish; auto; lia.
    Qed.

    Lemma keep_low : forall k, at_most (zm s) 0 (S y) k -> at_most m 0 (S y) k /\ (In x (eresets e) -> at_most m (S x) (S y) k).
    Proof.
      intros k P. destruct (succ_parts s e m SO WE H) as (m1 & -> & S1 & G1 & C1 & Z2). destruct WE as (_ & WR & WG).
      assert (P1 : at_most m1 0 (S y) k) by (apply m1_tight; auto; try lia; intros v Hv; apply Z2 in Hv as [Hv _]; apply (elapse_below s); auto; lia).
      assert (Ny' : ~ In (S y - 1) (eresets e)) by (replace (S y - 1) with y by lia; auto). split.
      - destruct (resets_keep 0 (S y) k (eresets e) m1) as (S4 & G4 & P4); auto; try lia. apply finish; auto; lia.
      - intros Hx. destruct (resets_make x (S y) k (eresets e) m1) as (S4 & G4 & P4); auto; try lia. apply finish; auto; lia.
    Qed.

    Lemma waited : forall k, waits x e = true -> at_most (zm s) (S x) (S y) k ->
      at_most m 0 (S y) (S k) /\ (In x (eresets e) -> at_most m (S x) (S y) (S k)).
    Proof.
      intros k Wx P. destruct (succ_parts s e m SO WE H) as (m1 & -> & S1 & G1 & C1 & Z2). destruct WE as (_ & WR & WG).
      assert (P1 : at_most m1 0 (S y) (S k)).
      { apply m1_tight; auto; try lia. intros v Hv. apply Z2 in Hv as [Hv Hg].
        pose proof (elapse_below s (S x) (S y) k v SO ltac:(lia) ltac:(lia) P Hv) as D. cbn [ev] in *.
        assert (Vx : (1 <= v x)%Q).
        { unfold waits in Wx. apply existsb_exists in Wx as (g0 & G0 & Wg). apply andb_prop in Wg as [Wg Wo]. apply andb_prop in Wg as [Wg Wc].
          apply Nat.eqb_eq in Wg. apply Z.leb_le in Wc.
          specialize (Hg g0 G0). unfold holds in Hg. rewrite Wg in Hg. assert (L1 : (1 <= inject_Z (cc g0))%Q) by (change 1%Q with (inject_Z 1); rewrite <- Zle_Qle; auto).
          destruct (codr g0); try discriminate; cbn in Hg; lra. }
        rewrite Nat2Z.inj_succ, <- Z.add_1_r, inject_Z_plus. change (inject_Z 1) with 1%Q. lra. }
      assert (Ny' : ~ In (S y - 1) (eresets e)) by (replace (S y - 1) with y by lia; auto). split.
      - destruct (resets_keep 0 (S y) (S k) (eresets e) m1) as (S4 & G4 & P4); auto; try lia. apply finish; auto; lia.
      - intros Hx. destruct (resets_make x (S y) (S k) (eresets e) m1) as (S4 & G4 & P4); auto; try lia. apply finish; auto; lia.
    Qed.
  End Edge.

  Section Closed.
    Variable Z : za.
    Hypothesis W : wf_ta A.
    Hypothesis HI : Inv A M Z.
    Hypothesis HE : forall i, expanded A M Z i.

    (* one transition in the zone automaton *)
    Lemma follow : forall i s v c e q d, zget Z i = Some s -> zin n (zm s) v -> is_edge A (zq s) c e -> etgt e = Some q -> (0 < d)%Q ->
      sat_guard (delay v d) (eguard e) -> exists j s' m, zget Z j = Some s' /\ zq s' = q /\ succ_zone M (elapse (zm s)) e = Some m /\
        zone_eqb m (zm s') = true /\ square n m /\ mgood n m /\ zin n (zm s') (reset_set (delay v d) (eresets e)).
    Proof.
      intros i s v c e q d Hs Hv He Et D1 D2. destruct (HI i s Hs) as [SO _]. pose proof SO as (S1 & GG & _). destruct (elapse_ok A s SO) as [ES EG].
      pose proof (wf_is_edge _ _ _ _ W He) as (_ & WR & WG).
      pose proof (elapse_forward n _ _ d S1 GG Hv D1) as Hel.
      destruct (succ_zone_forward (clockSize A) K M _ e (delay v d) ES EG WR WG Hel D2) as (m & Em & Hm).
      destruct (HE i s c e Hs He s q m Hs Et Em) as (j & s' & _ & G & Q & E). destruct (HI j s' G) as [(S' & _ & (u & Hu) & _) _].
      exists j, s', m. destruct (succ_zone_ok (clockSize A) K M _ e m ES EG WR WG Em) as (X1 & X2 & X3). repeat (split; auto).
      eapply (zone_eqb_zin (clockSize A)); eauto.
    Qed.

    Lemma entry_eq : forall m m' i j k, i < n -> 1 <= j < n -> square n m -> square n m' -> mgood n m -> mgood n m' -> zone_eqb m m' = true ->
      at_most m i j k -> at_most m' i j k.
    Proof.
      intros m m' i j k Hi Hj S1 S2 G1 G2 E H. pose proof (zone_eqb_entries n m m' S1 S2 E i j Hi ltac:(lia) ltac:(intros X; injection X; lia)) as EE.
      unfold at_most in *. revert H EE. pose proof (G1 i j Hi ltac:(lia)) as g1. pose proof (G2 i j Hi ltac:(lia)) as g2.
      revert g1 g2. unfold negb_i, beqb. generalize (mget m i j), (mget m' i j). intros [[| |a|] []] [[| |b|] []]; bunf; bgo.
    Qed.

    Lemma path_pos : forall i w j, zpath Z i w j -> forall s s', zget Z i = Some s -> zget Z j = Some s' -> pos (zm s) -> pos (zm s').
    Proof.
      intros i w j P. induction P as [|i c' j w k (s0 & G0' & _ & Hin & _) P IH]; intros s s' Hs Hs' Po; [replace s' with s by congruence; auto|].
      assert (s0 = s) by (unfold zget in *; congruence). subst s0. destruct (HI i s Hs) as [SO EO].
      destruct (EO c' j Hin) as (_ & s1 & e1 & q & m & G1 & He1 & Et1 & Em & Q & E).
      apply (IH s1 s' G1 Hs'). pose proof (wf_is_edge _ _ _ _ W He1) as WE. pose proof (edge_pos s e1 m SO WE Em Po) as Pm.
      destruct (elapse_ok A s SO) as [ES EG]. destruct WE as (_ & WR & WG).
      destruct (succ_zone_ok (clockSize A) K M _ e1 m ES EG WR WG Em) as (Sm & Gm & _). destruct (HI j s1 G1) as [(S' & G' & _) _].
      intros l Hl. apply (entry_eq m); auto; lia.
    Qed.

    Variables (x y : nat).
    Hypothesis HX : x < clockSize A.
    Hypothesis HY : y < clockSize A.
    Hypothesis XY : x <> y.

    Definition status (st k : nat) (m : mat) : Prop :=
      match st with 0 => at_most m (S x) (S y) k | 1 => at_most m 0 (S y) (S k) | _ => at_most m (S x) (S y) (S k) end.

    (* once around *)
    Lemma around : forall p v es p' v', turn A p v es p' v' -> forall st i s k, st <= 2 -> spares y es -> paced st x es = true -> zget Z i = Some s -> zq s = p -> zin n (zm s) v ->
      status st k (zm s) -> exists j s', zget Z j = Some s' /\ zq s' = p' /\ zin n (zm s') v' /\ status 2 k (zm s').
    Proof.
      intros p v es p' v' T. induction T as [p v|p v c e q d es p' v' He Et D1 D2 T IH]; intros st i s k Hst Sy Pc Hs Hq Hv St; cbn [paced] in Pc.
      - apply Nat.eqb_eq in Pc. subst st. eauto 10.
      - pose proof (Sy c e (or_introl eq_refl)) as Ny'. assert (Sy' : spares y es) by (intros c' e' I'; apply (Sy c' e'); right; auto). clear Sy.
        rewrite <- Hq in He. destruct (follow i s v c e q d Hs Hv He Et D1 D2) as (j & s1 & m & G & Q & Em & E & Sm & Gm & Hv1).
        destruct (HI i s Hs) as [SO _]. destruct (HI j s1 G) as [(S' & G' & _) _]. pose proof (wf_is_edge _ _ _ _ W He) as WE.
        assert (Tr : forall i' k', i' < n -> at_most m i' (S y) k' -> at_most (zm s1) i' (S y) k') by (intros; apply (entry_eq m); auto; lia).
        destruct st as [|[|[|st]]]; [| | |lia]; cbn [status] in St.
        + destruct (waits x e) eqn:Wx.
          * destruct (waited x y s e m HX HY XY SO WE Em Ny' k Wx St) as [H1 H2].
            destruct (mem x (eresets e)) eqn:Mx; (eapply IH; [| exact Sy'| |exact G|exact Q|exact Hv1|]; [|exact Pc|]; [lia|]); cbn [status]; apply Tr; auto; [lia|apply H2, mem_In; auto|lia].
          * apply andb_prop in Pc as [Nx Pc]. apply negb_true_iff in Nx.
            apply (IH 0 j s1 k); auto. cbn [status]. apply Tr; [lia|]. apply (keep_diff x y s e m HX HY XY SO WE Em Ny' k); auto. intros X; apply mem_In in X; congruence.
        + destruct (keep_low x y s e m HX HY XY SO WE Em Ny' (S k) St) as [H1 H2].
          destruct (mem x (eresets e)) eqn:Mx; (eapply IH; [| exact Sy'| |exact G|exact Q|exact Hv1|]; [|exact Pc|]; [lia|]); cbn [status]; apply Tr; auto; [lia|apply H2, mem_In; auto|lia].
        + apply andb_prop in Pc as [Nx Pc]. apply negb_true_iff in Nx.
          apply (IH 2 j s1 k); auto. cbn [status]. apply Tr; [lia|]. apply (keep_diff x y s e m HX HY XY SO WE Em Ny' (S k)); auto. intros X; apply mem_In in X; congruence.
    Qed.

    (* the first time around x has some value *)
    Lemma first : forall p v es p' v', turn A p v es p' v' -> forall st i s, st <= 2 -> spares y es -> paced st x es = true -> zget Z i = Some s -> zq s = p -> zin n (zm s) v ->
      pos (zm s) -> (st = 2 -> at_most (zm s) (S x) (S y) 0) -> exists j s', zget Z j = Some s' /\ zq s' = p' /\ zin n (zm s') v' /\ at_most (zm s') (S x) (S y) 0.
    Proof.
      intros p v es p' v' T. induction T as [p v|p v c e q d es p' v' He Et D1 D2 T IH]; intros st i s Hst Sy Pc Hs Hq Hv Po St; cbn [paced] in Pc.
      - apply Nat.eqb_eq in Pc. subst st. eauto 10.
      - pose proof (Sy c e (or_introl eq_refl)) as Ny'. assert (Sy' : spares y es) by (intros c' e' I'; apply (Sy c' e'); right; auto). clear Sy.
        rewrite <- Hq in He. destruct (follow i s v c e q d Hs Hv He Et D1 D2) as (j & s1 & m & G & Q & Em & E & Sm & Gm & Hv1).
        destruct (HI i s Hs) as [SO _]. destruct (HI j s1 G) as [(S' & G' & _) _]. pose proof (wf_is_edge _ _ _ _ W He) as WE.
        assert (Tr : forall i' j' k', i' < n -> 1 <= j' < n -> at_most m i' j' k' -> at_most (zm s1) i' j' k') by (intros; apply (entry_eq m); auto; lia).
        assert (P1 : pos (zm s1)) by (intros j' Hj; apply Tr; auto; [lia|]; eapply edge_pos; eauto).
        destruct (keep_low x y s e m HX HY XY SO WE Em Ny' 0 (Po (S y) ltac:(lia))) as [H1 H2].
        destruct st as [|[|[|st]]]; [| | |lia].
        + destruct (waits x e) eqn:Wx.
          * destruct (mem x (eresets e)) eqn:Mx; (eapply IH; [| exact Sy'| |exact G|exact Q|exact Hv1|exact P1|]; [|exact Pc|]; [lia|]); [|discriminate].
            intros _. apply Tr; try lia. apply H2, mem_In; auto.
          * apply andb_prop in Pc as [Nx Pc]. apply (IH 0 j s1); auto; discriminate.
        + destruct (mem x (eresets e)) eqn:Mx; (eapply IH; [| exact Sy'| |exact G|exact Q|exact Hv1|exact P1|]; [|exact Pc|]; [lia|]); [|discriminate].
          intros _. apply Tr; try lia. apply H2, mem_In; auto.
        + apply andb_prop in Pc as [Nx Pc]. apply negb_true_iff in Nx.
          apply (IH 2 j s1); auto. intros _. apply Tr; try lia. apply (keep_diff x y s e m HX HY XY SO WE Em Ny' 0); auto. intros X; apply mem_In in X; congruence.
    Qed.

    Lemma bounded : forall l, (forall s, In s l -> st_ok A s) ->
      exists b, forall s, In s l -> exists v, zin n (zm s) v /\ (- inject_Z (BinInt.Z.of_nat b) < v x - v y)%Q.
    Proof.
      induction l as [|s l IH]; intros H; [exists 0; intros s []|].
      destruct IH as (b & Hb); [intros; apply H; right; auto|].
      destruct (H s (or_introl eq_refl)) as (_ & _ & (v & Hv) & _).
      exists (max b (S (BinInt.Z.to_nat (Qceiling (v y - v x))))).
      assert (Mono : forall a b : nat, a <= b -> (inject_Z (BinInt.Z.of_nat a) <= inject_Z (BinInt.Z.of_nat b))%Q) by (intros; rewrite <- Zle_Qle; lia).
      intros s' [<-|Hs'].
      - exists v. split; auto. pose proof (Qle_ceiling (v y - v x)) as C.
        set (zz := Qceiling (v y - v x)) in *.
        pose proof (Mono _ _ (Nat.le_max_r b (S (BinInt.Z.to_nat zz)))) as Mx.
        assert (inject_Z zz < inject_Z (BinInt.Z.of_nat (S (BinInt.Z.to_nat zz))))%Q by (rewrite <- Zlt_Qlt; lia). lra.
      - destruct (Hb s' Hs') as (u & Hu & Lu). exists u. split; auto.
        pose proof (Mono _ _ (Nat.le_max_l b (S (BinInt.Z.to_nat (Qceiling (v y - v x)))))). lra.
    Qed.

    Variables (p : ptr) (es : list (nat * edge)).
    Hypothesis Pc : paced 0 x es = true.
    Hypothesis Sy : spares y es.
    (* the cycle can be taken again and again *)
    Hypothesis Again : forall v, (v x == 0)%Q -> exists v', turn A p v es p v' /\ (v' x == 0)%Q.

    Lemma turns : forall i s v, zget Z i = Some s -> zq s = p -> zin n (zm s) v -> (v x == 0)%Q -> at_most (zm s) (S x) (S y) 0 ->
      forall k, exists j s' v', zget Z j = Some s' /\ zq s' = p /\ zin n (zm s') v' /\ (v' x == 0)%Q /\ at_most (zm s') (S x) (S y) k.
    Proof.
      intros i s v Hs Hq Hv Vx P. induction k as [|k (j & s1 & v1 & G1 & Q1 & Hv1 & Vx1 & B1)]; [eauto 10|].
      destruct (Again v1 Vx1) as (v2 & T & Vx2). destruct (around p v1 es p v2 T 0 j s1 k ltac:(lia) Sy Pc G1 Q1 Hv1 B1) as (j' & s' & G & Q & Hv2 & B2). eauto 10.
    Qed.

    Lemma no_closed : forall i s v, zget Z i = Some s -> zq s = p -> zin n (zm s) v -> (v x == 0)%Q -> pos (zm s) -> False.
    Proof.
      intros i s v Hs Hq Hv Vx Po. destruct (bounded (zsts Z)) as (b & Hb).
      { intros s1 Hs1. apply In_nth_error in Hs1 as (j & G). apply (HI j s1 G). }
      destruct (Again v Vx) as (v1 & T & Vx1).
      destruct (first p v es p v1 T 0 i s ltac:(lia) Sy Pc Hs Hq Hv Po ltac:(discriminate)) as (j1 & s1 & G1 & Q1 & Hv1 & B1).
      destruct (turns j1 s1 v1 G1 Q1 Hv1 Vx1 B1 b) as (j & s2 & v2 & G2 & _ & _ & _ & B2).
      destruct (Hb s2) as (u & Hu & Lu); [eapply nth_error_In; exact G2|].
      destruct (HI j s2 G2) as [(_ & Gd & _) _].
      specialize (Hu (S x) (S y) ltac:(lia) ltac:(lia)). apply (below_ble _ (negb_i b)) in Hu; [|apply Gd; lia|exact Logic.I|auto].
      unfold negb_i, below in Hu. cbn [fst snd ev] in Hu. lra.
    Qed.
  End Closed.
End Zones.

(* A cycle that can be reached and taken again and again, that waits for x and
   resets x, next to a clock that it does not reset: the construction does not
   end. *)
Lemma diverges : forall A z x y p es, wf_ta A -> clockSize A <= 255 -> max_const A = (Fin (inject_Z z), true) -> (1 <= z)%Z ->
  x < clockSize A -> y < clockSize A -> x <> y -> paced 0 x es = true -> spares y es ->
  (forall v, (v x == 0)%Q -> exists v', turn A p v es p v' /\ (v' x == 0)%Q) ->
  forall p0 T0 w v T, In p0 (inits A) -> run A p0 zeroval T0 w p v T -> increasing T0 w -> (v x == 0)%Q ->
  forall fuel Z, ta2za fuel A zempty [] <> Ok Z.
Proof.
  intros A z x y p es W K MC Z1 HX HY XY Pc Sy Again p0 T0 w v T Hp0 R Inc Vx fuel Z E.
  destruct (Inv_empty A (max_const A)) as [I0 E0]. destruct (zero_zone_ok A) as [Z0 Z0'].
  destruct (ta2za_inv A (max_const A) W K fuel zempty [] Z eq_refl I0 E0 Z0 E) as (HI & _ & EX & _ & PI & _).
  destruct (PI p0 Hp0) as (i & s & G & Q & _ & Em). destruct (Em eq_refl) as [Hi Em'].
  destruct (ta2za_run A (max_const A) W K Z HI EX _ _ _ _ _ _ _ R Inc i s G Q) as (j & s' & P & G' & Q' & Hv').
  { rewrite Em'. exact Z0'. }
  apply (no_closed A z K MC Z1 Z W HI EX x y HX HY XY p es Pc Sy Again j s' v G' Q' Hv' Vx).
  apply (path_pos A z K MC Z1 Z W HI i (map fst w) j P s s' G G'). rewrite Em'.
  intros l Hl. unfold at_most. change (default_zone A []) with (fill (S (clockSize A)) bzero). rewrite mget_fill by lia. vm_compute. discriminate.
Qed.
