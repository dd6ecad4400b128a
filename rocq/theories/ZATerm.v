(* When the construction of zone automata ends. *)
From Coq Require Import QArith Lqa Bool List ZArith Arith Lia.
From Verif Require Import Num NumFacts Outcome Constraint Zone ZoneFacts ZoneOps TA Spec TAFacts PropBase ZA ZASpec ZAFacts PropZA.
Import ListNotations.
Open Scope nat_scope.

(* ---------- a measure on configurations ---------- *)

Section Measure.
  Variables (A : ta) (rk : ptr -> mat -> nat) (D : nat).
  Hypothesis W : wf_ta A.
  Hypothesis K : clockSize A <= 255.
  Hypothesis LB : labels_ok A.
  Let M := max_const A.
  (* A transition decreases the measure or leads back to the configuration. *)
  Hypothesis RK : forall s c e q m, st_ok A s -> is_edge A (zq s) c e -> etgt e = Some q ->
    succ_zone M (elapse (zm s)) e = Some m -> rk q m < rk (zq s) (zm s) \/ (q = zq s /\ zone_eqb m (zm s) = true).
  Hypothesis HD : forall p s, In (p, s) (states A) -> length (flat_map snd (next s)) <= D.

  Definition mw1 (Z : za) (i : nat) : nat := match zget Z i with Some s => (S D) ^ rk (zq s) (zm s) | None => 0 end.
  Definition mw (Z : za) (q : list nat) : nat := list_sum (map (mw1 Z) q).

  Lemma mw_ext : forall Z Z' q, ext Z Z' -> (forall i, In i q -> i < length (zsts Z)) -> mw Z' q = mw Z q.
  Proof.
    intros Z Z' q X H. unfold mw. f_equal. apply map_ext_in. intros i Hi. unfold mw1.
    destruct (zget_some Z i (H i Hi)) as (s & G). rewrite G. destruct (X _ _ G) as (l & ->). auto.
  Qed.

  Lemma mw_app : forall Z q r, mw Z (q ++ r) = mw Z q + mw Z r.
  Proof. intros. unfold mw. rewrite map_app, list_sum_app. auto. Qed.

  Lemma zfind_from_some : forall l i j s q m, nth_error l j = Some s -> zlive s = true -> q = zq s -> zone_eqb m (zm s) = true ->
    exists x, zfind_from l i q m = Some x.
  Proof.
    induction l as [|t l IH]; intros i [|j] s q m G L Q E; try discriminate; cbn [zfind_from].
    - injection G as ->. unfold zst_eqb. rewrite L, E, Q, Nat.eqb_refl. cbn. eauto.
    - destruct (zlive t && zst_eqb t q m); eauto.
  Qed.

  (* one transition adds at most one configuration of lower measure *)
  Lemma edge_mw : forall Z nq i s c e Z' nq', Inv A M Z -> zget Z i = Some s -> is_edge A (zq s) c e ->
    ta2za_edge A M i (elapse (zm s)) c e (Z, nq) = Ok (Z', nq') -> (forall j, In j nq -> j < length (zsts Z)) ->
    S D * mw Z' nq' <= S D * mw Z nq + (S D) ^ rk (zq s) (zm s).
  Proof.
    intros Z nq i s c e Z' nq' HI G He H HQ.
    destruct (ta2za_edge_inv A M W K Z nq i s c e Z' nq' HI G He H) as (_ & X & _).
    unfold ta2za_edge in H. destruct (etgt e) as [q|] eqn:Et; [|inversion H; subst; lia].
    destruct (succ_zone M (elapse (zm s)) e) as [m|] eqn:Em; [|inversion H; subst; lia].
    destruct (char_max <=? c); [discriminate|].
    destruct (zfind Z q m) eqn:EF; [inversion H; subst; rewrite (mw_ext Z _ nq' X HQ); lia|].
    destruct (deref A q) as [ts|]; [|discriminate]. inversion H; subst.
    destruct (HI i s G) as [SO _].
    destruct (RK s c e q m SO He Et Em) as [L|[Q1 Q2]].
    - rewrite mw_app. rewrite (mw_ext Z _ nq X HQ).
      set (Z' := zupd _ _ _) in *.
      assert (E1 : mw Z' [length (zsts Z)] = S D ^ rk q m).
      { unfold mw. simpl. unfold mw1. unfold Z'. rewrite zget_zupd. apply zget_lt in G.
        destruct (Nat.eqb_spec (length (zsts Z)) i); [lia|]. unfold zget. simpl.
        rewrite nth_error_app2 by lia. rewrite Nat.sub_diag. simpl. apply Nat.add_0_r. }
      rewrite E1, Nat.mul_add_distr_l. apply Nat.add_le_mono_l. rewrite <- Nat.pow_succ_r'. apply Nat.pow_le_mono_r; lia.
    - exfalso. destruct SO as (_ & _ & _ & _ & LV).
      destruct (zfind_from_some (zsts Z) 0 i s q m G LV Q1 Q2) as (x & E). unfold zfind in EF. congruence.
  Qed.

  Lemma conf_mw : forall Z i s Z' nq', Inv A M Z -> zget Z i = Some s -> ta2za_conf A M i (Z, []) = Ok (Z', nq') ->
    mw Z' nq' < (S D) ^ rk (zq s) (zm s).
  Proof.
    intros Z i s Z' nq' HI Hs H. unfold ta2za_conf in H. simpl in H. rewrite Hs in H.
    destruct (deref A (zq s)) as [ts|] eqn:Ed; [|discriminate].
    assert (Hts : In (zq s, ts) (states A)) by (apply assoc_In; auto).
    pose proof (HD _ _ Hts) as HL.
    set (B := (S D) ^ rk (zq s) (zm s)) in *.
    assert (G : S D * mw Z' nq' <= length (flat_map snd (next ts)) * B).
    { assert (G1 : grows A M Z [] Z' nq' /\ S D * mw Z' nq' <= length (flat_map snd (next ts)) * B); [|tauto].
      apply (fold_out_inv _ (fun d (p : za * list nat) => grows A M Z [] (fst p) (snd p) /\
         S D * mw (fst p) (snd p) <= length (flat_map snd d) * B)) in H; [exact H| |].
      - split; [apply grows_refl; auto|]. simpl. unfold mw. simpl. lia.
      - intros d [c es] [Z1 q1] [Z2 q2] Hce [G1 C1] H1. cbn [fst snd] in *.
        apply (fold_out_inv _ (fun d' (p : za * list nat) => grows A M Z [] (fst p) (snd p) /\
           S D * mw (fst p) (snd p) <= length (flat_map snd d) * B + length d' * B)) in H1.
        + destruct H1 as [G2 C2]. cbn [fst snd] in *. split; auto. rewrite flat_map_app, app_length. simpl. rewrite app_nil_r. lia.
        + split; auto. simpl. lia.
        + intros d' e [Z3 q3] [Z4 q4] He [G3 C3] H3. cbn [fst snd] in *.
          pose proof G3 as (I3 & X3 & N3 & (l & L & R) & A3). destruct (X3 _ _ Hs) as (l0 & Hl).
          assert (Hed : is_edge A (zq s) c e) by (exists ts, es; auto).
          destruct (ta2za_edge_inv A M W K Z3 q3 i _ c e Z4 q4 I3 Hl Hed H3) as (A1 & A2 & A4 & A5 & A6 & A7).
          split.
          * eapply grows_trans; [exact K|exact G3|]. repeat (split; auto).
          * rewrite app_length. simpl. simpl in L. subst q3.
            assert (HQ : forall j, In j l -> j < length (zsts Z3)) by (intros j Hj; apply R in Hj; lia).
            pose proof (edge_mw Z3 l i _ c e Z4 q4 I3 Hl Hed H3 HQ) as E. simpl zq in E. simpl zm in E. fold B in E. lia. }
    assert (0 < B) by (unfold B; apply Nat.neq_0_lt_0, Nat.pow_nonzero; lia).
    destruct (Nat.lt_ge_cases (mw Z' nq') B) as [X|X]; auto. exfalso. nia.
  Qed.

  Lemma loop_measure : forall fuel Z queue, Inv A M Z -> (forall i, In i queue -> i < length (zsts Z)) ->
    mw Z queue <= fuel -> exists Z', ta2za_loop fuel A M Z queue = Ok Z'.
  Proof.
    induction fuel as [|f IH]; intros Z queue HI HQ HF; destruct queue as [|i rest]; simpl; eauto.
    - exfalso. unfold mw in HF. simpl in HF. destruct (zget_some Z i) as (s & G); [apply HQ; left; auto|].
      unfold mw1 in HF. rewrite G in HF. assert (S D ^ rk (zq s) (zm s) <> 0) by (apply Nat.pow_nonzero; lia). lia.
    - assert (Hi : i < length (zsts Z)) by (apply HQ; left; auto). destruct (zget_some Z i Hi) as (s & G).
      destruct (ta2za_conf_fine A M W K Z i LB HI Hi) as (Z' & nq' & E). rewrite E. simpl.
      pose proof (conf_mw Z i s Z' nq' HI G E) as L.
      destruct (ta2za_conf_inv A M W K _ _ _ _ HI E) as [(I1 & X1 & _ & (l & -> & R) & _) _]. simpl in *.
      assert (HR : forall j, In j rest -> j < length (zsts Z)) by (intros; apply HQ; right; auto).
      apply IH; auto.
      + intros j Hj. apply in_app_or in Hj as [Hj|Hj]; [pose proof (ext_length _ _ X1); apply HR in Hj; lia|apply R in Hj; lia].
      + rewrite mw_app, (mw_ext Z Z' rest X1 HR). unfold mw in HF at 1. simpl in HF. unfold mw1 at 1 in HF. rewrite G in HF.
        fold (mw Z rest) in HF. lia.
  Qed.

  (* for any zone automaton that is extended *)
  Lemma ta2za_measure : forall Z, Inv A M Z -> exists fuel Z', ta2za fuel A Z [] = Ok Z'.
  Proof.
    intros Z HZ. unfold ta2za. set (z := fill (S (clockSize A)) bzero).
    set (new := filter _ (inits A)).
    assert (NewS : forall p, In p new -> In p (map fst (states A))) by (intros p Hp; apply filter_In in Hp as [Hp _]; apply (wf_inits _ W); auto).
    destruct new as [|p0 l] eqn:EN; [exists 0; eauto|]. rewrite <- EN in *. clear p0 l EN.
    rewrite (new_states_ok A z new []) by auto. simpl.
    destruct (zero_zone_ok A) as [(Z1 & Z2 & Z3) _].
    set (Z0 := mkZA _ _). exists (mw Z0 (seq (length (zsts Z)) (length new))). apply loop_measure; auto.
    - intros i s G. unfold zget in G. unfold Z0 in G. cbn [zsts] in G.
      destruct (Nat.lt_ge_cases i (length (zsts Z))) as [Hi|Hi].
      + rewrite nth_error_app1 in G by lia. destruct (HZ i s G) as [SO EO]. split; auto.
        intros c j Hin. destruct (EO c j Hin) as (C1 & s' & e & q & m & G' & X). split; auto. exists s', e, q, m. split; auto.
        unfold zget, Z0. cbn [zsts]. rewrite nth_error_app1; [exact G'|]. apply zget_lt in G'. exact G'.
      + rewrite nth_error_app2 in G by lia. apply nth_error_In in G. apply in_map_iff in G as (p & <- & Hp).
        split; [|intros c j []]. repeat (split; auto).
    - intros i Hi. apply in_seq in Hi. simpl. rewrite app_length, map_length. lia.
  Qed.
End Measure.

(* ---------- letting time pass twice ---------- *)

Lemma canonize_entries : forall n (P : nat -> nat -> bound -> Prop) m, square n m -> mgood n m ->
  (forall i j, i < n -> j < n -> P i j (mget m i j)) ->
  (forall i j k a b, i < n -> j < n -> k < n -> good a -> good b -> P i k a -> P k j b -> P i j (badd b a)) ->
  forall i j, i < n -> j < n -> P i j (mget (canonize m) i j).
Proof.
  intros n P m Hs Hg H0 HA.
  apply (canonize_ind n (fun _ m => forall i j, i < n -> j < n -> P i j (mget m i j)) m); auto.
  clear m Hs Hg H0. intros k m Hs Hg Hk H.
  destruct (close1_ind n k (fun m => mgood n m /\ forall i j, i < n -> j < n -> P i j (mget m i j)) m) as [_ [_ X]]; auto.
  intros m' r Sm Hr [Gm Hm]. split; intros i j Hi Hj; rewrite (mget_close_row n) by auto; (destruct (Nat.eqb_spec i r) as [->|]; [|auto]).
  - apply good_min; auto. apply good_add; auto.
  - unfold bmin. destruct (bltb _ _); auto. apply (HA r j k); auto.
Qed.

(* [m] is entrywise at most [z] *)
Definition mle (n : nat) (m z : mat) : Prop := forall i j, i < n -> j < n -> ble (mget m i j) (mget z i j).

Lemma mle_trans : forall n a b c, mgood n a -> mgood n b -> mgood n c -> mle n a b -> mle n b c -> mle n a c.
Proof. intros n a b c Ga Gb Gc H1 H2 i j Hi Hj. apply (ble_trans _ (mget b i j)); auto. Qed.

Lemma fold_mono : forall n (f : mat -> nat -> mat) l m z,
  (forall k m z, In k l -> square n m -> square n z -> mgood n m -> mgood n z -> mle n m z ->
     square n (f m k) /\ square n (f z k) /\ mgood n (f m k) /\ mgood n (f z k) /\ mle n (f m k) (f z k)) ->
  square n m -> square n z -> mgood n m -> mgood n z -> mle n m z -> mle n (fold_left f l m) (fold_left f l z).
Proof.
  induction l as [|k l IH]; intros m z H S1 S2 G1 G2 L; cbn [fold_left]; auto.
  destruct (H k m z (or_introl eq_refl) S1 S2 G1 G2 L) as (A1 & A2 & A3 & A4 & A5). apply IH; auto. intros. apply H; auto. right; auto.
Qed.

Lemma close_row_good : forall n x m i, square n m -> x < n -> i < n -> mgood n m -> mgood n (close_row x m i).
Proof.
  intros n x m i S1 Hx Hi G a b Ha Hb. rewrite (mget_close_row n) by auto. destruct (a =? i); auto. apply good_min; auto. apply good_add; auto.
Qed.

Lemma bmin_mono : forall a b c d, good a -> good b -> good c -> good d -> ble a c -> ble b d -> ble (bmin a b) (bmin c d).
Proof.
  intros a b c d Ga Gb Gc Gd H1 H2. apply bmin_glb.
  - apply (ble_trans _ a); auto using good_min, bmin_l.
  - apply (ble_trans _ b); auto using good_min, bmin_r.
Qed.

Lemma canonize_mono : forall n m z, square n m -> square n z -> mgood n m -> mgood n z -> mle n m z -> mle n (canonize m) (canonize z).
Proof.
  intros n m z S1 S2 G1 G2 L. unfold canonize. rewrite (proj1 S1), (proj1 S2). apply (fold_mono n); auto.
  clear m z S1 S2 G1 G2 L. intros k m z Hk S1 S2 G1 G2 L. apply in_seq in Hk.
  repeat (split; [first [apply close1_square; auto; lia|apply close1_good; auto; lia]|]).
  unfold close1. rewrite (proj1 S1), (proj1 S2). apply (fold_mono n); auto.
  clear m z S1 S2 G1 G2 L. intros r m z Hr S1 S2 G1 G2 L. apply in_seq in Hr.
  repeat (split; [first [apply close_row_square; auto; lia|apply close_row_good; auto; lia]|]).
  intros i j Hi Hj. rewrite !(mget_close_row n) by (auto; lia). destruct (Nat.eqb_spec i r) as [->|]; [|auto].
  apply bmin_mono; auto using good_add; [apply good_add; apply G1; lia|apply good_add; apply G2; lia|].
  apply badd_mono; auto; try (apply G1; lia); try (apply G2; lia); apply L; lia.
Qed.

(* a canonical matrix below stays below *)
Lemma canonize_above : forall n r m, canonical n r -> mgood n r -> square n m -> mgood n m -> mle n r m -> mle n r (canonize m).
Proof.
  intros n r m Cr Gr S1 G1 L. intros i j Hi Hj.
  apply (canonize_entries n (fun i j b => ble (mget r i j) b)); auto.
  intros i' j' k a b Hi' Hj' Hk ga gb H1 H2.
  apply (ble_trans _ (badd (mget r i' k) (mget r k j'))); auto using good_add; [apply Cr; auto|].
  apply (ble_trans _ (badd a b)); auto using good_add.
  - apply badd_mono; auto.
  - revert ga gb. destruct a as [[| |x|] s], b as [[| |y|] t]; unfold good, ble, badd; cbn; try tauto. intros _ _. destruct s, t; cbn; lra.
Qed.

Definition norm (b : bound) : Prop := fst b = PInf -> snd b = false.

Lemma eqv_beqb : forall a b, good a -> good b -> norm a -> norm b -> eqv a b -> beqb a b = true.
Proof.
  intros [[| |x|] s] [[| |y|] t]; unfold norm, eqv, ble, good, beqb; cbn [fst snd]; intros G1 G2 N1 N2 [H1 H2]; try contradiction.
  2: rewrite N1, N2 by reflexivity; reflexivity.
  - assert (E : (x == y)%Q) by (destruct s, t; cbn in *; lra).
    apply andb_true_intro. split; [cbn; apply Qeq_bool_iff; exact E|]. destruct s, t; cbn in *; auto; exfalso; lra.
Qed.

(* The zone after a transition without guard and resets. *)
Definition idle (M : bound) (m : mat) : mat := canonize (abstractize M (canonize (elapse m))).

Lemma idle_succ : forall M m e z, eguard e = [] -> eresets e = [] -> succ_zone M (elapse m) e = Some z ->
  z = idle M m /\ fst (isSatisfiable (elapse m)) = true.
Proof.
  intros M m e z E1 E2 H. unfold succ_zone in H. rewrite E1, E2 in H. cbn [tighten_guard fold_left] in H.
  unfold isSatisfiable in *. cbn [fst]. destruct (bgeb (min_sym (canonize (elapse m))) bzero); [|discriminate].
  injection H as <-. auto.
Qed.

Section Idle.
  Variables (n : nat) (c : Q).
  Let M : bound := (Fin c, true).
  Hypothesis HN : 0 < n.

  Lemma sat_canonical : forall m v, square n m -> mgood n m -> zin n m v -> canonical n (canonize m).
  Proof.
    intros m v S1 G1 Hv. apply (isSatisfiable_canonical n m S1 HN G1). apply (isSatisfiable_correct n m S1 HN G1). eauto.
  Qed.

  Lemma bgeb_mono : forall a b, good a -> good b -> ble a b -> bgeb a M = true -> bgeb b M = true.
  Proof.
    intros [[| |x|] []] [[| |y|] []]; unfold M; bunf; bgo.
  Qed.

  Definition timely (i j : nat) (b : bound) : Prop := (i = 0 -> snd b = false) /\ (j = 0 -> fst b = PInf).

  Lemma timely_add : forall i j k a b, good a -> good b -> timely i k a -> timely k j b -> timely i j (badd b a).
  Proof.
    intros i j k [[| |x|] s] [[| |y|] t] G1 G2 [H1 H2] [H3 H4]; unfold timely, badd, good in *; cbn [fst snd nadd] in *; try contradiction;
      split; intros E; try (rewrite (H1 E), andb_false_r; reflexivity); auto; specialize (H4 E); discriminate.
  Qed.

  Lemma norm_add : forall a b, good a -> good b -> norm a -> norm b -> norm (badd b a).
  Proof.
    intros [[| |x|] s] [[| |y|] t] G1 G2 H1 H2; unfold norm, badd, good in *; cbn [fst snd nadd] in *; try contradiction; intros E; try discriminate;
      try (rewrite H1 by reflexivity); try (rewrite H2 by reflexivity); try rewrite andb_false_r; auto.
  Qed.

  (* the zones before and after *)
  Variable m : mat.
  Hypothesis S0 : square n m.
  Hypothesis G0 : mgood n m.
  Hypothesis NE : exists v, zin n (elapse m) v.

  Let c1 := canonize (elapse m).
  Let a1 := abstractize M c1.
  Let r1 := canonize a1.

  Lemma idle_facts : square n r1 /\ mgood n r1 /\ canonical n r1 /\ (exists v, zin n r1 v) /\
    (forall i j, i < n -> j < n -> timely i j (mget r1 i j) /\ norm (mget r1 i j)) /\
    square n a1 /\ mgood n a1 /\ mle n r1 a1 /\
    (forall i j, i < n -> j < n -> mget a1 i j = binf \/ bgeb (mget a1 i j) M = false).
  Proof.
    pose proof (elapse_square n m S0) as Se. pose proof (elapse_good n m S0 G0) as Ge.
    pose proof (canonize_square n _ Se Ge) as Sc. pose proof (canonize_good n _ Se Ge) as Gc. fold c1 in Sc, Gc.
    pose proof (abstractize_square n M _ Sc) as Sa. pose proof (abstractize_good n M _ Sc Gc) as Ga. fold a1 in Sa, Ga.
    pose proof (canonize_square n _ Sa Ga) as Sr. pose proof (canonize_good n _ Sa Ga) as Gr. fold r1 in Sr, Gr.
    destruct NE as (v & Hv).
    assert (Hc : zin n c1 v) by (apply (canonize_zin n); auto).
    assert (Ha : zin n a1 v) by (apply abstractize_zin; auto).
    assert (Hr : zin n r1 v) by (apply (canonize_zin n); auto).
    assert (Can : canonical n r1) by (eapply sat_canonical; eauto).
    assert (Te : forall i j, i < n -> j < n -> timely i j (mget (elapse m) i j)).
    { intros i j Hi Hj. rewrite (mget_elapse n) by auto. split; intros ->; cbn; auto.
      destruct (j =? 0); reflexivity. }
    assert (Tc : forall i j, i < n -> j < n -> timely i j (mget c1 i j)).
    { apply (canonize_entries n timely); auto. intros; eapply timely_add; eauto. }
    assert (Ta : forall i j, i < n -> j < n -> timely i j (mget a1 i j) /\ norm (mget a1 i j)).
    { intros i j Hi Hj. unfold a1. rewrite (mget_abstractize n) by auto. destruct (bgeb _ _) eqn:B; [split; [split|intro]; reflexivity|].
      split; [apply Tc; auto|]. intros E. exfalso. revert B E. unfold bgeb, M. destruct (mget c1 i j) as [[] ?]; cbn; congruence. }
    split; [exact Sr|]. split; [exact Gr|]. split; [exact Can|]. split; [eauto|]. split; [|split; [exact Sa|split; [exact Ga|split]]].
    - intros i j Hi Hj. split.
      + apply (canonize_entries n timely); auto; [intros; apply Ta; auto|intros; eapply timely_add; eauto].
      + apply (canonize_entries n (fun _ _ => norm)); auto; [intros; apply Ta; auto|intros; apply norm_add; auto].
    - intros i j Hi Hj. apply (canonize_le n); auto.
    - intros i j Hi Hj. unfold a1. rewrite (mget_abstractize n) by auto. destruct (bgeb (mget c1 i j) M) eqn:B; auto.
  Qed.
End Idle.

(* Letting time pass again changes nothing. *)
Lemma idle_idle : forall n c m, 0 < n -> square n m -> mgood n m -> (exists v, zin n (elapse m) v) ->
  zone_eqb (idle (Fin c, true) (idle (Fin c, true) m)) (idle (Fin c, true) m) = true.
Proof.
  intros n c m HN S0 G0 NE.
  destruct (idle_facts n c HN m S0 G0 NE) as (Sr & Gr & Cr & (v & Hv) & Tr & Sa & Ga & La & Ba).
  fold (idle (Fin c, true) m) in Sr, Gr, Cr, Hv, Tr, La. set (r := idle (Fin c, true) m) in *.
  set (a := abstractize (Fin c, true) (canonize (elapse m))) in *.
  pose proof (elapse_square n r Sr) as Se. pose proof (elapse_good n r Sr Gr) as Ge.
  assert (E1 : mle n r (elapse r) /\ mle n (elapse r) r).
  { split; intros i j Hi Hj; rewrite (mget_elapse n) by auto; destruct (Tr i j Hi Hj) as [[T1 T2] _]; pose proof (Gr i j Hi Hj) as g;
      (destruct (Nat.eqb_spec j 0) as [->|]; [specialize (T2 eq_refl); revert T2 g; destruct (mget r i 0) as [[] []]; unfold good, ble, binf; cbn; try tauto; discriminate|]);
      (destruct (Nat.eqb_spec i 0) as [->|]; [rewrite <- (T1 eq_refl); destruct (mget r 0 j); apply ble_refl; exact g|apply ble_refl; exact g]). }
  destruct E1 as [E1 E2].
  assert (NE2 : exists u, zin n (elapse r) u).
  { exists v. intros i j Hi Hj. apply (below_ble (mget r i j)); auto. }
  destruct (idle_facts n c HN r Sr Gr NE2) as (S2 & G2 & C2 & _ & T2 & Sa2 & Ga2 & La2 & Ba2).
  fold (idle (Fin c, true) r) in S2, G2, C2, T2, La2. set (r2 := idle (Fin c, true) r) in *.
  set (c2 := canonize (elapse r)) in *. set (a2 := abstractize (Fin c, true) c2) in *.
  pose proof (canonize_square n _ Se Ge) as Sc2. pose proof (canonize_good n _ Se Ge) as Gc2. fold c2 in Sc2, Gc2.
  assert (F1 : mle n r c2) by (apply canonize_above; auto).
  assert (F2 : mle n c2 r).
  { apply (mle_trans n _ (elapse r)); auto. intros i j Hi Hj. apply (canonize_le n); auto. }
  assert (F3 : mle n r a2).
  { intros i j Hi Hj. unfold a2. rewrite (mget_abstractize n) by auto. destruct (bgeb _ _); [|apply F1; auto].
    pose proof (Gr i j Hi Hj) as g. revert g. destruct (mget r i j) as [[] []]; unfold good, ble, binf; cbn; tauto. }
  assert (F4 : mle n a2 a).
  { intros i j Hi Hj. destruct (Ba i j Hi Hj) as [E|B].
    - rewrite E. pose proof (Ga2 i j Hi Hj) as g. revert g. destruct (mget a2 i j) as [[] []]; unfold good, ble, binf; cbn; tauto.
    - assert (L : ble (mget c2 i j) (mget a i j)) by (apply (ble_trans _ (mget r i j)); auto).
      unfold a2. rewrite (mget_abstractize n) by auto. destruct (bgeb (mget c2 i j) (Fin c, true)) eqn:B2; auto.
      rewrite (bgeb_mono c _ (mget a i j) (Gc2 i j Hi Hj) (Ga i j Hi Hj) L B2) in B. discriminate. }
  apply (zone_eqb_intro n); auto. intros i j Hi Hj _. apply eqv_beqb; auto; [apply T2; auto|apply Tr; auto|]. split.
  - apply (canonize_mono n a2 a); auto.
  - apply (canonize_above n r a2); auto.
Qed.

(* ---------- no cycles but idle self-loops ---------- *)

(* Every transition decreases the rank, or is a self-loop that neither tests nor
   resets a clock. *)
Definition idle_loops (A : ta) (rk : ptr -> nat) : Prop := forall p c e q, is_edge A p c e -> etgt e = Some q ->
  rk q < rk p \/ (q = p /\ eguard e = [] /\ eresets e = []).

Lemma max_const_fin : forall A, exists c, max_const A = (Fin c, true).
Proof. intros A. unfold max_const. destruct (maxC A); eauto. Qed.

Lemma ta2za_idle_loops : forall A rk Z, wf_ta A -> clockSize A <= 255 -> labels_ok A -> idle_loops A rk -> Inv A (max_const A) Z ->
  exists fuel Z', ta2za fuel A Z [] = Ok Z'.
Proof.
  intros A rk Z W K LB RK HZ. set (M := max_const A).
  apply (ta2za_measure A (fun q m => 2 * rk q + (if zone_eqb (idle M m) m then 0 else 1))
    (list_max (map (fun ps => length (flat_map snd (next (snd ps)))) (states A)))); auto.
  - intros s c e q m SO He Et Em. destruct (RK _ _ _ _ He Et) as [L|(-> & E1 & E2)].
    + left. destruct (zone_eqb (idle M m) m), (zone_eqb (idle M (zm s)) (zm s)); lia.
    + destruct (idle_succ _ _ _ _ E1 E2 Em) as [Hm Sat]. fold M in Hm. rewrite <- Hm.
      destruct (zone_eqb m (zm s)) eqn:E; [right; auto|left].
      destruct SO as (S1 & G1 & _). destruct (max_const_fin A) as (x & EM).
      assert (NE : exists v, zin (S (clockSize A)) (elapse (zm s)) v).
      { apply (isSatisfiable_correct (S (clockSize A))); auto using elapse_square, elapse_good. lia. }
      assert (X : zone_eqb (idle M m) m = true).
      { subst m. unfold M. rewrite EM. apply (idle_idle (S (clockSize A))); auto. lia. }
      rewrite X. lia.
  - intros p s H. pose proof (proj1 (list_max_le _ _) (Nat.le_refl (list_max (map (fun ps => length (flat_map snd (next (snd ps)))) (states A))))) as F.
    rewrite Forall_forall in F. apply F. apply in_map_iff. exists (p, s). auto.
Qed.
