(* The KMP table: the loop over the shifts. *)
From Coq Require Import QArith Lqa Bool List ZArith Arith Lia.
From Verif Require Import Num NumFacts Outcome Constraint Zone ZoneFacts ZoneOps TA Spec TAFacts Word ZA ZASpec ZAFacts ZAGraph PropZA
  Intersection IntersectionFacts Monaa MonaaFacts Skip SkipFacts Kmp KmpRun.
Import ListNotations.
Open Scope nat_scope.

Definition Zinv (A : ta) (Z : za) : Prop := Inv A (max_const A) Z /\ forall i, expanded A (max_const A) Z i.

Lemma same_graph_edge : forall A A', same_graph A A' -> forall p c e, is_edge A p c e -> is_edge A' p c e.
Proof.
  intros A A' [F _] p c e (s & es & I1 & I2 & I3). destruct (Forall2_in_l _ _ _ _ F I1) as ([q s'] & J & E1 & _ & E2). cbn in *. subst q.
  exists s', es. rewrite <- E2. auto.
Qed.

Lemma same_graph_sym : forall A A', same_graph A A' -> same_graph A' A.
Proof.
  intros A A' [F E]. split; [|auto]. induction F as [|a b l k (X & Y & Z) F IH]; constructor; auto.
Qed.

Lemma Zinv_same : forall A A' Z, same_graph A A' -> Zinv A Z -> Zinv A' Z.
Proof.
  intros A A' Z SG [HI HE]. pose proof (same_graph_keys _ _ SG) as KK. pose proof (proj2 SG) as EM.
  assert (EC : clockSize A' = clockSize A) by (unfold clockSize; now rewrite EM).
  assert (EX : max_const A' = max_const A) by (unfold max_const; now rewrite EM).
  unfold Zinv. rewrite EX. split.
  - intros i s Hs. destruct (HI i s Hs) as [SO EO]. split.
    + unfold st_ok in *. rewrite EC, <- KK. exact SO.
    + intros c j Hc. destruct (EO c j Hc) as (X & s' & e & q & m & G & He & R). split; auto. exists s', e, q, m. split; auto. split; auto.
      eapply same_graph_edge; eauto.
  - intros i s c e Hs He. apply (HE i s c e Hs). eapply same_graph_edge; [apply same_graph_sym; exact SG|exact He].
Qed.

Definition zup (A : ta) (s : zst) : zst := mkZ (zq s) (zm s) (if zlive s then match_at A (zq s) else zacc s) (znx s) (zlive s).

Lemma zget_zupdate : forall Z A l i, zget (zupdate Z A l) i = option_map (zup A) (zget Z i).
Proof. intros. unfold zget, zupdate. cbn [zsts]. rewrite nth_error_map. reflexivity. Qed.

Lemma zget_zupdate_inv : forall Z A l i s, zget (zupdate Z A l) i = Some s -> exists s0, zget Z i = Some s0 /\ s = zup A s0.
Proof. intros Z A l i s H. rewrite zget_zupdate in H. destruct (zget Z i) as [s0|]; [|discriminate]. injection H as <-. eauto. Qed.

Lemma zupdate_inv : forall A Z l, Zinv A Z -> Zinv A (zupdate Z A l).
Proof.
  intros A Z l [HI HE]. split.
  - intros i s Hs. apply zget_zupdate_inv in Hs as (s0 & Hs & ->). destruct (HI i s0 Hs) as [SO EO]. split; [exact SO|].
    intros c j Hc. destruct (EO c j Hc) as (X & s' & e & q & m & G & R). split; auto. exists (zup A s'), e, q, m.
    split; [rewrite zget_zupdate, G; reflexivity|exact R].
  - intros i s c e Hs He. apply zget_zupdate_inv in Hs as (s0 & Hs & ->).
    intros s1 q m H1 Et Em. apply zget_zupdate_inv in H1 as (s2 & H2 & ->). assert (s2 = s0) by congruence. subst s2.
    destruct (HE i s0 c e Hs He s0 q m Hs Et Em) as (j & s' & I & G & Q & Eq). exists j, (zup A s').
    split; [exact I|]. split; [rewrite zget_zupdate, G; reflexivity|]. auto.
Qed.

Lemma nth_error_In_combine : forall {X} (l : list X) k i s, nth_error l i = Some s -> In (k + i, s) (combine (seq k (length l)) l).
Proof.
  induction l as [|x l IH]; intros k i s H; [destruct i; discriminate|]. destruct i as [|i]; cbn in *.
  - injection H as ->. left. f_equal. lia.
  - right. replace (k + S i) with (S k + i) by lia. apply IH. auto.
Qed.

Lemma In_combine_nth : forall {X} (l : list X) k i s, In (i, s) (combine (seq k (length l)) l) -> k <= i /\ nth_error l (i - k) = Some s.
Proof.
  induction l as [|x l IH]; intros k i s H; [destruct H|]. cbn in H. destruct H as [H|H].
  - injection H as <- <-. split; [lia|]. now rewrite Nat.sub_diag.
  - apply IH in H as [L H]. split; [lia|]. replace (i - k) with (S (i - S k)) by lia. auto.
Qed.

Lemma zupdate_init : forall Z A l i, In i (zinit (zupdate Z A l)) <-> exists s, zget Z i = Some s /\ zlive s = true /\ In (zq s) l.
Proof.
  intros Z A l i. unfold zupdate. cbn [zinit]. rewrite in_map_iff. split.
  - intros ([j s] & <- & H). apply filter_In in H as [H1 H2]. cbn [fst snd] in *. apply andb_true_iff in H2 as [L M].
    apply In_combine_nth in H1 as [_ H1]. rewrite Nat.sub_0_r in H1. exists s. split; auto. split; auto. apply mem_In; auto.
  - intros (s & G & L & M). exists (i, s). split; auto. apply filter_In. split.
    + apply (nth_error_In_combine (zsts Z) 0 i s G).
    + cbn [snd]. rewrite L. apply mem_In in M. now rewrite M.
Qed.

Lemma Zinv_wf : forall A Z l, Zinv A Z -> za_wf (zupdate Z A l).
Proof.
  intros A Z l H. pose proof (zupdate_inv A Z l H) as [HI _]. constructor.
  - intros i Hi. apply zupdate_init in Hi as (s & G & L & _). exists (zup A s). split; [|exact L].
    pose proof (zget_zupdate Z A l i) as E. unfold zget in E. rewrite E. unfold zget in G. rewrite G. reflexivity.
  - intros i s c j G I. destruct (HI i s G) as [_ EO]. destruct (EO c j I) as (Hc & s' & e & q & m & Gj & _). split; auto.
    eapply zget_lt; eauto.
Qed.

Lemma round : forall fuel A Z Z1 b, wf_ta A -> clockSize A <= 255 -> Zinv A Z ->
  ta2za fuel A Z [] = Ok Z1 -> zempty_check (zupdate Z1 A (inits A)) = Ok b ->
  Zinv A (zupdate Z1 A (inits A)) /\
  forall p T w q v T', In p (inits A) -> run A p zeroval T w q v T' -> increasing T w -> accepting A q -> b = false.
Proof.
  intros fuel A Z Z1 b W K [HI HE] HT HB.
  destruct (zero_zone_ok A) as [ZO ZZ].
  destruct (ta2za_inv A (max_const A) W K fuel Z [] Z1 eq_refl HI HE ZO HT) as (I1 & _ & E1 & _ & S1 & _).
  pose proof (zupdate_inv A Z1 (inits A) (conj I1 E1)) as ZI. split; [exact ZI|].
  intros p T w q v T' Hp R Inc (sq & Iq & Aq).
  destruct (S1 p Hp) as (i & s & G & Q & Eq & _).
  assert (Hz : zin (S (clockSize A)) (zm s) zeroval).
  { destruct (I1 i s G) as [(T1 & _ & (u' & Hu') & _) _]. destruct ZO as (Sq & _ & _).
    exact (zone_eqb_zin (clockSize A) _ (zm s) zeroval u' zeroval Sq T1 Eq ZZ Hu' ZZ). }
  destruct ZI as [I2 E2].
  assert (G2 : zget (zupdate Z1 A (inits A)) i = Some (zup A s)) by (rewrite zget_zupdate, G; reflexivity).
  destruct (ta2za_run A (max_const A) W K _ I2 E2 p zeroval T w q v T' R Inc i (zup A s) G2 Q Hz) as (j & s' & P & Gj & Qj & _).
  destruct (zempty_check_spec _ (Zinv_wf A Z1 (inits A) (conj I1 E1))) as (b' & Hb' & Sp). rewrite Hb' in HB. apply Ok_inj in HB. subst b'.
  destruct b; [|reflexivity]. exfalso. apply (proj1 Sp eq_refl j).
  - exists i, (map fst w). split; [|exact P]. apply zupdate_init. exists s. split; auto. split.
    + destruct (I1 i s G) as [(_ & _ & _ & _ & L) _]. exact L.
    + rewrite Q. exact Hp.
  - exists s'. split; [exact Gj|]. apply zget_zupdate_inv in Gj as (s0 & G0 & ->). cbn.
    destruct (I1 j s0 G0) as [(_ & _ & _ & _ & L) _]. rewrite L. cbn in Qj. rewrite Qj. unfold match_at, deref.
    rewrite (In_assoc _ _ sq (wf_nodup _ W) Iq). exact Aq.
Qed.

(* ---------- products of automata with the same graphs ---------- *)

Lemma F2_flat_map : forall {X Y} (R : X -> X -> Prop) (S : Y -> Y -> Prop) f g l k,
  (forall x y, R x y -> Forall2 S (f x) (g y)) -> Forall2 R l k -> Forall2 S (flat_map f l) (flat_map g k).
Proof. intros X Y R S f g l k H F. induction F; cbn; [constructor|]. apply Forall2_app; auto. Qed.

Lemma product_same_graph : forall A A' B B' f, same_graph A A' -> same_graph B B' ->
  same_graph (intersectionTA A B f) (intersectionTA A' B' f).
Proof.
  intros A A' B B' f SA SB. split.
  - unfold intersectionTA. cbn [states]. eapply F2_flat_map; [|exact (proj1 SA)].
    intros [p s] [p' s'] (E1 & E2 & E3). cbn [fst snd] in *. subst p'. eapply F2_flat_map; [|exact (proj1 SB)].
    intros [q t] [q' t'] (E4 & E5 & E6). cbn [fst snd] in *. subst q'. rewrite <- E2, <- E5.
    destruct (Bool.eqb (zeroDur s) (zeroDur t)); constructor; [|constructor]. cbn [fst snd]. split; auto. split; auto.
    unfold prod_state. cbn [next]. f_equal. apply prod_pushes_same; auto.
  - unfold intersectionTA. cbn [maxC]. now rewrite (proj2 SA), (proj2 SB).
Qed.

Lemma keys_same : forall A A' B B', same_graph A A' -> same_graph B B' -> toIState_keys A B = toIState_keys A' B'.
Proof.
  intros A A' B B' SA SB. unfold toIState_keys.
  assert (F : forall (f : (ptr * tastate) -> list (ptr * ptr)) g l k,
    (forall x y, fst x = fst y /\ zeroDur (snd x) = zeroDur (snd y) /\ next (snd x) = next (snd y) -> f x = g y) ->
    Forall2 (fun a b : ptr * tastate => fst a = fst b /\ zeroDur (snd a) = zeroDur (snd b) /\ next (snd a) = next (snd b)) l k ->
    flat_map f l = flat_map g k).
  { intros f g l k H F. induction F; cbn; [auto|]. f_equal; auto. }
  apply F; [|exact (proj1 SA)]. intros x y (E1 & E2 & _). apply F; [|exact (proj1 SB)]. intros x' y' (E3 & E4 & _).
  now rewrite E1, E2, E3, E4.
Qed.

Lemma same_graph_wf : forall A A', same_graph A A' -> wf_ta A -> (forall p, In p (inits A') -> In p (map fst (states A))) -> wf_ta A'.
Proof.
  intros A A' SG W HI. pose proof (same_graph_keys _ _ SG) as KK. pose proof (same_graph_sym _ _ SG) as SG'.
  assert (EC : clockSize A' = clockSize A) by (unfold clockSize; now rewrite (proj2 SG)). constructor.
  - rewrite <- KK. apply (wf_nodup _ W).
  - intros p s H. destruct (Forall2_in_l _ _ _ _ (proj1 SG') H) as ([q s'] & J & E1 & _ & E2). cbn in *. rewrite E2. apply (wf_keys _ W _ _ J).
  - intros p s c es e H Hc He. destruct (Forall2_in_l _ _ _ _ (proj1 SG') H) as ([q s'] & J & E1 & _ & E2). cbn in *. rewrite E2 in Hc.
    pose proof (wf_edges _ W _ _ _ _ _ J Hc He) as X. unfold wf_edge in *. rewrite EC, <- KK. exact X.
  - intros p Hp. rewrite <- KK. auto.
Qed.

Lemma in_sort_nat : forall l x, In x (sort_nat l) <-> In x l.
Proof.
  assert (H : forall l a x, In x (insert_nat a l) <-> x = a \/ In x l).
  { induction l as [|b l IH]; intros a x; cbn [insert_nat]; [cbn; intuition congruence|]. destruct (b <? a); cbn [In]; [rewrite IH|]; intuition congruence. }
  unfold sort_nat. induction l as [|a l IH]; intros x; cbn [fold_right]; [tauto|]. rewrite H, IH. cbn. intuition congruence.
Qed.

Lemma set_inits_same : forall A l, same_graph A (set_inits A l).
Proof. intros A l. split; [|reflexivity]. cbn. induction (states A); constructor; auto. Qed.

Lemma same_graph_refl : forall A, same_graph A A.
Proof. intros A. split; [|reflexivity]. induction (states A); constructor; auto. Qed.

Lemma same_graph_trans : forall A B C, same_graph A B -> same_graph B C -> same_graph A C.
Proof.
  intros A B C [F E] [F' E']. split; [|congruence]. clear E E'. revert F'. generalize (states C). induction F as [|a b l k (X & Y & Z) F IH]; intros x F'; inversion F' as [|b' c k' x' (X' & Y' & Z') F'' ]; subst; constructor; auto.
  split; [congruence|]. split; congruence.
Qed.

Lemma mark_same : forall al A p, same_graph A (kmp_mark al A p).
Proof. intros al A p. split; [|reflexivity]. cbn. induction (states A); cbn; constructor; auto. Qed.

Section Try.
  Variables (al : alloc) (B : ta) (m : nat) (A0 : ta).
  Hypothesis WB : wf_ta B.
  Hypothesis AO : alloc_ok al B m.
  Hypothesis KB : 2 * clockSize B <= 255.
  Hypothesis ZB : forall p s, In (p, s) (states B) -> zeroDur s = false.
  Hypothesis H0 : kmp_A0 al B m = Ok A0.

  Let S0 := kmp_As al B.
  Let KB' : clockSize B <= 256. Proof. lia. Qed.
  Let W0 : wf_ta A0 := A0_wf al B m A0 WB AO KB' H0.
  Let WS : wf_ta S0 := As_wf al B m WB AO.

  Let Inj2 : forall p1 p2 q1 q2, In p1 (map fst (states A0)) -> In q1 (map fst (states A0)) ->
    In p2 (map fst (states S0)) -> In q2 (map fst (states S0)) -> a_2 al p1 p2 = a_2 al q1 q2 -> p1 = q1 /\ p2 = q2.
  Proof.
    intros p1 p2 q1 q2. unfold S0. rewrite (A0_keys al B m A0 H0), (As_keys al B). apply (ao_2 _ _ _ AO).
  Qed.

  Let Small : clockSize A0 + clockSize S0 <= 255.
  Proof. rewrite (A0_clocks al B m A0 H0). unfold S0. rewrite As_clocks. lia. Qed.

  Let HZ : same_zero_flag A0 S0.
  Proof.
    intros p1 s1 p2 s2 I1 I2. rewrite (A0_zero al B m A0 ZB H0 _ _ I1). symmetry. apply (As_zero al B ZB _ _ I2).
  Qed.

  Let keys := toIState_keys A0 S0.

  (* the state kept between two turns *)
  Definition KInv (A2 : ta) (Z : za) : Prop :=
    exists A' S' l, same_graph A0 A' /\ wf_ta A' /\ same_graph S0 S' /\ wf_ta S' /\
      A2 = set_inits (intersectionTA A' S' (a_2 al)) l /\ Zinv A2 Z.

  Let graph2 := intersectionTA A0 S0 (a_2 al).

  Lemma try_step : forall fuel A2 Z n S' Z1 b, KInv A2 Z -> n <= m -> same_graph S0 S' -> wf_ta S' ->
    let A2' := updateInitAccepting (set_inits A0 [a_ext al n]) S' A2 keys (a_2 al) in
    let A2'' := set_inits A2' (sort_nat (inits A2')) in
    ta2za fuel A2'' Z [] = Ok Z1 -> zempty_check (zupdate Z1 A2'' (inits A2'')) = Ok b ->
    KInv A2'' (zupdate Z1 A2'' (inits A2'')) /\
    (forall p T w q s v T', In p (inits S') -> run graph2 (a_2 al (a_ext al n) p) zeroval T w (a_2 al q s) v T' -> increasing T w ->
       accepting A0 q -> accepting S' s -> b = false).
  Proof.
    intros fuel A2 Z n S' Z1 b (A1 & S1 & l & SA & WA & SS & WS1 & -> & ZI) Hn SS' WS' A2' A2'' HT HB.
    set (A0n := set_inits A0 [a_ext al n]).
    assert (In_n : In (a_ext al n) (map fst (states A0))) by (rewrite (A0_keys al B m A0 H0); apply in0_ext; [exact KB'|auto]).
    assert (SGn : same_graph A0 A0n) by apply set_inits_same.
    assert (Wn : wf_ta A0n).
    { apply (same_graph_wf A0); auto. intros p [<-|[]]. exact In_n. }
    assert (EU : A2' = intersectionTA A0n S' (a_2 al)).
    { unfold A2', keys. rewrite (keys_same A0 A1 S0 S1) by auto.
      rewrite <- (update_is_product A1 S1 A0n S' (a_2 al)).
      - reflexivity.
      - exact WA.
      - exact WS1.
      - eapply same_graph_trans; [apply same_graph_sym; exact SA|exact SGn].
      - eapply same_graph_trans; [apply same_graph_sym; exact SS|exact SS'].
      - rewrite <- (same_graph_keys _ _ SA), <- (same_graph_keys _ _ SS). exact Inj2. }
    assert (W2 : wf_ta (intersectionTA A0n S' (a_2 al))).
    { apply product_wf; auto.
      - rewrite <- (same_graph_keys _ _ SGn), <- (same_graph_keys _ _ SS'). exact Inj2.
      - unfold clockSize at 2. rewrite <- (proj2 SS'). change (clockSize A0n) with (clockSize A0). fold (clockSize S0). lia. }
    assert (SG2 : same_graph (intersectionTA A0n S' (a_2 al)) A2'').
    { unfold A2''. rewrite EU. apply set_inits_same. }
    assert (WA2 : wf_ta A2'').
    { apply (same_graph_wf _ _ SG2 W2). intros p Hp. unfold A2'' in Hp. cbn [inits set_inits] in Hp. rewrite EU in Hp. apply (proj1 (in_sort_nat _ _)) in Hp. apply (wf_inits _ W2). exact Hp. }
    assert (K2 : clockSize A2'' <= 255).
    { unfold clockSize. rewrite <- (proj2 SG2). unfold intersectionTA. cbn [maxC]. rewrite app_length. change (maxC A0n) with (maxC A0). rewrite <- (proj2 SS').
      fold (clockSize A0) (clockSize S0). exact Small. }
    assert (SGold : same_graph (set_inits (intersectionTA A1 S1 (a_2 al)) l) A2'').
    { eapply same_graph_trans; [apply same_graph_sym; apply set_inits_same|]. eapply same_graph_trans; [|exact SG2].
      apply product_same_graph; (eapply same_graph_trans; [apply same_graph_sym|]); eauto. }
    destruct (round fuel A2'' Z Z1 b WA2 K2 (Zinv_same _ _ _ SGold ZI) HT HB) as [R1 R2].
    split.
    - exists A0n, S', (sort_nat (inits A2')). split; auto. split; auto. split; auto. split; auto. split; [|exact R1].
      unfold A2''. rewrite EU. reflexivity.
    - intros p T w q s v T' Hp R Inc (sq & Iq & Aq) (ss & Is & As). 
      assert (Kp : In p (map fst (states S'))) by (apply (wf_inits _ WS'); auto).
      assert (HZ' : same_zero_flag A0n S').
      { intros p1 s1 p2 s2 I1 I2. destruct (Forall2_in_l _ _ _ _ (proj1 (same_graph_sym _ _ SS')) I2) as ([x y] & J & E1 & E2 & _).
        cbn in E1, E2. subst x. rewrite E2. eapply HZ; eauto. }
      assert (Injn : forall p1 p2 q1 q2, In p1 (map fst (states A0n)) -> In q1 (map fst (states A0n)) ->
         In p2 (map fst (states S')) -> In q2 (map fst (states S')) -> a_2 al p1 p2 = a_2 al q1 q2 -> p1 = q1 /\ p2 = q2).
      { rewrite <- (same_graph_keys _ _ SGn), <- (same_graph_keys _ _ SS'). exact Inj2. }
      apply (R2 (a_2 al (a_ext al n) p) T w (a_2 al q s) v T').
      + unfold A2''. cbn [inits set_inits]. apply in_sort_nat. rewrite EU. apply prod_inits_in; auto. exists (a_ext al n), p.
        split; [left; auto|]. split; auto. split; auto. apply same_zd; auto.
      + assert (X : forall p v T w q v' T', run graph2 p v T w q v' T' -> run A2'' p v T w q v' T').
        { clear - SG2 SS' SGn. intros p v T w q v' T' R. induction R; [constructor|]. econstructor; eauto.
          assert (SGG : same_graph graph2 A2'').
          { eapply same_graph_trans; [|exact SG2]. apply product_same_graph; auto. }
          exact (same_graph_edge _ _ SGG _ _ _ H). }
        apply X. exact R.
      + exact Inc.
      + assert (AC : accepting (intersectionTA A0n S' (a_2 al)) (a_2 al q s)).
        { apply prod_accepting; auto.
          - apply (in_map fst _ (q, sq)). exact Iq.
          - apply (in_map fst _ (s, ss)). exact Is.
          - apply same_zd; auto; [apply (in_map fst _ (q, sq)); exact Iq|apply (in_map fst _ (s, ss)); exact Is].
          - split; [exists sq|exists ss]; auto. }
        unfold A2''. rewrite EU. exact AC.
  Qed.

  Lemma kmp_try_spec : forall fuel S', same_graph S0 S' -> wf_ta S' -> forall l k A2 Z b A2' Z', KInv A2 Z -> k + l <= S m ->
    kmp_try fuel al m A0 S' keys (seq k l) A2 Z = Ok (b, A2', Z') ->
    KInv A2' Z' /\
    forall n p T w q s v T', k <= n -> n < k + l -> In p (inits S') -> run graph2 (a_2 al (a_ext al n) p) zeroval T w (a_2 al q s) v T' -> increasing T w ->
       accepting A0 q -> accepting S' s -> b <= n.
  Proof.
    intros fuel S' SS WS'. induction l as [|l IH]; intros k A2 Z b A2' Z' KI Hk H; cbn [seq kmp_try] in H.
    - apply Ok_inj in H. inversion H; subst. split; [exact KI|]. intros; lia.
    - apply bind_Ok in H as (Z1 & HT & H). apply bind_Ok in H as (e & HB & H).
      destruct (try_step fuel A2 Z k S' Z1 e KI ltac:(lia) SS WS' HT HB) as [K1 K2].
      destruct e.
      + destruct (IH (S k) _ _ _ _ _ K1 ltac:(lia) H) as [J1 J2]. split; [exact J1|].
        intros n p T w q s v T' N1 N2 Hp R Inc A1 AS. destruct (Nat.eq_dec n k) as [->|D].
        * specialize (K2 p T w q s v T' Hp R Inc A1 AS). discriminate.
        * apply (J2 n p T w q s v T'); auto; lia.
      + apply Ok_inj in H. inversion H; subst. split; [exact K1|]. intros; auto.
  Qed.

  Lemma kmp_states_spec : forall fuel ps A2 Z beta beta', KInv A2 Z ->
    kmp_states fuel al m A0 S0 keys ps A2 Z beta = Ok beta' ->
    exists l, beta' = beta ++ l /\ map fst l = ps /\
      forall p b, In (p, b) l -> forall n p0 T w q s v T', 1 <= n -> n <= m -> In p0 (inits S0) ->
        run graph2 (a_2 al (a_ext al n) p0) zeroval T w (a_2 al q s) v T' -> increasing T w ->
        accepting A0 q -> accepting (kmp_mark al S0 p) s -> b <= n.
  Proof.
    intros fuel. induction ps as [|p ps IH]; intros A2 Z beta beta' KI H; cbn [kmp_states] in H.
    - apply Ok_inj in H. subst. exists []. rewrite app_nil_r. split; auto. split; auto. intros p b [].
    - apply bind_Ok in H as ([[b A2'] Z'] & HT & H).
      assert (SM : same_graph S0 (kmp_mark al S0 p)) by apply mark_same.
      assert (WM : wf_ta (kmp_mark al S0 p)) by (apply (same_graph_wf S0); auto; intros q Hq; apply (wf_inits _ WS); exact Hq).
      destruct (kmp_try_spec fuel _ SM WM m 1 A2 Z b A2' Z' KI ltac:(lia) HT) as [K1 K2].
      destruct (IH A2' Z' _ _ K1 H) as (l & -> & E & HL). exists ((p, b) :: l). rewrite <- app_assoc. split; auto. split; [cbn; congruence|].
      intros p' b' [X|X].
      + injection X as <- <-. intros n p0 T w q s v T' N1 N2 Hp R Inc A1 AS. apply (K2 n p0 T w q s v T'); auto. lia.
      + apply HL; auto.
  Qed.

  Theorem kmp_core : forall fuel beta s b, kmp fuel al B m = Ok beta -> assoc s beta = Some b ->
    forall t0 (x1 x2 y1 y2 y3 : tword) p0 v T p1 q v' T',
    x1 ++ x2 = y1 ++ y2 ++ y3 -> Forall letter (x1 ++ x2) -> increasing t0 (x1 ++ x2) ->
    In p0 (inits B) -> run B p0 zeroval t0 x1 s v T ->
    1 <= length y1 -> length y1 <= m ->
    In p1 (inits B) -> run B p1 zeroval (last (map snd y1) t0) y2 q v' T' -> accepting B q -> 2 <= length y2 ->
    b <= length y1.
  Proof.
    intros fuel beta s b HK HA t0 x1 x2 y1 y2 y3 p0 v T p1 q v' T' E F Inc Hp0 R L1 Lm Hp1 R1 Aq L2.
    unfold kmp in HK. rewrite H0 in HK. cbn [bind] in HK. fold S0 keys in HK.
    assert (KI : KInv (intersectionTA A0 S0 (a_2 al)) zempty).
    { exists A0, S0, (inits (intersectionTA A0 S0 (a_2 al))). split; [apply same_graph_refl|]. split; [exact W0|].
      split; [apply same_graph_refl|]. split; [exact WS|]. split; [reflexivity|]. split.
      - intros i st Hs. unfold zget in Hs. cbn in Hs. destruct i; discriminate.
      - intros i st c e Hs. unfold zget in Hs. cbn in Hs. destruct i; discriminate. }
    destruct (kmp_states_spec fuel _ _ _ _ _ KI HK) as (l & El & Ek & HL).
    cbn [app] in El. subst beta. apply assoc_In in HA.
    assert (Mq : match_at B q = true).
    { destruct Aq as (sq & Iq & M). unfold match_at, deref. rewrite (In_assoc _ _ sq (wf_nodup _ WB) Iq). exact M. }
    assert (MID : exists mid, increasing t0 (x1 ++ (0, mid) :: x2)).
    { clear - Inc. revert t0 Inc. induction x1 as [|[c t] x1 IH]; intros t0 Inc; cbn [app] in *.
      - destruct x2 as [|[c t] x2]; cbn in *.
        + exists (t0 + 1)%Q. split; [lra|auto].
        + destruct Inc as [I1 I2]. exists ((t0 + t) / 2)%Q. split; [|split; auto].
          * apply Qlt_shift_div_l; lra.
          * apply Qlt_shift_div_r; lra.
      - destruct Inc as [I1 I2]. destruct (IH t I2) as (mid & X). exists mid. cbn. auto. }
    destruct MID as (mid & IM).
    destruct (kmp_run al B m A0 WB AO KB ZB H0 t0 x1 x2 y1 y2 y3 p0 s v T p1 q v' T' mid E F Hp0 R L1 Lm Hp1 R1 Mq L2) as (u & Tu & RR).
    assert (Is : In s (map fst (states B))) by (eapply run_end_in; eauto; apply (wf_inits _ WB); auto).
    apply (HL s b HA (length y1) (a_S al p0) t0 (x1 ++ (0, mid) :: x2) (a_acc al) (a_dum al s) u Tu); auto.
    - apply As_inits; auto.
    - apply (A0_acc_acc al B m A0 H0).
    - destruct (in_fst_exists _ _ Is) as (st & Hst).
      exists (mkS ((a_dum al s =? a_S al s) || (a_dum al s =? a_dum al s)) false (loops (a_dum al s))). split.
      + unfold kmp_mark. cbn [states]. apply in_map_iff. exists (a_dum al s, mkS false false (loops (a_dum al s))). split; [reflexivity|].
        unfold S0, kmp_As. cbn [states]. apply in_or_app. right. apply in_map_iff. exists (s, st). split; [reflexivity|exact Hst].
      + cbn [isMatch]. rewrite Nat.eqb_refl, orb_true_r. reflexivity.
  Qed.
End Try.

(* The shifts are at most m. *)
Lemma kmp_le : forall fuel al B m beta s b, kmp fuel al B m = Ok beta -> assoc s beta = Some b -> b <= m.
Proof.
  intros fuel al B m beta s b H HA. unfold kmp in H. apply bind_Ok in H as (A0 & _ & H).
  assert (X : forall ns A2 Z As keys b A2' Z', (forall n, In n ns -> n <= m) -> kmp_try fuel al m A0 As keys ns A2 Z = Ok (b, A2', Z') -> b <= m).
  { clear. induction ns as [|n ns IH]; intros A2 Z As keys b A2' Z' Hn H; cbn [kmp_try] in H.
    - apply Ok_inj in H. inversion H; subst. lia.
    - apply bind_Ok in H as (Z1 & _ & H). apply bind_Ok in H as (e & _ & H). destruct e.
      + eapply IH; [|exact H]. intros; apply Hn; right; auto.
      + apply Ok_inj in H. inversion H; subst. apply Hn. left; auto. }
  assert (Y : forall ps A2 Z As keys be be', (forall p b, In (p, b) be -> b <= m) -> kmp_states fuel al m A0 As keys ps A2 Z be = Ok be' ->
     forall p b, In (p, b) be' -> b <= m).
  { induction ps as [|p ps IH]; intros A2 Z As keys be be' Hb H1; cbn [kmp_states] in H1.
    - apply Ok_inj in H1. subst. auto.
    - apply bind_Ok in H1 as ([[b0 A2'] Z'] & HT & H1). eapply IH; [|exact H1]. intros p' b' I. apply in_app_or in I as [I|[I|[]]]; eauto.
      injection I as <- <-. eapply X; [|exact HT]. intros n Hn. apply in_seq in Hn. lia. }
  eapply Y; [|exact H|apply assoc_In; exact HA]. intros p b0 [].
Qed.

(* Starting earlier: clocks that were not reset are larger. *)
Lemma run_earlier : forall (B : ta) (R : ptr -> nat -> Prop), wf_ta B ->
  (forall p c e q, is_edge B p c e -> etgt e = Some q ->
     (forall g, In g (eguard e) -> codr g = Lt \/ codr g = Le -> R p (cx g)) /\ (forall x, R q x -> R p x \/ In x (eresets e))) ->
  forall p v T w q v' T', run B p v T w q v' T' -> forall u U, (forall x, v x - T <= u x - U)%Q -> (forall x, R p x -> v x - T == u x - U)%Q ->
  exists u' U', run B p u U w q u' U'.
Proof.
  intros B R W HR p v T w q v' T' Rn. induction Rn as [|p v T c t e w q p' v' T' He Ht Hg Rn IH]; intros u U H1 H2.
  - exists u, U. constructor.
  - destruct (HR p c e q He Ht) as [HG HQ].
    destruct (IH (reset_set (delay u (t - U)) (eresets e)) t) as (u' & U' & Ru).
    + intros x. unfold reset_set, delay. destruct (in_dec Nat.eq_dec x (eresets e)); [lra|]. specialize (H1 x). lra.
    + intros x Hx. unfold reset_set, delay. destruct (in_dec Nat.eq_dec x (eresets e)) as [|N]; [reflexivity|].
      destruct (HQ x Hx) as [Hp|Hp]; [|contradiction]. specialize (H2 x Hp). lra.
    + exists u', U'. econstructor; eauto. intros g G. specialize (Hg g G). unfold holds, delay in *. specialize (H1 (cx g)).
      destruct (codr g) eqn:E.
      * specialize (H2 (cx g) (HG g G ltac:(auto))). lra.
      * specialize (H2 (cx g) (HG g G ltac:(auto))). lra.
      * lra.
      * lra.
Qed.
