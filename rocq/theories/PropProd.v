(* C18: the product when the zeroDuration flags of the two automata differ. *)
From Coq Require Import QArith Lqa Bool List ZArith Arith Lia.
From Verif Require Import Num Constraint Zone TA Spec TAFacts WfDec Intersection IntersectionFacts PropTA.
Import ListNotations.
Open Scope nat_scope.

(* ---------------- specification ---------------- *)

Definition flag (A : ta) (p : ptr) (b : bool) : Prop := exists s, In (p, s) (states A) /\ zeroDur s = b.
Definition same_flag (A B : ta) (p q : ptr) : Prop := exists b, flag A p b /\ flag B q b.

(* Two automata that move along a word at the same time.  On an unobservable
   letter one of them may stay where it is.  At every moment the two states have
   the same flag. *)
Inductive together (A B : ta) : ptr -> valuation -> ptr -> valuation -> Q -> tword -> ptr -> ptr -> Prop :=
| tog_nil : forall p v q x T, same_flag A B p q -> together A B p v q x T [] p q
| tog_both : forall p v q x T c t e e' n n' w p' q', same_flag A B p q ->
    is_edge A p c e -> etgt e = Some n -> sat_guard (delay v (t - T)) (eguard e) ->
    is_edge B q c e' -> etgt e' = Some n' -> sat_guard (delay x (t - T)) (eguard e') ->
    together A B n (reset_set (delay v (t - T)) (eresets e)) n' (reset_set (delay x (t - T)) (eresets e')) t w p' q' ->
    together A B p v q x T ((c, t) :: w) p' q'
| tog_left : forall p v q x T t e n w p' q', same_flag A B p q ->
    is_edge A p 0 e -> etgt e = Some n -> sat_guard (delay v (t - T)) (eguard e) ->
    together A B n (reset_set (delay v (t - T)) (eresets e)) q (delay x (t - T)) t w p' q' ->
    together A B p v q x T ((0, t) :: w) p' q'
| tog_right : forall p v q x T t e n w p' q', same_flag A B p q ->
    is_edge B q 0 e -> etgt e = Some n -> sat_guard (delay x (t - T)) (eguard e) ->
    together A B p (delay v (t - T)) n (reset_set (delay x (t - T)) (eresets e)) t w p' q' ->
    together A B p v q x T ((0, t) :: w) p' q'.

(* ---------------- the product ---------------- *)

Section Exact.
  Variables (A B : ta) (f : ptr -> ptr -> ptr).
  Hypothesis WA : wf_ta A.
  Hypothesis WB : wf_ta B.
  Hypothesis Inj : fresh_pairs A B f.
  Hypothesis Small : clockSize A + clockSize B <= 256.

  Lemma flag_zd : forall C p b, wf_ta C -> flag C p b -> In p (map fst (states C)) /\ zd C p = b.
  Proof.
    intros C p b W (s & I & E). pose proof (in_map fst _ _ I) as J. cbn in J. split; auto.
    unfold zd, deref. rewrite (In_assoc _ _ _ (wf_nodup _ W) I). auto.
  Qed.
  Lemma zd_flag : forall C p, wf_ta C -> In p (map fst (states C)) -> flag C p (zd C p).
  Proof. intros C p W I. destruct (state_of C p I) as (s & J & E). exists s. split; auto. symmetry. apply E. apply W. Qed.
  Lemma same_flag_iff : forall p q, same_flag A B p q <->
    In p (map fst (states A)) /\ In q (map fst (states B)) /\ zd A p = zd B q.
  Proof.
    intros p q. split.
    - intros (b & F1 & F2). apply flag_zd in F1 as [? ?]; auto. apply flag_zd in F2 as [? ?]; auto. repeat split; auto. congruence.
    - intros (I & J & E). exists (zd A p). split; [apply zd_flag; auto|rewrite E; apply zd_flag; auto].
  Qed.

  Lemma together_start : forall p v q x T w p' q', together A B p v q x T w p' q' -> same_flag A B p q.
  Proof. intros. inversion H; auto. Qed.
  Lemma together_end : forall p v q x T w p' q', together A B p v q x T w p' q' -> same_flag A B p' q'.
  Proof. intros p v q x T w p' q' H. induction H; auto. Qed.

  Lemma tog_run : forall p v q x T w p' q', together A B p v q x T w p' q' ->
    forall y, vsplit A B y v x -> exists y' T', run (intersectionTA A B f) (f p q) y T w (f p' q') y' T'.
  Proof.
    intros p v q x T w p' q' H. induction H; intros y HS.
    - exists y, T. constructor.
    - pose proof (proj1 (same_flag_iff _ _) H) as (I & J & Z). pose proof (proj1 (same_flag_iff _ _) (together_start _ _ _ _ _ _ _ _ H6)) as (I' & J' & Z').
      pose proof (wf_is_edge _ _ _ _ WA H0) as (_ & Ra & Ga). pose proof (wf_is_edge _ _ _ _ WB H3) as (_ & Rb & Gb).
      pose proof (split_delay A B _ _ _ (t - T) HS) as HD.
      destruct (IHtogether _ (split_reset A B Small _ _ _ e e' (toI A B f n n') HD Ra Rb)) as (y' & T' & R).
      exists y', T'. eapply run_cons with (e := prod_edge (clockSize A) (toI A B f n n') e e').
      + apply prod_is_edge; auto. right. right. exists e, n, e', n'. auto.
      + simpl. apply toI_iff; auto.
      + eapply split_guard; eauto.
      + exact R.
    - pose proof (proj1 (same_flag_iff _ _) H) as (I & J & Z). pose proof (proj1 (same_flag_iff _ _) (together_start _ _ _ _ _ _ _ _ H3)) as (I' & J' & Z').
      pose proof (wf_is_edge _ _ _ _ WA H0) as (_ & Ra & Ga). destruct (wf_empty_edge (clockSize B)) as [R0 G0].
      pose proof (split_delay A B _ _ _ (t - T) HS) as HD.
      destruct (IHtogether (reset_set (delay y (t - T)) (eresets (prod_edge (clockSize A) (toI A B f n q) e empty_edge)))) as (y' & T' & R).
      { destruct (split_reset A B Small _ _ _ e empty_edge (toI A B f n q) HD Ra R0) as [X1 X2]. split; auto. }
      exists y', T'. eapply run_cons with (e := prod_edge (clockSize A) (toI A B f n q) e empty_edge).
      + apply prod_is_edge; auto. left. exists e, n. auto.
      + simpl. apply toI_iff; auto.
      + eapply split_guard; eauto. split; auto. intros g [].
      + exact R.
    - pose proof (proj1 (same_flag_iff _ _) H) as (I & J & Z). pose proof (proj1 (same_flag_iff _ _) (together_start _ _ _ _ _ _ _ _ H3)) as (I' & J' & Z').
      pose proof (wf_is_edge _ _ _ _ WB H0) as (_ & Rb & Gb). destruct (wf_empty_edge (clockSize A)) as [R0 G0].
      pose proof (split_delay A B _ _ _ (t - T) HS) as HD.
      destruct (IHtogether (reset_set (delay y (t - T)) (eresets (prod_edge (clockSize A) (toI A B f p n) empty_edge e)))) as (y' & T' & R).
      { destruct (split_reset A B Small _ _ _ empty_edge e (toI A B f p n) HD R0 Rb) as [X1 X2]. split; auto. }
      exists y', T'. eapply run_cons with (e := prod_edge (clockSize A) (toI A B f p n) empty_edge e).
      + apply prod_is_edge; auto. right. left. exists e, n. auto.
      + simpl. apply toI_iff; auto.
      + eapply (split_guard A B Small _ _ _ empty_edge e None); eauto. split; auto. intros g [].
      + exact R.
  Qed.

  Lemma run_tog : forall r y T w r' y' T', run (intersectionTA A B f) r y T w r' y' T' ->
    forall p q v x, r = f p q -> same_flag A B p q -> vsplit A B y v x ->
    exists p' q', r' = f p' q' /\ together A B p v q x T w p' q'.
  Proof.
    intros r y T w r' y' T' R. induction R; intros p1 p2 v1 v2 -> F HS.
    - exists p1, p2. split; auto. constructor. auto.
    - pose proof (proj1 (same_flag_iff _ _) F) as (I & J & Z). apply prod_is_edge in H; auto.
      pose proof (split_delay A B _ _ _ (t - T) HS) as HD.
      destruct H as [(e1 & n1 & -> & He1 & ET1 & ->)|[(e2 & n2 & -> & He2 & ET2 & ->)|(e1 & n1 & e2 & n2 & He1 & ET1 & He2 & ET2 & ->)]].
      + pose proof (wf_is_edge _ _ _ _ WA He1) as (_ & Ra & Ga). destruct (wf_empty_edge (clockSize B)) as [R0 G0].
        simpl in H0. apply toI_iff in H0 as (I1 & I2 & Z1 & ->); auto.
        apply (split_guard A B Small _ _ _ e1 empty_edge _ HD) in H1; auto. destruct H1 as [GA _].
        destruct (IHR n1 p2 (reset_set (delay v1 (t - T)) (eresets e1)) (delay v2 (t - T))) as (a1 & a2 & -> & G); auto.
        { apply same_flag_iff. auto. }
        { destruct (split_reset A B Small _ _ _ e1 empty_edge (toI A B f n1 p2) HD Ra R0) as [X1 X2]. split; auto. }
        exists a1, a2. split; auto. eapply tog_left; eauto.
      + pose proof (wf_is_edge _ _ _ _ WB He2) as (_ & Rb & Gb). destruct (wf_empty_edge (clockSize A)) as [R0 G0].
        simpl in H0. apply toI_iff in H0 as (I1 & I2 & Z1 & ->); auto.
        apply (split_guard A B Small _ _ _ empty_edge e2 None HD) in H1; auto. destruct H1 as [_ GA].
        destruct (IHR p1 n2 (delay v1 (t - T)) (reset_set (delay v2 (t - T)) (eresets e2))) as (a1 & a2 & -> & G); auto.
        { apply same_flag_iff. auto. }
        { destruct (split_reset A B Small _ _ _ empty_edge e2 (toI A B f p1 n2) HD R0 Rb) as [X1 X2]. split; auto. }
        exists a1, a2. split; auto. eapply tog_right; eauto.
      + pose proof (wf_is_edge _ _ _ _ WA He1) as (_ & Ra & Ga). pose proof (wf_is_edge _ _ _ _ WB He2) as (_ & Rb & Gb).
        simpl in H0. apply toI_iff in H0 as (I1 & I2 & Z1 & ->); auto.
        apply (split_guard A B Small _ _ _ e1 e2 _ HD) in H1; auto. destruct H1 as [GA GB].
        destruct (IHR n1 n2 (reset_set (delay v1 (t - T)) (eresets e1)) (reset_set (delay v2 (t - T)) (eresets e2))) as (a1 & a2 & -> & G); auto.
        { apply same_flag_iff. auto. }
        { eapply split_reset; eauto. }
        exists a1, a2. split; auto. eapply tog_both; eauto.
  Qed.
End Exact.

(* The words of the product, whatever the flags are. *)
Theorem C18_exact : forall A B f, wf_ta A -> wf_ta B -> fresh_pairs A B f -> clockSize A + clockSize B <= 256 ->
  forall w, accepts (intersectionTA A B f) w <->
    exists p q p' q', In p (inits A) /\ In q (inits B) /\ together A B p zeroval q zeroval 0 w p' q' /\
      accepting A p' /\ accepting B q'.
Proof.
  intros A B f WA WB Inj Small w. split.
  - intros (r & r' & y & T & Hr & R & HA). apply prod_inits_in in Hr as (p & q & Hp & Hq & Z & ->); auto.
    assert (F : same_flag A B p q) by (apply same_flag_iff; auto; repeat split; auto; [apply WA|apply WB]; auto).
    destruct (run_tog A B f WA WB Inj Small _ _ _ _ _ _ _ R p q zeroval zeroval eq_refl F) as (p' & q' & -> & G); [split; intros; reflexivity|].
    pose proof (together_end _ _ _ _ _ _ _ _ _ _ G) as F'. apply same_flag_iff in F' as (I & J & Z'); auto.
    apply prod_accepting in HA as [HA HB]; auto. exists p, q, p', q'. auto.
  - intros (p & q & p' & q' & Hp & Hq & G & HA & HB).
    pose proof (together_end _ _ _ _ _ _ _ _ _ _ G) as F'. apply same_flag_iff in F' as (I & J & Z'); auto.
    pose proof (together_start _ _ _ _ _ _ _ _ _ _ G) as F. apply same_flag_iff in F as (I0 & J0 & Z); auto.
    destruct (tog_run A B f WA WB Inj Small _ _ _ _ _ _ _ _ G zeroval) as (y & T & R); [split; intros; reflexivity|].
    exists (f p q), (f p' q'), y, T. split; [|split; auto].
    + apply prod_inits_in; auto. exists p, q. auto.
    + apply prod_accepting; auto.
Qed.

(* Valuations that agree on the clocks of A give the same runs. *)
Lemma together_left : forall A B p v q x T w p' q', together A B p v q x T w p' q' -> nondecreasing T w ->
  forall T1 v1, (forall c, (v c == v1 c + (T - T1))%Q) -> 
  exists w1 u T', run A p v1 T1 w1 p' u T' /\ observe w1 = observe w /\ nondecreasing T w1.
Proof.
  intros A B p v q x T w p' q' G. induction G; intros N T1 v1 E.
  - exists [], v1, T1. repeat split; auto; constructor.
  - destruct N as [N0 N]. assert (ED : forall k, (delay v (t - T) k == delay v1 (t - T1) k)%Q) by (intros k; unfold delay; rewrite (E k); ring).
    destruct (IHG N t (reset_set (delay v1 (t - T1)) (eresets e))) as (w1 & u & T' & R & O & D).
    { intros k. unfold reset_set. destruct (in_dec _ k (eresets e)); [|rewrite ED]; ring. }
    exists ((c, t) :: w1), u, T'. split; [econstructor; eauto; intros g Hg; apply (holds_eq g (delay v (t - T) (cx g))); [rewrite (ED (cx g)); reflexivity|auto]|].
    split; [|cbn; auto]. cbn. destruct c; cbn; auto. f_equal. auto.
  - destruct N as [N0 N]. assert (ED : forall k, (delay v (t - T) k == delay v1 (t - T1) k)%Q) by (intros k; unfold delay; rewrite (E k); ring).
    destruct (IHG N t (reset_set (delay v1 (t - T1)) (eresets e))) as (w1 & u & T' & R & O & D).
    { intros k. unfold reset_set. destruct (in_dec _ k (eresets e)); [|rewrite ED]; ring. }
    exists ((0, t) :: w1), u, T'. split; [econstructor; eauto; intros g Hg; apply (holds_eq g (delay v (t - T) (cx g))); [rewrite (ED (cx g)); reflexivity|auto]|].
    split; [|cbn; auto]. cbn. auto.
  - destruct N as [N0 N]. destruct (IHG N T1 v1) as (w1 & u & T' & R & O & D).
    { intros k. unfold delay. rewrite (E k). ring. }
    exists w1, u, T'. split; auto. split; [cbn; auto|]. eapply nondecreasing_weaken; eauto.
Qed.
Lemma together_swap : forall A B p v q x T w p' q', together A B p v q x T w p' q' -> together B A q x p v T w q' p'.
Proof.
  intros A B p v q x T w p' q' G. assert (SF : forall a b, same_flag A B a b -> same_flag B A b a) by (intros a b (k & ? & ?); exists k; auto).
  induction G; [constructor|eapply tog_both|eapply tog_right|eapply tog_left]; eauto.
Qed.

(* Nothing else is in the product, whatever the flags are. *)
Theorem C18_sound : forall A B f, wf_ta A -> wf_ta B -> fresh_pairs A B f -> clockSize A + clockSize B <= 256 ->
  forall u, lang (intersectionTA A B f) u -> lang A u /\ lang B u.
Proof.
  intros A B f WA WB Inj Small u (w & EO & N & H). apply C18_exact in H as (p & q & p' & q' & Hp & Hq & G & HA & HB); auto. split.
  - destruct (together_left _ _ _ _ _ _ _ _ _ _ G N 0%Q zeroval) as (w1 & y & T' & R & O & D); [intros; unfold zeroval; ring|].
    exists w1. split; [congruence|]. split; auto. exists p, p', y, T'. auto.
  - destruct (together_left _ _ _ _ _ _ _ _ _ _ (together_swap _ _ _ _ _ _ _ _ _ _ G) N 0%Q zeroval) as (w1 & y & T' & R & O & D); [intros; unfold zeroval; ring|].
    exists w1. split; [congruence|]. split; auto. exists q, q', y, T'. auto.
Qed.

(* States with both flags: the product accepts a through the states with the
   flag, and not b, which needs states with different flags. *)
Example C18_exact_case :
  let A := mkTA [(0, mkS false false [(97, [mkE (Some 1) [] []; mkE (Some 2) [] []]); (98, [mkE (Some 1) [] []])]); (1, mkS true true []); (2, mkS true false [])] [0] [] in
  let B := mkTA [(0, mkS false false [(97, [mkE (Some 1) [] []]); (98, [mkE (Some 2) [] []])]); (1, mkS true true []); (2, mkS true false [])] [0] [] in
  let f := fun p q => 3 * q + p in
  wf_ta A /\ wf_ta B /\ fresh_pairs A B f /\ accepts (intersectionTA A B f) [(97, 1%Q)] /\
  accepts A [(98, 1%Q)] /\ accepts B [(98, 1%Q)] /\ ~ accepts (intersectionTA A B f) [(98, 1%Q)] /\
  exists p q p' q', In p (inits A) /\ In q (inits B) /\ together A B p zeroval q zeroval 0 [(97, 1%Q)] p' q'.
Proof.
  cbv zeta. repeat (split; [first [apply wf_tab_ok; vm_compute; reflexivity
    | unfold fresh_pairs, ptr; simpl; intros; lia
    | apply isMember_correct; [apply wf_tab_ok; vm_compute; reflexivity|vm_compute; reflexivity]
    | rewrite <- isMember_correct; [vm_compute; discriminate|apply wf_tab_ok; vm_compute; reflexivity]]|]).
  exists 0, 0, 1, 1. split; [left; auto|]. split; [left; auto|].
  eapply tog_both with (e := mkE (Some 1) [] []) (e' := mkE (Some 1) [] []) (n := 1) (n' := 1); auto.
  - exists false. split; eexists; (split; [left; reflexivity|reflexivity]).
  - eexists _, _. split; [left; reflexivity|]. split; [left; reflexivity|left; reflexivity].
  - intros g [].
  - eexists _, _. split; [left; reflexivity|]. split; [left; reflexivity|left; reflexivity].
  - intros g [].
  - constructor. exists true. split; eexists; (split; [right; left; reflexivity|reflexivity]).
Qed.
