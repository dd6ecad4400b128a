(* Runs over delays, and the languages of the constructions of toEventTA on
   abstract transition relations. *)
From Coq Require Import QArith Lqa Bool List ZArith Arith Lia.
From Verif Require Import Num NumFacts Interval Constraint Zone TA Spec TAFacts Tre.
Import ListNotations.
Open Scope nat_scope.

Lemma duration_cons : forall c d u, duration ((c, d) :: u) = (d + duration u)%Q.
Proof. reflexivity. Qed.

Definition erel : Type := ptr -> nat -> edge -> Prop.

Inductive drun (E : erel) : ptr -> valuation -> dword -> ptr -> valuation -> Prop :=
| dr_nil : forall p v, drun E p v [] p v
| dr_cons : forall p v c d e u q p' v',
    E p c e -> etgt e = Some q -> sat_guard (delay v d) (eguard e) ->
    drun E q (reset_set (delay v d) (eresets e)) u p' v' ->
    drun E p v ((c, d) :: u) p' v'.

Lemma run_drun : forall A p v T w q v' T', run A p v T w q v' T' -> drun (is_edge A) p v (delays T w) q v'.
Proof. intros A p v T w q v' T' H. induction H; cbn [delays]; econstructor; eauto. Qed.

Lemma drun_run : forall A u p v q v', drun (is_edge A) p v u q v' ->
  forall T w, u = delays T w -> exists T', run A p v T w q v' T'.
Proof.
  intros A u p v q v' H. induction H; intros T w E.
  - destruct w as [|[c t] w]; [|discriminate]. exists T. constructor.
  - destruct w as [|[c' t] w]; [discriminate|]. cbn [delays] in E. injection E as -> -> ->.
    destruct (IHdrun t w eq_refl) as (T' & R). exists T'. econstructor; eauto.
Qed.

(* The language of a transition relation with initial and final states. *)
Definition alang (E : erel) (I F : ptr -> Prop) (u : dword) : Prop :=
  exists p q v, I p /\ drun E p zeroval u q v /\ F q.

Lemma accepts_alang : forall A w,
  accepts A w <-> alang (is_edge A) (fun p => In p (inits A)) (accepting A) (delays 0 w).
Proof.
  intros A w. split.
  - intros (p & q & v & T & Hi & R & F). exists p, q, v. split; auto. split; auto. eapply run_drun; eauto.
  - intros (p & q & v & Hi & R & F). destruct (drun_run _ _ _ _ _ _ R 0%Q w eq_refl) as (T & R'). exists p, q, v, T. auto.
Qed.

Lemma alang_ext : forall E E' I I' F F' u,
  (forall p c e, E p c e <-> E' p c e) -> (forall p, I p <-> I' p) -> (forall p, F p <-> F' p) ->
  (alang E I F u <-> alang E' I' F' u).
Proof.
  assert (M : forall E E' : erel, (forall p c e, E p c e -> E' p c e) -> forall p v u q v', drun E p v u q v' -> drun E' p v u q v').
  { intros E E' H p v u q v' R. induction R; econstructor; eauto. }
  intros E E' I I' F F' u HE HI HF. split; intros (p & q & v & Hi & R & Hf); exists p, q, v;
    (split; [apply HI; auto|split; [|apply HF; auto]]); (eapply M; [|exact R]); intros; apply HE; auto.
Qed.

Lemma drun_mono : forall (E E' : erel) p v u q v', (forall p c e, E p c e -> E' p c e) -> drun E p v u q v' -> drun E' p v u q v'.
Proof. intros E E' p v u q v' H R. induction R; econstructor; eauto. Qed.

(* Staying inside a set of states. *)
Lemma drun_inside : forall (E E' : erel) (P : ptr -> Prop) p v u q v',
  (forall p c e, P p -> E p c e -> E' p c e /\ forall q, etgt e = Some q -> P q) ->
  P p -> drun E p v u q v' -> drun E' p v u q v' /\ P q.
Proof.
  intros E E' P p v u q v' H Hp R. induction R as [|p v c d e u q p' v' He Et Sg R IH].
  - split; [constructor|auto].
  - destruct (H _ _ _ Hp He) as [He' Hq]. destruct (IH (Hq _ Et)) as [R' Hq']. split; auto. econstructor; eauto.
Qed.

Lemma drun_app : forall E p v u1 q v1, drun E p v u1 q v1 -> forall u2 p' v', drun E q v1 u2 p' v' -> drun E p v (u1 ++ u2) p' v'.
Proof. intros E p v u1 q v1 R. induction R; intros u2 p2 v2 R2; auto. cbn. econstructor; eauto. Qed.

Lemma drun_snoc : forall E p v u q v', drun E p v u q v' -> u <> [] ->
  exists u0 c d p1 v1 e, u = u0 ++ [(c, d)] /\ drun E p v u0 p1 v1 /\ E p1 c e /\ etgt e = Some q /\
    sat_guard (delay v1 d) (eguard e) /\ v' = reset_set (delay v1 d) (eresets e).
Proof.
  intros E p v u q v' R. induction R as [|p v c d e u q p' v' He Et Sg R IH]; intros N; [congruence|].
  destruct u as [|x u].
  - inversion R; subst. exists [], c, d, p, v, e. repeat split; auto. constructor.
  - destruct IH as (u0 & c1 & d1 & p1 & v1 & e1 & Eu & R1 & H1 & H2 & H3 & H4); [discriminate|].
    exists ((c, d) :: u0), c1, d1, p1, v1, e1. rewrite Eu. repeat split; auto. econstructor; eauto.
Qed.

(* Valuations that agree on the clocks below n. *)
Definition agree (n : nat) (v v' : valuation) : Prop := forall x, x < n -> (v x == v' x)%Q.

Lemma agree_refl : forall n v, agree n v v.
Proof. intros n v x _. reflexivity. Qed.
Lemma agree_delay : forall n v v' d, agree n v v' -> agree n (delay v d) (delay v' d).
Proof. intros n v v' d H x Hx. unfold delay. rewrite (H x Hx). reflexivity. Qed.
Lemma agree_reset : forall n v v' xs, agree n v v' -> agree n (reset_set v xs) (reset_set v' xs).
Proof. intros n v v' xs H x Hx. unfold reset_set. destruct (in_dec Nat.eq_dec x xs); [reflexivity|auto]. Qed.

Lemma agree_guard : forall n v v' gs, agree n v v' -> Forall (fun g => cx g < n) gs -> sat_guard v gs -> sat_guard v' gs.
Proof.
  intros n v v' gs H F S g Hg. rewrite Forall_forall in F. eapply holds_eq; [apply H, F; auto|apply S; auto].
Qed.

(* Guards only mention clocks below n. *)
Definition guards_below (n : nat) (E : erel) : Prop := forall p c e, E p c e -> Forall (fun g => cx g < n) (eguard e).

Lemma drun_agree : forall n E p v u q v', guards_below n E -> drun E p v u q v' ->
  forall w, agree n v w -> exists w', drun E p w u q w' /\ agree n v' w'.
Proof.
  intros n E p v u q v' G R. induction R as [|p v c d e u q p' v' He Et Sg R IH]; intros w H.
  - exists w. split; [constructor|auto].
  - destruct (IH (reset_set (delay w d) (eresets e))) as (w' & R' & A').
    { apply agree_reset, agree_delay, H. }
    exists w'. split; auto. econstructor; eauto. eapply agree_guard; [apply agree_delay, H|eapply G; eauto|auto].
Qed.

(* Words with equal delays. *)
Definition deq (u w : dword) : Prop := Forall2 (fun a b => fst a = fst b /\ (snd a == snd b)%Q) u w.

Lemma drun_deq : forall E p v u q v', drun E p v u q v' ->
  forall w z, deq u w -> (forall x, v x == z x)%Q -> exists z', drun E p z w q z'.
Proof.
  intros E p v u q v' R. induction R as [p v|p v c d e u q p' v' He Et Sg R IH]; intros w z D A.
  - inversion D; subst. exists z. constructor.
  - inversion D as [|a [c' d'] l l' [Ec Ed] D']; subst. cbn [fst snd] in *. subst c'.
    assert (A' : forall x, (delay v d x == delay z d' x)%Q) by (intros x; unfold delay; rewrite (A x), Ed; reflexivity).
    destruct (IH l' (reset_set (delay z d') (eresets e)) D') as (z' & R').
    { intros x. unfold reset_set. destruct (in_dec Nat.eq_dec x (eresets e)); [reflexivity|auto]. }
    exists z'. econstructor; eauto. intros g Hg. eapply holds_eq; [apply A'|apply Sg; auto].
Qed.

Lemma alang_deq : forall E I F u w, deq u w -> alang E I F u -> alang E I F w.
Proof.
  intros E I F u w D (p & q & v & Hi & R & Hf). destruct (drun_deq _ _ _ _ _ _ R w zeroval D) as (z & R'); [intros; reflexivity|].
  exists p, q, z. auto.
Qed.

Lemma deq_sym : forall u w, deq u w -> deq w u.
Proof. intros u w D. induction D; constructor; auto. destruct H as [E Q]. split; auto. symmetry. auto. Qed.

(* The word with absolute times. *)
Fixpoint stamps (T : Q) (u : dword) : tword :=
  match u with
  | [] => []
  | (c, d) :: u' => (c, T + d)%Q :: stamps (T + d)%Q u'
  end.

Lemma delays_stamps : forall u T, deq (delays T (stamps T u)) u.
Proof.
  induction u as [|[c d] u IH]; intros T; cbn [stamps delays]; constructor; [cbn; split; auto; ring|apply IH].
Qed.

Lemma accepts_stamps : forall A u, accepts A (stamps 0 u) <-> alang (is_edge A) (fun p => In p (inits A)) (accepting A) u.
Proof.
  intros A u. rewrite accepts_alang. split; apply alang_deq; [|apply deq_sym]; apply delays_stamps.
Qed.

Lemma iota_id : forall n, n <= 256 -> iota n = seq 0 n.
Proof.
  intros n H. unfold iota. rewrite <- (map_id (seq 0 n)) at 2. apply map_ext_in. intros x Hx. apply in_seq in Hx. apply Nat.mod_small. lia.
Qed.

Lemma reset_iota_agree : forall n v xs, n <= 256 -> agree n (reset_set v (xs ++ iota n)) zeroval.
Proof.
  intros n v xs H x Hx. unfold reset_set, zeroval. rewrite iota_id by auto.
  destruct (in_dec Nat.eq_dec x (xs ++ seq 0 n)) as [|N]; [reflexivity|]. exfalso. apply N, in_or_app. right. apply in_seq. lia.
Qed.

(* ---------------- concatenation ---------------- *)

Section Concat.
  Variables (E1 E2 E : erel) (I1 I2 F1 F2 : ptr -> Prop) (S1 S2 : ptr -> Prop) (n2 : nat).
  Hypothesis H1 : forall p c e, E1 p c e -> S1 p /\ forall q, etgt e = Some q -> S1 q.
  Hypothesis H2 : forall p c e, E2 p c e -> S2 p /\ forall q, etgt e = Some q -> S2 q.
  Hypothesis D : forall p, S1 p -> S2 p -> False.
  Hypothesis HI1 : forall p, I1 p -> S1 p.
  Hypothesis HI2 : forall p, I2 p -> S2 p.
  Hypothesis HF2 : forall p, F2 p -> S2 p.
  Hypothesis G2 : guards_below n2 E2.
  Hypothesis N2 : n2 <= 256.
  Definition cjump (p : ptr) (c : nat) (e : edge) : Prop :=
    exists e1 q i, E1 p c e1 /\ etgt e1 = Some q /\ F1 q /\ I2 i /\ e = mkE (Some i) (iota n2) (eguard e1).
  Hypothesis HE : forall p c e, E p c e <-> E1 p c e \/ E2 p c e \/ cjump p c e.

  Lemma concat_from1 : forall p v u q v', drun E p v u q v' -> S1 p -> S2 q ->
    exists u1 u2 p1 i w, u = u1 ++ u2 /\ drun E1 p v u1 p1 w /\ u1 <> [] /\ F1 p1 /\ I2 i /\
      exists v2, drun E2 i zeroval u2 q v2.
  Proof.
    intros p v u q v' R. induction R as [|p v c d e u q p' v' He Et Sg R IH]; intros Hp Hq; [destruct (D _ Hp Hq)|].
    apply HE in He as [He|[He|(e1 & q1 & i & He & Et1 & Hf & Hi & ->)]].
    - destruct (H1 _ _ _ He) as [_ Ht]. destruct (IH (Ht _ Et) Hq) as (u1 & u2 & p1 & i & w & -> & R1 & _ & Hf & Hi & R2).
      exists ((c, d) :: u1), u2, p1, i, w. repeat split; auto; [econstructor; eauto|discriminate].
    - destruct (H2 _ _ _ He) as [Hp2 _]. destruct (D _ Hp Hp2).
    - cbn [etgt eresets eguard] in *. injection Et as <-.
      exists [(c, d)], u, q1, i, (reset_set (delay v d) (eresets e1)). repeat split; auto.
      { econstructor; eauto. constructor. } { discriminate. }
      assert (R2 : drun E2 i (reset_set (delay v d) (iota n2)) u p' v').
      { refine (proj1 (drun_inside E E2 S2 _ _ _ _ _ _ (HI2 _ Hi) R)). intros p2 c2 e2 P2 He2.
        apply HE in He2 as [X|[X|(e3 & q3 & i3 & X & _)]].
        - destruct (H1 _ _ _ X) as [X1 _]. destruct (D _ X1 P2).
        - split; auto. intros q2 Eq. destruct (H2 _ _ _ X) as [_ X2]. auto.
        - destruct (H1 _ _ _ X) as [X1 _]. destruct (D _ X1 P2). }
      destruct (drun_agree n2 _ _ _ _ _ _ G2 R2 zeroval) as (v2 & R3 & _); [apply (reset_iota_agree n2 _ []); auto|]. eauto.
  Qed.

  Lemma concat_alang : forall I u, (forall p, I p <-> I1 p \/ ((exists i, I1 i /\ F1 i) /\ I2 p)) ->
    (alang E I F2 u <-> exists u1 u2, u = u1 ++ u2 /\ alang E1 I1 F1 u1 /\ alang E2 I2 F2 u2).
  Proof.
    intros I u HI. split.
    - intros (p & q & v & Hp & R & Hf). apply HI in Hp as [Hp|[(i & Hi & Hif) Hp]].
      + destruct (concat_from1 _ _ _ _ _ R (HI1 _ Hp) (HF2 _ Hf)) as (u1 & u2 & p1 & i & w & -> & R1 & _ & Hf1 & Hi & v2 & R2).
        exists u1, u2. split; auto. split; [exists p, p1, w; auto|exists i, q, v2; auto].
      + exists [], u. split; auto. split; [exists i, i, zeroval; repeat split; auto; constructor|].
        exists p, q, v. split; auto. split; auto.
        refine (proj1 (drun_inside E E2 S2 _ _ _ _ _ _ (HI2 _ Hp) R)). intros p2 c2 e2 P2 He2.
        apply HE in He2 as [X|[X|(e3 & q3 & i3 & X & _)]].
        * destruct (H1 _ _ _ X) as [X1 _]. destruct (D _ X1 P2).
        * split; auto. intros q2 Eq. destruct (H2 _ _ _ X) as [_ X2]. auto.
        * destruct (H1 _ _ _ X) as [X1 _]. destruct (D _ X1 P2).
    - intros (u1 & u2 & -> & (p1 & q1 & v1 & Hi1 & R1 & Hf1) & (p2 & q2 & v2 & Hi2 & R2 & Hf2)).
      assert (R2' : drun E p2 zeroval u2 q2 v2) by (eapply drun_mono; [|exact R2]; intros; apply HE; auto).
      destruct u1 as [|x u1].
      + inversion R1; subst. exists p2, q2, v2. split; [apply HI; right; eauto|auto].
      + destruct (drun_snoc _ _ _ _ _ _ R1) as (u0 & c & d & p3 & v3 & e & Eu & R3 & He & Et & Sg & _); [discriminate|].
        rewrite Eu, <- app_assoc. cbn [app].
        destruct (drun_agree n2 _ _ _ _ _ _ G2 R2 (reset_set (delay v3 d) (iota n2))) as (w & R4 & _).
        { intros y Hy. symmetry. apply (reset_iota_agree n2 _ []); auto. }
        exists p1, q2, w. split; [apply HI; auto|]. split; auto.
        eapply drun_app; [eapply drun_mono; [|exact R3]; intros; apply HE; auto|].
        apply dr_cons with (e := mkE (Some p2) (iota n2) (eguard e)) (q := p2); auto.
        * apply HE. right. right. exists e, q1, p2. auto.
        * eapply drun_mono; [|exact R4]. intros; apply HE; auto.
  Qed.
End Concat.

(* ---------------- Kleene plus ---------------- *)

Section Plus.
  Variables (E E' : erel) (I F : ptr -> Prop) (n : nat).
  Hypothesis G : guards_below n E.
  Hypothesis N : n <= 256.
  Definition pjump (p : ptr) (c : nat) (e : edge) : Prop :=
    exists e1 q i, E p c e1 /\ etgt e1 = Some q /\ F q /\ I i /\ e = mkE (Some i) (eresets e1 ++ iota n) (eguard e1).
  Hypothesis HE : forall p c e, E' p c e <-> E p c e \/ pjump p c e.

  Lemma plus_guards : guards_below n E'.
  Proof. intros p c e H. apply HE in H as [H|(e1 & q & i & H & _ & _ & _ & ->)]; [|cbn]; eapply G; eauto. Qed.

  Lemma plus_split : forall p v u q v', drun E' p v u q v' ->
    (exists w, drun E p v u q w) \/
    exists u1 u2 p1 i w v2, u = u1 ++ u2 /\ drun E p v u1 p1 w /\ u1 <> [] /\ F p1 /\ I i /\ drun E' i zeroval u2 q v2.
  Proof.
    intros p v u q v' R. induction R as [|p v c d e u q p' v' He Et Sg R IH]; [left; eexists; constructor|].
    apply HE in He as [He|(e1 & q1 & i & He & Et1 & Hf & Hi & ->)].
    - destruct IH as [(w & R1)|(u1 & u2 & p1 & i & w & v2 & -> & R1 & _ & X)].
      + left. exists w. econstructor; eauto.
      + right. exists ((c, d) :: u1), u2, p1, i, w, v2. split; auto. split; [econstructor; eauto|]. split; [discriminate|auto].
    - cbn [etgt eresets eguard] in *. injection Et as <-. right.
      destruct (drun_agree n _ _ _ _ _ _ plus_guards R zeroval) as (v2 & R2 & _); [apply reset_iota_agree; auto|].
      exists [(c, d)], u, q1, i, (reset_set (delay v d) (eresets e1)), v2. repeat split; auto; [|discriminate].
      econstructor; eauto. constructor.
  Qed.

  Lemma plus_alang : forall u, alang E' I F u <-> exists us, us <> [] /\ Forall (alang E I F) us /\ u = concat us.
  Proof.
    intros u. split.
    - intros (p & q & v & Hi & R & Hf). revert p v Hi R. remember (length u) as k eqn:Ek.
      revert u Ek. induction k as [k IH] using lt_wf_ind. intros u Ek p v Hi R.
      destruct (plus_split _ _ _ _ _ R) as [(w & R1)|(u1 & u2 & p1 & i & w & v2 & -> & R1 & N1 & Hf1 & Hi1 & R2)].
      + exists [u]. split; [discriminate|]. split; [constructor; [exists p, q, w; auto|constructor]|cbn; rewrite app_nil_r; auto].
      + destruct (IH (length u2)) with (u := u2) (p := i) (v := v2) as (us & Nu & Fu & ->); auto.
        { rewrite Ek, app_length. destruct u1; [congruence|cbn; lia]. }
        exists (u1 :: us). split; [discriminate|]. split; auto. constructor; auto. exists p, p1, w. auto.
    - intros (us & Nu & Fu & ->). induction Fu as [|u1 us H1 Fu IH]; [congruence|]. cbn [concat].
      assert (B : forall p v u q v', drun E p v u q v' -> drun E' p v u q v').
      { intros. eapply drun_mono; [|eassumption]. intros; apply HE; auto. }
      destruct us as [|u2 us].
      + cbn. rewrite app_nil_r. destruct H1 as (p & q & v & Hi & R & Hf). exists p, q, v. auto.
      + destruct IH as (p2 & q2 & v2 & Hi2 & R2 & Hf2); [discriminate|]. destruct H1 as (p1 & q1 & v1 & Hi1 & R1 & Hf1).
        destruct u1 as [|x u1].
        * exists p2, q2, v2. auto.
        * destruct (drun_snoc _ _ _ _ _ _ R1) as (u0 & c & d & p3 & v3 & e & Eu & R3 & He & Et & Sg & _); [discriminate|].
          rewrite Eu, <- app_assoc. cbn [app].
          destruct (drun_agree n _ _ _ _ _ _ plus_guards R2 (reset_set (delay v3 d) (eresets e ++ iota n))) as (w & R4 & _).
          { intros y Hy. symmetry. apply reset_iota_agree; auto. }
          exists p1, q2, w. split; auto. split; auto. eapply drun_app; [apply B; eauto|].
          apply dr_cons with (e := mkE (Some p2) (eresets e ++ iota n) (eguard e)) (q := p2); auto.
          apply HE. right. exists e, q1, p2. auto.
  Qed.
End Plus.

(* ---------------- disjunction ---------------- *)

Section Alternative.
  Variables (E1 E2 E : erel) (I1 I2 F1 F2 : ptr -> Prop) (S1 S2 : ptr -> Prop).
  Hypothesis H1 : forall p c e, E1 p c e -> S1 p /\ forall q, etgt e = Some q -> S1 q.
  Hypothesis H2 : forall p c e, E2 p c e -> S2 p /\ forall q, etgt e = Some q -> S2 q.
  Hypothesis D : forall p, S1 p -> S2 p -> False.
  Hypothesis HI1 : forall p, I1 p -> S1 p.
  Hypothesis HI2 : forall p, I2 p -> S2 p.
  Hypothesis HF1 : forall p, F1 p -> S1 p.
  Hypothesis HF2 : forall p, F2 p -> S2 p.
  Hypothesis HE : forall p c e, E p c e <-> E1 p c e \/ E2 p c e.

  Lemma alt_alang : forall I F u, (forall p, I p <-> I1 p \/ I2 p) -> (forall p, F p <-> F1 p \/ F2 p) ->
    (alang E I F u <-> alang E1 I1 F1 u \/ alang E2 I2 F2 u).
  Proof.
    intros I F u HI HF. split.
    - intros (p & q & v & Hp & R & Hf). apply HI in Hp as [Hp|Hp].
      + left. destruct (drun_inside E E1 S1 p zeroval u q v) as [R1 Hq]; auto.
        { intros p1 c1 e1 P1 He. apply HE in He as [He|He]; [split; auto; apply H1 in He as [_ X]; auto|].
          destruct (H2 _ _ _ He) as [X _]. destruct (D _ P1 X). }
        exists p, q, v. split; auto. split; auto. apply HF in Hf as [Hf|Hf]; auto. destruct (D _ Hq (HF2 _ Hf)).
      + right. destruct (drun_inside E E2 S2 p zeroval u q v) as [R1 Hq]; auto.
        { intros p1 c1 e1 P1 He. apply HE in He as [He|He]; [|split; auto; apply H2 in He as [_ X]; auto].
          destruct (H1 _ _ _ He) as [X _]. destruct (D _ X P1). }
        exists p, q, v. split; auto. split; auto. apply HF in Hf as [Hf|Hf]; auto. destruct (D _ (HF1 _ Hf) Hq).
    - intros [(p & q & v & Hp & R & Hf)|(p & q & v & Hp & R & Hf)]; exists p, q, v; (split; [apply HI; auto|]; split; [|apply HF; auto]);
        (eapply drun_mono; [|exact R]); intros; apply HE; auto.
  Qed.
End Alternative.

(* ---------------- time restriction ---------------- *)

Section Restrict.
  Variables (E E' : erel) (I F : ptr -> Prop) (n : nat) (gs : list constr).
  Hypothesis G : guards_below n E.
  Hypothesis RB : forall p c e, E p c e -> Forall (fun x => x < n) (eresets e).
  Hypothesis T : forall p c e, F p -> ~ E p c e.
  Hypothesis X : Forall (fun g => cx g = n) gs.
  Variable Fb : ptr -> bool.
  Hypothesis HFb : forall p, Fb p = true <-> F p.
  Hypothesis HE : forall p c e', E' p c e' <->
    exists e q, E p c e /\ etgt e = Some q /\ e' = mkE (Some q) (eresets e) (if Fb q then eguard e ++ gs else eguard e).
  Hypothesis Tg : forall p c e, E p c e -> exists q, etgt e = Some q.

  Lemma edge_eta : forall e q, etgt e = Some q -> mkE (Some q) (eresets e) (eguard e) = e.
  Proof. intros [t r g] q H. cbn in *. subst. reflexivity. Qed.

  Lemma clock_value : forall p v u q v', drun E p v u q v' -> (v' n == v n + duration u)%Q.
  Proof.
    intros p v u q v' R. induction R as [|p v c d e u q p' v' He Et Sg R IH]; [unfold duration; cbn; lra|].
    - rewrite duration_cons, IH. unfold reset_set. destruct (in_dec Nat.eq_dec n (eresets e)) as [H|_].
      + apply RB in He. rewrite Forall_forall in He. apply He in H. lia.
      + unfold delay. lra.
  Qed.

  (* All guards of [gs] hold for the value d. *)
  Definition sat_val (d : Q) : Prop := forall g, In g gs -> holds g d.

  Lemma restrict_back : forall p v u q v', drun E' p v u q v' -> drun E p v u q v' /\ (u <> [] -> F q -> sat_val (v n + duration u)%Q).
  Proof.
    intros p v u q v' R. induction R as [|p v c d e' u q p' v' He Et Sg R IH].
    - split; [constructor|congruence].
    - apply HE in He as (e & q0 & He & Et0 & ->). cbn [etgt eresets eguard] in *. injection Et as <-.
      destruct IH as [R1 S1]. 
      assert (Sg' : sat_guard (delay v d) (eguard e)).
      { intros g Hg. apply Sg. destruct (Fb q0); [apply in_or_app|]; auto. }
      split; [econstructor; eauto|]. intros _ Hf.
      assert (Er : (reset_set (delay v d) (eresets e) n == v n + d)%Q).
      { unfold reset_set. destruct (in_dec Nat.eq_dec n (eresets e)) as [H|_]; [|unfold delay; lra].
        apply RB in He. rewrite Forall_forall in He. apply He in H. lia. }
      destruct u as [|x u].
      + inversion R; subst. apply HFb in Hf. rewrite Hf in Sg. intros g Hg.
        assert (H : holds g (delay v d (cx g))) by (apply Sg, in_or_app; auto).
        rewrite Forall_forall in X. rewrite (X g Hg) in H. eapply holds_eq; [|exact H]. unfold delay, duration. cbn. lra.
      + intros g Hg. eapply holds_eq; [|apply (S1 ltac:(discriminate) Hf g Hg)]. rewrite Er, duration_cons. lra.
  Qed.

  Lemma restrict_fwd : forall p v u q v', drun E p v u q v' -> F q -> (u <> [] -> sat_val (v n + duration u)%Q) ->
    drun E' p v u q v'.
  Proof.
    intros p v u q v' R. induction R as [|p v c d e u q p' v' He Et Sg R IH]; intros Hf S; [constructor|].
    assert (Er : (reset_set (delay v d) (eresets e) n == v n + d)%Q).
    { unfold reset_set. destruct (in_dec Nat.eq_dec n (eresets e)) as [H|_]; [|unfold delay; lra].
      pose proof (RB _ _ _ He) as H'. rewrite Forall_forall in H'. apply H' in H. lia. }
    apply dr_cons with (e := mkE (Some q) (eresets e) (if Fb q then eguard e ++ gs else eguard e)) (q := q); auto.
    - apply HE. exists e, q. auto.
    - cbn [eguard]. destruct (Fb q) eqn:Eb; auto. assert (Hq : F q) by (apply HFb; auto).
      intros g Hg. apply in_app_or in Hg as [Hg|Hg]; auto. rewrite Forall_forall in X. rewrite (X g Hg).
      assert (u = []).
      { destruct u as [|x u]; auto. exfalso. inversion R; subst. eapply T; eauto. }
      subst u. inversion R; subst. eapply holds_eq; [|apply (S ltac:(discriminate) g Hg)]. unfold delay, duration. cbn. lra.
    - cbn [eresets]. apply IH; auto. intros Nu g Hg. eapply holds_eq; [|apply (S ltac:(discriminate) g Hg)].
      rewrite Er, duration_cons. lra.
  Qed.

  Lemma restrict_alang : forall (D : Q -> Prop) u, (forall d, D d <-> sat_val d) -> (forall d d', (d == d')%Q -> D d -> D d') ->
    (alang E I F [] -> D 0%Q) ->
    (alang E' I F u <-> alang E I F u /\ D (duration u)).
  Proof.
    intros D u HD DE H0. split.
    - intros (p & q & v & Hi & R & Hf). destruct (restrict_back _ _ _ _ _ R) as [R1 S].
      assert (L : alang E I F u) by (exists p, q, v; auto). split; auto.
      destruct u as [|x u]; [unfold duration; cbn; auto|].
      apply DE with (d := (zeroval n + duration (x :: u))%Q); [unfold zeroval; lra|]. apply HD, S; auto. discriminate.
    - intros [(p & q & v & Hi & R & Hf) Hd]. exists p, q, v. split; auto. split; auto. apply restrict_fwd; auto.
      intros _. apply HD. apply DE with (d := duration u); auto. unfold zeroval. lra.
  Qed.
End Restrict.

(* ---------------- merging and removing states ---------------- *)

Section Merge.
  Variables (E E' : erel) (I I' F F' : ptr -> Prop) (t : ptr -> bool) (f : ptr).
  Definition rho (p : ptr) : ptr := if t p then f else p.
  Hypothesis Ht : forall p, t p = true -> F p /\ forall c e, ~ E p c e.
  Hypothesis Hf : t f = true.
  Hypothesis HE : forall p c e', (exists e q, E p c e /\ etgt e = Some q /\ e' = mkE (Some (rho q)) (eresets e) (eguard e)) <-> E' p c e'.
  Hypothesis Tg : forall p c e, E p c e -> exists q, etgt e = Some q.
  Hypothesis HI : forall p, I' p <-> exists q, I q /\ p = rho q.
  Hypothesis HF : forall p, F' p <-> F p /\ p = rho p.

  Lemma merge_fwd : forall p v u q v', drun E p v u q v' -> drun E' (rho p) v u (rho q) v'.
  Proof.
    intros p v u q v' R. induction R as [|p v c d e u q p' v' He Et Sg R IH]; [constructor|].
    assert (Ep : rho p = p). { unfold rho. destruct (t p) eqn:Etp; auto. exfalso. eapply Ht; eauto. }
    rewrite Ep. apply dr_cons with (e := mkE (Some (rho q)) (eresets e) (eguard e)) (q := rho q); auto. apply HE. exists e, q. auto.
  Qed.

  Lemma merge_back : forall p' v u q' v', drun E' p' v u q' v' -> forall p, p' = rho p ->
    exists q, q' = rho q /\ drun E p v u q v'.
  Proof.
    intros p' v u q' v' R. induction R as [p0 v0|p' v c d e' u q' p2 v' He Et Sg R IH]; intros p Ep.
    - exists p. split; auto. constructor.
    - apply HE in He as (e & q & He & Eq & ->). cbn [etgt eresets eguard] in *. injection Et as <-.
      assert (Epp : rho p = p).
      { unfold rho in *. destruct (t p) eqn:Etp; auto. exfalso. subst p'. destruct (Ht f Hf) as [_ X]. eapply X; eauto. }
      rewrite Epp in Ep. subst p'. destruct (IH q eq_refl) as (q2 & -> & R2). exists q2. split; auto. econstructor; eauto.
  Qed.

  Lemma rho_idem : forall p, rho (rho p) = rho p.
  Proof. intros p. unfold rho at 2 3. destruct (t p) eqn:Ep; [unfold rho; rewrite Hf; auto|unfold rho; rewrite Ep; auto]. Qed.
  Lemma rho_F : forall p, F (rho p) <-> F p.
  Proof. intros p. unfold rho. destruct (t p) eqn:Ep; [|reflexivity]. split; intros _; apply Ht; auto. Qed.

  Lemma merge_alang : forall u, alang E' I' F' u <-> alang E I F u.
  Proof.
    intros u. split.
    - intros (p' & q' & v & Hi & R & Hq). apply HI in Hi as (p & Hi & ->).
      destruct (merge_back _ _ _ _ _ R p eq_refl) as (q & -> & R'). exists p, q, v. split; auto. split; auto.
      apply HF in Hq as [Hq _]. apply (proj1 (rho_F q)); auto.
    - intros (p & q & v & Hi & R & Hq). exists (rho p), (rho q), v. split; [apply HI; eauto|]. split; [apply merge_fwd; auto|].
      apply HF. split; [apply (proj2 (rho_F q)); auto|symmetry; apply rho_idem].
  Qed.
End Merge.

Section Remove.
  Variables (E E' : erel) (I I' F F' : ptr -> Prop) (K : ptr -> Prop).
  Hypothesis HK : forall p, K p -> ~ F p /\ forall c e, ~ E p c e.
  Hypothesis HE : forall p c e, E' p c e <-> E p c e /\ ~ K p /\ forall q, etgt e = Some q -> ~ K q.
  Hypothesis HI : forall p, I' p <-> I p /\ ~ K p.
  Hypothesis HF : forall p, F' p <-> F p /\ ~ K p.

  Lemma remove_fwd : forall p v u q v', drun E p v u q v' -> F q -> drun E' p v u q v' /\ ~ K p.
  Proof.
    intros p v u q v' R. induction R as [|p v c d e u q p' v' He Et Sg R IH]; intros Hq.
    - split; [constructor|]. intros X. apply HK in X as [X _]. auto.
    - destruct (IH Hq) as [R' Nq]. assert (Np : ~ K p) by (intros X; apply HK in X as [_ X]; eapply X; eauto).
      split; auto. econstructor; eauto. apply HE. split; auto. split; auto. intros q0 E0. congruence.
  Qed.

  Lemma remove_alang : forall u, alang E' I' F' u <-> alang E I F u.
  Proof.
    intros u. split.
    - intros (p & q & v & Hi & R & Hq). exists p, q, v. split; [apply HI in Hi; tauto|]. split; [|apply HF in Hq; tauto].
      eapply drun_mono; [|exact R]. intros p1 c1 e1 X. apply HE in X. tauto.
    - intros (p & q & v & Hi & R & Hq). destruct (remove_fwd _ _ _ _ _ R Hq) as [R' Np]. exists p, q, v.
      split; [apply HI; auto|]. split; auto. apply HF. split; auto. intros X. apply HK in X as [X _]. auto.
  Qed.
End Remove.
