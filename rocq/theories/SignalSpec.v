(* What an expression means in signal mode, and signals given by words. *)
From Coq Require Import QArith Lqa Bool List ZArith Arith Lia.
From Verif Require Import Num Interval TA Tre TreRun.
Import ListNotations.
Open Scope nat_scope.

(* The letter that a word with delays shows at time x > 0: the i-th letter holds
   from the end of the one before it up to and including its own end. *)
Fixpoint sval (u : dword) (x : Q) : option nat :=
  match u with
  | [] => None
  | (c, d) :: u' => if Qle_bool x d then Some c else sval u' (x - d)
  end.
Definition same_signal (u w : dword) : Prop := forall x, (0 < x)%Q -> sval u x = sval w x.

(* The word of a signal: every letter lasts, and the letter changes. *)
Fixpoint canonical (u : dword) : Prop :=
  match u with
  | [] => True
  | (c, d) :: u' => (0 < d)%Q /\ match u' with (c', _) :: _ => c <> c' | [] => True end /\ canonical u'
  end.

(* An interval whose lower bound is 0 with the 0 added. *)
Definition lax (Iv : interval) : interval :=
  mkI (fst (lob Iv), snd (lob Iv) || neqb (fst (lob Iv)) (Fin 0)) (upb Iv).

(* The words from which the signals of r are made.  With [strict] every letter
   lasts; otherwise a letter may last 0, and 0 counts as inside (0,u). *)
Fixpoint sig_words (strict : bool) (r : tre) (w : dword) : Prop :=
  match r with
  | Atom c => exists d, w = [(c, d)] /\ (if strict then 0 < d else 0 <= d)%Q
  | Eps => w = []
  | Plus r1 => exists us, us <> [] /\ Forall (sig_words strict r1) us /\ w = concat us
  | Cat r1 r2 => exists w1 w2, w = w1 ++ w2 /\ sig_words strict r1 w1 /\ sig_words strict r2 w2
  | Alt r1 r2 => sig_words strict r1 w \/ sig_words strict r2 w
  | And r1 r2 => sig_words strict r1 w /\ exists w', sig_words strict r2 w' /\ same_signal w w'
  | Within r1 Iv => sig_words strict r1 w /\ iin (if strict then Iv else lax Iv) (duration w)
  end.

(* The signals of r. *)
Definition sig_lang (strict : bool) (r : tre) (u : dword) : Prop :=
  exists w, sig_words strict r w /\ same_signal u w.

(* ---------------- merging equal neighbours ---------------- *)

Fixpoint merge_dw (w : dword) : dword :=
  match w with
  | [] => []
  | (c, d) :: t =>
      match merge_dw t with
      | (c', d') :: t' => if c =? c' then (c, (d + d')%Q) :: t' else (c, d) :: (c', d') :: t'
      | [] => [(c, d)]
      end
  end.

Definition nonneg (w : dword) : Prop := Forall (fun a => (0 <= snd a)%Q) w.
Definition positive (w : dword) : Prop := Forall (fun a => (0 < snd a)%Q) w.

Lemma sval_eq : forall u x y, (x == y)%Q -> sval u x = sval u y.
Proof.
  induction u as [|[c d] u IH]; intros x y E; auto. cbn. assert (B : Qle_bool x d = Qle_bool y d).
  { apply eq_iff_eq_true. rewrite !Qle_bool_iff. rewrite E. reflexivity. }
  rewrite B. destruct (Qle_bool y d); auto. apply IH. rewrite E. reflexivity.
Qed.

Lemma sval_deq : forall u w, deq u w -> forall x, sval u x = sval w x.
Proof.
  intros u w D. induction D as [|[c d] [c' d'] u w [E1 E2] D IH]; intros x; auto. cbn in *. subst c'.
  assert (B : Qle_bool x d = Qle_bool x d') by (apply eq_iff_eq_true; rewrite !Qle_bool_iff, E2; reflexivity).
  rewrite B. destruct (Qle_bool x d'); auto. rewrite IH. apply sval_eq. rewrite E2. reflexivity.
Qed.

Lemma qle_true : forall x y, (x <= y)%Q -> Qle_bool x y = true.
Proof. intros. apply Qle_bool_iff. auto. Qed.
Lemma qle_false : forall x y, (y < x)%Q -> Qle_bool x y = false.
Proof. intros. apply not_true_iff_false. rewrite Qle_bool_iff. lra. Qed.
Lemma qle_cases : forall x y, (x <= y)%Q /\ Qle_bool x y = true \/ (y < x)%Q /\ Qle_bool x y = false.
Proof. intros x y. destruct (Qlt_le_dec y x); [right|left]; split; auto; [apply qle_false|apply qle_true]; auto. Qed.

Lemma merge_nonneg : forall w, nonneg w -> nonneg (merge_dw w).
Proof.
  induction w as [|[c d] w IH]; intros N; [constructor|]. inversion N; subst. cbn in *. specialize (IH H2).
  destruct (merge_dw w) as [|[c' d'] t]; [repeat constructor; auto|]. inversion IH; subst; cbn in *.
  destruct (c =? c'); repeat constructor; cbn; auto. lra.
Qed.
Lemma merge_positive : forall w, positive w -> positive (merge_dw w).
Proof.
  induction w as [|[c d] w IH]; intros N; [constructor|]. inversion N; subst. cbn in *. specialize (IH H2).
  destruct (merge_dw w) as [|[c' d'] t]; [repeat constructor; auto|]. inversion IH; subst; cbn in *.
  destruct (c =? c'); repeat constructor; cbn; auto. lra.
Qed.

Lemma merge_sval : forall w x, nonneg w -> (0 < x)%Q -> sval (merge_dw w) x = sval w x.
Proof.
  induction w as [|[c d] w IH]; intros x N X; auto. inversion N as [|? ? Hd N']; subst. cbn [snd] in Hd. cbn [merge_dw sval].
  pose proof (merge_nonneg w N') as NM. destruct (qle_cases x d) as [[L ->]|[L ->]].
  - destruct (merge_dw w) as [|[c' d'] t]; [cbn; rewrite (qle_true x d) by auto; auto|]. inversion NM as [|? ? Hd' _]; cbn in Hd'.
    destruct (Nat.eqb_spec c c') as [<-|]; cbn; rewrite qle_true; auto. lra.
  - rewrite <- (IH (x - d)%Q N') by lra. destruct (merge_dw w) as [|[c' d'] t]; [cbn; rewrite (qle_false x d) by auto; auto|].
    inversion NM as [|? ? Hd' _]; cbn in Hd'. destruct (Nat.eqb_spec c c') as [<-|].
    + cbn. destruct (qle_cases (x - d) d') as [[L' ->]|[L' ->]]; [rewrite qle_true by lra; auto|rewrite qle_false by lra].
      apply sval_eq. ring.
    + cbn. rewrite (qle_false x d) by auto. reflexivity.
Qed.
Lemma merge_same : forall w, nonneg w -> same_signal (merge_dw w) w.
Proof. intros w N x X. apply merge_sval; auto. Qed.

Lemma merge_canonical : forall w, positive w -> canonical (merge_dw w).
Proof.
  induction w as [|[c d] w IH]; intros P; [exact Logic.I|]. inversion P as [|? ? Hd P']; subst. cbn [snd] in Hd. specialize (IH P').
  pose proof (merge_positive w P') as PM. cbn [merge_dw]. destruct (merge_dw w) as [|[c' d'] t]; [cbn; auto|].
  inversion PM as [|? ? Hd' _]; cbn in Hd'. destruct (Nat.eqb_spec c c') as [<-|N].
  - destruct IH as (_ & A & B). cbn. split; [lra|]. auto.
  - cbn [canonical]. auto.
Qed.

Lemma nonneg_positive : forall w, positive w -> nonneg w.
Proof. intros w. apply Forall_impl. intros. lra. Qed.

(* A signal has one canonical word. *)
Lemma canonical_unique : forall u v, canonical u -> canonical v -> same_signal u v -> deq u v.
Proof.
  induction u as [|[c d] u IH]; intros v CU CV S.
  - destruct v as [|[c' d'] v]; [constructor|]. destruct CV as (P & _). specialize (S d' P). cbn in S. rewrite qle_true in S by lra. discriminate.
  - destruct v as [|[c' d'] v].
    { destruct CU as (P & _). specialize (S d P). cbn in S. rewrite qle_true in S by lra. discriminate. }
    pose proof CU as (Pd & Nu & Cu). pose proof CV as (Pd' & Nv & Cv).
    assert (Ec : c = c').
    { destruct (Qlt_le_dec d d') as [L|L].
      - specialize (S d Pd). cbn in S. rewrite !qle_true in S by lra. congruence.
      - specialize (S d' Pd'). cbn in S. rewrite !qle_true in S by lra. congruence. }
    subst c'.
    (* Whoever ends first shows another letter, or none, where the other goes on. *)
    assert (K : forall d1 d2 u1 v1, (0 < d1)%Q -> (d1 < d2)%Q -> match u1 with (c', _) :: _ => c <> c' | [] => True end -> canonical u1 ->
              (forall x, (0 < x)%Q -> sval ((c, d1) :: u1) x = sval ((c, d2) :: v1) x) -> False).
    { intros d1 d2 u1 v1 P1 L Nx Cx SS. destruct u1 as [|[c1 e1] u1].
      - specialize (SS d2 ltac:(lra)). cbn in SS. rewrite (qle_false d2 d1) in SS by auto. rewrite qle_true in SS by lra. discriminate.
      - destruct Cx as (Pe & _). destruct (Qlt_le_dec d2 (d1 + e1)) as [M|M].
        + specialize (SS d2 ltac:(lra)). cbn in SS. rewrite (qle_false d2 d1) in SS by auto. rewrite !qle_true in SS by lra. congruence.
        + specialize (SS (d1 + e1)%Q ltac:(lra)). cbn in SS. rewrite (qle_false (d1 + e1) d1) in SS by lra. rewrite !qle_true in SS by lra. congruence. }
    assert (Ed : (d == d')%Q).
    { destruct (Qlt_le_dec d d') as [L|L]; [exfalso; apply (K d d' u v); auto|].
      destruct (Qlt_le_dec d' d) as [L'|L']; [exfalso; apply (K d' d v u); auto; intros x X; symmetry; apply S; auto|lra]. }
    constructor; [cbn; auto|]. apply IH; auto. intros x X. specialize (S (x + d)%Q ltac:(lra)). cbn in S.
    rewrite (qle_false (x + d) d), (qle_false (x + d) d') in S by lra.
    rewrite (sval_eq u _ x) in S by ring. rewrite (sval_eq v _ x) in S by (rewrite Ed; ring). auto.
Qed.

Lemma sig_words_nonneg : forall r w, sig_words false r w -> nonneg w.
Proof.
  induction r as [c| |r IH|r1 IH1 r2 IH2|r1 IH1 r2 IH2|r1 IH1 r2 IH2|r IH Iv]; intros w S; cbn in S.
  - destruct S as (d & -> & D). repeat constructor. auto.
  - subst. constructor.
  - destruct S as (us & _ & F & ->). apply Forall_concat. eapply Forall_impl; [|exact F]. auto.
  - destruct S as (w1 & w2 & -> & S1 & S2). apply Forall_app. split; [apply IH1|apply IH2]; auto.
  - destruct S as [S|S]; auto.
  - destruct S as (S & _). auto.
  - destruct S as (S & _). auto.
Qed.
Lemma sig_words_positive : forall r w, sig_words true r w -> positive w.
Proof.
  induction r as [c| |r IH|r1 IH1 r2 IH2|r1 IH1 r2 IH2|r1 IH1 r2 IH2|r IH Iv]; intros w S; cbn in S.
  - destruct S as (d & -> & D). repeat constructor. auto.
  - subst. constructor.
  - destruct S as (us & _ & F & ->). apply Forall_concat. eapply Forall_impl; [|exact F]. auto.
  - destruct S as (w1 & w2 & -> & S1 & S2). apply Forall_app. split; [apply IH1|apply IH2]; auto.
  - destruct S as [S|S]; auto.
  - destruct S as (S & _). auto.
  - destruct S as (S & _). auto.
Qed.
Lemma lax_in : forall Iv d, iin Iv d -> iin (lax Iv) d.
Proof.
  intros [[lb lc] ub] d [A B]. split; auto. unfold above in *. cbn in *. destruct lb; auto. destruct lc; cbn; auto.
  destruct (Qeq_bool q 0); lra.
Qed.
Lemma sig_words_weaken : forall r w, sig_words true r w -> sig_words false r w.
Proof.
  induction r as [c| |r IH|r1 IH1 r2 IH2|r1 IH1 r2 IH2|r1 IH1 r2 IH2|r IH Iv]; intros w S; cbn in *.
  - destruct S as (d & -> & D). exists d. split; auto. lra.
  - auto.
  - destruct S as (us & N & F & ->). exists us. repeat split; auto. eapply Forall_impl; [|exact F]. auto.
  - destruct S as (w1 & w2 & -> & S1 & S2). exists w1, w2. auto.
  - destruct S as [S|S]; auto.
  - destruct S as (S & w' & S' & E). split; auto. exists w'. auto.
  - destruct S as (S & I). split; auto. apply lax_in. auto.
Qed.

(* For canonical words, the signals in terms of merged words. *)
Lemma sig_lang_merge : forall strict r u, canonical u ->
  (forall w, sig_words strict r w -> positive w) -> (sig_lang strict r u <-> exists w, sig_words strict r w /\ deq (merge_dw w) u).
Proof.
  intros strict r u C P. split.
  - intros (w & S & E). exists w. split; auto. apply canonical_unique; auto; [apply merge_canonical; auto|].
    intros x X. rewrite merge_sval by (auto; apply nonneg_positive; auto). symmetry. apply E. auto.
  - intros (w & S & D). exists w. split; auto. intros x X. rewrite <- (sval_deq _ _ D). apply merge_sval; auto. apply nonneg_positive. auto.
Qed.
Lemma merge_sig_lang : forall r u w, sig_words false r w -> deq (merge_dw w) u -> sig_lang false r u.
Proof.
  intros r u w S D. exists w. split; auto. intros x X. rewrite <- (sval_deq _ _ D). apply merge_sval; auto. eapply sig_words_nonneg; eauto.
Qed.
