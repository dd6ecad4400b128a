(* Both containers present the word that they were opened on. *)
From Coq Require Import QArith Bool List ZArith Arith Lia.
From Verif Require Import Num Outcome TA Word.
Import ListNotations.
Open Scope nat_scope.

(* [R c f a w]: the container [c] presents the word [w], its front is [f] and
   the elements below [a] were fetched. *)
Record csim (W : cont) (R : ctype W -> nat -> nat -> tword -> Prop) : Prop := mkCsim {
  cs_fetch_in : forall c f a w n, R c f a w -> f <= n -> n < length w ->
     exists c', cfetch W c n = (true, c') /\ R c' f (Nat.max a (S n)) w;
  cs_fetch_out : forall c f a w n, R c f a w -> f <= n -> length w <= n ->
     exists c', cfetch W c n = (false, c') /\ R c' f a w;
  cs_at : forall c f a w n, R c f a w -> f <= n -> n < a ->
     exists e, nth_error w n = Some e /\ cat W c n = Ok e;
  cs_front : forall c f a w n, R c f a w -> f <= n ->
     exists c', csetFront W c n = Ok c' /\ R c' n a w
}.

Definition vecR (c : ctype vecC) (f a : nat) (w : tword) : Prop := c = w /\ a <= length w.

Lemma vec_sim : csim vecC vecR.
Proof.
  split; unfold vecR; intros c f a w n [-> L]; cbn [vecC cfetch cat csetFront]; intros.
  - exists w. apply Nat.ltb_lt in H0 as H1. rewrite H1. repeat split. lia.
  - exists w. apply Nat.ltb_ge in H0. rewrite H0. auto.
  - unfold vec_at. destruct (nth_error w n) eqn:E; [eauto|].
    apply nth_error_None in E. lia.
  - eauto.
Qed.

Definition lazyR (d : ctype lazyC) (f a : nat) (w : tword) : Prop :=
  lfront d = f /\ skipn f w = lbuf d ++ lrest d /\ a - f <= length (lbuf d) /\ a <= length w /\
  (forall k, lN d = Some k -> length w <= k).

Lemma skipn_skipn' : forall {X} n m (l : list X), skipn n (skipn m l) = skipn (m + n) l.
Proof.
  intros X n m. induction m; intros; cbn; auto. destruct l; [now rewrite skipn_nil|]. apply IHm.
Qed.

(* Reading [k] elements when the file has them, and when it does not. *)
Lemma lazy_read_in : forall k d, k <= length (lrest d) ->
  lazy_read k d = (true, mkL (lfront d) (lN d) (lbuf d ++ firstn k (lrest d)) (skipn k (lrest d))).
Proof.
  induction k; intros [f N b r] L; cbn in *.
  - now rewrite app_nil_r.
  - destruct r as [|e r]; cbn in L; [lia|]. rewrite IHk by (cbn; lia). cbn. now rewrite <- app_assoc.
Qed.

Lemma lazy_read_out : forall k d, length (lrest d) < k ->
  lazy_read k d = (false, mkL (lfront d) (Some (lfront d + length (lbuf d ++ lrest d))) (lbuf d ++ lrest d) []).
Proof.
  induction k; intros [f N b r] L; cbn in *; [lia|].
  destruct r as [|e r]; cbn in L.
  - now rewrite app_nil_r.
  - rewrite IHk by (cbn; lia). cbn. now rewrite <- app_assoc.
Qed.

Lemma lazy_sim : csim lazyC lazyR.
Proof.
  split; unfold lazyR; intros c f a w n (F & B & A1 & A2 & N); cbn [lazyC cfetch cat csetFront]; intros; subst f.
  - assert (L : length (skipn (lfront c) w) = length (lbuf c) + length (lrest c))
      by (rewrite B; apply app_length).
    rewrite skipn_length in L.
    unfold lazy_fetch. destruct (n <? lfront c) eqn:E1; [apply Nat.ltb_lt in E1; lia|].
    assert (E2 : beyondN c n = false).
    { unfold beyondN. destruct (lN c); auto. specialize (N _ eq_refl). apply Nat.leb_gt. lia. }
    rewrite E2. cbn [orb]. rewrite lazy_read_in by lia.
    eexists. split; [reflexivity|]. cbn [lfront lbuf lrest lN].
    split; [reflexivity|]. split; [now rewrite B, <- app_assoc, firstn_skipn|].
    rewrite app_length, firstn_length. split; [lia|]. split; [lia|exact N].
  - unfold lazy_fetch. destruct (n <? lfront c) eqn:E1; [apply Nat.ltb_lt in E1; lia|].
    destruct (beyondN c n) eqn:E2; cbn [orb].
    + exists c. split; [reflexivity|]. repeat split; auto.
    + assert (L : length (skipn (lfront c) w) = length (lbuf c) + length (lrest c))
        by (rewrite B; apply app_length).
      rewrite skipn_length in L.
      rewrite lazy_read_out by lia. eexists. split; [reflexivity|]. cbn [lfront lbuf lrest lN].
      rewrite app_nil_r, app_length. split; [reflexivity|]. split; [exact B|]. split; [lia|]. split; [lia|].
      intros k [= <-]. lia.
  - unfold lazy_at. destruct (n <? lfront c) eqn:E1; [apply Nat.ltb_lt in E1; lia|].
    assert (E2 : beyondN c n = false).
    { unfold beyondN. destruct (lN c); auto. specialize (N _ eq_refl). apply Nat.leb_gt. lia. }
    rewrite E2. cbn [orb].
    destruct (nth_error (lbuf c) (n - lfront c)) eqn:E.
    + exists e. split; [|reflexivity].
      assert (nth_error (skipn (lfront c) w) (n - lfront c) = Some e).
      { rewrite B, nth_error_app1; auto. apply nth_error_Some. congruence. }
      rewrite <- H1. rewrite <- (firstn_skipn (lfront c) w) at 1.
      rewrite nth_error_app2; rewrite firstn_length; [|lia]. f_equal. lia.
    + apply nth_error_None in E. lia.
  - unfold lazy_setFront. destruct (n <? lfront c) eqn:E1; [apply Nat.ltb_lt in E1; lia|].
    eexists. split; [reflexivity|]. cbn [lfront lbuf lrest lN].
    split; [reflexivity|].
    assert (S1 : skipn n w = skipn (n - lfront c) (lbuf c ++ lrest c)).
    { rewrite <- B, skipn_skipn'. f_equal. lia. }
    rewrite S1, skipn_app.
    destruct (Nat.le_ge_cases (n - lfront c) (length (lbuf c))).
    + rewrite Nat.min_l by lia. rewrite Nat.sub_diag. replace (n - lfront c - length (lbuf c)) with 0 by lia.
      split; [reflexivity|]. rewrite skipn_length. repeat split; auto; lia.
    + rewrite Nat.min_r by lia. rewrite skipn_all, (skipn_all2 (lbuf c)) by lia.
      split; [reflexivity|]. cbn. repeat split; auto; lia.
Qed.

Lemma vec_open : forall w, vecR w 0 0 w.
Proof. intros. split; [reflexivity|lia]. Qed.

Lemma lazy_open : forall w, lazyR (lopen w) 0 0 w.
Proof. intros. unfold lazyR, lopen. cbn. repeat split; try lia. discriminate. Qed.
