(* Facts about the graph algorithms on zone automata: emptiness check, epsilon
   closure and removal of dead states. *)
From Coq Require Import Bool List Arith Lia.
From Verif Require Import Num Outcome Zone TA TAFacts ZA ZASpec.
Import ListNotations.
Open Scope nat_scope.

Lemma zlock_alive : forall Z i, (exists s, zlock Z i = Some s) <-> alive Z i.
Proof.
  intros Z i. unfold zlock, zget, alive. split.
  - intros (s & H). destruct (nth_error (zsts Z) i) as [s0|]; [|discriminate]. destruct (zlive s0) eqn:E; [|discriminate].
    exists s0. auto.
  - intros (s & -> & ->). eauto.
Qed.

Lemma alive_lt : forall Z i, alive Z i -> i < length (zsts Z).
Proof. intros Z i (s & H & _). apply nth_error_Some. congruence. Qed.

Lemma in_znext : forall s c j, In j (znext s c) <-> In (c, j) (znx s).
Proof.
  intros s c j. unfold znext. rewrite in_map_iff. split.
  - intros ([c' j'] & E & H). apply filter_In in H as [H E']. simpl in *. apply Nat.eqb_eq in E'. congruence.
  - intros H. exists (c, j). split; auto. apply filter_In. split; auto. simpl. apply Nat.eqb_refl.
Qed.

Lemma in_zedges : forall s j, In j (zedges s) <-> exists c, c < char_max /\ In (c, j) (znx s).
Proof.
  intros s j. unfold zedges. rewrite in_flat_map. split.
  - intros (c & Hc & Hj). apply in_seq in Hc. apply in_znext in Hj. exists c. split; auto. lia.
  - intros (c & Hc & Hj). exists c. split; [apply in_seq; lia|]. apply in_znext; auto.
Qed.

Lemma mem_false : forall x l, mem x l = false <-> ~ In x l.
Proof. intros. rewrite <- mem_In. destruct (mem x l); split; congruence. Qed.

Lemma zpath_app : forall Z i w j, zpath Z i w j -> forall u k, zpath Z j u k -> zpath Z i (w ++ u) k.
Proof. intros Z i w j H. induction H; simpl; auto. intros. econstructor; eauto. Qed.

Lemma zpath_snoc : forall Z i w j c k, zpath Z i w j -> zedge Z j c k -> zpath Z i (w ++ [c]) k.
Proof. intros. eapply zpath_app; eauto. econstructor; eauto. constructor. Qed.

(* the number of indices below N outside a list *)
Definition cnt (N : nat) (l : list nat) : nat := length (filter (fun i => negb (mem i l)) (seq 0 N)).

Lemma cnt_le : forall N l, cnt N l <= N.
Proof.
  intros. unfold cnt. rewrite <- (seq_length N 0) at 2. generalize (seq 0 N). induction l0; simpl; auto.
  destruct (negb _); simpl; lia.
Qed.

Lemma filter_split_len : forall {T} (f g h : T -> bool) l, (forall x, In x l -> f x = orb (g x) (h x)) ->
  (forall x, In x l -> g x = true -> h x = false) ->
  length (filter f l) = length (filter g l) + length (filter h l).
Proof.
  induction l as [|a l IH]; intros H1 H2; simpl; auto. rewrite (H1 a) by (left; auto).
  pose proof (H2 a ltac:(left; auto)) as D.
  assert (E : length (filter f l) = length (filter g l) + length (filter h l)).
  { apply IH; intros; [apply H1|apply H2]; auto; right; auto. }
  destruct (g a), (h a); simpl; try lia; specialize (D eq_refl); discriminate.
Qed.

Lemma cnt_app : forall N l k, NoDup k -> (forall x, In x k -> x < N /\ ~ In x l) -> cnt N l = length k + cnt N (l ++ k).
Proof.
  intros N l k D H. unfold cnt.
  rewrite (filter_split_len _ (fun i => mem i k) (fun i => negb (mem i (l ++ k))) (seq 0 N)).
  - f_equal. apply Nat.le_antisymm; apply NoDup_incl_length.
    + apply NoDup_filter. apply seq_NoDup.
    + intros x Hx. apply filter_In in Hx as [_ Hx]. apply mem_In; auto.
    + auto.
    + intros x Hx. apply filter_In. split; [apply in_seq; destruct (H x Hx); lia|]. apply mem_In; auto.
  - intros x _. unfold mem. rewrite existsb_app. fold (mem x l) (mem x k).
    destruct (mem x l) eqn:El, (mem x k) eqn:Ek; auto. apply mem_In in El. apply mem_In in Ek. destruct (H x Ek). contradiction.
  - intros x _ Hx. unfold mem. rewrite existsb_app. fold (mem x l) (mem x k). rewrite Hx, orb_true_r. auto.
Qed.

Section Graph.
  Variable Z : za.
  Hypothesis W : za_wf Z.
  Let N := length (zsts Z).

  Lemma zedge_iff : forall i s j, nth_error (zsts Z) i = Some s -> zlive s = true ->
    ((exists c, zedge Z i c j) <-> In j (zedges s) /\ alive Z j).
  Proof.
    intros i s j Hs L. rewrite in_zedges. split.
    - intros (c & s' & Hs' & _ & Hin & Al). assert (s' = s) by congruence. subst. split; auto.
      exists c. split; auto. apply (zwf_edge Z W i s c j); auto.
    - intros ((c & _ & Hin) & Al). exists c, s. auto.
  Qed.

  Lemma zedge_alive : forall i c j, zedge Z i c j -> alive Z i /\ alive Z j.
  Proof. intros i c j (s & H1 & H2 & H3 & H4). split; auto. exists s; auto. Qed.

  Lemma zpath_alive : forall i w j, zpath Z i w j -> alive Z i -> alive Z j.
  Proof. intros i w j H. induction H; auto. intros. apply IHzpath. apply (zedge_alive _ _ _ H). Qed.

  (* ---------- emptiness ---------- *)

  Lemma empty_step_fold : forall js nx vis, exists l,
    fold_left (empty_edge_step Z) js (nx, vis) = (nx ++ l, vis ++ l) /\ NoDup l /\
    forall j, In j l <-> In j js /\ alive Z j /\ ~ In j vis.
  Proof.
    induction js as [|a js IH]; intros nx vis; simpl.
    - exists []. rewrite !app_nil_r. split; auto. split; [constructor|]. simpl. tauto.
    - unfold empty_edge_step at 2. simpl. destruct (zlock Z a) as [s|] eqn:E.
      + assert (Aa : alive Z a) by (apply zlock_alive; eauto).
        destruct (mem a vis) eqn:M.
        * destruct (IH nx vis) as (l & -> & D & H). exists l. split; auto. split; auto. intros j. rewrite H.
          apply mem_In in M. split; [tauto|]. intros ([->|X] & Y & V); tauto.
        * apply mem_false in M. destruct (IH (nx ++ [a]) (vis ++ [a])) as (l & -> & D & H).
          exists (a :: l). rewrite <- !app_assoc. simpl. split; auto. split.
          -- constructor; auto. rewrite H. intros (_ & _ & V). apply V. apply in_or_app. right. left; auto.
          -- intros j. simpl. rewrite H. rewrite in_app_iff. simpl. split.
             ++ intros [<-|(X & Y & V)]; auto. split; auto.
             ++ intros ([<-|X] & Y & V); auto. destruct (Nat.eq_dec a j); auto. right. split; auto. split; auto. tauto.
      + assert (NA : ~ alive Z a) by (intros H; apply zlock_alive in H as (s & H); congruence).
        destruct (IH nx vis) as (l & -> & D & H). exists l. split; auto. split; auto. intros j. rewrite H.
        split; [tauto|]. intros ([->|X] & Y & V); tauto.
  Qed.

  Lemma empty_level_spec : forall cur nx vis, (forall i, In i cur -> alive Z i) ->
    ((exists i, In i cur /\ zaccepting Z i) /\ empty_level Z cur (nx, vis) = Ok None) \/
    ((forall i, In i cur -> ~ zaccepting Z i) /\ exists l, empty_level Z cur (nx, vis) = Ok (Some (nx ++ l, vis ++ l)) /\
       NoDup l /\ forall j, In j l <-> (exists i c, In i cur /\ zedge Z i c j) /\ ~ In j vis).
  Proof.
    induction cur as [|i cur IH]; intros nx vis HA; simpl.
    - right. split; [intros i []|]. exists []. rewrite !app_nil_r. split; auto. split; [constructor|]. intros j. simpl.
      split; [tauto|]. intros ((i & c & [] & _) & _).
    - destruct (HA i) as (s & Hs & Ls); [left; auto|]. unfold zget. rewrite Hs.
      destruct (zacc s) eqn:Ea.
      + left. split; auto. exists i. split; auto. exists s; auto.
      + assert (Ni : ~ zaccepting Z i) by (intros (s' & H1 & H2); congruence).
        destruct (empty_step_fold (zedges s) nx vis) as (l1 & E1 & D1 & H1). rewrite E1.
        destruct (IH (nx ++ l1) (vis ++ l1)) as [[(k & Hk & Ak) E]|(Hn & l2 & E & D2 & H2)]; [intros; apply HA; right; auto| |].
        * left. split; eauto.
        * right. split; [intros k [<-|Hk]; auto|]. exists (l1 ++ l2). rewrite !app_assoc. split; auto.
          assert (Disj : forall j, In j l2 -> ~ In j l1) by (intros j Hj; apply H2 in Hj as [_ Hj]; rewrite in_app_iff in Hj; tauto).
          split.
          { clear - D1 D2 Disj. induction l1; simpl; auto. inversion D1; subst. constructor.
            - rewrite in_app_iff. intros [X|X]; auto. apply (Disj a X). left; auto.
            - apply IHl1; auto. intros j Hj X. apply (Disj j Hj). right; auto. }
          intros j. rewrite in_app_iff, H1, H2, in_app_iff, H1. split.
          -- intros [(X & Y & V)|((k & c & X & Y) & V)].
             ++ split; auto. destruct (proj2 (zedge_iff i s j Hs Ls) (conj X Y)) as (c & Hc). exists i, c. auto.
             ++ split; [exists k, c; auto|]. tauto.
          -- intros ((k & c & [<-|Hk] & He) & V).
             ++ left. destruct (proj1 (zedge_iff i s j Hs Ls) (ex_intro _ c He)). auto.
             ++ destruct (in_dec Nat.eq_dec j l1) as [X|X]; [left; apply H1; auto|]. right. split; [eauto|].
                rewrite H1 in X. tauto.
  Qed.

  Lemma empty_loop_spec : forall fuel cur vis, cnt N vis < fuel ->
    (forall i, In i cur -> In i vis) -> (forall i, In i vis -> zreachable Z i /\ alive Z i) ->
    (forall i, In i (zinit Z) -> In i vis) ->
    (forall i, In i vis -> ~ In i cur -> ~ zaccepting Z i /\ forall c j, zedge Z i c j -> In j vis) ->
    exists b, empty_loop fuel Z cur vis = Ok b /\ (b = true <-> forall i, zreachable Z i -> ~ zaccepting Z i).
  Proof.
    induction fuel as [|f IH]; intros cur vis HF HC HR H0 HD; [lia|]. simpl. destruct cur as [|i cur].
    - exists true. split; auto. split; auto. intros _ i (i0 & w & Hi & P).
      assert (G : In i vis). { apply H0 in Hi. clear - P Hi HD. induction P; auto. apply IHP. apply (proj2 (HD i Hi ltac:(simpl; tauto)) c); auto. }
      apply (HD i G). simpl; tauto.
    - destruct (empty_level_spec (i :: cur) [] vis) as [[(k & Hk & Ak) E]|(Hn & l & E & D & H)]; [intros; apply HR; auto| |]; rewrite E; simpl.
      + exists false. split; auto. split; [discriminate|]. intros X. exfalso. apply (X k); auto. apply HR; auto.
      + assert (HL : forall x, In x l -> x < N /\ ~ In x vis).
        { intros x Hx. apply H in Hx as ((p & c & _ & He) & V). split; auto. apply alive_lt. apply (zedge_alive _ _ _ He). }
        pose proof (cnt_app N vis l D HL) as CE.
        destruct l as [|a l'].
        { rewrite app_nil_r. destruct f; simpl.
          - exists true. split; auto. split; auto. intros _ k (i0 & w & Hi & P).
            assert (G : In k vis).
            { apply H0 in Hi. clear - P Hi HD H. induction P; auto. apply IHP.
              destruct (in_dec Nat.eq_dec i0 (i :: cur)) as [X|X]; [|apply (proj2 (HD i0 Hi X) c); auto].
              destruct (in_dec Nat.eq_dec j vis); auto. exfalso. apply (H j). split; eauto. }
            destruct (in_dec Nat.eq_dec k (i :: cur)) as [X|X]; [apply Hn; auto|apply (HD k G X)].
          - exists true. split; auto. split; auto. intros _ k (i0 & w & Hi & P).
            assert (G : In k vis).
            { apply H0 in Hi. clear - P Hi HD H. induction P; auto. apply IHP.
              destruct (in_dec Nat.eq_dec i0 (i :: cur)) as [X|X]; [|apply (proj2 (HD i0 Hi X) c); auto].
              destruct (in_dec Nat.eq_dec j vis); auto. exfalso. apply (H j). split; eauto. }
            destruct (in_dec Nat.eq_dec k (i :: cur)) as [X|X]; [apply Hn; auto|apply (HD k G X)]. }
        set (l := a :: l') in *. simpl in CE. apply IH.
        * simpl in CE. lia.
        * intros x Hx. apply in_or_app; auto.
        * intros x Hx. apply in_app_or in Hx as [Hx|Hx]; auto. apply H in Hx as ((p & c & Hp & He) & V).
          destruct (HR p (HC p Hp)) as [(i0 & w & Hi & P) _]. split; [|apply (zedge_alive _ _ _ He)].
          exists i0, (w ++ [c]). split; auto. eapply zpath_snoc; eauto.
        * intros x Hx. apply in_or_app; auto.
        * intros x Hx NX. apply in_app_or in Hx as [Hx|Hx]; [|contradiction].
          destruct (in_dec Nat.eq_dec x (i :: cur)) as [X|X].
          -- split; [apply Hn; auto|]. intros c j He. apply in_or_app. destruct (in_dec Nat.eq_dec j vis); auto.
             right. apply H. split; eauto.
          -- destruct (HD x Hx X) as [A1 A2]. split; auto. intros c j He. apply in_or_app. left. apply (A2 c); auto.
  Qed.

  Lemma zempty_check_spec : exists b, zempty_check Z = Ok b /\
    (b = true <-> forall i, zreachable Z i -> ~ zaccepting Z i).
  Proof.
    unfold zempty_check. apply empty_loop_spec; auto.
    - pose proof (cnt_le N (zinit Z)). fold N. lia.
    - intros i Hi. split; [|apply (zwf_init Z W); auto]. exists i, []. split; auto. constructor.
    - intros i H1 H2. contradiction.
  Qed.

  (* ---------- epsilon closure ---------- *)

  Lemma eps_add_fold : forall js C wt, exists l,
    fold_left (eps_add Z) js (C, wt) = (C ++ l, wt ++ l) /\ NoDup l /\
    forall j, In j l <-> In j js /\ alive Z j /\ ~ In j C.
  Proof.
    intros js C wt. destruct (empty_step_fold js wt C) as (l & E & D & H). exists l. split; auto.
    assert (G : forall js a b, fold_left (eps_add Z) js (a, b) =
       let r := fold_left (empty_edge_step Z) js (b, a) in (snd r, fst r)).
    { assert (S1 : forall a b j, eps_add Z (a, b) j = (snd (empty_edge_step Z (b, a) j), fst (empty_edge_step Z (b, a) j))).
      { intros a b j. unfold eps_add, empty_edge_step. simpl. destruct (zlock Z j); auto. destruct (mem j a); auto. }
      induction js0 as [|j js0 IH]; intros a b; simpl; auto. rewrite S1, IH.
      destruct (empty_edge_step Z (b, a) j); auto. }
    rewrite G, E. auto.
  Qed.

  Definition epspath (i j : nat) : Prop := exists n, zpath Z i (repeat 0 n) j.

  Lemma eps_loop_spec : forall fuel C wt S0, length wt + cnt N C <= fuel ->
    (forall i, In i wt -> In i C) -> (forall i, In i C -> alive Z i) ->
    (forall i, In i S0 -> In i C) ->
    (forall i, In i C -> exists i0, In i0 S0 /\ epspath i0 i) ->
    (forall i, In i C -> ~ In i wt -> forall j, zedge Z i 0 j -> In j C) ->
    exists R, eps_loop fuel Z C wt = Ok R /\ forall j, In j R <-> exists i, In i S0 /\ epspath i j.
  Proof.
    induction fuel as [|f IH]; intros C wt S0 HF HW HA H0 HP HD.
    - destruct wt as [|a wt]; simpl in *; [|lia]. exists C. split; auto. intros j. split; [auto|].
      intros (i & Hi & n & P). apply H0 in Hi. revert Hi. remember (repeat 0 n) as w eqn:E. revert n E.
      induction P as [|i c j w k He P IHP]; intros n E Hi; auto. destruct n; [discriminate|]. simpl in E. inversion E; subst.
      apply (IHP n); auto. apply (HD i Hi); auto.
    - destruct wt as [|a wt]; simpl.
      + exists C. split; auto. intros j. split; [auto|].
        intros (i & Hi & n & P). apply H0 in Hi. revert Hi. remember (repeat 0 n) as w eqn:E. revert n E.
        induction P as [|i c j w k He P IHP]; intros n E Hi; auto. destruct n; [discriminate|]. simpl in E. inversion E; subst.
        apply (IHP n); auto. apply (HD i Hi); auto.
      + destruct (HA a) as (s & Hs & Ls); [apply HW; left; auto|]. unfold zget. rewrite Hs.
        destruct (eps_add_fold (znext s 0) C wt) as (l & -> & D & H). simpl.
        assert (HE : forall j, In j l <-> zedge Z a 0 j /\ ~ In j C).
        { intros j. rewrite H, in_znext. split.
          - intros (X & Y & V). split; auto. exists s; auto.
          - intros ((s' & X & Y & V & U) & T). assert (s' = s) by congruence. subst. auto. }
        assert (HL : forall x, In x l -> x < N /\ ~ In x C).
        { intros x Hx. apply HE in Hx as [X Y]. split; auto. apply alive_lt. apply (zedge_alive _ _ _ X). }
        pose proof (cnt_app N C l D HL) as CE. apply IH.
        * rewrite app_length. simpl in HF. lia.
        * intros x Hx. apply in_or_app. apply in_app_or in Hx as [Hx|Hx]; auto. left. apply HW. right; auto.
        * intros x Hx. apply in_app_or in Hx as [Hx|Hx]; auto. apply HE in Hx as [X _]. apply (zedge_alive _ _ _ X).
        * intros x Hx. apply in_or_app. auto.
        * intros x Hx. apply in_app_or in Hx as [Hx|Hx]; auto. apply HE in Hx as [X _].
          destruct (HP a) as (i0 & Hi & n & P); [apply HW; left; auto|]. exists i0. split; auto. exists (n + 1).
          rewrite repeat_app. eapply zpath_snoc; eauto.
        * intros x Hx NX j He. apply in_or_app. destruct (in_dec Nat.eq_dec j C); auto. apply in_app_or in Hx as [Hx|Hx].
          -- destruct (Nat.eq_dec x a) as [->|Ne]; [right; apply HE; auto|].
             left. apply (HD x Hx); auto. intros [X|X]; [congruence|]. apply NX. apply in_or_app; auto.
          -- exfalso. apply NX. apply in_or_app; auto.
  Qed.

  Lemma epsilonClosure_spec : forall S0, NoDup S0 -> (forall i, In i S0 -> alive Z i) ->
    exists R, epsilonClosure Z S0 = Ok R /\ forall j, In j R <-> exists i, In i S0 /\ epspath i j.
  Proof.
    intros S0 D HA. unfold epsilonClosure. apply eps_loop_spec; auto.
    - pose proof (cnt_app N [] S0 D) as E. simpl in E. rewrite <- E; [apply cnt_le|].
      intros x Hx. split; auto. apply alive_lt; auto.
    - intros i Hi. exists i. split; auto. exists 0. constructor.
    - intros i H1 H2. contradiction.
  Qed.
End Graph.

(* ---------- removal of dead states ---------- *)

Lemma in_sadd : forall l x y, In y (sadd l x) <-> In y l \/ y = x.
Proof.
  intros l x y. unfold sadd. destruct (mem x l) eqn:E.
  - apply mem_In in E. split; auto. intros [H | -> ]; auto.
  - rewrite in_app_iff. simpl. intuition.
Qed.

Lemma in_sadds : forall xs l y, In y (fold_left sadd xs l) <-> In y l \/ In y xs.
Proof.
  induction xs as [|x xs IH]; intros l y; simpl; [tauto|]. rewrite IH, in_sadd. split; intros H; intuition.
Qed.

Section Dead.
  Variable Z : za.
  Hypothesis W : za_wf Z.
  Hypothesis AA : all_alive Z.
  Let N := length (zsts Z).

  Lemma all_alive_i : forall i, i < N -> alive Z i.
  Proof.
    intros i Hi. unfold N in Hi. destruct (nth_error (zsts Z) i) as [s|] eqn:E.
    - exists s. split; auto. apply AA. eapply nth_error_In; eauto.
    - apply nth_error_None in E. lia.
  Qed.

  Lemma zedges_edge : forall i s j, nth_error (zsts Z) i = Some s -> (In j (zedges s) <-> exists c, zedge Z i c j).
  Proof.
    intros i s j Hs. rewrite in_zedges. split.
    - intros (c & Hc & Hin). exists c, s. split; auto. split; [apply AA; eapply nth_error_In; eauto|]. split; auto.
      apply all_alive_i. apply (zwf_edge Z W i s c j); auto.
    - intros (c & s' & H1 & _ & H2 & _). assert (s' = s) by congruence. subst. exists c. split; auto.
      apply (zwf_edge Z W i s c j); auto.
  Qed.

  (* the effect of the inner loop *)
  Lemma dead_fold : forall i P js st R, exists ch R',
    fold_left (dead_edge i P) js (st, R) = (ch ++ st, R') /\
    (forall y, In y R -> In y R') /\
    (In i P -> ch = [] /\ R' = R) /\
    (forall cf, In cf ch -> ~ In i P /\ In (fst cf) js /\ snd cf = sadd P i) /\
    (forall y, In y R' -> In y R \/ y = i \/ In y P) /\
    (forall Pr : nat -> Prop, (forall y, In y R -> Pr y) ->
       (forall j, In j js -> Pr j -> Pr i /\ forall p, In p P -> Pr p) -> forall y, In y R' -> Pr y) /\
    (~ In i P -> forall j, In j js -> In (j, sadd P i) ch \/ (In j R' /\ In i R' /\ forall p, In p P -> In p R')).
  Proof.
    intros i P js. induction js as [|j js IH]; intros st R; simpl.
    - exists [], R. split; [auto|]. split; [auto|]. split; [auto|]. split; [intros cf []|]. split; [auto|]. split; [auto|intros _ j []].
    - unfold dead_edge at 2. destruct (mem i P) eqn:E.
      + apply mem_In in E. destruct (IH st R) as (ch & R' & -> & H1 & H2 & H3 & H4 & H4' & H5). exists ch, R'.
        split; auto. split; auto. split; auto. split; [intros cf X; destruct (H3 cf X) as (Y1 & _); contradiction|]. split; auto. split.
        * intros Pr HR HJ. apply H4'; [exact HR|intros j1 Hj1 Pj1; apply (HJ j1); auto].
        * intros X. contradiction.
      + apply mem_false in E. simpl. destruct (mem j R) eqn:Ej.
        * apply mem_In in Ej. set (R1 := fold_left sadd P (sadd R i)).
          assert (HR1 : forall y, In y R1 <-> (In y R \/ y = i) \/ In y P) by (intros y; unfold R1; rewrite in_sadds, in_sadd; tauto).
          destruct (IH st R1) as (ch & R' & -> & H1 & H2 & H3 & H4 & H4' & H5). exists ch, R'. split; auto.
          split; [intros y Hy; apply H1; apply HR1; auto|]. split; [intros; contradiction|].
          split; [intros cf X; destruct (H3 cf X) as (Y1 & Y2 & Y3); auto|]. split; [|split].
          -- intros y Hy. destruct (H4 y Hy) as [X|X]; auto. apply HR1 in X. tauto.
          -- intros Pr HR HJ. destruct (HJ j) as [Pi Pp]; [auto|auto|]. apply H4'; auto.
             intros y Hy. apply HR1 in Hy as [[Hy| ->]|Hy]; auto.
          -- intros NP k [<-|Hk].
             ++ right. split; [apply H1, HR1; auto|]. split; [apply H1, HR1; auto|]. intros p Hp. apply H1, HR1; auto.
             ++ apply H5; auto.
        * destruct (IH ((j, sadd P i) :: st) R) as (ch & R' & -> & H1 & H2 & H3 & H4 & H4' & H5).
          exists (ch ++ [(j, sadd P i)]), R'. rewrite <- app_assoc. simpl. split; auto. split; auto.
          split; [intros; contradiction|]. split.
          -- intros cf X. apply in_app_or in X as [X|[<-|[]]]; [destruct (H3 cf X) as (Y1 & Y2 & Y3); auto|]. simpl. auto.
          -- split; auto. split.
             ++ intros Pr HR HJ. apply H4'; [exact HR|intros j1 Hj1 Pj1; apply (HJ j1); auto].
             ++ intros NP k [<-|Hk]; [left; apply in_or_app; right; left; auto|].
                destruct (H5 NP k Hk); [left; apply in_or_app; auto|auto].
  Qed.

  Definition cf_ok (cf : nat * list nat) : Prop := fst cf < N /\ forall p, In p (snd cf) -> p < N.

  Definition after (i : nat) (P R : list nat) : list (nat * list nat) * list nat :=
    match nth_error (zsts Z) i with
    | Some s => fold_left (dead_edge i P) (zedges s) ([], if zacc s then fold_left sadd P (sadd R i) else R)
    | None => ([], R)
    end.

  Lemma dead_fold_stack : forall i P js st R, fold_left (dead_edge i P) js (st, R) =
    (fst (fold_left (dead_edge i P) js ([], R)) ++ st, snd (fold_left (dead_edge i P) js ([], R))).
  Proof.
    intros i P js. induction js as [|j js IH]; intros st R; simpl; auto.
    unfold dead_edge at 2 4 6. simpl. destruct (mem i P); [apply IH|]. destruct (mem j R); [apply IH|].
    rewrite IH. rewrite (IH [_]). simpl. rewrite <- app_assoc. auto.
  Qed.

  Lemma dead_loop_step : forall i P rest R fuel, i < N ->
    dead_loop (S fuel) Z ((i, P) :: rest) R = dead_loop fuel Z (fst (after i P R) ++ rest) (snd (after i P R)).
  Proof.
    intros i P rest R fuel Hi. destruct (all_alive_i i Hi) as (s & Hs & Ls). simpl. unfold zlock, zget, after. rewrite Hs, Ls.
    rewrite dead_fold_stack. reflexivity.
  Qed.

  Lemma after_spec : forall i P R s, nth_error (zsts Z) i = Some s -> exists ch R',
    after i P R = (ch, R') /\
    (forall y, In y R -> In y R') /\
    (In i P -> ch = []) /\
    (forall cf, In cf ch -> ~ In i P /\ (exists c, zedge Z i c (fst cf)) /\ snd cf = sadd P i) /\
    (forall y, In y R' -> In y R \/ y = i \/ In y P) /\
    ((forall y, In y R -> zproductive Z y) -> (forall p, In p P -> exists w, zpath Z p w i) ->
        forall y, In y R' -> zproductive Z y) /\
    (zaccepting Z i -> In i R' /\ forall p, In p P -> In p R') /\
    (~ In i P -> forall c j, zedge Z i c j -> In (j, sadd P i) ch \/ (In j R' /\ In i R' /\ forall p, In p P -> In p R')).
  Proof.
    intros i P R s Hs. unfold after. rewrite Hs.
    set (R1 := if zacc s then fold_left sadd P (sadd R i) else R).
    assert (HR : forall y, In y R -> In y R1) by (intros y Hy; unfold R1; destruct (zacc s); auto; apply in_sadds; left; apply in_sadd; auto).
    assert (HR1 : forall y, In y R1 -> In y R \/ (y = i \/ In y P) /\ zaccepting Z i).
    { intros y. unfold R1. destruct (zacc s) eqn:E; auto. rewrite in_sadds, in_sadd. intros H.
      assert (zaccepting Z i) by (exists s; auto). tauto. }
    destruct (dead_fold i P (zedges s) [] R1) as (ch & R' & E & H1 & H2 & H3 & H4 & H4' & H5). rewrite app_nil_r in E.
    exists ch, R'. split; auto. split; auto. split; [intros X; apply (H2 X)|]. split.
    - intros cf X. destruct (H3 cf X) as (Y1 & Y2 & Y3). split; auto. split; auto. apply (zedges_edge i s); auto.
    - split; [|split; [|split]].
      + intros y Hy. destruct (H4 y Hy) as [X|X]; auto. destruct (HR1 y X) as [U|[U U']]; auto.
      + intros PR PP.
        assert (G : zproductive Z i -> zproductive Z i /\ forall p, In p P -> zproductive Z p).
        { intros PI. split; auto. intros p Hp. destruct PI as (w & k & Pk & Ak). destruct (PP p Hp) as (w' & P').
          exists (w' ++ w), k. split; auto. eapply zpath_app; eauto. }
        apply H4'.
        * intros y Hy. destruct (HR1 y Hy) as [X|[X Ac]]; auto.
          assert (PI : zproductive Z i) by (exists [], i; split; auto; constructor). apply G in PI as [P1 P2].
          destruct X as [->|X]; auto.
        * intros j Hj (w & k & Pk & Ak). apply G. apply (zedges_edge i s) in Hj as (c & Hj); auto.
          exists (c :: w), k. split; auto. econstructor; eauto.
      + intros (s' & Hs' & Ea). assert (s' = s) by congruence. subst.
        assert (G : forall y, y = i \/ In y P -> In y R1) by (intros y Hy; unfold R1; rewrite Ea; rewrite in_sadds, in_sadd; tauto).
        split; [|intros p Hp]; apply H1, G; auto.
      + intros NP c j He. apply H5; auto. apply (zedges_edge i s); eauto.
  Qed.

  (* the configurations are processed to completion *)
  Definition completes (confs : list (nat * list nat)) (R R' : list nat) : Prop :=
    exists k, forall rest fuel, dead_loop (k + fuel) Z (confs ++ rest) R = dead_loop fuel Z rest R'.

  (* every edge between different states goes down *)
  Definition rank_ok (rk : nat -> nat) : Prop := forall i c j, zedge Z i c j -> i <> j -> rk j < rk i.

  (* what is known when [cfs] have been processed; [E] are the states expanded *)
  Definition goodL (cfs : list (nat * list nat)) (R R' E : list nat) : Prop :=
    (forall y, In y R -> In y R') /\
    (forall y, In y R' -> In y R \/ In y E \/ exists cf, In cf cfs /\ In y (snd cf)) /\
    (forall cf, In cf cfs -> ~ In (fst cf) (snd cf) -> In (fst cf) E) /\
    (forall e, In e E -> (exists cf w, In cf cfs /\ zpath Z (fst cf) w e) /\
        forall c k, zedge Z e c k -> In k E \/ In k R' \/ exists cf, In cf cfs /\ In k (snd cf)) /\
    ((forall cf p, In cf cfs -> In p (snd cf) -> exists w, zpath Z p w (fst cf)) ->
        (forall y, In y R -> zproductive Z y) -> forall y, In y R' -> zproductive Z y) /\
    (forall rk, rank_ok rk ->
        (forall cf, In cf cfs -> In (fst cf) (snd cf) \/ forall p, In p (snd cf) -> rk (fst cf) < rk p) ->
        (forall e, In e E -> zproductive Z e -> In e R') /\
        (forall cf, In cf cfs -> ~ In (fst cf) (snd cf) -> zproductive Z (fst cf) -> forall p, In p (snd cf) -> In p R')).

  Lemma good_nil : forall R, completes [] R R /\ goodL [] R R [].
  Proof.
    intros R. split; [exists 0; auto|]. split; auto. split; auto. split; [intros cf []|]. split; [intros e []|]. split; auto.
    intros rk _ _. split; [intros e []|intros cf []].
  Qed.

  Lemma good_cons : forall cf cfs R R1 R2 E1 E2,
    completes [cf] R R1 -> goodL [cf] R R1 E1 -> completes cfs R1 R2 -> goodL cfs R1 R2 E2 ->
    completes (cf :: cfs) R R2 /\ goodL (cf :: cfs) R R2 (E1 ++ E2).
  Proof.
    intros cf cfs R R1 R2 E1 E2 (k1 & H1) (A1 & A2 & A3 & A4 & A5 & A6) (k2 & H2) (B1 & B2 & B3 & B4 & B5 & B6). split.
    { exists (k1 + k2). intros rest fuel.
      specialize (H1 (cfs ++ rest) (k2 + fuel)). simpl in *. rewrite <- Nat.add_assoc, H1. apply H2. }
    split; [auto|]. split; [|split; [|split; [|split]]].
    - intros y Hy. rewrite in_app_iff. destruct (B2 y Hy) as [X|[X|(c & X & Y)]]; auto.
      + destruct (A2 y X) as [X'|[X'|(c & [<-|[]] & Y)]]; auto. right. right. exists cf. split; auto. left; auto.
      + right. right. exists c. split; auto. right; auto.
    - intros c [<-|Hc] NI; apply in_or_app; [left; apply A3; simpl; auto|right; apply B3; auto].
    - intros e He. apply in_app_or in He as [He|He].
      + destruct (A4 e He) as [(c & w & [<-|[]] & P) Q]. split; [exists cf, w; split; auto; left; auto|].
        intros ch k Hk. rewrite in_app_iff. destruct (Q ch k Hk) as [X|[X|(c & [<-|[]] & X)]]; auto.
        right. right. exists cf. split; auto. left; auto.
      + destruct (B4 e He) as [(c & w & Hc & P) Q]. split; [exists c, w; split; auto; right; auto|].
        intros ch k Hk. rewrite in_app_iff. destruct (Q ch k Hk) as [X|[X|(c' & Hc' & X)]]; auto.
        right. right. exists c'. split; auto. right; auto.
    - intros HP HR. apply B5; [intros c p Hc; apply HP; right; auto|]. apply A5; auto.
      intros c p [<-|[]]. apply HP. left; auto.
    - intros rk Hrk HC. destruct (A6 rk Hrk) as [A7 A8]; [intros c [<-|[]]; apply HC; left; auto|].
      destruct (B6 rk Hrk) as [B7 B8]; [intros c Hc; apply HC; right; auto|]. split.
      + intros e He Pe. apply in_app_or in He as [He|He]; auto.
      + intros c [<-|Hc] NI Pc p Hp; [apply B1; apply (A8 cf); simpl; auto|apply (B8 c); auto].
  Qed.

  Lemma productive_step : forall i w k, zpath Z i w k -> zaccepting Z k ->
    zaccepting Z i \/ exists c j, j <> i /\ zedge Z i c j /\ zproductive Z j.
  Proof.
    intros i w k P. induction P as [|i c j w k He P IH]; intros Ha; auto.
    destruct (Nat.eq_dec j i) as [->|Ne]; [apply IH; auto|]. right. exists c, j. split; auto. split; auto. exists w, k. auto.
  Qed.

  Lemma good_step : forall i P R ch R1 R2 E2, i < N -> after i P R = (ch, R1) ->
    completes ch R1 R2 -> goodL ch R1 R2 E2 ->
    exists E R2', completes [(i, P)] R R2' /\ goodL [(i, P)] R R2' E.
  Proof.
    intros i P R ch R1 R2 E2 Hi EA (k & HK) (B1 & B2 & B3 & B4 & B5 & B6).
    destruct (all_alive_i i Hi) as (s & Hs & Ls).
    destruct (after_spec i P R s Hs) as (ch' & R1' & EA' & H1 & H2 & H3 & H4 & HP & H5 & H6). rewrite EA in EA'.
    inversion EA'; subst ch' R1'. clear EA'.
    assert (St : forall rest fuel, dead_loop (S fuel) Z ((i, P) :: rest) R = dead_loop fuel Z (ch ++ rest) R1).
    { intros. rewrite dead_loop_step by auto. rewrite EA. auto. }
    destruct (in_dec Nat.eq_dec i P) as [IP|NP].
    - (* a cycle: nothing is pushed *)
      rewrite (H2 IP) in *. exists [], R1. split.
      { exists 1. intros rest fuel. simpl plus. change ([(i, P)] ++ rest) with ((i, P) :: rest). rewrite St. auto. }
      split; auto. split; [|split; [|split; [|split]]].
      + intros y Hy. destruct (H4 y Hy) as [X|[->|X]]; auto; right; right; exists (i, P); simpl; auto.
      + intros cf [<-|[]] X. contradiction.
      + intros e [].
      + intros PP PR. apply HP; auto. intros p Hp. apply (PP (i, P)); simpl; auto.
      + intros rk Hrk HC. split; [intros e []|]. intros cf [<-|[]] X. contradiction.
    - exists (i :: E2), R2. split.
      { exists (S k). intros rest fuel. simpl plus. change ([(i, P)] ++ rest) with ((i, P) :: rest). rewrite St. apply HK. }
      assert (CS : forall cf, In cf ch -> forall y, In y (snd cf) -> y = i \/ In y P).
      { intros cf Hc y Hy. destruct (H3 cf Hc) as (_ & _ & E). rewrite E in Hy. apply in_sadd in Hy. tauto. }
      split; auto. split; [|split; [|split; [|split]]].
      + intros y Hy. simpl. destruct (B2 y Hy) as [X|[X|(cf & Hc & X)]]; auto.
        * destruct (H4 y X) as [Y|[->|Y]]; auto. right. right. exists (i, P). auto.
        * destruct (CS cf Hc y X) as [->|Y]; auto. right. right. exists (i, P). auto.
      + intros cf [<-|[]] _. left; auto.
      + intros e [<-|He].
        * split; [exists (i, P), []; split; [left; auto|constructor]|]. intros c j Hj.
          destruct (H6 NP c j Hj) as [X|(X & _)]; [|right; left; auto].
          destruct (in_dec Nat.eq_dec j (sadd P i)) as [Y|Y].
          -- apply in_sadd in Y as [Y| ->]; [|left; left; auto]. right. right. exists (i, P). simpl. auto.
          -- left. right. apply (B3 (j, sadd P i)); auto.
        * destruct (B4 e He) as [(cf & w & Hc & Pw) Q]. destruct (H3 cf Hc) as (_ & (c & Hcf) & _). split.
          -- exists (i, P), (c :: w). split; [left; auto|]. econstructor; eauto.
          -- intros c' j Hj. simpl. destruct (Q c' j Hj) as [X|[X|(cf' & Hc' & X)]]; auto.
             destruct (CS cf' Hc' j X) as [->|Y]; auto. right. right. exists (i, P). auto.
      + intros PP PR. assert (PP1 : forall p, In p P -> exists w, zpath Z p w i) by (intros p Hp; apply (PP (i, P)); simpl; auto).
        apply B5; [|apply HP; auto].
        intros cf p Hc Hp. destruct (H3 cf Hc) as (_ & (c & Hcf) & _). destruct (CS cf Hc p Hp) as [->|Y].
        * exists [c]. econstructor; eauto. constructor.
        * destruct (PP1 p Y) as (w & Pw). exists (w ++ [c]). eapply zpath_snoc; eauto.
      + intros rk Hrk HC. pose proof (HC (i, P) (or_introl eq_refl)) as HC1. simpl in HC1. destruct HC1 as [X|HC1]; [contradiction|].
        destruct (B6 rk Hrk) as [B7 B8].
        { intros cf Hc. destruct (H3 cf Hc) as (_ & (c & Hcf) & E). rewrite E.
          destruct (Nat.eq_dec (fst cf) i) as [Ei|Ni]; [left; rewrite Ei; apply in_sadd; auto|]. right.
          assert (L : rk (fst cf) < rk i) by (eapply Hrk; eauto).
          intros p Hp. apply in_sadd in Hp as [Hp| ->]; auto. specialize (HC1 p Hp). lia. }
        assert (Key : zproductive Z i -> In i R2 /\ forall p, In p P -> In p R2).
        { intros (w & kk & Pk & Ak). destruct (productive_step i w kk Pk Ak) as [Ac|(c & j & Ne & He & Pj)].
          - destruct (H5 Ac) as [X Y]. auto.
          - destruct (H6 NP c j He) as [X|(_ & X & Y)]; [|auto].
            assert (NJ : ~ In j (sadd P i)).
            { intros Y. apply in_sadd in Y as [Y| ->]; [|congruence]. specialize (HC1 j Y).
              assert (rk j < rk i) by (eapply Hrk; eauto). lia. }
            assert (G : forall p, In p (sadd P i) -> In p R2) by (apply (B8 (j, sadd P i)); auto).
            split; [|intros p Hp]; apply G, in_sadd; auto. }
        split.
        * intros e [<-|He] Pe; [exact (proj1 (Key Pe))|auto].
        * intros cf [<-|[]] _ Pi. exact (proj2 (Key Pi)).
  Qed.

  Lemma good_all : forall cfs, (forall cf, In cf cfs -> forall R, exists E R', completes [cf] R R' /\ goodL [cf] R R' E) ->
    forall R, exists E R', completes cfs R R' /\ goodL cfs R R' E.
  Proof.
    induction cfs as [|cf cfs IH]; intros H R.
    - exists [], R. apply good_nil.
    - destruct (H cf (or_introl eq_refl) R) as (E1 & R1 & C1 & G1).
      destruct (IH (fun c Hc => H c (or_intror Hc)) R1) as (E2 & R2 & C2 & G2).
      exists (E1 ++ E2), R2. eapply good_cons; eauto.
  Qed.

  Lemma good_conf : forall d cf, cf_ok cf -> cnt N (snd cf) <= d ->
    forall R, exists E R', completes [cf] R R' /\ goodL [cf] R R' E.
  Proof.
    induction d as [d IH] using lt_wf_ind. intros [i P] [Hi HP] Hd R. simpl in Hi, HP, Hd.
    destruct (after i P R) as [ch R1] eqn:EA.
    destruct (good_all ch) with (R := R1) as (E2 & R2 & C2 & G2); [|eapply good_step; eauto].
    intros cf Hc. destruct (all_alive_i i Hi) as (s & Hs & Ls).
    destruct (after_spec i P R s Hs) as (ch' & R1' & EA' & H1 & H2 & H3 & _). rewrite EA in EA'. inversion EA'; subst ch' R1'.
    destruct (H3 cf Hc) as (NP & (c & He) & E). apply (IH (cnt N (snd cf))); auto.
    - rewrite E. unfold sadd. rewrite (proj2 (mem_false i P) NP).
      assert (C : cnt N P = length [i] + cnt N (P ++ [i])).
      { apply cnt_app; [repeat constructor; simpl; tauto|]. intros x [<-|[]]. auto. }
      simpl in C. lia.
    - split; [apply alive_lt; apply (zedge_alive Z _ _ _ He)|]. intros p Hp. rewrite E in Hp. apply in_sadd in Hp as [Hp| ->]; auto.
  Qed.

  (* the whole search *)
  Lemma dead_search : exists fuel0 R, (forall fuel, dead_loop (fuel0 + fuel) Z (map (fun i => (i, [])) (rev (zinit Z))) [] = Ok R) /\
    (forall y, In y R -> zreachable Z y /\ zproductive Z y) /\
    (forall rk, rank_ok rk -> forall y, zreachable Z y -> zproductive Z y -> In y R).
  Proof.
    set (cfs := map (fun i => (i, @nil nat)) (rev (zinit Z))).
    assert (CF : forall cf, In cf cfs -> snd cf = [] /\ In (fst cf) (zinit Z)).
    { intros cf H. apply in_map_iff in H as (i & <- & H). apply in_rev in H. auto. }
    assert (FC : forall i, In i (zinit Z) -> In (i, []) cfs).
    { intros i H. apply in_map_iff. exists i. split; auto. apply -> in_rev. auto. }
    destruct (good_all cfs) with (R := @nil nat) as (E & R & (k & HK) & G).
    { intros cf Hc. apply (good_conf N); [|apply cnt_le]. destruct (CF cf Hc) as [E Hi]. split; [|rewrite E; intros p []].
      apply alive_lt. apply (zwf_init Z W); auto. }
    exists k, R. split.
    { intros fuel. specialize (HK [] fuel). rewrite app_nil_r in HK. rewrite HK. destruct fuel; auto. }
    destruct G as (A1 & A2 & A3 & A4 & A5 & A6).
    assert (RE : forall y, In y R -> In y E).
    { intros y Hy. destruct (A2 y Hy) as [[]|[X|(cf & Hc & X)]]; auto. destruct (CF cf Hc) as [E0 _]. rewrite E0 in X. destruct X. }
    split.
    - intros y Hy. split.
      + destruct (A4 y (RE y Hy)) as [(cf & w & Hc & P) _]. destruct (CF cf Hc) as [_ Hi]. exists (fst cf), w. auto.
      + apply A5; auto; [|intros z []]. intros cf p Hc Hp. destruct (CF cf Hc) as [E0 _]. rewrite E0 in Hp. destruct Hp.
    - intros rk Hrk y (i & w & Hi & P) Py. destruct (A6 rk Hrk) as [A7 _].
      { intros cf Hc. right. destruct (CF cf Hc) as [E0 _]. rewrite E0. intros p []. }
      apply A7; auto. assert (HiE : In i E) by (apply (A3 (i, [])); auto).
      clear - P HiE A4 RE CF. induction P as [|i c j w k He P IH]; auto. apply IH.
      destruct (A4 i HiE) as [_ Q]. destruct (Q c j He) as [X|[X|(cf & Hc & X)]]; auto.
      destruct (CF cf Hc) as [E0 _]. rewrite E0 in X. destruct X.
  Qed.
End Dead.
