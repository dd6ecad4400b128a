(* When the construction of zone automata ends: finitely many zones. *)
From Coq Require Import QArith Qround Lqa Bool List ZArith Arith Lia.
From Verif Require Import Num NumFacts Outcome Constraint Zone ZoneFacts ZoneOps TA Spec TAFacts PropBase ZA ZASpec ZAFacts PropZA ZATerm ZADiv.
Import ListNotations.
Open Scope nat_scope.

Lemma NoDup_app_one : forall {X} (l : list X) x, NoDup l -> ~ In x l -> NoDup (l ++ [x]).
Proof.
  induction l as [|a l IH]; intros x N I; cbn; [constructor; auto|]. inversion N; subst. constructor.
  - intros Y. apply in_app_or in Y as [Y|[->|[]]]; [auto|]. apply I. left. auto.
  - apply IH; auto. intros Y. apply I. right. auto.
Qed.

(* ---------- finitely many configurations ---------- *)

Section Finite.
  Variables (A : ta) (T : Type) (key : mat -> T) (P : ptr -> mat -> Prop) (U : list (ptr * T)).
  Hypothesis W : wf_ta A.
  Hypothesis K : clockSize A <= 255.
  Hypothesis LB : labels_ok A.
  Let M := max_const A.
  Let n := S (clockSize A).
  Hypothesis P0 : forall p, In p (inits A) -> P p (fill n bzero).
  Hypothesis PS : forall s c e q m, st_ok A s -> P (zq s) (zm s) -> is_edge A (zq s) c e -> etgt e = Some q ->
    succ_zone M (elapse (zm s)) e = Some m -> P q m.
  Hypothesis PU : forall q m, In q (map fst (states A)) -> P q m -> In (q, key m) U.
  Hypothesis PK : forall q q' m m', P q m -> P q' m' -> key m = key m' -> zone_eqb m m' = true.

  Section Loop.
  Variables (N0 N1 : nat).
  Hypothesis N01 : N0 <= N1.

  Definition conf (s : zst) : ptr * T := (zq s, key (zm s)).
  (* the configurations of this construction, and those that it added *)
  Definition fin (Z : za) : Prop := (forall i s, N0 <= i -> zget Z i = Some s -> P (zq s) (zm s)) /\
    NoDup (map conf (skipn N1 (zsts Z))) /\ N1 <= length (zsts Z).

  Lemma map_set_nth : forall {X Y} (f : X -> Y) (l : list X) i x y, nth_error l i = Some y -> f x = f y -> map f (set_nth l i x) = map f l.
  Proof. induction l as [|a l IH]; intros [|i] x y H E; cbn in *; try discriminate; [injection H as ->; now rewrite E|]. f_equal. eauto. Qed.
  Lemma skipn_set_nth : forall {X} (l : list X) k i x, skipn k (set_nth l i x) = if k <=? i then set_nth (skipn k l) (i - k) x else skipn k l.
  Proof.
    induction l as [|a l IH]; intros k i x; [rewrite !skipn_nil; destruct (k <=? i); reflexivity|].
    destruct k as [|k], i as [|i]; cbn; try reflexivity. rewrite IH. reflexivity.
  Qed.
  Lemma nth_skipn : forall {X} (l : list X) k i, nth_error (skipn k l) i = nth_error l (k + i).
  Proof. induction l as [|a l IH]; intros [|k] i; cbn; auto. destruct i; reflexivity. Qed.

  Lemma push_confs : forall Z i c j, map conf (skipn N1 (zsts (zupd Z i (zpush c j)))) = map conf (skipn N1 (zsts Z)).
  Proof.
    intros Z i c j. unfold zupd. destruct (zget Z i) as [s|] eqn:G; auto. cbn [zsts]. rewrite skipn_set_nth. destruct (Nat.leb_spec N1 i); auto.
    apply (map_set_nth conf _ _ _ s); [|reflexivity]. rewrite nth_skipn. replace (N1 + (i - N1)) with i by lia. exact G.
  Qed.
  Lemma push_P : forall Z i c j, (forall i s, N0 <= i -> zget Z i = Some s -> P (zq s) (zm s)) ->
    forall k s, N0 <= k -> zget (zupd Z i (zpush c j)) k = Some s -> P (zq s) (zm s).
  Proof.
    intros Z i c j H k s Hk G. rewrite zget_zupd in G. destruct (Nat.eqb_spec k i) as [->|]; [|eauto].
    destruct (zget Z i) as [s'|] eqn:G'; [|discriminate]. injection G as <-. cbn. eauto.
  Qed.

  Lemma zfind_from_none : forall l i q m, zfind_from l i q m = None -> forall s, In s l -> zlive s = true -> q = zq s -> zone_eqb m (zm s) = true -> False.
  Proof.
    intros l i q m H s Hs L Q E. apply In_nth_error in Hs as (j & G). destruct (zfind_from_some l i j s q m G L Q E) as (x & X). congruence.
  Qed.

  Lemma edge_fin : forall Z nq i s c e Z' nq', Inv A M Z -> fin Z -> zget Z i = Some s -> N0 <= i -> is_edge A (zq s) c e ->
    ta2za_edge A M i (elapse (zm s)) c e (Z, nq) = Ok (Z', nq') -> fin Z' /\ length (zsts Z') + length nq = length (zsts Z) + length nq'.
  Proof.
    intros Z nq i s c e Z' nq' HI (F1 & F2 & F3) G Hi He H. destruct (HI i s G) as [SO _].
    unfold ta2za_edge in H. destruct (etgt e) as [q|] eqn:Et; [|inversion H; subst; repeat split; auto].
    destruct (succ_zone M (elapse (zm s)) e) as [m|] eqn:Em; [|inversion H; subst; repeat split; auto].
    destruct (char_max <=? c); [discriminate|].
    destruct (zfind Z q m) eqn:EF.
    { injection H as <- <-. rewrite zupd_length. split; [|auto]. split; [apply push_P; auto|]. rewrite push_confs, zupd_length. auto. }
    destruct (deref A q) as [ts|]; [|discriminate]. injection H as <- <-. rewrite zupd_length. cbn [zsts]. rewrite !app_length. cbn [length].
    split; [|lia]. assert (PQ : P q m) by (eapply PS; eauto). split; [|split].
    - apply push_P. intros k s' Hk G'. unfold zget in G'. cbn [zsts] in G'. destruct (Nat.lt_ge_cases k (length (zsts Z))) as [L|L].
      + rewrite nth_error_app1 in G' by auto. eapply F1; eauto.
      + rewrite nth_error_app2 in G' by auto. destruct (k - length (zsts Z)) as [|j]; [injection G' as <-; exact PQ|destruct j; discriminate].
    - rewrite push_confs. cbn [zsts]. rewrite skipn_app. replace (N1 - length (zsts Z)) with 0 by lia. rewrite map_app. cbn [skipn map].
      apply NoDup_app_one; auto. intros X. apply in_map_iff in X as (s' & E & X). unfold conf in E. cbn [zq zm] in E. injection E as E1 E2.
      assert (X' : In s' (zsts Z)) by (rewrite <- (firstn_skipn N1 (zsts Z)); apply in_or_app; auto).
      apply In_nth_error in X as (j & Gj). rewrite nth_skipn in Gj. pose proof (F1 (N1 + j) s' ltac:(lia) Gj) as Ps'.
      destruct (HI _ _ Gj) as [(_ & _ & _ & _ & LV) _]. eapply (zfind_from_none _ _ _ _ EF s'); eauto.
    - rewrite zupd_length. cbn [zsts]. rewrite app_length. cbn. lia.
  Qed.

  Lemma conf_fin : forall Z i s Z' nq', Inv A M Z -> fin Z -> N0 <= i -> zget Z i = Some s -> ta2za_conf A M i (Z, []) = Ok (Z', nq') ->
    fin Z' /\ length (zsts Z') = length (zsts Z) + length nq'.
  Proof.
    intros Z i s Z' nq' HI HF Hi Hs H. unfold ta2za_conf in H. cbn [fst] in H. rewrite Hs in H.
    destruct (deref A (zq s)) as [ts|] eqn:Ed; [|discriminate].
    assert (Hts : In (zq s, ts) (states A)) by (apply assoc_In; auto).
    pose (Q := fun (p : za * list nat) => grows A M Z [] (fst p) (snd p) /\ fin (fst p) /\ length (zsts (fst p)) = length (zsts Z) + length (snd p)).
    assert (X : Q (Z', nq')); [|destruct X as (_ & X); exact X].
    apply (fold_out_inv _ (fun _ => Q)) in H; [exact H| |].
    - split; [apply grows_refl; auto|]. cbn. split; auto.
    - intros d [c es] [Z1 q1] [Z2 q2] Hce G1 H1. cbn [fst snd] in *.
      apply (fold_out_inv _ (fun _ => Q)) in H1; [exact H1|exact G1|].
      intros d' e [Z3 q3] [Z4 q4] He (G3 & F3 & L3) H3. cbn [fst snd] in *.
      pose proof G3 as (I3 & X3 & N3 & (l & L & R) & A3). destruct (X3 _ _ Hs) as (l0 & Hl).
      assert (Hed : is_edge A (zq s) c e) by (exists ts, es; auto).
      destruct (ta2za_edge_inv A M W K Z3 q3 i _ c e Z4 q4 I3 Hl Hed H3) as (A1 & A2 & A4 & A5 & A6 & A7).
      destruct (edge_fin Z3 q3 i _ c e Z4 q4 I3 F3 Hl Hi Hed H3) as [F4 L4].
      split; [|cbn [fst snd]; split; [exact F4|lia]]. eapply grows_trans; [exact K|exact G3|]. repeat (split; auto).
  Qed.

  Lemma fin_size : forall Z, Inv A M Z -> fin Z -> length (zsts Z) <= N1 + length U.
  Proof.
    intros Z HI (F1 & F2 & F3). assert (L : length (map conf (skipn N1 (zsts Z))) <= length U).
    { apply NoDup_incl_length; auto. intros x X. apply in_map_iff in X as (s & <- & X). apply In_nth_error in X as (j & Gj). rewrite nth_skipn in Gj.
      destruct (HI _ _ Gj) as [(_ & _ & _ & Hq & _) _]. apply PU; auto. apply (F1 (N1 + j)); auto. lia. }
    rewrite map_length, skipn_length in L. lia.
  Qed.

  Lemma loop_fin : forall fuel Z queue, Inv A M Z -> fin Z -> (forall i, In i queue -> N0 <= i < length (zsts Z)) ->
    (N1 + length U - length (zsts Z)) + length queue <= fuel -> exists Z', ta2za_loop fuel A M Z queue = Ok Z'.
  Proof.
    induction fuel as [|f IH]; intros Z queue HI HF HQ HL; destruct queue as [|i rest]; cbn [ta2za_loop length] in *; eauto; [lia|].
    assert (Hi : N0 <= i < length (zsts Z)) by (apply HQ; left; auto). destruct (zget_some Z i (proj2 Hi)) as (s & G).
    destruct (ta2za_conf_fine A M W K Z i LB HI (proj2 Hi)) as (Z' & nq' & E). rewrite E. cbn [bind].
    destruct (conf_fin Z i s Z' nq' HI HF (proj1 Hi) G E) as [F' L'].
    destruct (ta2za_conf_inv A M W K _ _ _ _ HI E) as [(I1 & X1 & _ & (l & El & R) & _) _]. cbn [fst snd] in *. cbn [app] in El. subst l.
    pose proof (fin_size Z' I1 F'). apply IH; auto.
    - intros j Hj. apply in_app_or in Hj as [Hj|Hj]; [pose proof (ext_length _ _ X1); assert (N0 <= j < length (zsts Z)) by (apply HQ; right; auto); lia|apply R in Hj; lia].
    - rewrite app_length. lia.
  Qed.
End Loop.

  (* for any zone automaton that is extended *)
  Lemma ta2za_fin : forall Z, Inv A M Z -> exists fuel Z', ta2za fuel A Z [] = Ok Z'.
  Proof.
    intros Z HZ. unfold ta2za. set (z := fill (S (clockSize A)) bzero).
    set (new := filter _ (inits A)).
    assert (NewI : forall p, In p new -> In p (inits A)) by (intros p Hp; apply filter_In in Hp as [Hp _]; auto).
    assert (NewS : forall p, In p new -> In p (map fst (states A))) by (intros p Hp; apply (wf_inits _ W); auto).
    destruct new as [|p0 l] eqn:EN; [exists 0; eauto|]. rewrite <- EN in *. clear p0 l EN.
    rewrite (new_states_ok A z new []) by auto. simpl.
    destruct (zero_zone_ok A) as [(Z1 & Z2 & Z3) _].
    set (Z0 := mkZA _ _).
    assert (L0 : length (zsts Z0) = length (zsts Z) + length new) by (unfold Z0; cbn [zsts]; rewrite app_length, map_length; auto).
    eexists. eapply (loop_fin (length (zsts Z)) (length (zsts Z0))); [lia| | |intros i Hi; apply in_seq in Hi; lia|apply Nat.le_refl].
    - intros i s G. unfold zget in G. unfold Z0 in G. cbn [zsts] in G.
      destruct (Nat.lt_ge_cases i (length (zsts Z))) as [Hi|Hi].
      + rewrite nth_error_app1 in G by lia. destruct (HZ i s G) as [SO EO]. split; auto.
        intros c j Hin. destruct (EO c j Hin) as (C1 & s' & e & q & m & G' & X). split; auto. exists s', e, q, m. split; auto.
        unfold zget, Z0. cbn [zsts]. rewrite nth_error_app1; [exact G'|]. apply zget_lt in G'. exact G'.
      + rewrite nth_error_app2 in G by lia. apply nth_error_In in G. apply in_map_iff in G as (p & <- & Hp).
        split; [|intros c j []]. repeat (split; auto).
    - split; [|rewrite skipn_all; split; [constructor|lia]].
      intros i s Hi G. unfold zget, Z0 in G. cbn [zsts] in G. rewrite nth_error_app2 in G by lia. apply nth_error_In in G. apply in_map_iff in G as (p & <- & Hp).
      cbn [zq zm]. apply P0. auto.
  Qed.
End Finite.

(* ---------- the entries of the matrices ---------- *)

Section Entries.
  Variables (n : nat) (Pr : bound -> Prop).
  Hypothesis PA : forall a b, good a -> good b -> Pr a -> Pr b -> Pr (badd a b).

  Definition ent (m : mat) : Prop := square n m /\ mgood n m /\ forall i j, i < n -> j < n -> Pr (mget m i j).

  Lemma close1_ent : forall m k, k < n -> ent m -> ent (close1 m k).
  Proof.
    intros m k Hk (S1 & G1 & P1). split; [apply close1_square; auto|]. split; [apply close1_good; auto|].
    destruct (close1_ind n k (fun m => mgood n m /\ forall i j, i < n -> j < n -> Pr (mget m i j)) m) as [_ [_ X]]; auto.
    intros m' r Sm Hr [Gm Hm]. split; intros i j Hi Hj; rewrite (mget_close_row n) by auto; (destruct (Nat.eqb_spec i r) as [->|]; [|auto]).
    - apply good_min; auto. apply good_add; auto.
    - unfold bmin. destruct (bltb _ _); auto.
  Qed.

  Lemma canonize_ent : forall m, ent m -> ent (canonize m).
  Proof.
    intros m (S1 & G1 & P1). split; [apply canonize_square; auto|]. split; [apply canonize_good; auto|].
    apply (canonize_entries n (fun _ _ => Pr)); auto.
  Qed.

  Lemma tighten_ent : forall m x y c, cv_succ x < n -> cv_succ y < n -> good c -> Pr c -> ent m -> ent (tighten m x y c).
  Proof.
    intros m x y c Hx Hy Gc Pc (S1 & G1 & P1). unfold tighten. apply close1_ent; auto. apply close1_ent; auto.
    split; [apply square_mset; auto|]. split; [apply mset_good; auto with bnd|]. intros i j Hi Hj. rewrite (mget_mset n) by auto.
    destruct ((i =? cv_succ x) && (j =? cv_succ y)); auto. unfold bmin. destruct (bltb _ _); auto.
  Qed.

  Lemma reset_ent : forall m x, S x < n -> x < 255 -> Pr bzero -> ent m -> ent (reset m x).
  Proof.
    intros m x Hx Hx' P0 (S1 & G1 & P1). split; [apply reset_square; auto|]. split; [apply reset_good; auto|]. intros i j Hi Hj. rewrite (mget_reset n) by auto.
    destruct (i =? S x); [destruct ((j =? 0) || (j =? S x)); auto; apply P1; lia|]. destruct (j =? S x); [destruct (i =? 0); auto; apply P1; lia|auto].
  Qed.

  Lemma elapse_ent : forall m, Pr binf -> (forall b, Pr b -> Pr (fst b, false)) -> ent m -> ent (elapse m).
  Proof.
    intros m P0 PF (S1 & G1 & P1). split; [apply elapse_square; auto|]. split; [apply elapse_good; auto|]. intros i j Hi Hj. rewrite (mget_elapse n) by auto.
    destruct (j =? 0); auto. destruct (i =? 0); auto. apply PF, P1; lia.
  Qed.

  Lemma abstractize_ent : forall M m, Pr binf -> ent m -> ent (abstractize M m).
  Proof.
    intros M m P0 (S1 & G1 & P1). split; [apply abstractize_square; auto|]. split; [apply abstractize_good; auto|]. intros i j Hi Hj. rewrite (mget_abstractize n) by auto.
    destruct (bgeb _ _); auto.
  Qed.
End Entries.

(* integers *)
Definition integral (b : bound) : Prop := match fst b with Fin q => exists k, (q == inject_Z k)%Q | _ => True end.

Lemma integral_add : forall a b, good a -> good b -> integral a -> integral b -> integral (badd a b).
Proof.
  intros [[| |x|] s] [[| |y|] t] Ga Gb; unfold integral, badd, good; cbn; auto. intros (i & Hi) (j & Hj). exists (i + j)%Z. rewrite inject_Z_plus. lra.
Qed.

Lemma succ_integral : forall k M m e z, k <= 255 -> Forall (fun a => a < k) (eresets e) -> Forall (fun g => cx g < k) (eguard e) ->
  ent (S k) integral m -> succ_zone M (elapse m) e = Some z -> ent (S k) integral z.
Proof.
  intros k M m e z K FR FG E H. unfold succ_zone in H. destruct (isSatisfiable _) as [sat m1] eqn:ES. destruct sat; [|discriminate].
  injection H as <-. assert (E1 : m1 = canonize (tighten_guard (elapse m) (eguard e))) by (unfold isSatisfiable in ES; congruence). subst m1. clear ES.
  assert (I0 : integral bzero) by (exists 0%Z; reflexivity).
  apply canonize_ent; [apply integral_add|]. apply abstractize_ent; [exact I|].
  assert (E2 : ent (S k) integral (tighten_guard (elapse m) (eguard e))).
  { unfold tighten_guard. assert (E3 : ent (S k) integral (elapse m)) by (apply elapse_ent; [exact I|auto|exact E]).
    revert FG E3. generalize (elapse m). induction (eguard e) as [|g gs IH]; intros m' FG E3; cbn [fold_left]; auto. inversion FG; subst.
    apply IH; auto. assert (C1 : cv_succ (cx g) < S k) by (unfold cv_succ; rewrite Nat.mod_small; lia). assert (C2 : cv_succ cv_none < S k) by (cbn; lia).
    unfold tighten_guard1. destruct (codr g); apply tighten_ent; auto; try apply integral_add; try exact I; eexists; reflexivity. }
  apply canonize_ent in E2; [|apply integral_add]. revert FR E2. generalize (canonize (tighten_guard (elapse m) (eguard e))).
  induction (eresets e) as [|a l IH]; intros m' FR E2; cbn [fold_left]; auto. inversion FR; subst. apply IH; auto. apply reset_ent; auto; lia.
Qed.

(* bounded *)
Definition capped (X : Z) (b : bound) : Prop := match fst b with Fin q => (q <= inject_Z X)%Q | _ => True end.

Lemma capped_add : forall X Y a b, good a -> good b -> capped X a -> capped Y b -> capped (X + Y) (badd a b).
Proof. intros X Y [[| |x|] s] [[| |y|] t] Ga Gb; unfold capped, badd, good; cbn; auto. rewrite inject_Z_plus. intros. lra. Qed.
Lemma capped_le : forall X Y b, (X <= Y)%Z -> capped X b -> capped Y b.
Proof. intros X Y [[| |x|] s] L; unfold capped; cbn; auto. rewrite Zle_Qle in L. intros. lra. Qed.
Lemma capped_min : forall X a b, capped X a -> capped X b -> capped X (bmin a b).
Proof. intros X a b Ha Hb. unfold bmin. destruct (bltb b a); auto. Qed.
(* row k itself does not grow *)
Lemma capped_self : forall X a b, good a -> good b -> capped X a -> capped X (bmin a (badd a b)).
Proof.
  intros X [[| |x|] s] [[| |y|] t]; unfold good, capped, bmin, badd, bltb; cbn; try tauto; intros _ _ H;
    repeat match goal with |- context [if ?c then _ else _] => destruct c eqn:? end; cbn; auto.
  all: repeat match goal with E : (if _ then _ else _) = _ |- _ => revert E end; repeat qcase; cbn; intros; try discriminate; try lra; auto.
Qed.

Lemma close1_capped : forall n X m k, square n m -> mgood n m -> k < n -> (0 <= X)%Z -> (forall i j, i < n -> j < n -> capped X (mget m i j)) ->
  forall i j, i < n -> j < n -> capped (2 * X) (mget (close1 m k) i j).
Proof.
  intros n X m k S1 G1 Hk HX H. unfold close1. rewrite (proj1 S1).
  assert (R : forall l m, NoDup l -> (forall r, In r l -> r < n) -> square n m -> mgood n m ->
    (forall i j, i < n -> j < n -> (In i l \/ i = k -> capped X (mget m i j)) /\ capped (2 * X) (mget m i j)) ->
    forall i j, i < n -> j < n -> capped (2 * X) (mget (fold_left (close_row k) l m) i j)).
  { clear m S1 G1 H. induction l as [|r l IH]; intros m N Lt S1 G1 H; cbn [fold_left]; [intros; apply H; auto|]. inversion N as [|? ? N1 N2]; subst.
    assert (Hr : r < n) by (apply Lt; left; auto). apply IH; auto; [intros; apply Lt; right; auto|apply close_row_square; auto|apply close_row_good; auto|].
    intros i j Hi Hj. rewrite (mget_close_row n) by auto. destruct (Nat.eqb_spec i r) as [->|Ne].
    - assert (A1 : capped X (mget m r j)) by (apply H; auto; left; left; auto). assert (A2 : capped X (mget m k j)) by (apply H; auto).
      assert (A3 : capped X (mget m r k)) by (apply H; auto; left; left; auto). split.
      + intros [I0|E]; [contradiction|]. subst r. apply capped_self; auto.
      + apply capped_min; [apply (capped_le X); auto; lia|]. replace (2 * X)%Z with (X + X)%Z by lia. apply capped_add; auto.
    - split; [|apply H; auto]. intros [I0|E]; apply H; auto. left. right. auto. }
  apply R; auto; [apply seq_NoDup|intros r Hr; apply in_seq in Hr; lia|]. intros i j Hi Hj. split; auto. apply (capped_le X); auto. lia.
Qed.

Lemma canonize_capped : forall n X m, square n m -> mgood n m -> (0 <= X)%Z -> (forall i j, i < n -> j < n -> capped X (mget m i j)) ->
  forall i j, i < n -> j < n -> capped (2 ^ BinInt.Z.of_nat n * X) (mget (canonize m) i j).
Proof.
  intros n X m S1 G1 HX H.
  destruct (canonize_ind n (fun k m => forall i j, i < n -> j < n -> capped (2 ^ BinInt.Z.of_nat k * X) (mget m i j)) m S1 G1) as (_ & _ & R); auto.
  { intros i j Hi Hj. apply (capped_le X); auto. change (2 ^ BinInt.Z.of_nat 0)%Z with 1%Z. lia. }
  intros k m' S' G' Hk H' i j Hi Hj. rewrite Nat2Z.inj_succ, Z.pow_succ_r by lia. rewrite <- Z.mul_assoc. apply (close1_capped n); auto.
  apply Z.mul_nonneg_nonneg; auto. apply Z.pow_nonneg. lia.
Qed.

Lemma succ_capped : forall k z M m e r, k <= 255 -> M = (Fin (inject_Z z), true) -> (0 <= z)%Z -> square (S k) m -> mgood (S k) m ->
  Forall (fun a => a < k) (eresets e) -> Forall (fun g => cx g < k) (eguard e) -> succ_zone M (elapse m) e = Some r ->
  forall i j, i < S k -> j < S k -> capped (2 ^ BinInt.Z.of_nat (S k) * z) (mget r i j).
Proof.
  intros k z M m e r K EM Z0 S1 G1 FR FG H. unfold succ_zone in H. destruct (isSatisfiable _) as [sat m1] eqn:ES. destruct sat; [|discriminate].
  injection H as <-. assert (E1 : m1 = canonize (tighten_guard (elapse m) (eguard e))) by (unfold isSatisfiable in ES; congruence). subst m1. clear ES.
  destruct (tg_ok k K (eguard e) (elapse m) (elapse_square _ _ S1) (elapse_good _ _ S1 G1) FG) as (S2 & G2 & _).
  assert (E : square (S k) (fold_left reset (eresets e) (canonize (tighten_guard (elapse m) (eguard e)))) /\ mgood (S k) (fold_left reset (eresets e) (canonize (tighten_guard (elapse m) (eguard e))))).
  { pose proof (canonize_square _ _ S2 G2) as S3. pose proof (canonize_good _ _ S2 G2) as G3. revert FR S3 G3. generalize (canonize (tighten_guard (elapse m) (eguard e))).
    induction (eresets e) as [|a l IH]; intros m' FR S3 G3; cbn [fold_left]; auto. inversion FR; subst. apply IH; auto; [apply reset_square; auto; lia|apply reset_good; auto; lia]. }
  destruct E as [S3 G3]. revert S3 G3. generalize (fold_left reset (eresets e) (canonize (tighten_guard (elapse m) (eguard e)))). intros m3 S3 G3.
  apply canonize_capped; auto; [apply abstractize_square; auto|apply abstractize_good; auto|]. intros i j Hi Hj. rewrite (mget_abstractize (S k)) by auto.
  destruct (bgeb (mget m3 i j) M) eqn:B; [exact I|]. revert B. subst M. destruct (mget m3 i j) as [[| |x|] []]; unfold bgeb, capped; cbn; auto; repeat qcase; cbn; intros; try discriminate; lra.
Qed.

(* ---------- finitely many matrices ---------- *)

Definition kb (b : bound) : option Z * bool := (match fst b with Fin q => Some (Qfloor q) | _ => None end, snd b).
Definition mkey (m : mat) : list (list (option Z * bool)) := map (map kb) m.

Fixpoint words {X} (n : nat) (E : list X) : list (list X) := match n with 0 => [[]] | S n => flat_map (fun x => map (cons x) (words n E)) E end.
Lemma words_in : forall {X} (E : list X) l, (forall x, In x l -> In x E) -> In l (words (length l) E).
Proof.
  induction l as [|a l IH]; intros H; cbn [words length]; [left; auto|]. apply in_flat_map. exists a. split; [apply H; left; auto|].
  apply in_map. apply IH. intros; apply H; right; auto.
Qed.

Definition entries (B : nat) : list (option Z * bool) :=
  list_prod (None :: map (fun k => Some (BinInt.Z.of_nat k - BinInt.Z.of_nat B)%Z) (seq 0 (2 * B + 1))) [true; false].

Definition within (B : nat) (b : bound) : Prop := match fst b with Fin q => (- inject_Z (BinInt.Z.of_nat B) <= q <= inject_Z (BinInt.Z.of_nat B))%Q | _ => True end.

Lemma entries_in : forall B b, integral b -> within B b -> In (kb b) (entries B).
Proof.
  intros B [q s] H1 H2. unfold kb, entries. cbn [fst snd]. apply in_prod; [|destruct s; cbn; auto]. unfold integral, within in *. cbn [fst] in *.
  destruct q as [| |q|]; try (left; reflexivity). right. destruct H1 as (k & Hk). rewrite (Qfloor_comp _ _ Hk), Qfloor_Z. rewrite Hk in H2. destruct H2 as [L1 L2].
  rewrite <- inject_Z_opp, <- Zle_Qle in L1. rewrite <- Zle_Qle in L2. apply in_map_iff. exists (BinInt.Z.to_nat (k + BinInt.Z.of_nat B)). split; [f_equal; lia|]. apply in_seq. lia.
Qed.

Lemma mkey_in : forall n B m, square n m -> (forall i j, i < n -> j < n -> integral (mget m i j) /\ within B (mget m i j)) ->
  In (mkey m) (words n (words n (entries B))).
Proof.
  intros n B m [L F] H. unfold mkey. rewrite <- L at 1. rewrite <- (map_length (map kb) m). apply words_in. intros r Hr. apply in_map_iff in Hr as (r0 & <- & Hr).
  rewrite Forall_forall in F. pose proof (F _ Hr) as Lr. apply (In_nth _ _ []) in Hr as (i & Hi & Er). rewrite <- Lr at 1. rewrite <- (map_length kb r0). apply words_in.
  intros b Hb. apply in_map_iff in Hb as (b0 & <- & Hb). apply (In_nth _ _ binf) in Hb as (j & Hj & Eb).
  assert (E : b0 = mget m i j) by (unfold mget; rewrite Er; auto). rewrite E. apply entries_in; apply H; lia.
Qed.

Lemma mkey_eqb : forall n m m', 0 < n -> square n m -> square n m' -> mgood n m -> mgood n m' -> (forall i j, i < n -> j < n -> integral (mget m i j) /\ integral (mget m' i j)) ->
  mkey m = mkey m' -> zone_eqb m m' = true.
Proof.
  intros n m m' Hn S1 S2 G1 G2 H E. apply (zone_eqb_intro n); auto. intros i j Hi Hj _.
  assert (K : kb (mget m i j) = kb (mget m' i j)).
  { assert (X : nth j (nth i (mkey m) []) (kb binf) = nth j (nth i (mkey m') []) (kb binf)) by (rewrite E; auto). unfold mkey in X.
    change (@nil (option Z * bool)) with (map kb []) in X. rewrite !map_nth in X. exact X. }
  destruct (H i j Hi Hj) as [I1 I2]. pose proof (G1 i j Hi Hj) as g1. pose proof (G2 i j Hi Hj) as g2. revert K I1 I2 g1 g2.
  destruct (mget m i j) as [[| |x|] s], (mget m' i j) as [[| |y|] t]; unfold kb, integral, good, beqb; cbn [fst snd]; try tauto; try discriminate.
  - intros K (a & Ha) (b & Hb) _ _. injection K as K1 <-. rewrite (Qfloor_comp _ _ Ha), (Qfloor_comp _ _ Hb), !Qfloor_Z in K1. subst b.
    cbn [neqb]. rewrite Bool.eqb_reflx, andb_true_r. apply Qeq_bool_iff. lra.
  - intros K _ _ _ _. injection K as <-. rewrite Bool.eqb_reflx. reflexivity.
Qed.

(* ---------- a small valuation in every zone ---------- *)

Definition vmin (a b : valuation) : valuation := fun x => if Qle_bool (a x) (b x) then a x else b x.

Lemma vmin_le : forall a b x, (vmin a b x <= a x /\ vmin a b x <= b x)%Q.
Proof. intros a b x. unfold vmin. destruct (Qle_bool (a x) (b x)) eqn:E; [apply Qle_bool_iff in E; lra|]. assert (~ a x <= b x)%Q by (rewrite <- Qle_bool_iff; congruence). lra. Qed.
Lemma vmin_or : forall a b x, vmin a b x = a x \/ vmin a b x = b x.
Proof. intros a b x. unfold vmin. destruct (Qle_bool _ _); auto. Qed.

Lemma zin_min : forall n m a b, zin n m a -> zin n m b -> zin n m (vmin a b).
Proof.
  intros n m a b Ha Hb i j Hi Hj.
  assert (Le : forall i, (ev (vmin a b) i <= ev a i /\ ev (vmin a b) i <= ev b i)%Q) by (intros [|x]; cbn; [lra|apply vmin_le]).
  assert (Or : ev (vmin a b) j = ev a j \/ ev (vmin a b) j = ev b j) by (destruct j; cbn; [auto|apply vmin_or]).
  pose proof (Le i) as [L1 L2]. destruct Or as [E|E]; rewrite E.
  - apply (below_le _ (ev a i - ev a j)); [lra|apply Ha; auto].
  - apply (below_le _ (ev b i - ev b j)); [lra|apply Hb; auto].
Qed.

Lemma small_delay : forall k (u : valuation) (L : Q), (forall y, y < k -> (u y < L)%Q) -> exists d, (0 < d)%Q /\ forall y, y < k -> (u y + d < L)%Q.
Proof.
  induction k as [|k IH]; intros u L H; [exists 1%Q; split; [lra|intros; lia]|].
  destruct (IH u L) as (d & D1 & D2); [intros; apply H; lia|]. pose proof (H k ltac:(lia)) as Hk.
  destruct (Qlt_le_dec d ((L - u k) / 2)) as [C|C].
  - exists d. split; auto. intros y Hy. destruct (Nat.eq_dec y k) as [->|]; [|apply D2; lia].
    assert (E : ((L - u k) / 2 == (L - u k) * (1 # 2))%Q) by reflexivity. lra.
  - assert (E : ((L - u k) / 2 == (L - u k) * (1 # 2))%Q) by reflexivity. exists ((L - u k) * (1 # 2))%Q. split; [lra|].
    intros y Hy. destruct (Nat.eq_dec y k) as [->|]; [lra|]. pose proof (D2 y ltac:(lia)). lra.
Qed.

(* ---------- cycles without waiting ---------- *)

(* An upper bound, or no more than x > 0. *)
Definition mildc (g : constr) : Prop := codr g = Lt \/ codr g = Le \/ (cc g <= 0)%Z.
(* On cycles the guards ask for upper bounds only; resets are free. *)
Definition mild (A : ta) (rk : ptr -> nat) : Prop := forall p c e q, is_edge A p c e -> etgt e = Some q ->
  rk q <= rk p /\ (rk q < rk p \/ Forall mildc (eguard e)).
(* Some constant is positive. *)
Definition timed (A : ta) : Prop := clockSize A = 0 \/ exists k, In k (maxC A) /\ (1 <= k)%Z.

Definition consts (A : ta) : list Z :=
  flat_map (fun ps => flat_map (fun ce => flat_map (fun e => map cc (eguard e)) (snd ce)) (next (snd ps))) (states A).

Lemma consts_in : forall A p c e g, is_edge A p c e -> In g (eguard e) -> In (cc g) (consts A).
Proof.
  intros A p c e g (s & es & I1 & I2 & I3) H. unfold consts. apply in_flat_map. exists (p, s). split; auto. apply in_flat_map. exists (c, es). split; auto.
  apply in_flat_map. exists e. split; auto. apply in_map. auto.
Qed.
Lemma max_in : forall l k, In k l -> (k <= fold_right Z.max 0 l)%Z.
Proof. induction l as [|a l IH]; intros k H; [destruct H|]. cbn [fold_right]. destruct H as [<-|H]; [lia|]. specialize (IH k H). lia. Qed.
Lemma max_pos : forall l, (0 <= fold_right Z.max 0 l)%Z.
Proof. induction l as [|a l IH]; cbn [fold_right]; lia. Qed.

Section Mild.
  Variables (A : ta) (rk : ptr -> nat) (z : Z).
  Hypothesis W : wf_ta A.
  Hypothesis K : clockSize A <= 255.
  Hypothesis ML : mild A rk.
  Hypothesis MC : max_const A = (Fin (inject_Z z), true).
  Hypothesis Z1 : (1 <= z)%Z.

  Local Notation n := (S (clockSize A)).
  Let M := max_const A.
  Let R := list_max (map rk (map fst (states A))).
  Let C := fold_right Z.max 0%Z (consts A).
  Let cap := (2 ^ BinInt.Z.of_nat n * z)%Z.

  Definition level (q : ptr) : Z := (1 + BinInt.Z.of_nat (R - rk q) * C)%Z.
  Definition small (q : ptr) (m : mat) : Prop := exists u, zin n m u /\ forall y, y < clockSize A -> (0 <= u y < inject_Z (level q))%Q.

  Lemma rk_le : forall p, In p (map fst (states A)) -> rk p <= R.
  Proof.
    intros p H. unfold R. pose proof (proj1 (list_max_le (map rk (map fst (states A))) _) (Nat.le_refl _)) as F. rewrite Forall_forall in F. apply F. apply in_map. auto.
  Qed.

  Lemma step_small : forall s c e q m, st_ok A s -> pos A (zm s) -> is_edge A (zq s) c e -> etgt e = Some q ->
    succ_zone M (elapse (zm s)) e = Some m -> small (zq s) (zm s) -> small q m.
  Proof.
    intros s c e q m SO Po He Et Em (u & Hu & Bu). pose proof SO as (S1 & G1 & _ & Hq & _). destruct (elapse_ok A s SO) as [ES EG].
    pose proof (wf_is_edge _ _ _ _ W He) as WE. pose proof WE as (_ & WR & WG).
    destruct (tg_ok (clockSize A) K (eguard e) (elapse (zm s)) ES EG WG) as (S2 & G2 & Z2).
    assert (V : exists v, zin n (elapse (zm s)) v /\ sat_guard v (eguard e)).
    { unfold succ_zone in Em. destruct (isSatisfiable _) as [sat m1] eqn:ES1. destruct sat; [|discriminate].
      destruct (proj1 (isSatisfiable_correct n _ S2 ltac:(lia) G2)) as (v & Hv); [rewrite ES1; reflexivity|]. exists v. apply Z2. exact Hv. }
    destruct V as (v & Hv & Hg).
    assert (Vp : forall y, y < clockSize A -> (0 <= v y)%Q).
    { intros y Hy. pose proof (elapse_below A K s 0 (S y) 0 v SO ltac:(lia) ltac:(lia) (Po (S y) ltac:(lia)) Hv) as X.
      change (ev v 0) with 0%Q in X. change (ev v (S y)) with (v y) in X. change (- inject_Z (BinInt.Z.of_nat 0))%Q with 0%Q in X. lra. }
    destruct (small_delay (clockSize A) u (inject_Z (level (zq s)))) as (d & D1 & D2); [intros; apply Bu; auto|].
    destruct (ML _ _ _ _ He Et) as [Lr Cs].
    assert (CP : (0 <= inject_Z C)%Q) by (change 0%Q with (inject_Z 0); rewrite <- Zle_Qle; apply max_pos).
    assert (X : exists D, (0 < D)%Q /\ (forall y, y < clockSize A -> (u y + D < inject_Z (level q))%Q) /\
      forall g, In g (eguard e) -> codr g = Ge \/ codr g = Gt -> (inject_Z (cc g) < D)%Q \/ (cc g <= 0)%Z).
    { destruct Cs as [Lt|Md].
      - exists (d + inject_Z C)%Q. split; [lra|]. split.
        + intros y Hy. pose proof (D2 y Hy) as D2y. assert (LL : (inject_Z (level (zq s)) + inject_Z C <= inject_Z (level q))%Q).
          { rewrite <- inject_Z_plus, <- Zle_Qle. unfold level. pose proof (rk_le _ Hq). assert (0 <= C)%Z by apply max_pos. 
            assert (BinInt.Z.of_nat (R - rk q) >= BinInt.Z.of_nat (R - rk (zq s)) + 1)%Z by lia. nia. }
          lra.
        + intros g Hg' _. left. assert (inject_Z (cc g) <= inject_Z C)%Q by (rewrite <- Zle_Qle; apply max_in; eapply consts_in; eauto). lra.
      - exists d. split; auto. split.
        + intros y Hy. pose proof (D2 y Hy) as D2y. assert (LL : (inject_Z (level (zq s)) <= inject_Z (level q))%Q).
          { rewrite <- Zle_Qle. unfold level. assert (0 <= C)%Z by apply max_pos. assert (BinInt.Z.of_nat (R - rk q) >= BinInt.Z.of_nat (R - rk (zq s)))%Z by lia. nia. }
          lra.
        + intros g Hg' [E|E]; rewrite Forall_forall in Md; destruct (Md g Hg') as [E'|[E'|E']]; try congruence; auto. }
    destruct X as (D & DP & DL & DG). pose proof (elapse_forward n _ _ D S1 G1 Hu DP) as Hel.
    pose proof (zin_min n _ _ _ Hel Hv) as Hw. set (w := vmin (vplus u D) v) in *.
    assert (Wv : forall y, (w y <= u y + D)%Q /\ (w y <= v y)%Q) by (intros y; apply (vmin_le (vplus u D) v y)).
    assert (Wo : forall y, w y = (u y + D)%Q \/ w y = v y) by (intros y; apply (vmin_or (vplus u D) v y)).
    assert (Hgw : sat_guard w (eguard e)).
    { intros g Hg'. pose proof (Hg g Hg') as Hgv. rewrite Forall_forall in WG. pose proof (WG g Hg') as Hx. destruct (Wv (cx g)) as [_ W2]. pose proof (Bu (cx g) Hx) as [U1 _].
      unfold holds in *. destruct (codr g) eqn:Eo; try lra; destruct (Wo (cx g)) as [-> | ->]; auto;
        (destruct (DG g Hg') as [X|X]; [auto|lra|rewrite Zle_Qle in X; change (inject_Z 0) with 0%Q in X; lra]). }
    destruct (succ_zone_forward (clockSize A) K M _ e w ES EG WR WG Hw Hgw) as (m' & Em' & Hm'). assert (m' = m) by congruence. subst m'.
    exists (reset_set w (eresets e)). split; auto. intros y Hy. unfold reset_set. destruct (in_dec Nat.eq_dec y (eresets e)).
    - split; [lra|]. change 0%Q with (inject_Z 0). rewrite <- Zlt_Qlt. unfold level. assert (0 <= C)%Z by apply max_pos. nia.
    - split; [destruct (Wo y) as [-> | ->]; [pose proof (Bu y Hy); lra|apply Vp; auto]|]. pose proof (DL y Hy). destruct (Wv y). lra.
  Qed.

  Definition inv (q : ptr) (m : mat) : Prop := ent n integral m /\ (forall i j, i < n -> j < n -> capped cap (mget m i j)) /\ pos A m /\ small q m.

  Let bound := BinInt.Z.to_nat (cap + 1 + BinInt.Z.of_nat R * C).

  Lemma inv_within : forall q m, In q (map fst (states A)) -> inv q m -> forall i j, i < n -> j < n -> within bound (mget m i j).
  Proof.
    intros q m Hq ((S1 & G1 & _) & Cp & _ & u & Hu & Bu) i j Hi Hj. pose proof (Cp i j Hi Hj) as X. pose proof (Hu i j Hi Hj) as Y. pose proof (G1 i j Hi Hj) as g.
    assert (CP : (0 <= C)%Z) by apply max_pos. assert (KP : (0 <= cap)%Z) by (unfold cap; apply Z.mul_nonneg_nonneg; [apply Z.pow_nonneg|]; lia).
    assert (BB : BinInt.Z.of_nat bound = (cap + 1 + BinInt.Z.of_nat R * C)%Z) by (unfold bound; rewrite Z2Nat.id; nia).
    assert (Lv : (inject_Z (level q) <= inject_Z (BinInt.Z.of_nat bound))%Q) by (rewrite <- Zle_Qle, BB; unfold level; assert (BinInt.Z.of_nat (R - rk q) <= BinInt.Z.of_nat R)%Z by lia; nia).
    assert (Cb : (inject_Z cap <= inject_Z (BinInt.Z.of_nat bound))%Q) by (rewrite <- Zle_Qle, BB; nia).
    assert (B0 : (0 <= inject_Z (BinInt.Z.of_nat bound))%Q) by (change 0%Q with (inject_Z 0); rewrite <- Zle_Qle; lia).
    assert (Ev : forall i, i < n -> (0 <= ev u i <= inject_Z (BinInt.Z.of_nat bound))%Q).
    { intros [|x] Hx; cbn [ev]; [lra|]. pose proof (Bu x ltac:(lia)). lra. }
    pose proof (Ev i Hi). pose proof (Ev j Hj). revert X Y g. unfold within, capped, below, good. destruct (mget m i j) as [[| |x|] []]; cbn [fst snd]; try tauto; intros; lra.
  Qed.

  Lemma ta2za_mild_big : forall Z, labels_ok A -> Inv A M Z -> exists fuel Z', ta2za fuel A Z [] = Ok Z'.
  Proof.
    intros Z LB. apply (ta2za_fin A _ mkey inv (list_prod (map fst (states A)) (words n (words n (entries bound))))); auto.
    - intros p Hp. destruct (zero_zone_ok A) as [(S1 & G1 & _) Zz]. change (default_zone A []) with (fill n bzero) in *. repeat split.
      + apply S1.
      + apply S1.
      + exact G1.
      + intros i j Hi Hj. rewrite mget_fill by auto. exists 0%Z. reflexivity.
      + intros i j Hi Hj. rewrite mget_fill by auto. unfold capped, bzero. cbn [fst]. change 0%Q with (inject_Z 0). rewrite <- Zle_Qle. unfold cap. apply Z.mul_nonneg_nonneg; [apply Z.pow_nonneg|]; lia.
      + intros j Hj. unfold at_most. rewrite mget_fill by lia. vm_compute. discriminate.
      + exists zeroval. split; [exact Zz|]. intros y Hy. unfold zeroval. split; [lra|]. change 0%Q with (inject_Z 0). rewrite <- Zlt_Qlt. unfold level. assert (0 <= C)%Z by apply max_pos. nia.
    - intros s c e q m SO (E1 & E2 & E3 & E4) He Et Em. pose proof (wf_is_edge _ _ _ _ W He) as WE. pose proof WE as (_ & WR & WG). pose proof SO as (S1 & G1 & _). split; [|split; [|split]].
      + eapply succ_integral; eauto.
      + eapply succ_capped; eauto. lia.
      + eapply edge_pos; eauto.
      + eapply step_small; eauto.
    - intros q m Hq HI. apply in_prod; auto. pose proof HI as ((S1 & _ & I1) & _). apply mkey_in; auto. intros i j Hi Hj. split; auto. eapply inv_within; eauto.
    - intros q q' m m' ((S1 & G1 & I1) & _) ((S2 & G2 & I2) & _) E. apply (mkey_eqb n); auto. lia.
  Qed.
End Mild.

(* without clocks *)
Lemma ta2za_untimed : forall A Z, wf_ta A -> clockSize A = 0 -> labels_ok A -> Inv A (max_const A) Z -> exists fuel Z', ta2za fuel A Z [] = Ok Z'.
Proof.
  intros A Z W K LB. apply (ta2za_fin A unit (fun _ => tt) (fun _ m => square 1 m /\ mgood 1 m) (map (fun q => (q, tt)) (map fst (states A)))); auto; [lia| | | |].
  - intros p Hp. destruct (zero_zone_ok A) as [(S1 & G1 & _) _]. change (default_zone A []) with (fill (S (clockSize A)) bzero) in *. rewrite K in *. auto.
  - intros s c e q m SO _ He Et Em. pose proof (wf_is_edge _ _ _ _ W He) as (_ & WR & WG). destruct (elapse_ok A s SO) as [ES EG].
    destruct (succ_zone_ok (clockSize A) ltac:(lia) _ _ e m ES EG WR WG Em) as (X1 & X2 & _). rewrite K in *. auto.
  - intros q m Hq _. apply in_map_iff. exists q. auto.
  - intros q q' m m' [S1 G1] [S2 G2] _. apply (zone_eqb_intro 1); auto. intros i j Hi Hj N. exfalso. apply N. f_equal; lia.
Qed.

Theorem ta2za_mild : forall A rk Z, wf_ta A -> clockSize A <= 255 -> labels_ok A -> timed A -> mild A rk -> Inv A (max_const A) Z ->
  exists fuel Z', ta2za fuel A Z [] = Ok Z'.
Proof.
  intros A rk Z W K LB [T|(k & Hk & K1)] ML HZ; [apply ta2za_untimed; auto|].
  destruct (max_const_ge A k Hk) as (z & Ez & Lz). apply (ta2za_mild_big A rk z); auto. lia.
Qed.

(* Both classes on which the construction ends: no cycles but idle self-loops,
   or no waiting on cycles. *)
Definition calm (A : ta) (rk : ptr -> nat) : Prop := idle_loops A rk \/ (timed A /\ mild A rk).

Theorem ta2za_calm : forall A rk Z, wf_ta A -> clockSize A <= 255 -> labels_ok A -> calm A rk -> Inv A (max_const A) Z ->
  exists fuel Z', ta2za fuel A Z [] = Ok Z'.
Proof. intros A rk Z W K LB [H|[T H]] HZ; [eapply ta2za_idle_loops; eauto|eapply ta2za_mild; eauto]. Qed.
