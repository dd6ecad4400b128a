(* Expressions whose automata wait for nothing on cycles, and in whose automata
   at most one transition of each list leads to an accepting state. *)
From Coq Require Import QArith Bool List ZArith Arith Lia Permutation.
From Verif Require Import Num Outcome Interval Constraint Zone TA Spec TAFacts Intersection IntersectionFacts Tre TreRun TreFacts TreBuild TreLang PropTre ZAFin KmpTerm KmpUB Monaa SkipFacts.
Import ListNotations.
Open Scope nat_scope.

(* ---------------- the expressions ---------------- *)

(* Letters of the tables, integral bounds with an upper bound of at least 1.  What
   may be empty is neither repeated nor restricted, and accepting states with
   zeroDuration, as Eps has, meet neither +, & nor %. *)
Fixpoint plain (r : tre) : Prop :=
  match r with
  | Atom c => c <> 0
  | Eps => True
  | Plus r1 => plain r1 /\ flag r1 = NoFlag /\ nullable r1 = false
  | Cat r1 r2 | Alt r1 r2 => plain r1 /\ plain r2
  | And r1 r2 => plain r1 /\ plain r2 /\ flag r1 = NoFlag /\ flag r2 = NoFlag
  | Within r1 Iv => plain r1 /\ flag r1 = NoFlag /\ nullable r1 = false /\ exists lo up, fst (lob Iv) = Fin (inject_Z lo) /\ fst (upb Iv) = Fin (inject_Z up) /\ (1 <= up)%Z
  end.
(* No restriction asks for time to pass. *)
Fixpoint slow (r : tre) : Prop :=
  match r with
  | Atom _ | Eps => True
  | Plus r1 => slow r1
  | Cat r1 r2 | Alt r1 r2 | And r1 r2 => slow r1 /\ slow r2
  | Within r1 Iv => slow r1 /\ forall lo, fst (lob Iv) = Fin (inject_Z lo) -> (lo <= 0)%Z
  end.
(* No restriction below a + does. *)
Fixpoint gentle (r : tre) : Prop :=
  match r with
  | Atom _ | Eps => True
  | Plus r1 => slow r1
  | Cat r1 r2 | Alt r1 r2 | And r1 r2 => gentle r1 /\ gentle r2
  | Within r1 _ => gentle r1
  end.
Fixpoint tatoms (r : tre) : list nat :=
  match r with
  | Atom c => [c]
  | Eps => []
  | Plus r1 | Within r1 _ => tatoms r1
  | Cat r1 r2 | Alt r1 r2 | And r1 r2 => tatoms r1 ++ tatoms r2
  end.

Lemma plain_ok : forall r, plain r -> ok r.
Proof.
  induction r as [c| |r IH|r1 IH1 r2 IH2|r1 IH1 r2 IH2|r1 IH1 r2 IH2|r IH Iv]; cbn [plain ok]; try tauto.
  intros (H & F & N & lo & up & E1 & E2 & _). repeat split; auto; try congruence. exists lo, up. auto.
Qed.

(* ---------------- counting ---------------- *)

Definition cnt {X} (f : X -> bool) (l : list X) : nat := length (filter f l).
Lemma cnt_app : forall {X} (f : X -> bool) l k, cnt f (l ++ k) = cnt f l + cnt f k.
Proof. intros. unfold cnt. rewrite filter_app, app_length. reflexivity. Qed.
Lemma cnt_mono : forall {X} (f g : X -> bool) l, (forall x, In x l -> f x = true -> g x = true) -> cnt f l <= cnt g l.
Proof.
  intros X f g. induction l as [|x l IH]; intros H; cbn; auto. unfold cnt in *. specialize (IH (fun y Hy => H y (or_intror Hy))).
  pose proof (H x (or_introl eq_refl)) as Hx. cbn. destruct (f x); [rewrite (Hx eq_refl); cbn; lia|]. destruct (g x); cbn; lia.
Qed.
Lemma cnt_map : forall {X Y} (f : Y -> bool) (g : X -> Y) l, cnt f (map g l) = cnt (fun x => f (g x)) l.
Proof. intros X Y f g. induction l as [|x l IH]; cbn; auto. unfold cnt in *. cbn. destruct (f (g x)); cbn; lia. Qed.
Lemma cnt_filter : forall {X} (f h : X -> bool) l, cnt f (filter h l) <= cnt f l.
Proof. intros X f h. induction l as [|x l IH]; cbn; auto. unfold cnt in *. cbn. destruct (h x), (f x) eqn:E; cbn; rewrite ?E; cbn; lia. Qed.
Lemma cnt_zero : forall {X} (f : X -> bool) l, (forall x, In x l -> f x = false) -> cnt f l = 0.
Proof. intros X f. induction l as [|x l IH]; intros H; cbn; auto. unfold cnt in *. cbn. rewrite (H x (or_introl eq_refl)). apply IH. intros; apply H; right; auto. Qed.
Lemma cnt_flat : forall {X Y} (f : Y -> bool) (g : X -> bool) (h : X -> list Y) l,
  (forall x, In x l -> g x = false -> cnt f (h x) = 0) -> (forall x, In x l -> cnt f (h x) <= 1) -> cnt g l <= 1 -> cnt f (flat_map h l) <= 1.
Proof.
  intros X Y f g h l H0 H1 H2. assert (L : cnt f (flat_map h l) <= cnt g l); [|lia]. clear H2. induction l as [|x l IH]; cbn [flat_map]; auto.
  rewrite cnt_app. specialize (IH (fun y Hy => H0 y (or_intror Hy)) (fun y Hy => H1 y (or_intror Hy))).
  pose proof (H0 x (or_introl eq_refl)) as A. pose proof (H1 x (or_introl eq_refl)) as B. unfold cnt at 3. cbn [filter]. destruct (g x); cbn [length]; fold (cnt g l); [lia|].
  rewrite (A eq_refl). lia.
Qed.
Lemma cnt_key : forall {X} c (l : list (nat * X)), NoDup (map fst l) -> cnt (fun ce => fst ce =? c) l <= 1.
Proof.
  intros X c. induction l as [|[k x] l IH]; cbn; intros N; auto. inversion N; subst. unfold cnt. cbn. destruct (Nat.eqb_spec k c) as [->|D]; cbn.
  - replace (length _) with 0; [lia|]. symmetry. apply (cnt_zero (fun ce : nat * X => fst ce =? c)). intros [k y] Hy. cbn. apply Nat.eqb_neq. intros ->.
    apply H1. apply (in_map fst _ _ Hy).
  - apply IH. auto.
Qed.

(* ---------------- the invariant ---------------- *)

Definition ones (A : ta) : Prop := forall p s c es, In (p, s) (states A) -> In (c, es) (next s) -> cnt (acc_tgt A) es <= 1.
Definition still (_ : ptr) : nat := 0.

Record calmed (r : tre) (A : ta) : Prop := mkCa {
  ca_char : forall p c e, is_edge A p c e -> In c (tatoms r);
  ca_slow : slow r -> mild A still;
  ca_mild : gentle r -> exists rk, mild A rk;
  ca_time : nclocks r = 0 \/ exists k, In k (maxC A) /\ (1 <= k)%Z;
  ca_ones : ones A;
  ca_nodup : NoDup (inits A)
}.

Lemma acc_tgt_in : forall A e q, NoDup (map fst (states A)) -> etgt e = Some q -> acc_tgt A e = true -> accepting A q.
Proof. intros A e q N E H. apply (acc_tgt_spec A e q N E). exact H. Qed.

(* the rank of accepting states can be made 0, and everything else then
   decreases into them *)
Definition norm (A : ta) (rk : ptr -> nat) (p : ptr) : nat := if match_at A p then 0 else S (rk p).
Lemma norm_acc : forall A rk p, NoDup (map fst (states A)) -> accepting A p -> norm A rk p = 0.
Proof. intros A rk p N H. unfold norm. now rewrite (proj2 (match_at_spec A p N) H). Qed.
Lemma norm_mild : forall al n0 n1 A rk, tinv al n0 n1 A -> mild A rk -> mild A (norm A rk) /\
  forall p c e q, is_edge A p c e -> etgt e = Some q -> accepting A q -> norm A rk q < norm A rk p.
Proof.
  intros al n0 n1 A rk T M. pose proof (wf_nodup _ (ti_wf _ _ _ _ T)) as N.
  assert (S0 : forall p c e, is_edge A p c e -> norm A rk p = S (rk p)).
  { intros p c e H. unfold norm. destruct (match_at A p) eqn:E; auto. apply (match_at_spec A p N) in E. exfalso.
    destruct E as (s & Hs & Ms), H as (s2 & es & H2 & H3 & _). rewrite <- (NoDup_fst_inj _ _ _ _ N Hs H2) in H3.
    rewrite (ti_acc _ _ _ _ T _ _ Hs Ms) in H3. destruct H3. }
  split.
  - intros p c e q H E. rewrite (S0 _ _ _ H). destruct (M p c e q H E) as [L D]. unfold norm. destruct (match_at A q); [split; [lia|left; lia]|].
    split; [lia|]. destruct D as [D|D]; [left; lia|right; auto].
  - intros p c e q H E Ha. rewrite (S0 _ _ _ H), (norm_acc A rk q N Ha). lia.
Qed.

(* ---------------- merging and reducing ---------------- *)

Lemma mild_merge : forall al n0 n1 A rk, tinv al n0 n1 A -> mild A rk -> (forall p, accepting A p -> rk p = 0) -> mild (merge A) rk.
Proof.
  intros al n0 n1 A rk T M Z. destruct (terminals A) as [|f rest] eqn:ET; [unfold merge; rewrite ET; exact M|].
  intros p c e' q' H E. apply (merge_edge al n0 n1 A f rest T ET) in H as (e & q & H & Eq & ->). cbn [etgt eguard] in *. injection E as <-.
  assert (R : rk (rho (tb f rest) f q) = rk q).
  { unfold rho. destruct (tb f rest q) eqn:B; auto. rewrite (Z q), (Z f); auto.
    - apply (tb_spec al n0 n1 A f rest T ET). unfold tb. apply mem_In. left. auto.
    - apply (tb_spec al n0 n1 A f rest T ET). exact B. }
  rewrite R. apply (M p c e q H Eq).
Qed.

Lemma merge_ones : forall al n0 n1 A, tinv al n0 n1 A -> ones A -> ones (merge A).
Proof.
  intros al n0 n1 A T O. destruct (terminals A) as [|f rest] eqn:ET; [unfold merge; rewrite ET; exact O|].
  pose proof (wf_nodup _ (ti_wf _ _ _ _ T)) as N. pose proof (merge_nodup al n0 n1 A f rest T ET) as N'.
  intros p s' c es' H Hc. apply (merge_states A f rest ET) in H as (s & H & _ & ->). cbn [merged_state next] in Hc.
  apply in_map_next in Hc as (es & Hc & ->). rewrite cnt_map. etransitivity; [|apply (O p s c es H Hc)]. apply cnt_mono. intros e He Ha.
  assert (E : is_edge A p c e) by (exists s, es; auto). destruct (ti_tgt _ _ _ _ T _ _ _ E) as (q & Eq).
  rewrite (redirect_some f rest e q Eq) in Ha. eapply acc_tgt_in in Ha; [|exact N'|reflexivity].
  apply (merge_accepting al n0 n1 A f rest T ET) in Ha as [Ha _]. apply (acc_tgt_spec A e q N Eq). unfold rho in Ha.
  destruct (tb f rest q) eqn:B; auto. apply (tb_spec al n0 n1 A f rest T ET). exact B.
Qed.

(* Each list of B is a part of one of A. *)
Definition thin (A B : ta) : Prop := forall p s c es, In (p, s) (states B) -> In (c, es) (next s) ->
  exists s0 es0 h, In (p, s0) (states A) /\ In (c, es0) (next s0) /\ es = filter h es0.
Lemma thin_cut : forall A, thin A (removeStuckStates A).
Proof.
  intros A p s' c es H Hc. apply cut_states in H as (s & H & _ & ->). cbn [next] in Hc. unfold cut_next in Hc. apply filter_In in Hc as [Hc _].
  apply in_map_next in Hc as (es0 & Hc & ->). exists s, es0. eauto.
Qed.
Lemma filter_filter : forall {X} (f g : X -> bool) l, filter f (filter g l) = filter (fun x => g x && f x) l.
Proof. intros X f g. induction l as [|x l IH]; cbn; auto. destruct (g x); cbn; [destruct (f x); cbn; congruence|auto]. Qed.
Lemma thin_trans : forall A B C, thin A B -> thin B C -> thin A C.
Proof.
  intros A B C F G p s c es H Hc. destruct (G p s c es H Hc) as (s1 & es1 & h1 & K1 & K2 & ->). destruct (F p s1 c es1 K1 K2) as (s0 & es0 & h0 & L1 & L2 & ->).
  exists s0, es0, (fun e => h0 e && h1 e). repeat split; auto. apply filter_filter.
Qed.
Lemma thin_reduce : forall A B, reduceStates A = Ok B -> thin A B.
Proof.
  intros A. unfold reduceStates. generalize (S (length (states A))). intros n. revert A. induction n as [|n IH]; intros A B E; [discriminate|].
  cbn [reduce_loop] in E. destruct (_ =? _).
  - injection E as <-. apply thin_cut.
  - eapply thin_trans; [apply thin_cut|eauto].
Qed.

Lemma reduce_inits : forall A B, reduceStates A = Ok B -> exists f, inits B = filter f (inits A).
Proof.
  intros A. unfold reduceStates. generalize (S (length (states A))). intros n. revert A. induction n as [|n IH]; intros A B E; [discriminate|].
  cbn [reduce_loop] in E. destruct (_ =? _).
  - injection E as <-. cbn [removeStuckStates inits]. eauto.
  - destruct (IH _ _ E) as (f & ->). cbn [removeStuckStates inits]. rewrite filter_filter. eauto.
Qed.
Lemma merge_inits_nodup : forall A, NoDup (inits A) -> NoDup (inits (merge A)).
Proof.
  intros A N. unfold merge. destruct (terminals A) as [|f [|g rest]]; cbn [inits]; auto. apply NoDup_filter.
  assert (P : NoDup (psort (inits A))) by (eapply Permutation_NoDup; [apply Permutation_sym, psort_perm|auto]).
  destruct (negb (mem f (psort (inits A)))) eqn:E; cbn [andb]; auto. destruct (existsb _ _); auto.
  apply NoDup_app; auto; [constructor; auto; constructor|]. intros x Hx [<-|[]]. apply mem_In in Hx. rewrite Hx in E. discriminate.
Qed.

Lemma calmed_post : forall al n0 n1 r A B, tinv al n0 n1 A -> calmed r A -> reduceStates (merge A) = Ok B -> calmed r B.
Proof.
  intros al n0 n1 r A B T [CC CS CM CT CO CN] E. pose proof (wf_nodup _ (ti_wf _ _ _ _ T)) as N.
  assert (TM : wf_ta (merge A)).
  { destruct (terminals A) as [|f rest] eqn:ET; [unfold merge; rewrite ET; apply (ti_wf _ _ _ _ T)|]. apply (ti_wf _ _ _ _ (merge_tinv1 al n0 n1 A f rest T ET)). }
  destruct (reduceStates_ok (merge A) TM) as (B' & E' & R & _). rewrite E' in E. injection E as ->.
  assert (EM : maxC (merge A) = maxC A) by (unfold merge; destruct (terminals A) as [|f [|g rest]]; reflexivity).
  constructor.
  - intros p c e H. apply (rd_edge _ _ R) in H. destruct (terminals A) as [|f rest] eqn:ET; [unfold merge in H; rewrite ET in H; eauto|].
    destruct (proj1 (merge_edge al n0 n1 A f rest T ET p c e) H) as (e0 & q & H' & _ & _). eauto.
  - intros H p c e q He Eq. apply (rd_edge _ _ R) in He. eapply (mild_merge al n0 n1 A still); eauto.
  - intros H. destruct (CM H) as (rk & M). exists (norm A rk). intros p c e q He Eq. apply (rd_edge _ _ R) in He.
    eapply (mild_merge al n0 n1 A); eauto; [apply (norm_mild al n0 n1); auto|intros; apply norm_acc; auto].
  - rewrite (rd_max _ _ R), EM. exact CT.
  - intros p s c es H Hc. destruct (thin_reduce _ _ E' p s c es H Hc) as (s0 & es0 & h & H0 & Hc0 & ->).
    etransitivity; [|apply (merge_ones al n0 n1 A T CO p s0 c es0 H0 Hc0)]. etransitivity; [apply cnt_filter|]. apply cnt_mono.
    intros e He. unfold acc_tgt. destruct (etgt e) as [q|]; auto. intros Ha. apply (match_at_spec _ q (wf_nodup _ (rd_wf _ _ R))) in Ha.
    apply (match_at_spec _ q (wf_nodup _ TM)). apply (rd_acc _ _ R). exact Ha.
  - destruct (reduce_inits _ _ E') as (h & ->). apply NoDup_filter, merge_inits_nodup. auto.
Qed.

(* ---------------- atoms ---------------- *)

Lemma calmed_atom : forall al n c, injective al -> calmed (Atom c) (atomTA al c n).
Proof.
  intros al n c Inj. constructor.
  - intros p c' e H. apply (atom_edge al n Inj) in H as (_ & -> & _). left. auto.
  - intros _ p c' e q H _. apply (atom_edge al n Inj) in H as (_ & _ & ->). split; [apply le_n|right; constructor].
  - intros _. exists still. intros p c' e q H _. apply (atom_edge al n Inj) in H as (_ & _ & ->). split; [apply le_n|right; constructor].
  - left. reflexivity.
  - intros p s c' es H Hc. destruct H as [H|[H|[]]]; injection H as Ep Es; subst s; cbn [next] in Hc; [|destruct Hc].
    destruct Hc as [Hc|[]]. injection Hc as E1 E2. rewrite <- E2. unfold cnt. cbn [filter]. destruct (acc_tgt _ _); cbn; lia.
  - cbn. constructor; auto. constructor.
Qed.
Lemma calmed_eps : forall al n, calmed Eps (epsTA al n).
Proof.
  intros al n. constructor.
  - intros p c e H. destruct (eps_edge al n _ _ _ H).
  - intros _ p c e q H. destruct (eps_edge al n _ _ _ H).
  - intros _. exists still. intros p c e q H. destruct (eps_edge al n _ _ _ H).
  - left. reflexivity.
  - intros p s c es [H|[]] Hc. injection H as _ <-. destruct Hc.
  - cbn. constructor; auto. constructor.
Qed.

(* ---------------- Kleene plus ---------------- *)

Lemma no_init_acc : forall al r n0 n1 A, built al r n0 n1 A -> nullable r = false -> forall i, In i (inits A) -> ~ accepting A i.
Proof.
  intros al r n0 n1 A B H i Hi Ha. assert (X : nullable r = true); [|congruence].
  apply nullable_lang. apply (bu_lang _ _ _ _ _ B). apply lang_nil. eauto.
Qed.

Lemma calmed_plus : forall al n0 n1 r A, built al r n0 n1 A -> nullable r = false -> nclocks r <= 256 -> calmed r A -> calmed (Plus r) (plusTA A).
Proof.
  intros al n0 n1 r A B Nu K [CC CS CM CT CO CN]. pose proof (bu_inv _ _ _ _ _ B) as T. pose proof (wf_nodup _ (ti_wf _ _ _ _ T)) as N.
  assert (SL : slow r -> mild (plusTA A) still).
  { intros H p c e q He Eq. unfold still. split; [auto|right].
    apply (plus_edge al n0 n1 A T) in He as [He|(e1 & q1 & i & He & Eq1 & _ & _ & _ & _ & ->)].
    - destruct (CS H _ _ _ _ He Eq) as [_ [D|D]]; [unfold still in D; lia|auto].
    - destruct (CS H _ _ _ _ He Eq1) as [_ [D|D]]; [unfold still in D; lia|auto]. }
  constructor; cbn [tatoms slow gentle nclocks]; auto.
  - intros p c e He. apply (plus_edge al n0 n1 A T) in He as [He|(e1 & q1 & i & He & _)]; eauto.
  - intros H. exists still. auto.
  - intros p s' c es' H Hc. apply plus_state in H as (s & H & ->). cbn [next] in Hc. apply in_map_next in Hc as (es & Hc & ->).
    assert (X : forall e, acc_tgt (plusTA A) e = true -> acc_tgt A e = true).
    { intros e. unfold acc_tgt. destruct (etgt e) as [q|]; auto. intros Ha. apply (match_at_spec A q N).
      apply plus_accepting. apply (match_at_spec (plusTA A) q); auto. rewrite plus_keys. exact N. }
    unfold plus_edges. rewrite cnt_app. replace (cnt (acc_tgt (plusTA A)) (flat_map _ es)) with 0.
    + rewrite Nat.add_0_r. etransitivity; [|apply (CO p s c es H Hc)]. apply cnt_mono. auto.
    + symmetry. apply cnt_zero. intros e He. apply in_flat_map in He as (e1 & _ & He). destruct (acc_tgt A e1 && _); [|destruct He].
      apply in_map_iff in He as (i & <- & Hi). apply filter_In in Hi as [Hi _]. apply not_true_iff_false. intros Y. apply X in Y.
      eapply acc_tgt_in in Y; [|exact N|reflexivity]. eapply no_init_acc; eauto.
Qed.

(* ---------------- two automata ---------------- *)

Lemma zip_max_l : forall l r k, length l = length r -> In k l -> exists k', In k' (zip_with Z.max l r) /\ (k <= k')%Z.
Proof.
  induction l as [|x l IH]; intros [|y r] k E H; cbn in *; try discriminate; [destruct H|]. destruct H as [->|H].
  - exists (Z.max k y). split; [left; auto|lia].
  - destruct (IH r k ltac:(lia) H) as (k' & I1 & I2). eauto.
Qed.
Lemma zip_max_r : forall l r k, length l = length r -> In k r -> exists k', In k' (zip_with Z.max l r) /\ (k <= k')%Z.
Proof.
  induction l as [|x l IH]; intros [|y r] k E H; cbn in *; try discriminate; [destruct H|]. destruct H as [->|H].
  - exists (Z.max x k). split; [left; auto|lia].
  - destruct (IH r k ltac:(lia) H) as (k' & I1 & I2). eauto.
Qed.
Lemma resize_in : forall n l k, length l <= n -> In k l -> In k (resize n l).
Proof. intros n l k L H. unfold resize. apply in_or_app. left. rewrite firstn_all2 by lia. auto. Qed.
Lemma max_merge_time : forall l r, (exists k, In k l /\ (1 <= k)%Z) \/ (exists k, In k r /\ (1 <= k)%Z) -> exists k, In k (max_merge l r) /\ (1 <= k)%Z.
Proof.
  intros l r [(k & H & K)|(k & H & K)]; unfold max_merge;
    [destruct (zip_max_l (resize (Nat.max (length l) (length r)) l) (resize (Nat.max (length l) (length r)) r) k) as (k' & I1 & I2)
    |destruct (zip_max_r (resize (Nat.max (length l) (length r)) l) (resize (Nat.max (length l) (length r)) r) k) as (k' & I1 & I2)];
    try (rewrite !resize_len by lia; reflexivity); try (apply resize_in; auto; lia); exists k'; split; auto; lia.
Qed.
Lemma both_times : forall a b l r, (a = 0 \/ exists k, In k l /\ (1 <= k)%Z) -> (b = 0 \/ exists k, In k r /\ (1 <= k)%Z) ->
  Nat.max a b = 0 \/ exists k, In k (max_merge l r) /\ (1 <= k)%Z.
Proof. intros a b l r [->|H] [->|H']; [left; auto|right; apply max_merge_time; auto..]. Qed.

Section Two.
  Variables (al : nat -> ptr) (n0 n1 n2 : nat) (r1 r2 : tre) (A B : ta).
  Hypothesis Inj : injective al.
  Hypothesis B1 : built al r1 n0 n1 A.
  Hypothesis B2 : built al r2 n1 n2 B.
  Hypothesis C1 : calmed r1 A.
  Hypothesis C2 : calmed r2 B.

  Lemma apart : forall p, In p (map fst (states A)) -> In p (map fst (states B)) -> False.
  Proof. intros p. apply (ranges_disjoint al n0 n1 n2 A B p Inj (bu_inv _ _ _ _ _ B1) (bu_inv _ _ _ _ _ B2)). Qed.
  Lemma nodupA : NoDup (map fst (states A)).
  Proof. apply wf_nodup, (ti_wf _ _ _ _ (bu_inv _ _ _ _ _ B1)). Qed.
  Lemma nodupB : NoDup (map fst (states B)).
  Proof. apply wf_nodup, (ti_wf _ _ _ _ (bu_inv _ _ _ _ _ B2)). Qed.

  (* ranks of A above those of B *)
  Definition beside (h : nat) (ra rb : ptr -> nat) (p : ptr) : nat := if mem p (map fst (states A)) then h + ra p else rb p.
  Lemma beside_A : forall h ra rb p, In p (map fst (states A)) -> beside h ra rb p = h + ra p.
  Proof. intros. unfold beside. now rewrite (proj2 (mem_In _ _) H). Qed.
  Lemma beside_B : forall h ra rb p, In p (map fst (states B)) -> beside h ra rb p = rb p.
  Proof. intros. unfold beside. destruct (mem p (map fst (states A))) eqn:E; auto. apply mem_In in E. destruct (apart p E H). Qed.

  Lemma edgeA : forall p c e q, is_edge A p c e -> etgt e = Some q -> In p (map fst (states A)) /\ In q (map fst (states A)).
  Proof. intros p c e q H E. split; [eapply edge_source; eauto|]. eapply edge_target; eauto. apply (ti_wf _ _ _ _ (bu_inv _ _ _ _ _ B1)). Qed.
  Lemma edgeB : forall p c e q, is_edge B p c e -> etgt e = Some q -> In p (map fst (states B)) /\ In q (map fst (states B)).
  Proof. intros p c e q H E. split; [eapply edge_source; eauto|]. eapply edge_target; eauto. apply (ti_wf _ _ _ _ (bu_inv _ _ _ _ _ B2)). Qed.
  Lemma accA : forall q, accepting A q -> In q (map fst (states A)).
  Proof. intros. apply accepting_in; auto. Qed.

  Lemma calmed_alt : calmed (Alt r1 r2) (altTA A B).
  Proof.
    destruct C1 as [CC1 CS1 CM1 CT1 CO1 CN1], C2 as [CC2 CS2 CM2 CT2 CO2 CN2]. constructor; cbn [tatoms slow gentle nclocks].
    - intros p c e H. apply in_or_app. apply alt_edge in H as [H|H]; eauto.
    - intros [H1 H2] p c e q H E. apply alt_edge in H as [H|H]; [apply (CS1 H1 _ _ _ _ H E)|apply (CS2 H2 _ _ _ _ H E)].
    - intros [H1 H2]. destruct (CM1 H1) as (ra & Ma), (CM2 H2) as (rb & Mb). exists (beside 0 ra rb). intros p c e q H E. apply alt_edge in H as [H|H].
      + destruct (edgeA _ _ _ _ H E) as [Hp Hq]. rewrite !beside_A by auto. apply (Ma _ _ _ _ H E).
      + destruct (edgeB _ _ _ _ H E) as [Hp Hq]. rewrite !beside_B by auto. apply (Mb _ _ _ _ H E).
    - cbn [altTA maxC]. apply both_times; auto.
    - pose proof (alt_tinv al n0 n1 n2 A B Inj (bu_inv _ _ _ _ _ B1) (bu_inv _ _ _ _ _ B2) (bu_le _ _ _ _ _ B1) (bu_le _ _ _ _ _ B2)) as TA0.
      pose proof (wf_nodup _ (ti_wf _ _ _ _ TA0)) as NA.
      intros p s c es H Hc. cbn [altTA states] in H. apply in_app_or in H as [H|H].
      + etransitivity; [|apply (CO1 p s c es H Hc)]. apply cnt_mono. intros e He Ha.
        assert (E : is_edge A p c e) by (exists s, es; auto). destruct (ti_tgt _ _ _ _ (bu_inv _ _ _ _ _ B1) _ _ _ E) as (q & Eq).
        apply (acc_tgt_spec A e q nodupA Eq). eapply acc_tgt_in in Ha; eauto. apply alt_accepting in Ha as [Ha|Ha]; auto.
        destruct (apart q); [apply (edgeA _ _ _ _ E Eq)|apply accepting_in; auto].
      + etransitivity; [|apply (CO2 p s c es H Hc)]. apply cnt_mono. intros e He Ha.
        assert (E : is_edge B p c e) by (exists s, es; auto). destruct (ti_tgt _ _ _ _ (bu_inv _ _ _ _ _ B2) _ _ _ E) as (q & Eq).
        apply (acc_tgt_spec B e q nodupB Eq). eapply acc_tgt_in in Ha; eauto. apply alt_accepting in Ha as [Ha|Ha]; auto.
        destruct (apart q); [apply accepting_in; auto|apply (edgeB _ _ _ _ E Eq)].
    - cbn [altTA inits]. apply NoDup_app; auto. intros x H1 H2. apply (apart x); [apply (wf_inits _ (ti_wf _ _ _ _ (bu_inv _ _ _ _ _ B1)))|apply (wf_inits _ (ti_wf _ _ _ _ (bu_inv _ _ _ _ _ B2)))]; auto.
  Qed.

  Hypothesis K2 : nclocks r2 <= 256.

  Lemma catE : forall p c e, is_edge (concat2 A B) p c e <-> is_edge A p c e \/ is_edge B p c e \/
    cjump (is_edge A) (fun p => In p (inits B)) (accepting A) (clockSize B) p c e.
  Proof. apply (cat_edge al n0 n1 A B (bu_inv _ _ _ _ _ B1)). Qed.

  Lemma calmed_cat : calmed (Cat r1 r2) (concat2 A B).
  Proof.
    destruct C1 as [CC1 CS1 CM1 CT1 CO1 CN1], C2 as [CC2 CS2 CM2 CT2 CO2 CN2].
    assert (KB : clockSize B <= 256) by (rewrite (bu_clocks _ _ _ _ _ B2); auto). constructor; cbn [tatoms slow gentle nclocks].
    - intros p c e H. apply in_or_app. apply catE in H as [H|[H|(e1 & q & i & H & _)]]; eauto.
    - intros [H1 H2] p c e q H E. unfold still. split; auto. right. apply catE in H as [H|[H|(e1 & q1 & i & H & Eq & _ & _ & ->)]].
      + destruct (CS1 H1 _ _ _ _ H E) as [_ [D|D]]; [unfold still in D; lia|auto].
      + destruct (CS2 H2 _ _ _ _ H E) as [_ [D|D]]; [unfold still in D; lia|auto].
      + destruct (CS1 H1 _ _ _ _ H Eq) as [_ [D|D]]; [unfold still in D; lia|auto].
    - intros [H1 H2]. destruct (CM1 H1) as (ra & Ma), (CM2 H2) as (rb & Mb).
      exists (beside (S (list_max (map rb (map fst (states B))))) ra rb). intros p c e q H E. apply catE in H as [H|[H|(e1 & q1 & i & H & Eq & Hq & Hi & ->)]].
      + destruct (edgeA _ _ _ _ H E) as [Hp Hq]. rewrite !beside_A by auto. destruct (Ma _ _ _ _ H E) as [L [D|D]]; (split; [lia|]); [left; lia|right; auto].
      + destruct (edgeB _ _ _ _ H E) as [Hp Hq]. rewrite !beside_B by auto. apply (Mb _ _ _ _ H E).
      + cbn [etgt eguard] in *. injection E as <-. destruct (edgeA _ _ _ _ H Eq) as [Hp _]. rewrite (beside_A _ _ _ p) by auto.
        pose proof (wf_inits _ (ti_wf _ _ _ _ (bu_inv _ _ _ _ _ B2)) _ Hi) as Ki. rewrite (beside_B _ _ _ i) by auto.
        assert (L : rb i <= list_max (map rb (map fst (states B)))).
        { pose proof (proj1 (list_max_le (map rb (map fst (states B))) _) (le_n _)) as F. rewrite Forall_forall in F. apply F. apply in_map. auto. }
        split; [lia|left; lia].
    - cbn [concat2 maxC]. apply both_times; auto.
    - pose proof (cat_tinv al n0 n1 n2 A B Inj (bu_inv _ _ _ _ _ B1) (bu_inv _ _ _ _ _ B2) (bu_le _ _ _ _ _ B1) (bu_le _ _ _ _ _ B2) KB) as TA0.
      pose proof (wf_nodup _ (ti_wf _ _ _ _ TA0)) as NA.
      intros p s' c es' H Hc. apply (cat_state A B) in H as [(s & H & ->)|(s & H & ->)].
      + cbn [left_state next] in Hc. apply in_map_next in Hc as (es & Hc & ->).
        assert (Et : forall e1, In e1 es -> exists q, etgt e1 = Some q).
        { intros e1 H1. apply (ti_tgt _ _ _ _ (bu_inv _ _ _ _ _ B1) p c). exists s, es. auto. }
        unfold cat_edges. rewrite cnt_app, cnt_zero.
        * cbn [Nat.add]. apply (cnt_flat _ (acc_tgt A)); [intros e He ->; reflexivity| |apply (CO1 p s c es H Hc)].
          intros e He. destruct (acc_tgt A e); [|cbn; auto]. rewrite cnt_map. clear - NA CN2 B2 CN1. 
          assert (Q : forall i, acc_tgt (concat2 A B) (mkE (Some i) (iota (clockSize B)) (eguard e)) = true -> accepting B i).
          { intros i Ha. eapply acc_tgt_in in Ha; [|exact NA|reflexivity]. apply (cat_accepting A B) in Ha. auto. }
          assert (X : forall l g, NoDup l -> (forall i, g i = true -> accepting B i) -> cnt g l <= 1); [|apply X; auto].
          clear - B2. induction l as [|i l IH]; intros g N Q; [cbn; auto|]. inversion N as [|? ? N1 N2]; subst. unfold cnt. cbn [filter]. destruct (g i) eqn:G; [|apply (IH g); auto].
          cbn [length]. replace (length (filter g l)) with 0; [auto|]. symmetry. apply (cnt_zero g). intros j Hj. apply not_true_iff_false. intros Gj.
          apply N1. rewrite (bu_one _ _ _ _ _ B2 i j); auto.
        * intros e He. apply not_true_iff_false. intros Ha. destruct (Et e He) as (q & Eq). eapply acc_tgt_in in Ha; eauto. apply (cat_accepting A B) in Ha.
          destruct (apart q); [|apply accepting_in; auto]. assert (E : is_edge A p c e) by (exists s, es; auto). apply (edgeA _ _ _ _ E Eq).
      + destruct (right_state_same A B p s) as (_ & En & _). rewrite En in Hc. etransitivity; [|apply (CO2 p s c es' H Hc)]. apply cnt_mono. intros e He Ha.
        assert (E : is_edge B p c e) by (exists s, es'; auto). destruct (ti_tgt _ _ _ _ (bu_inv _ _ _ _ _ B2) _ _ _ E) as (q & Eq).
        apply (acc_tgt_spec B e q nodupB Eq). eapply acc_tgt_in in Ha; eauto. apply (cat_accepting A B) in Ha. auto.
    - cbn [concat2 inits]. destruct (existsb _ _); [|rewrite app_nil_r; auto]. apply NoDup_app; auto.
      intros x H1 H2. apply (apart x); [apply (wf_inits _ (ti_wf _ _ _ _ (bu_inv _ _ _ _ _ B1)))|apply (wf_inits _ (ti_wf _ _ _ _ (bu_inv _ _ _ _ _ B2)))]; auto.
  Qed.
End Two.

(* ---------------- conjunction ---------------- *)

Lemma push_edge_other : forall l c e c' es, In (c', es) (push_edge l c e) -> c' <> c -> In (c', es) l.
Proof.
  induction l as [|[k x] l IH]; cbn; intros c e c' es H D.
  - destruct H as [H|[]]. congruence.
  - destruct (c =? k) eqn:E; [destruct H as [H|H]; auto; apply Nat.eqb_eq in E; congruence|]. destruct H as [H|H]; auto. right. eapply IH; eauto.
Qed.
Definition here {X} (c : nat) (l : list (nat * list X)) : list X := match assoc c l with Some x => x | None => [] end.
Lemma push_edge_here : forall l c e c', here c' (push_edge l c e) = here c' l ++ (if c' =? c then [e] else []).
Proof.
  unfold here. induction l as [|[k x] l IH]; intros c e c'; cbn.
  - destruct (Nat.eqb_spec c' c); auto.
  - destruct (Nat.eqb_spec c k) as [->|D]; cbn.
    + destruct (Nat.eqb_spec c' k) as [->|D']; [auto|]. now rewrite app_nil_r.
    + destruct (Nat.eqb_spec c' k) as [->|D']; [|apply IH]. destruct (Nat.eqb_spec k c); [congruence|]. now rewrite app_nil_r.
Qed.
Lemma fold_push_here : forall ps l c, here c (fold_left (fun l ce => push_edge l (fst ce) (snd ce)) ps l) = here c l ++ map snd (filter (fun ce => fst ce =? c) ps).
Proof.
  induction ps as [|[k e] ps IH]; intros l c; cbn [fold_left filter map fst snd]; [now rewrite app_nil_r|].
  rewrite IH, push_edge_here, <- app_assoc. f_equal. rewrite (Nat.eqb_sym c k). destruct (k =? c); reflexivity.
Qed.
Lemma here_in : forall {X} c es (l : list (nat * list X)), NoDup (map fst l) -> In (c, es) l -> here c l = es.
Proof. intros X c es l N H. unfold here. now rewrite (In_assoc _ _ _ N H). Qed.

Section Conj.
  Variables (al : nat -> ptr) (n0 n1 n2 : nat) (r1 r2 : tre) (A B : ta).
  Hypothesis Inj : injective al.
  Hypothesis B1 : built al r1 n0 n1 A.
  Hypothesis B2 : built al r2 n1 n2 B.
  Hypothesis C1 : calmed r1 A.
  Hypothesis C2 : calmed r2 B.
  Hypothesis F1 : flag r1 = NoFlag.
  Hypothesis F2 : flag r2 = NoFlag.
  Hypothesis K : nclocks r1 + nclocks r2 <= 256.

  Let f := fr al n2 A B.
  Let P := andTA al n2 A B.
  Let T1 := bu_inv _ _ _ _ _ B1.
  Let T2 := bu_inv _ _ _ _ _ B2.

  Lemma FA : flg NoFlag A. Proof. rewrite <- F1. apply (bu_flg _ _ _ _ _ B1). Qed.
  Lemma FB : flg NoFlag B. Proof. rewrite <- F2. apply (bu_flg _ _ _ _ _ B2). Qed.
  Lemma KK : clockSize A + clockSize B <= 256.
  Proof. rewrite (bu_clocks _ _ _ _ _ B1), (bu_clocks _ _ _ _ _ B2). exact K. Qed.

  Lemma f_inj : forall p1 p2 q1 q2, In p1 (map fst (states A)) -> In q1 (map fst (states A)) -> In p2 (map fst (states B)) -> In q2 (map fst (states B)) ->
    f p1 p2 = f q1 q2 -> p1 = q1 /\ p2 = q2.
  Proof. apply (fr_inj al n0 n1 n2 A B Inj (bu_le _ _ _ _ _ B1) (bu_le _ _ _ _ _ B2) KK). Qed.

  Lemma and_ones : ones P.
  Proof.
    pose proof (wf_nodup _ (ti_wf _ _ _ _ T1)) as N1. pose proof (wf_nodup _ (ti_wf _ _ _ _ T2)) as N2.
    assert (WP : wf_ta P) by (eapply (and_wf al n0 n1 n2 A B); eauto using FA, FB, KK, bu_le, bu_free).
    intros q s c es H Hc. pose proof (wf_keys _ WP _ _ H) as NK. apply (out_states_in A B f) in H as (p1 & s1 & p2 & s2 & H1 & H2 & _ & -> & ->).
    assert (I1 : In p1 (map fst (states A))) by apply (in_map fst _ _ H1). assert (I2 : In p2 (map fst (states B))) by apply (in_map fst _ _ H2).
    assert (E : es = here c (next (prod_state A B f p1 s1 p2 s2))) by (symmetry; apply here_in; auto).
    cbn [prod_state next] in E. rewrite fold_push_here in E. cbn [here assoc app] in E. subst es.
    assert (L : cnt (fun ce => (fst ce =? c) && acc_tgt P (snd ce)) (prod_pushes A B f p1 s1 p2 s2) <= 1).
    { unfold prod_pushes. cbn zeta. rewrite !cnt_app.
      assert (Z1 : next_find s1 0 = []).
      { destruct (next_find s1 0) as [|e l] eqn:X; auto. exfalso. assert (In e (next_find s1 0)) by (rewrite X; left; auto).
        apply next_find_has in H as (es & Y1 & Y2); [|apply (wf_keys _ (ti_wf _ _ _ _ T1) _ _ H1)]. apply (ti_obs _ _ _ _ T1 p1 0 e); auto. exists s1, es. auto. }
      assert (Z2 : next_find s2 0 = []).
      { destruct (next_find s2 0) as [|e l] eqn:X; auto. exfalso. assert (In e (next_find s2 0)) by (rewrite X; left; auto).
        apply next_find_has in H as (es & Y1 & Y2); [|apply (wf_keys _ (ti_wf _ _ _ _ T2) _ _ H2)]. apply (ti_obs _ _ _ _ T2 p2 0 e); auto. exists s2, es. auto. }
      rewrite Z1, Z2. cbn [flat_map]. change (cnt _ (@nil (nat * edge))) with 0. cbn [Nat.add].
      assert (NT : NoDup (map fst (next (touch0 s1)))).
      { pose proof (wf_keys _ (ti_wf _ _ _ _ T1) _ _ H1) as N. unfold touch0. destruct (assoc 0 (next s1)) eqn:X; auto. cbn [next]. rewrite map_app. cbn.
        apply assoc_None in X. apply NoDup_app; auto; [constructor; auto; constructor|]. intros x Hx [<-|[]]. auto. }
      apply (cnt_flat _ (fun ce : nat * list edge => fst ce =? c)); [| |apply cnt_key; auto].
      - intros [k es] Hk D. cbn [fst snd] in *. apply cnt_zero. intros ce Hce. apply in_flat_map in Hce as (e1 & _ & Hce).
        destruct (etgt e1); [|destruct Hce]. apply in_flat_map in Hce as (e2 & _ & Hce). destruct (etgt e2); [|destruct Hce].
        destruct Hce as [<-|[]]. cbn [fst]. now rewrite D.
      - intros [k es] Hk. cbn [fst snd].
        assert (Hk1 : es = [] \/ In (k, es) (next s1)).
        { unfold touch0 in Hk. destruct (assoc 0 (next s1)); auto. cbn [next] in Hk. apply in_app_or in Hk as [Hk|[Hk|[]]]; auto. injection Hk as <- <-. auto. }
        destruct Hk1 as [->|Hk1]; [cbn; auto|].
        assert (Q : forall e1 t1 e2 t2, In e1 es -> etgt e1 = Some t1 -> In e2 (next_find s2 k) -> etgt e2 = Some t2 ->
          acc_tgt P (prod_edge (clockSize A) (toI A B f t1 t2) e1 e2) = true -> acc_tgt A e1 = true /\ acc_tgt B e2 = true).
        { intros e1 t1 e2 t2 J1 Et1 J2 Et2 Ha. unfold acc_tgt in Ha. cbn [prod_edge etgt] in Ha. destruct (toI A B f t1 t2) as [q|] eqn:TI; [|discriminate].
          apply toI_iff in TI as (J3 & J4 & _ & ->). apply (match_at_spec P _ (wf_nodup _ WP)) in Ha.
          apply (and_acc_fr al n0 n1 n2 A B) in Ha as [Ha Hb]; eauto using FA, FB, KK, bu_le, bu_free.
          split; [apply (acc_tgt_spec A e1 t1 N1 Et1)|apply (acc_tgt_spec B e2 t2 N2 Et2)]; auto. }
        apply (cnt_flat _ (acc_tgt A)); [| |apply (ca_ones _ _ C1 p1 s1 k es H1 Hk1)].
        + intros e1 J1 D. apply cnt_zero. intros ce Hce. destruct (etgt e1) as [t1|] eqn:Et1; [|destruct Hce]. apply in_flat_map in Hce as (e2 & J2 & Hce).
          destruct (etgt e2) as [t2|] eqn:Et2; [|destruct Hce]. destruct Hce as [<-|[]]. cbn [fst snd]. apply andb_false_iff. right.
          apply not_true_iff_false. intros X. apply (Q e1 t1 e2 t2) in X as [X _]; auto. congruence.
        + intros e1 J1. destruct (etgt e1) as [t1|] eqn:Et1; [|cbn; auto].
          apply (cnt_flat _ (acc_tgt B)).
          * intros e2 J2 D. destruct (etgt e2) as [t2|] eqn:Et2; [|reflexivity]. apply cnt_zero. intros ce [<-|[]]. cbn [fst snd]. apply andb_false_iff. right.
            apply not_true_iff_false. intros X. apply (Q e1 t1 e2 t2) in X as [_ X]; auto. congruence.
          * intros e2 J2. destruct (etgt e2); [|cbn; auto]. unfold cnt. cbn [filter]. destruct (_ && _); cbn; auto.
          * unfold next_find. destruct (assoc k (next s2)) as [es2|] eqn:X; [|cbn; auto]. apply assoc_In in X. apply (ca_ones _ _ C2 p2 s2 k es2 H2 X). }
    etransitivity; [|exact L]. rewrite cnt_map. clear. induction (prod_pushes A B f p1 s1 p2 s2) as [|[k e] l IH]; cbn; auto.
    unfold cnt in *. cbn [filter fst snd]. destruct (k =? c); cbn [andb filter snd]; auto. destruct (acc_tgt P e); cbn; lia.
  Qed.

  Lemma and_nodup : NoDup (inits A) -> NoDup (inits B) -> NoDup (inits P).
  Proof.
    pose proof (ti_wf _ _ _ _ T1) as W1. pose proof (ti_wf _ _ _ _ T2) as W2. intros N1 N2. unfold P, andTA, intersectionTA, prod_inits. cbn [inits]. fold f.
    assert (S1 : forall p, In p (inits A) -> In p (map fst (states A))) by apply (wf_inits _ W1).
    assert (S2 : forall p, In p (inits B) -> In p (map fst (states B))) by apply (wf_inits _ W2).
    revert S1 S2 N1 N2. generalize (inits A) as la, (inits B) as lb.
    assert (I : forall p lb q, In q (flat_map (fun p2 => match toI A B f p p2 with Some q => [q] | None => [] end) lb) ->
      exists p2, In p2 lb /\ In p (map fst (states A)) /\ In p2 (map fst (states B)) /\ q = f p p2).
    { intros p lb q H. apply in_flat_map in H as (p2 & H2 & H). destruct (toI A B f p p2) as [x|] eqn:E; [|destruct H]. destruct H as [->|[]].
      apply toI_iff in E as (K1 & K2 & _ & ->). eauto 6. }
    induction la as [|p la IH]; intros lb S1 S2 N1 N2; cbn [flat_map]; [constructor|]. inversion N1; subst. apply NoDup_app.
    - clear - I N2 S2 S1 T1 T2 Inj B1 B2 K. induction lb as [|p2 lb IH]; cbn [flat_map]; [constructor|]. inversion N2; subst.
      specialize (IH (fun q Hq => S2 q (or_intror Hq)) H2). destruct (toI A B f p p2) as [x|] eqn:E; cbn [app]; auto. constructor; auto.
      intros Hx. apply I in Hx as (p3 & H3 & K1 & K3 & ->). apply toI_iff in E as (K4 & K5 & _ & E). apply f_inj in E as [_ <-]; auto.
    - apply IH; auto. intros; apply S1; right; auto.
    - intros x Hx Hy. apply I in Hx as (p2 & H2' & K1 & K2 & ->). apply in_flat_map in Hy as (p' & Hp & Hy). apply I in Hy as (p3 & H3 & K3 & K4 & E).
      apply f_inj in E as [<- _]; auto.
  Qed.

  Lemma calmed_and : calmed (And r1 r2) P.
  Proof.
    pose proof (ti_wf _ _ _ _ T1) as W1. pose proof (ti_wf _ _ _ _ T2) as W2. pose proof and_ones as O.
    destruct C1 as [CC1 CS1 CM1 CT1 CO1 CN1], C2 as [CC2 CS2 CM2 CT2 CO2 CN2]. constructor; cbn [tatoms slow gentle nclocks]; auto.
    - intros p c e H. apply (and_edge al n0 n1 n2 A B) in H as (p1 & p2 & e1 & t1 & e2 & t2 & _ & H & _); eauto using FA, FB, KK, bu_le, bu_free.
      apply in_or_app. eauto.
    - intros [H1 H2] p c e q H E. destruct (mild_product A B f still still W1 W2 f_inj (CS1 H1) (CS2 H2) p c e q H E) as [_ [D|D]]; [|split; [apply le_n|right; auto]].
      exfalso. assert (Z : forall x, rank2 A B f still still x = 0) by (intros x; unfold rank2; destruct (find _ _) as [[]|]; reflexivity). rewrite !Z in D. lia.
    - intros [H1 H2]. destruct (CM1 H1) as (ra & Ma), (CM2 H2) as (rb & Mb). exists (rank2 A B f ra rb). apply mild_product; auto. apply f_inj.
    - destruct CT1 as [->|(k & Hk & L)]; [destruct CT2 as [->|(k & Hk & L)]; [left; auto|]|]; right; exists k; split; auto; apply in_or_app; auto.
    - apply and_nodup; auto.
  Qed.
End Conj.

(* ---------------- restriction ---------------- *)

Lemma calmed_within : forall al n0 n1 r A Iv lo up, built al r n0 n1 A -> calmed r A -> fst (lob Iv) = Fin (inject_Z lo) -> (1 <= up)%Z ->
  calmed (Within r Iv) (wTA A Iv lo up).
Proof.
  intros al n0 n1 r A Iv lo up B [CC CS CM CT CO CN] El Lu. pose proof (bu_inv _ _ _ _ _ B) as T. pose proof (wf_nodup _ (ti_wf _ _ _ _ T)) as N.
  constructor; cbn [tatoms slow gentle nclocks].
  - intros p c e' H. apply (w_edge al n0 n1 A Iv lo up T) in H as (e & q & H & _). eauto.
  - intros [H HL] p c e' q' He Eq. apply (w_edge al n0 n1 A Iv lo up T) in He as (e & q & He & Et & ->). split; [apply le_n|right]. cbn [eguard].
    destruct (CS H _ _ _ _ He Et) as [_ [D|D]]; [unfold still in D; lia|]. destruct (match_at A q); auto. apply Forall_app. split; auto.
    unfold within_guard. constructor; [|constructor; [|constructor]]; unfold mildc; cbn [codr cc].
    + destruct (snd (upb Iv)); auto.
    + right. right. auto.
  - intros H. destruct (CM H) as (rk & M). exists (norm A rk). destruct (norm_mild al n0 n1 A rk T M) as [M1 M2].
    intros p c e' q' He Eq. apply (w_edge al n0 n1 A Iv lo up T) in He as (e & q & He & Et & ->). cbn [etgt eguard] in *. injection Eq as <-.
    destruct (M1 _ _ _ _ He Et) as [L D]. split; auto. destruct (match_at A q) eqn:X; auto. left. apply (M2 p c e q He Et). apply (match_at_spec A q N). auto.
  - right. exists up. split; auto. cbn [wTA maxC]. apply in_or_app. right. left. auto.
  - intros p s' c es' H Hc. apply (w_state A Iv lo up) in H as (s & H & ->). cbn [wstate next] in Hc. apply in_map_next in Hc as (es & Hc & ->).
    rewrite cnt_map. etransitivity; [|apply (CO p s c es H Hc)]. apply cnt_mono. intros e He Ha.
    assert (Ew : etgt (wedge A Iv lo up e) = etgt e) by (unfold wedge; destruct (acc_tgt A e); reflexivity).
    unfold acc_tgt in *. rewrite Ew in Ha. destruct (etgt e) as [q|]; auto. apply (match_at_spec A q N). apply (w_accepting A Iv lo up).
    apply (match_at_spec (wTA A Iv lo up) q); auto. rewrite w_keys. exact N.
  - cbn [wTA inits]. apply NoDup_filter. auto.
Qed.

(* ---------------- every expression ---------------- *)

Theorem toEventTA_calmed : forall al r n A m, injective al -> plain r -> nclocks r <= 256 -> toEventTA al r n = Ok (A, m) -> calmed r A.
Proof.
  intros al r n A m Inj. revert n A m.
  induction r as [c| |r IH|r1 IH1 r2 IH2|r1 IH1 r2 IH2|r1 IH1 r2 IH2|r IH Iv]; intros n A m P K E.
  - cbn [toEventTA bind fst snd] in E. apply bind_Ok in E as (B & E & X). injection X as <- <-.
    eapply (calmed_post al n (S (S n)) (Atom c) (atomTA al c n)); eauto; [apply atom_tinv; auto|apply calmed_atom; auto].
  - cbn [toEventTA bind fst snd] in E. apply bind_Ok in E as (B & E & X). injection X as <- <-.
    eapply (calmed_post al n (S n) Eps (epsTA al n)); eauto; [apply eps_tinv; auto|apply calmed_eps].
  - cbn [toEventTA] in E. cbn [plain nclocks] in P, K. destruct P as (P & F & Nu). pose proof (plain_ok r P) as O. apply bind_Ok in E as (X & E & E2). apply bind_Ok in E2 as (B & E2 & X2).
    injection X2 as <- <-. apply bind_Ok in E as ([A1 n1] & E & X1). injection X1 as <-. cbn [fst snd] in *.
    pose proof (toEventTA_inv al r n A1 n1 Inj O K E) as Bu.
    eapply (calmed_post al n n1 (Plus r) (plusTA A1)); eauto; [apply plus_tinv; [apply Bu|rewrite (bu_clocks _ _ _ _ _ Bu); auto]|eapply calmed_plus; eauto].
  - cbn [toEventTA] in E. cbn [plain nclocks] in P, K. destruct P as [P1 P2]. pose proof (plain_ok r1 P1) as O1. pose proof (plain_ok r2 P2) as O2.
    apply bind_Ok in E as (X & E & E2). apply bind_Ok in E2 as (B & E2 & X2). injection X2 as <- <-.
    apply bind_Ok in E as ([A1 n1] & Ea & E). apply bind_Ok in E as ([A2 n2] & Eb & X1). injection X1 as <-. cbn [fst snd] in *.
    pose proof (toEventTA_inv al r1 n A1 n1 Inj O1 ltac:(lia) Ea) as Bu1. pose proof (toEventTA_inv al r2 n1 A2 n2 Inj O2 ltac:(lia) Eb) as Bu2.
    assert (KB : clockSize A2 <= 256) by (rewrite (bu_clocks _ _ _ _ _ Bu2); lia).
    eapply (calmed_post al n n2 (Cat r1 r2) (concat2 A1 A2)); eauto.
    + eapply cat_tinv; eauto using bu_inv, bu_le.
    + apply (calmed_cat al n n1 n2); auto; [eapply IH1; eauto; lia|eapply IH2; eauto; lia|lia].
  - cbn [toEventTA] in E. cbn [plain nclocks] in P, K. destruct P as [P1 P2]. pose proof (plain_ok r1 P1) as O1. pose proof (plain_ok r2 P2) as O2.
    apply bind_Ok in E as (X & E & E2). apply bind_Ok in E2 as (B & E2 & X2). injection X2 as <- <-.
    apply bind_Ok in E as ([A1 n1] & Ea & E). apply bind_Ok in E as ([A2 n2] & Eb & X1). injection X1 as <-. cbn [fst snd] in *.
    pose proof (toEventTA_inv al r1 n A1 n1 Inj O1 ltac:(lia) Ea) as Bu1. pose proof (toEventTA_inv al r2 n1 A2 n2 Inj O2 ltac:(lia) Eb) as Bu2.
    eapply (calmed_post al n n2 (Alt r1 r2) (altTA A1 A2)); eauto.
    + eapply alt_tinv; eauto using bu_inv, bu_le.
    + apply (calmed_alt al n n1 n2); auto; [eapply IH1; eauto; lia|eapply IH2; eauto; lia].
  - cbn [toEventTA] in E. cbn [plain nclocks] in P, K. destruct P as (P1 & P2 & F1 & F2). pose proof (plain_ok r1 P1) as O1. pose proof (plain_ok r2 P2) as O2.
    apply bind_Ok in E as (X & E & E2). apply bind_Ok in E2 as (B & E2 & X2). injection X2 as <- <-.
    apply bind_Ok in E as ([A1 n1] & Ea & E). apply bind_Ok in E as ([A2 n2] & Eb & X1). injection X1 as <-. cbn [fst snd] in *.
    pose proof (toEventTA_inv al r1 n A1 n1 Inj O1 ltac:(lia) Ea) as Bu1. pose proof (toEventTA_inv al r2 n1 A2 n2 Inj O2 ltac:(lia) Eb) as Bu2.
    assert (KA : clockSize A1 + clockSize A2 <= 256) by (rewrite (bu_clocks _ _ _ _ _ Bu1), (bu_clocks _ _ _ _ _ Bu2); lia).
    pose proof (bu_flg _ _ _ _ _ Bu1) as G1. rewrite F1 in G1. pose proof (bu_flg _ _ _ _ _ Bu2) as G2. rewrite F2 in G2.
    eapply (calmed_post al n (n2 + length (states A1) * length (states A2)) (And r1 r2) (andTA al n2 A1 A2)); [| |exact E2].
    + eapply and_tinv; eauto using bu_inv, bu_le, bu_free.
    + apply (calmed_and al n n1 n2 r1 r2); auto; [eapply IH1; eauto; lia|eapply IH2; eauto; lia].
  - cbn [toEventTA] in E. cbn [plain nclocks] in P, K. destruct P as (P & F & Nu & lo & up & E1 & E2 & Lu). pose proof (plain_ok r P) as O.
    apply bind_Ok in E as (X & E & E3). apply bind_Ok in E3 as (B & E3 & X2). injection X2 as <- <-.
    apply bind_Ok in E as ([A1 n1] & Ea & E). apply bind_Ok in E as (B1 & Ew & X1). injection X1 as <-. cbn [fst snd] in *.
    pose proof (toEventTA_inv al r n A1 n1 Inj O ltac:(lia) Ea) as Bu.
    assert (KA : clockSize A1 < 256) by (rewrite (bu_clocks _ _ _ _ _ Bu); lia).
    rewrite (withinTA_ok al n n1 A1 Iv lo up (bu_inv _ _ _ _ _ Bu) E1 E2 KA) in Ew. injection Ew as <-.
    eapply (calmed_post al n (S n1) (Within r Iv) (wTA A1 Iv lo up)); eauto.
    + eapply w_tinv; eauto using bu_inv, bu_le.
    + eapply calmed_within; eauto. eapply IH; eauto. lia.
Qed.
