(* Expressions whose automata have no cycles but self-loops that do nothing, have
   their initial states in order, and bound no clock from above that was not
   reset. *)
From Coq Require Import QArith Bool List ZArith Arith Lia Sorted Permutation.
From Verif Require Import Num Outcome Interval Constraint Zone TA Spec TAFacts Intersection IntersectionFacts Tre TreRun TreFacts TreBuild TreLang PropTre ZATerm ZAFin KmpTerm KmpUB Monaa SkipFacts PropSkip TreMild.
Import ListNotations.
Open Scope nat_scope.

(* ---------------- the expressions ---------------- *)

(* + stands only behind letters. *)
Fixpoint lean (r : tre) : Prop :=
  match r with
  | Atom _ | Eps => True
  | Plus r1 => match r1 with Atom _ => True | _ => False end
  | Cat r1 r2 | Alt r1 r2 | And r1 r2 => lean r1 /\ lean r2
  | Within r1 _ => lean r1
  end.
(* One initial state. *)
Fixpoint single (r : tre) : Prop :=
  match r with
  | Atom _ => True
  | Eps | Alt _ _ => False
  | Plus r1 | Within r1 _ | Cat r1 _ => single r1
  | And r1 r2 => single r1 /\ single r2
  end.
(* The initial states in order. *)
Fixpoint orderly (r : tre) : Prop :=
  match r with
  | Atom _ => True
  | Alt r1 r2 => nullable r1 = false /\ nullable r2 = false
  | Eps => False
  | Plus r1 | Within r1 _ | Cat r1 _ => orderly r1
  | And r1 r2 => single r1 /\ single r2
  end.
(* No restriction of what stands at the beginning. *)
Fixpoint late (r : tre) : Prop :=
  match r with
  | Atom _ | Eps => True
  | Within _ _ => False
  | Plus r1 => late r1
  | Cat r1 r2 => late r1 /\ (nullable r1 = true -> late r2)
  | Alt r1 r2 | And r1 r2 => late r1 /\ late r2
  end.

Lemma single_some : forall r, single r -> nullable r = false.
Proof.
  induction r as [c| |r IH|r1 IH1 r2 IH2|r1 IH1 r2 IH2|r1 IH1 r2 IH2|r IH Iv]; cbn [single nullable]; intros H; try contradiction; auto.
  - rewrite IH1; auto.
  - rewrite IH1; tauto.
  - rewrite IH; auto.
Qed.
Lemma orderly_some : forall r, orderly r -> nullable r = false.
Proof.
  induction r as [c| |r IH|r1 IH1 r2 IH2|r1 IH1 r2 IH2|r1 IH1 r2 IH2|r IH Iv]; cbn [orderly nullable]; intros H; try contradiction; auto.
  - rewrite IH1; auto.
  - destruct H as [-> ->]. auto.
  - destruct H as [H _]. rewrite (single_some _ H). auto.
  - rewrite IH; auto.
Qed.

(* ---------------- the invariant ---------------- *)

Definition isupper (g : constr) : Prop := codr g = Lt \/ codr g = Le.
Definition after_reset (A : ta) : Prop := exists R : ptr -> nat -> Prop,
  (forall p x, In p (inits A) -> ~ R p x) /\ (forall p x, accepting A p -> ~ R p x) /\
  forall p c e q, is_edge A p c e -> etgt e = Some q ->
    (forall g, In g (eguard e) -> isupper g -> R p (cx g)) /\ (forall x, R q x -> R p x \/ In x (eresets e)).

Record leaned (r : tre) (A : ta) : Prop := mkLe {
  le_some : exists p, accepting A p;
  le_single : single r -> length (inits A) <= 1;
  le_order : orderly r -> StronglySorted le (inits A);
  le_idle : lean r -> exists rk, idle_loops A rk;
  le_late : late r -> after_reset A
}.

Lemma sorted_short : forall l : list nat, length l <= 1 -> StronglySorted le l.
Proof. intros [|a [|b l]] H; cbn in H; try lia; repeat constructor. Qed.
Lemma sorted_filter : forall (f : nat -> bool) l, StronglySorted le l -> StronglySorted le (filter f l).
Proof.
  intros f. induction l as [|a l IH]; intros S; cbn; [constructor|]. inversion S as [|? ? S1 S2]; subst. destruct (f a); auto. constructor; auto.
  rewrite Forall_forall in *. intros x Hx. apply filter_In in Hx as [Hx _]. auto.
Qed.
Lemma pinsert_sorted : forall x l, StronglySorted le l -> StronglySorted le (pinsert x l).
Proof.
  intros x. induction l as [|a l IH]; intros S; cbn [pinsert]; [repeat constructor|]. inversion S as [|? ? S1 S2]; subst.
  destruct (a <? x) eqn:E; [apply Nat.ltb_lt in E|apply Nat.ltb_ge in E].
  - constructor; auto. rewrite Forall_forall in *. intros y Hy. apply (Permutation_in _ (pinsert_perm x l)) in Hy as [<-|Hy]; [lia|auto].
  - constructor; auto. constructor; auto. rewrite Forall_forall in *. intros y Hy. specialize (S2 y Hy). lia.
Qed.
Lemma psort_sorted : forall l, StronglySorted le (psort l).
Proof. induction l as [|a l IH]; cbn; [constructor|]. apply pinsert_sorted. auto. Qed.

(* ---------------- merging and reducing ---------------- *)

Definition no_start (A : ta) : Prop := forall i, In i (inits A) -> ~ accepting A i.

Lemma filter_all : forall {X} (f : X -> bool) l, (forall x, In x l -> f x = true) -> filter f l = l.
Proof. intros X f. induction l as [|a l IH]; intros H; cbn; auto. rewrite (H a (or_introl eq_refl)), IH; auto. intros; apply H; right; auto. Qed.

Lemma merge_start : forall al n0 n1 A, tinv al n0 n1 A -> no_start A ->
  (length (terminals A) <= 1 /\ inits (merge A) = inits A) \/ inits (merge A) = psort (inits A).
Proof.
  intros al n0 n1 A T NS. pose proof (wf_nodup _ (ti_wf _ _ _ _ T)) as N. unfold merge. destruct (terminals A) as [|f [|g rest]] eqn:ET; cbn [inits length]; auto.
  right. assert (NT : forall p, In p (inits A) -> ~ In p (terminals A)).
  { intros p Hp Ht. apply terminals_in in Ht as (s & Hs & Ms & _). apply (NS p Hp). exists s. auto. }
  rewrite ET in NT. replace (existsb _ _) with false.
  - rewrite andb_false_r. apply filter_all. intros p Hp. apply (proj1 (psort_in _ _)) in Hp. apply negb_mem. intros Hr. apply (NT p Hp). right. auto.
  - symmetry. apply not_true_iff_false. intros E. apply existsb_exists in E as (p & Hp & E). apply (proj1 (psort_in _ _)) in Hp. apply mem_In in E. apply (NT p Hp). right. auto.
Qed.

Lemma merge_start_in : forall al n0 n1 A p, tinv al n0 n1 A -> In p (inits (merge A)) -> In p (inits A) \/ accepting A p.
Proof.
  intros al n0 n1 A p T H. unfold merge in H. destruct (terminals A) as [|f [|g rest]] eqn:ET; cbn [inits] in H; auto. apply filter_In in H as [H _].
  assert (X : In p (psort (inits A) ++ [f])) by (destruct (_ && _); auto; apply in_or_app; auto). clear H. apply in_app_or in X as [X|[<-|[]]].
  - left. apply psort_in. auto.
  - right. assert (I : In f (terminals A)) by (rewrite ET; left; auto). apply terminals_in in I as (s & Hs & Ms & _). exists s. auto.
Qed.

Lemma leaned_post : forall al n0 n1 r A B, tinv al n0 n1 A -> (nullable r = false -> no_start A) ->
  (orderly r -> length (terminals A) <= 1 -> StronglySorted le (inits A)) ->
  (exists p, accepting A p) -> (single r -> length (inits A) <= 1) -> (lean r -> exists rk, idle_loops A rk) -> (late r -> after_reset A) ->
  reduceStates (merge A) = Ok B -> leaned r B.
Proof.
  intros al n0 n1 r A B T NS LO (a & LA) LS LI LL E. pose proof (wf_nodup _ (ti_wf _ _ _ _ T)) as N.
  assert (TM : wf_ta (merge A)).
  { destruct (terminals A) as [|f rest] eqn:ET; [unfold merge; rewrite ET; apply (ti_wf _ _ _ _ T)|]. apply (ti_wf _ _ _ _ (merge_tinv1 al n0 n1 A f rest T ET)). }
  destruct (reduceStates_ok (merge A) TM) as (B' & E' & R & _). rewrite E' in E. injection E as ->.
  destruct (reduce_inits _ _ E') as (h & Eh).
  assert (HT : In a (terminals A)).
  { apply terminals_in. destruct LA as (s & Hs & Ms). exists s. split; auto. split; auto. apply (ti_acc _ _ _ _ T _ _ Hs Ms). }
  destruct (terminals A) as [|f rest] eqn:ET; [destruct HT|].
  pose proof (tb_spec al n0 n1 A f rest T ET) as TB.
  assert (Af : accepting A f). { apply TB. unfold tb. apply mem_In. left. auto. }
  assert (Src : forall p c e, is_edge A p c e -> ~ accepting A p).
  { intros p c e (s2 & es & H2 & H3 & _) (s & Hs & Ms). rewrite <- (NoDup_fst_inj _ _ _ _ N Hs H2) in H3. rewrite (ti_acc _ _ _ _ T _ _ Hs Ms) in H3. destruct H3. }
  assert (Rf : forall q, (accepting A q /\ rho (tb f rest) f q = f) \/ (~ accepting A q /\ rho (tb f rest) f q = q)).
  { intros q. unfold rho. destruct (tb f rest q) eqn:X; [left|right]; split; auto; [apply TB; auto|]. intros Y. apply TB in Y. congruence. }
  constructor.
  - exists f. apply (rd_acc _ _ R). apply (merge_accepting al n0 n1 A f rest T ET). split; auto. destruct (Rf f) as [[_ X]|[X _]]; [auto|contradiction].
  - intros H. rewrite Eh.
    assert (L : length (filter h (inits (merge A))) <= length (inits (merge A))).
    { clear. induction (inits (merge A)) as [|x l IH]; cbn; auto. destruct (h x); cbn; lia. }
    assert (Q : length (inits (merge A)) = length (inits A)).
    { destruct (merge_start al n0 n1 A T (NS (single_some _ H))) as [[_ X]|X]; rewrite X; auto. apply Permutation_length, psort_perm. }
    specialize (LS H). lia.
  - intros H. rewrite Eh. apply sorted_filter. destruct (merge_start al n0 n1 A T (NS (orderly_some _ H))) as [[X1 X]|X]; rewrite X; [|apply psort_sorted]. apply LO; auto. rewrite ET in X1. exact X1.
  - intros H. destruct (LI H) as (rk & M). exists (norm A rk). intros p c e q He Et. apply (rd_edge _ _ R) in He.
    apply (merge_edge al n0 n1 A f rest T ET) in He as (e0 & q0 & He & Eq & ->). cbn [etgt eguard eresets] in *. injection Et as <-.
    assert (Np : norm A rk p = S (rk p)).
    { unfold norm. destruct (match_at A p) eqn:X; auto. apply (match_at_spec A p N) in X. destruct (Src _ _ _ He X). }
    rewrite Np. destruct (Rf q0) as [[Aq ->]|[Aq ->]].
    + left. rewrite (norm_acc A rk f N Af). lia.
    + assert (Nq : norm A rk q0 = S (rk q0)).
      { unfold norm. destruct (match_at A q0) eqn:X; auto. apply (match_at_spec A q0 N) in X. contradiction. }
      rewrite Nq. destruct (M _ _ _ _ He Eq) as [L|(E1 & E2 & E3)]; [left; lia|right; auto].
  - intros H. destruct (LL H) as (Rs & H1 & H2 & H3). exists Rs. split; [|split].
    + intros p x Hp. rewrite Eh in Hp. apply filter_In in Hp as [Hp _]. apply (merge_start_in al n0 n1 A p T) in Hp as [Hp|Hp]; auto.
    + intros p x Hp. apply (rd_acc _ _ R) in Hp. apply (merge_accepting al n0 n1 A f rest T ET) in Hp as [Hp _]. auto.
    + intros p c e q He Et. apply (rd_edge _ _ R) in He. apply (merge_edge al n0 n1 A f rest T ET) in He as (e0 & q0 & He & Eq & ->).
      cbn [etgt eguard eresets] in *. injection Et as <-. destruct (H3 _ _ _ _ He Eq) as [G1 G2]. split; auto.
      intros x Hx. destruct (Rf q0) as [[Aq E0]|[Aq E0]]; rewrite E0 in Hx; [|auto]. exfalso. exact (H2 f x Af Hx).
Qed.

(* ---------------- letters ---------------- *)

Lemma edge_not_acc : forall al n0 n1 A p c e, tinv al n0 n1 A -> is_edge A p c e -> ~ accepting A p.
Proof.
  intros al n0 n1 A p c e T (s2 & es & H2 & H3 & _) (s & Hs & Ms). pose proof (wf_nodup _ (ti_wf _ _ _ _ T)) as N.
  rewrite <- (NoDup_fst_inj _ _ _ _ N Hs H2) in H3. rewrite (ti_acc _ _ _ _ T _ _ Hs Ms) in H3. destruct H3.
Qed.

Lemma leaned_atom : forall al n c, injective al -> leaned (Atom c) (atomTA al c n).
Proof.
  intros al n c Inj. constructor.
  - exists (al (S n)). apply (atom_accepting al n Inj). auto.
  - intros _. cbn. lia.
  - intros _. apply sorted_short. cbn. lia.
  - intros _. exists (fun p => if p =? al n then 1 else 0). intros p c' e q H E. apply (atom_edge al n Inj) in H as (-> & _ & ->). cbn in E. injection E as <-.
    left. rewrite Nat.eqb_refl. destruct (Nat.eqb_spec (al (S n)) (al n)) as [X|X]; [apply Inj in X; lia|lia].
  - intros _. exists (fun _ _ => False). split; [auto|]. split; auto. intros p c' e q H E. apply (atom_edge al n Inj) in H as (_ & _ & ->). cbn. split; auto.
Qed.

Lemma leaned_eps : forall al n, leaned Eps (epsTA al n).
Proof.
  intros al n. constructor.
  - exists (al n), (mkS true true []). split; [left|]; auto.
  - intros [].
  - intros [].
  - intros _. exists (fun _ => 0). intros p c e q H. destruct (eps_edge al n _ _ _ H).
  - intros _. exists (fun _ _ => False). split; [auto|]. split; auto. intros p c e q H. destruct (eps_edge al n _ _ _ H).
Qed.

(* ---------------- Kleene plus ---------------- *)

Lemma plus_late : forall al n0 n1 A, tinv al n0 n1 A -> after_reset A -> after_reset (plusTA A).
Proof.
  intros al n0 n1 A T (R & H1 & H2 & H3). exists R. split; [exact H1|]. split.
  - intros p x Hp. apply (proj1 (plus_accepting A _)) in Hp. auto.
  - intros p c e q He Et. apply (plus_edge al n0 n1 A T) in He as [He|(e1 & q1 & i & He & Eq & _ & _ & Hi & _ & ->)]; [apply (H3 _ _ _ _ He Et)|].
    cbn [etgt eguard eresets] in *. injection Et as <-. destruct (H3 _ _ _ _ He Eq) as [G1 _]. split; auto. intros x Hx. destruct (H1 i x Hi Hx).
Qed.

Lemma plus_idle : forall al n c, injective al -> c <> 0 -> exists rk, idle_loops (plusTA (atomTA al c n)) rk.
Proof.
  intros al n c Inj NZ. exists (fun p => if p =? al n then 1 else 0). intros p c' e q H E.
  apply (plus_edge al n (S (S n)) _ (atom_tinv al n Inj c NZ)) in H as [H|(e1 & q1 & i & H & _ & _ & _ & Hi & _ & ->)].
  - apply (atom_edge al n Inj) in H as (-> & _ & ->). cbn in E. injection E as <-. left. rewrite Nat.eqb_refl.
    destruct (Nat.eqb_spec (al (S n)) (al n)) as [X|X]; [apply Inj in X; lia|lia].
  - right. apply (atom_edge al n Inj) in H as (-> & _ & ->). cbn in *. injection E as <-. destruct Hi as [<-|[]]. auto.
Qed.

(* ---------------- two automata ---------------- *)

Section Two.
  Variables (al : nat -> ptr) (n0 n1 n2 : nat) (r1 r2 : tre) (A B : ta).
  Hypothesis Inj : injective al.
  Hypothesis B1 : built al r1 n0 n1 A.
  Hypothesis B2 : built al r2 n1 n2 B.
  Let T1 := bu_inv _ _ _ _ _ B1.
  Let T2 := bu_inv _ _ _ _ _ B2.
  Let W1 := ti_wf _ _ _ _ T1.
  Let W2 := ti_wf _ _ _ _ T2.
  Notation apart := (apart al n0 n1 n2 r1 r2 A B Inj B1 B2).
  Notation edgeA := (edgeA al n0 n1 r1 A B1).
  Notation edgeB := (edgeB al n1 n2 r2 B B2).
  Notation beside_B := (beside_B al n0 n1 n2 r1 r2 A B Inj B1 B2).
  Notation beside_A := (beside_A A).

  Lemma alt_idle : forall ra rb, idle_loops A ra -> idle_loops B rb -> idle_loops (altTA A B) (beside A 0 ra rb).
  Proof.
    intros ra rb Ma Mb p c e q H E. apply alt_edge in H as [H|H].
    - destruct (edgeA _ _ _ _ H E) as [Hp Hq]. rewrite !beside_A by auto. apply (Ma _ _ _ _ H E).
    - destruct (edgeB _ _ _ _ H E) as [Hp Hq]. rewrite !beside_B by auto. apply (Mb _ _ _ _ H E).
  Qed.

  Lemma alt_late : after_reset A -> after_reset B -> after_reset (altTA A B).
  Proof.
    intros (Ra & A1 & A2 & A3) (Rb & D1 & D2 & D3).
    exists (fun p x => (In p (map fst (states A)) /\ Ra p x) \/ (In p (map fst (states B)) /\ Rb p x)). split; [|split].
    - intros p x Hp [[K H]|[K H]]; cbn [altTA inits] in Hp; apply in_app_or in Hp as [Hp|Hp].
      + eapply A1; eauto.
      + apply (apart p K). apply (wf_inits _ W2). auto.
      + apply (apart p); auto. apply (wf_inits _ W1). auto.
      + eapply D1; eauto.
    - intros p x Hp [[K H]|[K H]]; apply alt_accepting in Hp as [Hp|Hp].
      + eapply A2; eauto.
      + apply (apart p K). apply accepting_in. auto.
      + apply (apart p); auto. apply accepting_in. auto.
      + eapply D2; eauto.
    - intros p c e q H E. apply alt_edge in H as [H|H].
      + destruct (edgeA _ _ _ _ H E) as [Hp Hq]. destruct (A3 _ _ _ _ H E) as [G1 G2]. split.
        * intros g Hg Ug. left. auto.
        * intros x [[_ Hx]|[K _]]; [|destruct (apart q Hq K)]. destruct (G2 x Hx); auto.
      + destruct (edgeB _ _ _ _ H E) as [Hp Hq]. destruct (D3 _ _ _ _ H E) as [G1 G2]. split.
        * intros g Hg Ug. right. auto.
        * intros x [[K _]|[_ Hx]]; [destruct (apart q K Hq)|]. destruct (G2 x Hx); auto.
  Qed.

  Hypothesis K2 : nclocks r2 <= 256.
  Notation catE := (catE al n0 n1 r1 A B B1).

  Lemma cat_starts : nullable r1 = false -> inits (concat2 A B) = inits A.
  Proof.
    intros Nu1. unfold concat2; cbn [inits]. replace (existsb _ _) with false; [apply app_nil_r|]. symmetry. apply not_true_iff_false. intros E.
    apply existsb_exists in E as (i & Hi & E). apply (match_at_spec A i (wf_nodup _ W1)) in E. revert E. eapply no_init_acc; eauto.
  Qed.

  Lemma cat_idle : forall ra rb, idle_loops A ra -> idle_loops B rb -> idle_loops (concat2 A B) (beside A (S (list_max (map rb (map fst (states B))))) ra rb).
  Proof.
    intros ra rb Ma Mb p c e q H E. apply catE in H as [H|[H|(e1 & q1 & i & H & Eq & Hq & Hi & ->)]].
    - destruct (edgeA _ _ _ _ H E) as [Hp Hq]. rewrite !beside_A by auto. destruct (Ma _ _ _ _ H E) as [D|D]; [left; lia|right; auto].
    - destruct (edgeB _ _ _ _ H E) as [Hp Hq]. rewrite !beside_B by auto. apply (Mb _ _ _ _ H E).
    - cbn [etgt eguard] in *. injection E as <-. destruct (edgeA _ _ _ _ H Eq) as [Hp _]. rewrite (beside_A _ _ _ p) by auto.
      pose proof (wf_inits _ W2 _ Hi) as Ki. rewrite (beside_B _ _ _ i) by auto.
      assert (L : rb i <= list_max (map rb (map fst (states B)))).
      { pose proof (proj1 (list_max_le (map rb (map fst (states B))) _) (le_n _)) as F. rewrite Forall_forall in F. apply F. apply in_map. auto. }
      left. lia.
  Qed.

  Lemma cat_start : no_start B -> no_start (concat2 A B).
  Proof.
    intros NB i Hi Ha. apply (cat_accepting A B) in Ha. cbn [concat2 inits] in Hi. apply in_app_or in Hi as [Hi|Hi].
    - apply (apart i); [apply (wf_inits _ W1); auto|apply accepting_in; auto].
    - destruct (existsb _ _); [|destruct Hi]. apply (NB i); auto.
  Qed.

  Lemma cat_late : nullable r1 = false -> after_reset A -> after_reset (concat2 A B).
  Proof.
    intros Nu1 (Ra & A1 & A2 & A3). assert (KB : clockSize B <= 256) by (rewrite (bu_clocks _ _ _ _ _ B2); auto).
    exists (fun p x => (In p (map fst (states A)) /\ Ra p x) \/ (In p (map fst (states B)) /\ ~ accepting B p /\ x < clockSize B)). split; [|split].
    - intros p x Hp [[K H]|[K H]]; rewrite cat_starts in Hp by auto; [eapply A1; eauto|]. apply (apart p); auto. apply (wf_inits _ W1). auto.
    - intros p x Hp H. apply (cat_accepting A B) in Hp. destruct H as [[K H]|[K [H _]]]; auto. apply (apart p K). apply accepting_in. auto.
    - intros p c e q H E. apply catE in H as [H|[H|(e1 & q1 & i & H & Eq & Hq & Hi & ->)]].
      + destruct (edgeA _ _ _ _ H E) as [Hp Hq]. destruct (A3 _ _ _ _ H E) as [G1 G2]. split.
        * intros g Hg Ug. left. auto.
        * intros x [[_ Hx]|[K _]]; [|destruct (apart q Hq K)]. destruct (G2 x Hx); auto.
      + destruct (edgeB _ _ _ _ H E) as [Hp Hq]. pose proof (edge_not_acc _ _ _ _ _ _ _ T2 H) as Na. split.
        * intros g Hg Ug. right. split; auto. split; auto. pose proof (wf_is_edge _ _ _ _ W2 H) as (_ & _ & We). rewrite Forall_forall in We. auto.
        * intros x [[K _]|[_ [_ Hx]]]; [destruct (apart q K Hq)|]. left. right. auto.
      + cbn [etgt eguard eresets] in *. injection E as <-. destruct (edgeA _ _ _ _ H Eq) as [Hp _]. destruct (A3 _ _ _ _ H Eq) as [G1 _].
        pose proof (wf_inits _ W2 _ Hi) as Ki. split.
        * intros g Hg Ug. left. auto.
        * intros x [[K _]|[_ [_ Hx]]]; [destruct (apart i K Ki)|]. right. rewrite iota_id by auto. apply in_seq. lia.
  Qed.

  Lemma cat_late2 : after_reset A -> after_reset B -> after_reset (concat2 A B).
  Proof.
    intros (Ra & A1 & A2 & A3) (Rb & D1 & D2 & D3).
    exists (fun p x => (In p (map fst (states A)) /\ Ra p x) \/ (In p (map fst (states B)) /\ Rb p x)). split; [|split].
    - intros p x Hp H. cbn [concat2 inits] in Hp. assert (X : In p (inits A) \/ In p (inits B)) by (apply in_app_or in Hp as [Hp|Hp]; auto; destruct (existsb _ _); [auto|destruct Hp]).
      destruct X as [X|X], H as [[K H]|[K H]]; [eapply A1; eauto| | |eapply D1; eauto].
      + apply (apart p); auto. apply (wf_inits _ W1). auto.
      + apply (apart p); auto. apply (wf_inits _ W2). auto.
    - intros p x Hp H. apply (cat_accepting A B) in Hp. destruct H as [[K H]|[K H]]; [|eapply D2; eauto]. apply (apart p K). apply accepting_in. auto.
    - intros p c e q H E. apply catE in H as [H|[H|(e1 & q1 & i & H & Eq & Hq & Hi & ->)]].
      + destruct (edgeA _ _ _ _ H E) as [Hp Hq]. destruct (A3 _ _ _ _ H E) as [G1 G2]. split.
        * intros g Hg Ug. left. auto.
        * intros x [[_ Hx]|[K _]]; [|destruct (apart q Hq K)]. destruct (G2 x Hx); auto.
      + destruct (edgeB _ _ _ _ H E) as [Hp Hq]. destruct (D3 _ _ _ _ H E) as [G1 G2]. split.
        * intros g Hg Ug. right. auto.
        * intros x [[K _]|[_ Hx]]; [destruct (apart q K Hq)|]. destruct (G2 x Hx); auto.
      + cbn [etgt eguard eresets] in *. injection E as <-. destruct (edgeA _ _ _ _ H Eq) as [Hp _]. destruct (A3 _ _ _ _ H Eq) as [G1 _].
        pose proof (wf_inits _ W2 _ Hi) as Ki. split.
        * intros g Hg Ug. left. auto.
        * intros x [[K _]|[_ Hx]]; [destruct (apart i K Ki)|]. destruct (D1 i x Hi Hx).
  Qed.
End Two.

(* ---------------- conjunction ---------------- *)

Section Conj.
  Variables (al : nat -> ptr) (n0 n1 n2 : nat) (r1 r2 : tre) (A B : ta).
  Hypothesis Inj : injective al.
  Hypothesis B1 : built al r1 n0 n1 A.
  Hypothesis B2 : built al r2 n1 n2 B.
  Hypothesis F1 : flag r1 = NoFlag.
  Hypothesis F2 : flag r2 = NoFlag.
  Hypothesis K : nclocks r1 + nclocks r2 <= 256.

  Let f := fr al n2 A B.
  Let P := andTA al n2 A B.
  Let T1 := bu_inv _ _ _ _ _ B1.
  Let T2 := bu_inv _ _ _ _ _ B2.
  Let W1 := ti_wf _ _ _ _ T1.
  Let W2 := ti_wf _ _ _ _ T2.
  Notation FA := (FA al n0 n1 r1 A B1 F1).
  Notation FB := (FB al n1 n2 r2 B B2 F2).
  Notation KK := (KK al n0 n1 n2 r1 r2 A B B1 B2 K).
  Notation f_inj := (f_inj al n0 n1 n2 r1 r2 A B Inj B1 B2 K).

  Lemma and_edge2 : forall q c e, is_edge P q c e ->
    exists p1 p2 e1 t1 e2 t2, q = f p1 p2 /\ is_edge A p1 c e1 /\ etgt e1 = Some t1 /\ is_edge B p2 c e2 /\ etgt e2 = Some t2 /\
      e = prod_edge (clockSize A) (Some (f t1 t2)) e1 e2.
  Proof.
    intros q c e H.
    destruct (and_key al n2 A B Inj q (edge_source _ _ _ _ H)) as (p1 & p2 & H1 & H2 & ->).
    pose proof (zdAB al n0 n1 n2 A B T1 T2 FA FB (bu_free _ _ _ _ _ B1) (bu_free _ _ _ _ _ B2)) as ZD.
    apply (prod_is_edge A B f W1 W2 f_inj) in H; auto.
    destruct H as [(e1 & t1 & -> & H & _)|[(e2 & t2 & -> & H & _)|(e1 & t1 & e2 & t2 & E1 & Et1 & E2 & Et2 & ->)]].
    - exfalso. eapply (ti_obs _ _ _ _ T1); eauto.
    - exfalso. eapply (ti_obs _ _ _ _ T2); eauto.
    - exists p1, p2, e1, t1, e2, t2. repeat split; auto. f_equal. apply toI_iff; auto.
      pose proof (edge_target A _ _ _ _ W1 E1 Et1) as K1. pose proof (edge_target B _ _ _ _ W2 E2 Et2) as K2. repeat split; auto.
  Qed.

  Lemma and_acc : forall p1 p2, In p1 (map fst (states A)) -> In p2 (map fst (states B)) -> (accepting P (f p1 p2) <-> accepting A p1 /\ accepting B p2).
  Proof. intros. apply (and_acc_fr al n0 n1 n2 A B); eauto using bu_le, bu_free, TreMild.FA, TreMild.FB, TreMild.KK. Qed.

  Lemma and_starts : forall q, In q (inits P) -> exists p1 p2, In p1 (inits A) /\ In p2 (inits B) /\ q = f p1 p2.
  Proof. intros q H. apply (prod_inits_in A B f W1 W2) in H as (p1 & p2 & H1 & H2 & _ & ->). eauto. Qed.

  Lemma and_single : length (inits A) <= 1 -> length (inits B) <= 1 -> length (inits P) <= 1.
  Proof.
    intros H1 H2. unfold P, andTA, intersectionTA, prod_inits. cbn [inits]. destruct (inits A) as [|a [|a' la]]; cbn in H1; try lia; cbn [flat_map]; [cbn; lia|].
    rewrite app_nil_r. destruct (inits B) as [|b [|b' lb]]; cbn in H2; try lia; cbn [flat_map]; [cbn; lia|]. rewrite app_nil_r. destruct (toI _ _ _ _ _); cbn; lia.
  Qed.

  Lemma shift_small : forall x, x < clockSize B -> shift_clock (clockSize A) x = x + clockSize A.
  Proof. intros x H. unfold shift_clock. apply Nat.mod_small. pose proof KK. lia. Qed.

  Lemma and_late : after_reset A -> after_reset B -> after_reset P.
  Proof.
    intros (Ra & A1 & A2 & A3) (Rb & D1 & D2 & D3).
    exists (fun q x => exists p1 p2, In p1 (map fst (states A)) /\ In p2 (map fst (states B)) /\ q = f p1 p2 /\
      (Ra p1 x \/ exists y, y < clockSize B /\ x = y + clockSize A /\ Rb p2 y)). split; [|split].
    - intros q x Hq (p1 & p2 & I1 & I2 & E & H). apply and_starts in Hq as (i1 & i2 & J1 & J2 & ->).
      apply f_inj in E as [<- <-]; auto; [|apply (wf_inits _ W1); auto|apply (wf_inits _ W2); auto].
      destruct H as [H|(y & _ & _ & H)]; [eapply A1; eauto|eapply D1; eauto].
    - intros q x Hq (p1 & p2 & I1 & I2 & -> & H). apply and_acc in Hq as [Ha Hb]; auto. destruct H as [H|(y & _ & _ & H)]; [eapply A2; eauto|eapply D2; eauto].
    - intros q c e t H E. apply and_edge2 in H as (p1 & p2 & e1 & t1 & e2 & t2 & -> & E1 & Et1 & E2 & Et2 & ->).
      cbn [prod_edge etgt eguard eresets] in *. injection E as <-.
      pose proof (edge_source _ _ _ _ E1) as I1. pose proof (edge_source _ _ _ _ E2) as I2.
      pose proof (edge_target A _ _ _ _ W1 E1 Et1) as J1. pose proof (edge_target B _ _ _ _ W2 E2 Et2) as J2.
      destruct (A3 _ _ _ _ E1 Et1) as [G1 G2]. destruct (D3 _ _ _ _ E2 Et2) as [G3 G4].
      pose proof (wf_is_edge _ _ _ _ W2 E2) as (_ & WR & WG). rewrite Forall_forall in WR, WG. split.
      + intros g Hg Ug. exists p1, p2. split; auto. split; auto. split; auto. apply in_app_or in Hg as [Hg|Hg]; [left; auto|right].
        apply in_map_iff in Hg as (g0 & <- & Hg). exists (cx g0). split; [auto|]. split; [apply shift_small; auto|]. apply G3; auto.
      + intros x (q1 & q2 & L1 & L2 & E & H). apply f_inj in E as [<- <-]; auto. destruct H as [H|(y & Ly & -> & H)].
        * destruct (G2 x H) as [X|X]; [left|right; apply in_or_app; auto]. exists p1, p2. auto 6.
        * destruct (G4 y H) as [X|X]; [left|right].
          -- exists p1, p2. split; auto. split; auto. split; auto. right. exists y. auto.
          -- apply in_or_app. right. apply in_map_iff. exists y. split; auto. apply shift_small. auto.
  Qed.

  Lemma and_some : (exists p, accepting A p) -> (exists p, accepting B p) -> exists p, accepting P p.
  Proof. intros (p1 & H1) (p2 & H2). exists (f p1 p2). apply and_acc; auto using accepting_in. Qed.

  Lemma and_idle : forall ra rb, idle_loops A ra -> idle_loops B rb -> exists rk, idle_loops P rk.
  Proof. intros ra rb H1 H2. exists (rank2 A B f ra rb). apply idle_product; auto. apply f_inj. Qed.
End Conj.

(* ---------------- restriction ---------------- *)

Lemma within_idle : forall al n0 n1 A Iv lo up rk, tinv al n0 n1 A -> idle_loops A rk -> idle_loops (wTA A Iv lo up) (norm A rk).
Proof.
  intros al n0 n1 A Iv lo up rk T M p c e' q' He Eq. pose proof (wf_nodup _ (ti_wf _ _ _ _ T)) as N.
  apply (w_edge al n0 n1 A Iv lo up T) in He as (e & q & He & Et & ->). cbn [etgt eguard eresets] in *. injection Eq as <-.
  assert (Np : norm A rk p = S (rk p)).
  { unfold norm. destruct (match_at A p) eqn:X; auto. apply (match_at_spec A p N) in X. destruct (edge_not_acc _ _ _ _ _ _ _ T He X). }
  rewrite Np. unfold norm at 1. destruct (match_at A q); [left; lia|]. destruct (M _ _ _ _ He Et) as [L|(E1 & E2 & E3)]; [left; lia|right; auto].
Qed.

(* ---------------- every expression ---------------- *)

Lemma filter_le : forall {X} (f : X -> bool) l, length (filter f l) <= length l.
Proof. intros X f. induction l as [|x l IH]; cbn; auto. destruct (f x); cbn; lia. Qed.

Lemma atom_once : forall al c n, injective al -> toEventTA al (Atom c) n = Ok (atomTA al c n, S (S n)).
Proof. intros al c n _. cbn. unfold redirect, tgt_in. cbn. unfold mem. cbn. rewrite Nat.eqb_refl. cbn. reflexivity. Qed.

Theorem toEventTA_leaned : forall al r n A m, injective al -> plain r -> nclocks r <= 256 -> toEventTA al r n = Ok (A, m) -> leaned r A.
Proof.
  intros al r n A m Inj. revert n A m.
  induction r as [c| |r IH|r1 IH1 r2 IH2|r1 IH1 r2 IH2|r1 IH1 r2 IH2|r IH Iv]; intros n A m P K E.
  - cbn [toEventTA bind fst snd] in E. apply bind_Ok in E as (B & E & X). injection X as <- <-.
    destruct (leaned_atom al n c Inj) as [L1 L2 L3 L4 L5].
    eapply (leaned_post al n (S (S n)) (Atom c) (atomTA al c n)); eauto; [apply atom_tinv; auto|].
    intros _ i [<-|[]] H. apply (atom_accepting al n Inj) in H. apply Inj in H. lia.
  - cbn [toEventTA bind fst snd] in E. apply bind_Ok in E as (B & E & X). injection X as <- <-. destruct (leaned_eps al n) as [L1 L2 L3 L4 L5].
    eapply (leaned_post al n (S n) Eps (epsTA al n)); eauto; [apply eps_tinv; auto|discriminate].
  - cbn [toEventTA] in E. cbn [plain nclocks] in P, K. destruct P as (P & F & Nu). pose proof (plain_ok r P) as O. apply bind_Ok in E as (X & E & E2). apply bind_Ok in E2 as (B & E2 & X2).
    injection X2 as <- <-. apply bind_Ok in E as ([A1 n1] & E & X1). injection X1 as <-. cbn [fst snd] in *.
    pose proof (toEventTA_inv al r n A1 n1 Inj O K E) as Bu. pose proof (bu_inv _ _ _ _ _ Bu) as T. destruct (IH n A1 n1 P K E) as [L1 L2 L3 L4 L5].
    eapply (leaned_post al n n1 (Plus r) (plusTA A1)); eauto; cbn [single orderly lean late].
    + apply plus_tinv; [apply Bu|rewrite (bu_clocks _ _ _ _ _ Bu); auto].
    + intros _ i Hi Ha. apply (proj1 (plus_accepting A1 _)) in Ha. revert Ha. eapply no_init_acc; eauto.
    + destruct L1 as (p & Hp). exists p. apply plus_accepting. auto.
    + intros H. destruct r as [c| | | | | |]; try contradiction. rewrite (atom_once al c n Inj) in E. injection E as <- <-. apply plus_idle; auto.
    + intros H. eapply plus_late; eauto.
  - cbn [toEventTA] in E. cbn [plain nclocks] in P, K. destruct P as [P1 P2]. pose proof (plain_ok r1 P1) as O1. pose proof (plain_ok r2 P2) as O2.
    apply bind_Ok in E as (X & E & E2). apply bind_Ok in E2 as (B & E2 & X2). injection X2 as <- <-.
    apply bind_Ok in E as ([A1 n1] & Ea & E). apply bind_Ok in E as ([A2 n2] & Eb & X1). injection X1 as <-. cbn [fst snd] in *.
    pose proof (toEventTA_inv al r1 n A1 n1 Inj O1 ltac:(lia) Ea) as Bu1. pose proof (toEventTA_inv al r2 n1 A2 n2 Inj O2 ltac:(lia) Eb) as Bu2.
    assert (KB : clockSize A2 <= 256) by (rewrite (bu_clocks _ _ _ _ _ Bu2); lia).
    destruct (IH1 n A1 n1 P1 ltac:(lia) Ea) as [L1 L2 L3 L4 L5]. destruct (IH2 n1 A2 n2 P2 ltac:(lia) Eb) as [M1 M2 M3 M4 M5].
    pose proof (cat_starts al n n1 r1 A1 A2 Bu1) as CS.
    eapply (leaned_post al n n2 (Cat r1 r2) (concat2 A1 A2)); eauto; cbn [single orderly lean late].
    + eapply cat_tinv; eauto using bu_inv, bu_le.
    + cbn [nullable]. intros Nu. destruct (nullable r1) eqn:N1; cbn [andb] in Nu.
      * apply (cat_start al n n1 n2 r1 r2 A1 A2 Inj Bu1 Bu2). intros i. eapply no_init_acc; eauto.
      * intros i Hi Ha. rewrite CS in Hi by auto. apply (cat_accepting A1 A2) in Ha. apply (TreMild.apart al n n1 n2 r1 r2 A1 A2 Inj Bu1 Bu2 i).
        -- apply (wf_inits _ (ti_wf _ _ _ _ (bu_inv _ _ _ _ _ Bu1))). auto.
        -- apply accepting_in. auto.
    + intros H _. rewrite CS; auto. apply orderly_some. auto.
    + destruct M1 as (p & Hp). exists p. apply (cat_accepting A1 A2). auto.
    + intros H. rewrite CS; auto. apply single_some. auto.
    + intros [H1 H2]. destruct (L4 H1) as (ra & Ma), (M4 H2) as (rb & Mb). eexists. eapply (cat_idle al n n1 n2 r1 r2); eauto; lia.
    + intros [H1 H2]. destruct (nullable r1) eqn:N1; [eapply (cat_late2 al n n1 n2 r1 r2); eauto|eapply (cat_late al n n1 n2 r1 r2); eauto; lia].
  - cbn [toEventTA] in E. cbn [plain nclocks] in P, K. destruct P as [P1 P2]. pose proof (plain_ok r1 P1) as O1. pose proof (plain_ok r2 P2) as O2.
    apply bind_Ok in E as (X & E & E2). apply bind_Ok in E2 as (B & E2 & X2). injection X2 as <- <-.
    apply bind_Ok in E as ([A1 n1] & Ea & E). apply bind_Ok in E as ([A2 n2] & Eb & X1). injection X1 as <-. cbn [fst snd] in *.
    pose proof (toEventTA_inv al r1 n A1 n1 Inj O1 ltac:(lia) Ea) as Bu1. pose proof (toEventTA_inv al r2 n1 A2 n2 Inj O2 ltac:(lia) Eb) as Bu2.
    destruct (IH1 n A1 n1 P1 ltac:(lia) Ea) as [L1 L2 L3 L4 L5]. destruct (IH2 n1 A2 n2 P2 ltac:(lia) Eb) as [M1 M2 M3 M4 M5].
    pose proof (alt_tinv al n n1 n2 A1 A2 Inj (bu_inv _ _ _ _ _ Bu1) (bu_inv _ _ _ _ _ Bu2) (bu_le _ _ _ _ _ Bu1) (bu_le _ _ _ _ _ Bu2)) as TA0.
    pose proof (TreMild.apart al n n1 n2 r1 r2 A1 A2 Inj Bu1 Bu2) as AP.
    destruct L1 as (p1 & H1), M1 as (p2 & H2).
    eapply (leaned_post al n n2 (Alt r1 r2) (altTA A1 A2)); eauto; cbn [single orderly lean late].
    + cbn [nullable]. intros Nu i Hi Ha. apply orb_false_iff in Nu as [Nu1 Nu2]. cbn [altTA inits] in Hi. apply in_app_or in Hi. apply alt_accepting in Ha. destruct Hi as [Hi|Hi], Ha as [Ha|Ha].
      * revert Ha. eapply no_init_acc; eauto.
      * apply (AP i); [apply (wf_inits _ (ti_wf _ _ _ _ (bu_inv _ _ _ _ _ Bu1))); auto|apply accepting_in; auto].
      * apply (AP i); [apply accepting_in; auto|apply (wf_inits _ (ti_wf _ _ _ _ (bu_inv _ _ _ _ _ Bu2))); auto].
      * revert Ha. eapply no_init_acc; eauto.
    + intros _ L. exfalso.
      assert (TT : forall p, accepting (altTA A1 A2) p -> In p (terminals (altTA A1 A2))).
      { intros p (s & Hs & Ms). apply terminals_in. exists s. split; auto. split; auto. apply (ti_acc _ _ _ _ TA0 _ _ Hs Ms). }
      assert (I1 : In p1 (terminals (altTA A1 A2))) by (apply TT, alt_accepting; auto).
      assert (I2 : In p2 (terminals (altTA A1 A2))) by (apply TT, alt_accepting; auto).
      assert (p1 = p2).
      { destruct (terminals (altTA A1 A2)) as [|a [|b l]]; cbn in L; try lia; [destruct I1|]. destruct I1 as [<-|[]], I2 as [<-|[]]. auto. }
      subst p2. apply (AP p1); apply accepting_in; auto.
    + exists p1. apply alt_accepting. auto.
    + intros [].
    + intros [X1 X2]. destruct (L4 X1) as (ra & Ma), (M4 X2) as (rb & Mb). eexists. eapply (alt_idle al n n1 n2 r1 r2); eauto.
    + intros [X1 X2]. eapply (alt_late al n n1 n2 r1 r2); eauto.
  - cbn [toEventTA] in E. cbn [plain nclocks] in P, K. destruct P as (P1 & P2 & F1 & F2). pose proof (plain_ok r1 P1) as O1. pose proof (plain_ok r2 P2) as O2.
    apply bind_Ok in E as (X & E & E2). apply bind_Ok in E2 as (B & E2 & X2). injection X2 as <- <-.
    apply bind_Ok in E as ([A1 n1] & Ea & E). apply bind_Ok in E as ([A2 n2] & Eb & X1). injection X1 as <-. cbn [fst snd] in *.
    pose proof (toEventTA_inv al r1 n A1 n1 Inj O1 ltac:(lia) Ea) as Bu1. pose proof (toEventTA_inv al r2 n1 A2 n2 Inj O2 ltac:(lia) Eb) as Bu2.
    assert (KA : clockSize A1 + clockSize A2 <= 256) by (rewrite (bu_clocks _ _ _ _ _ Bu1), (bu_clocks _ _ _ _ _ Bu2); lia).
    pose proof (bu_flg _ _ _ _ _ Bu1) as G1. rewrite F1 in G1. pose proof (bu_flg _ _ _ _ _ Bu2) as G2. rewrite F2 in G2.
    destruct (IH1 n A1 n1 P1 ltac:(lia) Ea) as [L1 L2 L3 L4 L5]. destruct (IH2 n1 A2 n2 P2 ltac:(lia) Eb) as [M1 M2 M3 M4 M5].
    eapply (leaned_post al n (n2 + length (states A1) * length (states A2)) (And r1 r2) (andTA al n2 A1 A2)); [| | | | | | |exact E2]; cbn [single orderly lean late].
    + eapply and_tinv; eauto using bu_inv, bu_le, bu_free.
    + cbn [nullable]. intros Nu i Hi Ha. apply (and_starts al n n1 n2 r1 r2 A1 A2 Bu1 Bu2) in Hi as (i1 & i2 & I1 & I2 & ->).
      apply (and_acc al n n1 n2 r1 r2 A1 A2) in Ha as [Ha Hb]; auto; try (apply (wf_inits _ (ti_wf _ _ _ _ (bu_inv _ _ _ _ _ Bu1))); auto);
        try (apply (wf_inits _ (ti_wf _ _ _ _ (bu_inv _ _ _ _ _ Bu2))); auto).
      apply andb_false_iff in Nu as [Nu|Nu]; [revert Ha|revert Hb]; eapply no_init_acc; eauto.
    + intros [H1 H2] _. apply sorted_short, (and_single al n2 r1 r2); auto.
    + apply (and_some al n n1 n2 r1 r2); auto.
    + intros [H1 H2]. apply (and_single al n2 r1 r2); auto.
    + intros [X1 X2]. destruct (L4 X1) as (ra & Ma), (M4 X2) as (rb & Mb). eapply (and_idle al n n1 n2 r1 r2); eauto.
    + intros [X1 X2]. apply (and_late al n n1 n2 r1 r2); auto.
  - cbn [toEventTA] in E. cbn [plain nclocks] in P, K. destruct P as (P & F & Nu & lo & up & E1 & E2 & Lu). pose proof (plain_ok r P) as O.
    apply bind_Ok in E as (X & E & E3). apply bind_Ok in E3 as (B & E3 & X2). injection X2 as <- <-.
    apply bind_Ok in E as ([A1 n1] & Ea & E). apply bind_Ok in E as (B1 & Ew & X1). injection X1 as <-. cbn [fst snd] in *.
    pose proof (toEventTA_inv al r n A1 n1 Inj O ltac:(lia) Ea) as Bu.
    assert (KA : clockSize A1 < 256) by (rewrite (bu_clocks _ _ _ _ _ Bu); lia).
    rewrite (withinTA_ok al n n1 A1 Iv lo up (bu_inv _ _ _ _ _ Bu) E1 E2 KA) in Ew. injection Ew as <-.
    destruct (IH n A1 n1 P ltac:(lia) Ea) as [L1 L2 L3 L4 L5].
    eapply (leaned_post al n (S n1) (Within r Iv) (wTA A1 Iv lo up)); eauto; cbn [single orderly lean late].
    + eapply w_tinv; eauto using bu_inv, bu_le.
    + intros _ i Hi Ha. cbn [wTA inits] in Hi. apply filter_In in Hi as [Hi _]. apply (w_accepting A1 Iv lo up) in Ha. revert Ha. eapply no_init_acc; eauto.
    + intros H _. cbn [wTA inits]. apply sorted_filter. auto.
    + destruct L1 as (p & Hp). exists p. apply w_accepting. auto.
    + intros H. cbn [wTA inits]. etransitivity; [apply filter_le|auto].
    + intros H. destruct (L4 H) as (rk & M). eexists. eapply within_idle; eauto using bu_inv.
    + intros [].
Qed.
