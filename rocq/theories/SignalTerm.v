(* Signal mode: toNormalForm never returns when the expression has a
   conjunction, and always ends when it has none. *)
From Coq Require Import QArith Bool List ZArith Arith Lia.
From Verif Require Import Num Outcome Interval Constraint Zone TA Tre Signal SignalFacts.
Import ListNotations.
Open Scope nat_scope.

Definition cellA (H : heap) (a : nat) : option acell := option_map at_cell (nth_error (hA H) a).
Definition listD (H : heap) (d : nat) : option (list (list nat)) := option_map dn_list (nth_error (hD H) d).

Lemma cellA_get : forall H a x, getA H a = Ok x -> cellA H a = Some (at_cell x).
Proof. intros H a x E. apply getA_Ok in E. unfold cellA. rewrite E. reflexivity. Qed.
Lemma listD_get : forall H a x, getD H a = Ok x -> listD H a = Some (dn_list x).
Proof. intros H a x E. apply getD_Ok in E. unfold listD. rewrite E. reflexivity. Qed.

Lemma cellA_setA : forall H a x b, cellA (setA H a x) b = if (b =? a) && (a <? length (hA H)) then Some (at_cell x) else cellA H b.
Proof. intros. unfold cellA, setA; cbn [hA]. rewrite nth_set_nth. destruct ((b =? a) && (a <? length (hA H))); reflexivity. Qed.
Lemma listD_setD : forall H a x b, listD (setD H a x) b = if (b =? a) && (a <? length (hD H)) then Some (dn_list x) else listD H b.
Proof. intros. unfold listD, setD; cbn [hD]. rewrite nth_set_nth. destruct ((b =? a) && (a <? length (hD H))); reflexivity. Qed.

Lemma cellA_setCell : forall H a c H', setCell H a c = Ok H' ->
  (forall b, cellA H' b = if b =? a then Some c else cellA H b) /\ hS H' = hS H /\ hD H' = hD H.
Proof.
  intros H a c H' E. unfold setCell in E. unbind E. injection E as <-. split; [|auto]. intros b. rewrite cellA_setA. cbn [at_cell].
  apply getA_Ok in E0. assert (a < length (hA H)) by (apply nth_error_Some; congruence).
  rewrite (proj2 (Nat.ltb_lt _ _)) by auto. rewrite andb_true_r. auto.
Qed.
Lemma cellA_setDec : forall H a c H', setDec H a c = Ok H' ->
  (forall b, cellA H' b = cellA H b) /\ hS H' = hS H /\ hD H' = hD H.
Proof.
  intros H a c H' E. unfold setDec in E. unbind E. injection E as <-. split; [|auto]. intros b. rewrite cellA_setA. cbn [at_cell].
  destruct (Nat.eqb_spec b a) as [->|N]; cbn [andb]; auto. apply cellA_get in E0. destruct (a <? length (hA H)); auto.
Qed.

(* ---------------- reaching a conjunction ---------------- *)

Inductive badA (H : heap) : nat -> Prop :=
| bad_cat : forall a l b, cellA H a = Some (ACat l) -> In b l -> badA H b -> badA H a
| bad_within : forall a b Iv, cellA H a = Some (AWithin b Iv) -> badA H b -> badA H a
| bad_plus : forall a d, cellA H a = Some (APlus d) -> badD H d -> badA H a
with badD (H : heap) : nat -> Prop :=
| bad_conj : forall d ls l, listD H d = Some ls -> In l ls -> 2 <= length l -> badD H d
| bad_in : forall d ls l b, listD H d = Some ls -> In l ls -> In b l -> badA H b -> badD H d.

Scheme badA_mind := Induction for badA Sort Prop with badD_mind := Induction for badD Sort Prop.
Combined Scheme bad_mind from badA_mind, badD_mind.

(* The heap changes only where no conjunction is reached. *)
Record rel (H H' : heap) : Prop := mkRel {
  rel_A : forall a, badA H a -> cellA H' a = cellA H a;
  rel_D : forall d, badD H d -> listD H' d = listD H d;
  rel_backA : forall a, badA H' a -> badA H a;
  rel_backD : forall d, badD H' d -> badD H d
}.

Lemma rel_fwd : forall H H', rel H H' -> (forall a, badA H a -> badA H' a) /\ (forall d, badD H d -> badD H' d).
Proof.
  intros H H' [RA RD _ _].
  assert (X : (forall a, badA H a -> badA H' a) /\ (forall d, badD H d -> badD H' d)).
  { apply (bad_mind H (fun a _ => badA H' a) (fun d _ => badD H' d)).
    - intros a l b E I B IH. eapply bad_cat; [rewrite RA; [exact E|eapply bad_cat; eauto]|exact I|exact IH].
    - intros a b Iv E B IH. eapply bad_within; [rewrite RA; [exact E|eapply bad_within; eauto]|exact IH].
    - intros a d E B IH. eapply bad_plus; [rewrite RA; [exact E|eapply bad_plus; eauto]|exact IH].
    - intros d ls l E I L. eapply bad_conj; [rewrite RD; [exact E|eapply bad_conj; eauto]|exact I|exact L].
    - intros d ls l b E I J B IH. eapply bad_in; [rewrite RD; [exact E|eapply bad_in; eauto]|exact I|exact J|exact IH]. }
  exact X.
Qed.

Lemma rel_refl : forall H, rel H H.
Proof. intros H. constructor; auto. Qed.
Lemma rel_trans : forall H1 H2 H3, rel H1 H2 -> rel H2 H3 -> rel H1 H3.
Proof.
  intros H1 H2 H3 R1 R2. destruct (rel_fwd _ _ R1) as [FA FD]. constructor.
  - intros a B. rewrite (rel_A _ _ R2) by auto. apply (rel_A _ _ R1). auto.
  - intros a B. rewrite (rel_D _ _ R2) by auto. apply (rel_D _ _ R1). auto.
  - intros a B. apply (rel_backA _ _ R1), (rel_backA _ _ R2). auto.
  - intros a B. apply (rel_backD _ _ R1), (rel_backD _ _ R2). auto.
Qed.

Lemma bad_ext : forall H H', (forall a, cellA H' a = cellA H a) -> (forall d, listD H' d = listD H d) ->
  (forall a, badA H' a -> badA H a) /\ (forall d, badD H' d -> badD H d).
Proof.
  intros H H' EA ED. apply (bad_mind H' (fun a _ => badA H a) (fun d _ => badD H d)); intros.
  - eapply bad_cat; eauto. rewrite <- EA. auto.
  - eapply bad_within; eauto. rewrite <- EA. eauto.
  - eapply bad_plus; eauto. rewrite <- EA. auto.
  - eapply bad_conj; eauto. rewrite <- ED. auto.
  - eapply bad_in; eauto. rewrite <- ED. auto.
Qed.

Lemma rel_ext : forall H H', (forall a, cellA H' a = cellA H a) -> (forall d, listD H' d = listD H d) -> rel H H'.
Proof. intros H H' EA ED. destruct (bad_ext _ _ EA ED). constructor; auto. Qed.

Lemma rel_setS : forall H s x, rel H (setS H s x).
Proof. intros. apply rel_ext; auto. Qed.
Lemma rel_newS : forall H c l, rel H (snd (newS H c l)).
Proof. intros. apply rel_ext; auto. Qed.
Lemma rel_setDec : forall H a d H', setDec H a d = Ok H' -> rel H H'.
Proof. intros H a d H' E. apply cellA_setDec in E as (E1 & E2 & E3). apply rel_ext; auto. intros x. unfold listD. rewrite E3. auto. Qed.

Definition badcell (H : heap) (c : acell) : Prop :=
  match c with
  | ACat l => exists b, In b l /\ badA H b
  | AWithin b _ => badA H b
  | APlus d => badD H d
  | _ => False
  end.

Lemma badA_cell : forall H a, badA H a <-> exists c, cellA H a = Some c /\ badcell H c.
Proof.
  intros H a. split.
  - intros B. inversion B; subst; eexists; split; eauto; cbn; eauto.
  - intros (c & E & B). destruct c; cbn in B; try contradiction.
    + destruct B as (b & I & B). eapply bad_cat; eauto.
    + eapply bad_plus; eauto.
    + eapply bad_within; eauto.
Qed.

Lemma rel_cell : forall H H' a c, ~ badA H a -> ~ badcell H c ->
  (forall b, cellA H' b = if b =? a then Some c else cellA H b) -> (forall d, listD H' d = listD H d) -> rel H H'.
Proof.
  intros H H' a c Na Nc EA ED.
  assert (X : (forall a, badA H' a -> badA H a) /\ (forall d, badD H' d -> badD H d)).
  { apply (bad_mind H' (fun a _ => badA H a) (fun d _ => badD H d)).
    - intros a0 l b E I _ IH. rewrite EA in E. destruct (Nat.eqb_spec a0 a) as [->|N]; [|eapply bad_cat; eauto].
      injection E as ->. exfalso. apply Nc. cbn. eauto.
    - intros a0 b Iv E _ IH. rewrite EA in E. destruct (Nat.eqb_spec a0 a) as [->|N]; [|eapply bad_within; eauto].
      injection E as ->. exfalso. apply Nc. cbn. eauto.
    - intros a0 d E _ IH. rewrite EA in E. destruct (Nat.eqb_spec a0 a) as [->|N]; [|eapply bad_plus; eauto].
      injection E as ->. exfalso. apply Nc. cbn. eauto.
    - intros d ls l E I L. rewrite ED in E. eapply bad_conj; eauto.
    - intros d ls l b E I J _ IH. rewrite ED in E. eapply bad_in; eauto. }
  destruct X as [XA XD]. constructor; auto. intros b B. rewrite EA. destruct (Nat.eqb_spec b a) as [->|N]; tauto.
Qed.

Lemma rel_setCell : forall H a c H', ~ badA H a -> ~ badcell H c -> setCell H a c = Ok H' -> rel H H'.
Proof.
  intros H a c H' Na Nc E. apply cellA_setCell in E as (E1 & E2 & E3). eapply rel_cell; eauto. intros d. unfold listD. rewrite E3. auto.
Qed.

Lemma cellA_newA : forall H c b, cellA (snd (newA H c)) b = if b =? length (hA H) then Some c else cellA H b.
Proof.
  intros H c b. unfold cellA; cbn. destruct (Nat.eqb_spec b (length (hA H))) as [->|N].
  - rewrite nth_error_app2, Nat.sub_diag by lia. reflexivity.
  - destruct (lt_dec b (length (hA H))) as [L|L]; [rewrite nth_error_app1 by auto; auto|].
    rewrite nth_error_app2 by lia. destruct (b - length (hA H)) as [|k] eqn:E; [lia|].
    replace (nth_error (hA H) b) with (@None atom) by (symmetry; apply nth_error_None; lia). destruct k; reflexivity.
Qed.
Lemma cellA_fresh : forall H, cellA H (length (hA H)) = None.
Proof. intros H. unfold cellA. replace (nth_error _ _) with (@None atom); auto. symmetry. apply nth_error_None. lia. Qed.

Lemma rel_newA : forall H c, ~ badcell H c -> rel H (snd (newA H c)).
Proof.
  intros H c N. eapply rel_cell; [|exact N|apply cellA_newA|auto]. intros B. apply badA_cell in B as (c' & E & _). rewrite cellA_fresh in E. discriminate.
Qed.
Lemma rel_newSingle : forall H c l, rel H (snd (newSingle H c l)).
Proof.
  intros H c l. unfold newSingle. cbn. eapply rel_trans; [apply (rel_newS H c l)|]. apply (rel_newA (snd (newS H c l)) (ASing (length (hS H)))). auto.
Qed.

Lemma rel_setD_list : forall H d e, ~ badD H d ->
  (forall l, In l (dn_list e) -> length l < 2 /\ forall b, In b l -> ~ badA H b) -> rel H (setD H d e).
Proof.
  intros H d e N Hl.
  assert (ED := fun b => listD_setD H d e b).
  assert (X : (forall a, badA (setD H d e) a -> badA H a) /\ (forall d', badD (setD H d e) d' -> badD H d')).
  { apply (bad_mind (setD H d e) (fun a _ => badA H a) (fun d _ => badD H d)).
    - intros; eapply bad_cat; eauto.
    - intros; eapply bad_within; eauto.
    - intros; eapply bad_plus; eauto.
    - intros d' ls l E I L. rewrite ED in E. destruct ((d' =? d) && (d <? length (hD H))); [|eapply bad_conj; eauto].
      injection E as <-. destruct (Hl l I). lia.
    - intros d' ls l b E I J _ IH. rewrite ED in E. destruct ((d' =? d) && (d <? length (hD H))); [|eapply bad_in; eauto].
      injection E as <-. exfalso. destruct (Hl l I) as [_ K]. eapply K; eauto. }
  destruct X as [XA XD]. constructor; auto. intros b B. rewrite ED. destruct (Nat.eqb_spec b d) as [->|]; [tauto|auto].
Qed.

Lemma rel_setD_same : forall H d e dec, getD H d = Ok e -> rel H (setD H d (mkDn (dn_list e) dec)).
Proof.
  intros H d e dec E. apply rel_ext; auto. intros b. rewrite listD_setD. cbn [dn_list].
  destruct (Nat.eqb_spec b d) as [->|]; cbn [andb]; auto. destruct (d <? length (hD H)); auto. symmetry. apply listD_get. auto.
Qed.

(* ---------------- makeSNF ---------------- *)

Lemma hall_rel : forall f l H r, (forall H a r, ~ badA H a -> f H a = Ok r -> rel H (snd r)) ->
  (forall b, In b l -> ~ badA H b) -> hall f H l = Ok r -> rel H (snd r).
Proof.
  intros f. induction l as [|a l IH]; intros H r Hf N E; cbn in E; [injection E as <-; apply rel_refl|].
  unbind E. assert (R := Hf _ _ _ (N a (or_introl eq_refl)) E0). destruct (fst x); [|injection E as <-; auto].
  eapply rel_trans; [exact R|]. eapply IH; eauto. intros b I B. apply (N b (or_intror I)). apply (rel_backA _ _ R). auto.
Qed.

Lemma snf_keep_rel : forall f ls H r, (forall H a r, ~ badA H a -> f H a = Ok r -> rel H (snd r)) ->
  (forall l b, In l ls -> In b l -> ~ badA H b) -> snf_keep f H ls = Ok r -> rel H (snd r).
Proof.
  intros f. induction ls as [|l ls IH]; intros H r Hf N E; cbn in E; [injection E as <-; apply rel_refl|].
  unbind E. unbind E. injection E as <-. cbn. assert (R := hall_rel _ _ _ _ Hf (fun b => N l b (or_introl eq_refl)) E0).
  eapply rel_trans; [exact R|]. eapply IH; eauto. intros l' b I J B. apply (N l' b (or_intror I) J). apply (rel_backA _ _ R). auto.
Qed.

Lemma snf_rel : forall fuel c,
  (forall H a r, ~ badA H a -> snfA fuel c H a = Ok r -> rel H (snd r)) /\
  (forall H d H', ~ badD H d -> snfD fuel c H d = Ok H' -> rel H H').
Proof.
  induction fuel as [|f IH]; intros c; [split; intros; discriminate|]. destruct (IH c) as [IA ID]. split.
  - intros H a r N E. rewrite snfA_S in E. unbind E. pose proof (cellA_get _ _ _ E0) as EC. destruct (at_cell x) as [s| | |l|d|b Iv].
    + unbind E. injection E as <-. apply rel_refl.
    + discriminate.
    + injection E as <-. apply rel_refl.
    + unbind E. assert (R : rel H (snd x0)).
      { eapply hall_rel; [exact IA| |exact E1]. intros b I B. apply N. eapply bad_cat; eauto. }
      destruct (fst x0); [|injection E as <-; auto]. unbind E. cbn in E. unbind E. injection E as <-. cbn.
      eapply rel_trans; [exact R|]. eapply rel_trans; [apply (rel_newS (snd x0) c (fold_left isum x1 [mkI bzero bzero]))|].
      assert (R1 := rel_newS (snd x0) c (fold_left isum x1 [mkI bzero bzero])).
      eapply rel_setCell; [| |exact E3]; auto. intros B. apply N, (rel_backA _ _ R), (rel_backA _ _ R1). auto.
    + unbind E. assert (R : rel H x0). { eapply ID; [|exact E1]. intros B. apply N. eapply bad_plus; eauto. }
      unbind E. destruct (dn_list x1) as [|[|b t] q]; try discriminate. unbind E. unbind E. unbind E. unbind E. injection E as <-. cbn.
      eapply rel_trans; [exact R|]. eapply rel_trans; [|apply rel_setS]. eapply rel_setCell; [| |eassumption]; auto.
      intros B. apply N, (rel_backA _ _ R). auto.
    + unbind E. assert (R : rel H (snd x0)). { eapply IA; [|exact E1]. intros B. apply N. eapply bad_within; eauto. }
      destruct (fst x0); [|injection E as <-; auto]. unbind E. unbind E. unbind E. injection E as <-. cbn.
      eapply rel_trans; [exact R|]. eapply rel_trans; [|apply rel_setS]. eapply rel_setCell; [| |eassumption]; auto.
      intros B. apply N, (rel_backA _ _ R). auto.
  - intros H d H' N E. rewrite snfD_S in E. unbind E. pose proof (listD_get _ _ _ E0) as EL. unbind E.
    assert (R : rel H (snd x0)). { eapply snf_keep_rel; [exact IA| |exact E1]. intros l b I J B. apply N. eapply bad_in; eauto. }
    unbind E. assert (R2 := rel_newSingle (snd x0) c (concat x1)). unfold newSingle in E, R2. cbn in E, R2. unbind E. injection E as <-.
    eapply rel_trans; [exact R|]. eapply rel_trans; [exact R2|]. apply rel_setD_list.
    + intros B. apply N, (rel_backD _ _ R), (rel_backD _ _ R2). auto.
    + intros l [<-|[]]. split; [cbn; lia|]. intros b [<-|[]] B. apply badA_cell in B as (c' & E' & B).
      change (cellA (snd (newA (mkH (hA (snd x0)) (hS (snd x0) ++ [(c, concat x1)]) (hD (snd x0))) (ASing (length (hS (snd x0)))))) (length (hA (snd x0))) = Some c') in E'.
      rewrite cellA_newA in E'. cbn in E'. rewrite Nat.eqb_refl in E'. injection E' as <-. destruct B.
Qed.

(* ---------------- toNormalForm ---------------- *)

Definition stop (H : heap) (x : nat) : outcome heap := UB.

Lemma merge_rel : forall fuel H k l r, merge_loop fuel H k l = Ok r -> rel H (snd r) /\ incl (fst r) l.
Proof.
  induction fuel as [|f IH]; intros H k l r E; [discriminate|]. cbn [merge_loop] in E.
  destruct l as [|a t]; [injection E as <-; split; [apply rel_refl|apply incl_refl]|]. unbind E.
  assert (K : forall r, bind (merge_loop f H (S k) t) (fun q => Ok (a :: fst q, snd q)) = Ok r -> rel H (snd r) /\ incl (fst r) (a :: t)).
  { intros r' E'. unbind E'. injection E' as <-. cbn. destruct (IH _ _ _ _ E1) as [R I]. split; auto. intros y [<-|Hy]; [left; auto|right; auto]. }
  destruct (at_cell x); try (eapply K; eassumption).
  - destruct t as [|b t]; [injection E as <-; split; [apply rel_refl|apply incl_refl]|]. unbind E.
    destruct (at_cell x0); try (eapply K; eassumption); try discriminate.
    unbind E. unbind E. destruct (fst x1 =? fst x2); [|eapply K; eassumption]. destruct (IH _ _ _ _ E) as [R I].
    split; [eapply rel_trans; [apply rel_setS|exact R]|]. intros y Hy. apply I in Hy as [<-|Hy]; [left; auto|right; right; auto].
  - destruct (1 <? k + length (a :: t)); [|eapply K; eassumption]. destruct (IH _ _ _ _ E) as [R I]. split; auto. intros y Hy. right. auto.
Qed.

Lemma cat_decs_rel : forall f l H acc r, (forall H a H', f H a = Ok H' -> ~ badA H a /\ rel H H') ->
  cat_decs f H acc l = Ok r -> rel H (snd r) /\ forall b, In b l -> ~ badA H b.
Proof.
  intros f. induction l as [|a l IH]; intros H acc r Hf E; cbn in E; [injection E as <-; split; [apply rel_refl|intros b []]|].
  unbind E. unbind E. destruct (Hf _ _ _ E0) as [N R]. destruct (IH _ _ _ Hf E) as [R2 N2]. split; [eapply rel_trans; eauto|].
  intros b [<-|I]; auto. intros B. apply (N2 b I), (proj1 (rel_fwd _ _ R)). auto.
Qed.

Lemma hfold_rel : forall {X} (f : heap -> X -> outcome heap) (P : heap -> X -> Prop) l H H',
  (forall H x H', f H x = Ok H' -> ~ P H x /\ rel H H') -> (forall H H' x, rel H H' -> P H x -> P H' x) ->
  hfold f H l = Ok H' -> rel H H' /\ forall x, In x l -> ~ P H x.
Proof.
  intros X f P. induction l as [|a l IH]; intros H H' Hf Hp E; cbn in E; [injection E as <-; split; [apply rel_refl|intros b []]|].
  unbind E. destruct (Hf _ _ _ E0) as [N R]. destruct (IH _ _ Hf Hp E) as [R2 N2]. split; [eapply rel_trans; eauto|].
  intros b [<-|I]; auto. intros B. apply (N2 b I). eapply Hp; eauto.
Qed.

Lemma conj_loop_one : forall fuel H d l r, conj_loop fuel H d l = Ok r -> l = [].
Proof.
  induction fuel as [|f IH]; intros H d l r E; [discriminate|]. cbn in E. destruct l as [|a l]; auto. unbind E. apply IH in E. discriminate.
Qed.
Lemma conj_dec_one : forall fuel H l r, conj_dec fuel H l = Ok r -> length l = 1.
Proof. intros fuel H [|a l] r E; cbn in E; [discriminate|]. unbind E. apply conj_loop_one in E. subst. reflexivity. Qed.

Lemma oseq_In : forall {X Y} (f : X -> outcome Y) l r, oseq f l = Ok r -> forall x, In x l -> exists y, f x = Ok y.
Proof.
  intros X Y f. induction l as [|x l IH]; intros r E y Hy; [destruct Hy|]. cbn in E. unbind E. unbind E. destruct Hy as [<-|Hy]; eauto.
Qed.

Lemma nf_rel : forall fuel,
  (forall H a H', nfA stop stop fuel H a = Ok H' -> ~ badA H a /\ rel H H') /\
  (forall H d H', nfD stop stop fuel H d = Ok H' -> ~ badD H d /\ rel H H').
Proof.
  induction fuel as [|f [IA ID]]; [split; intros; discriminate|]. split.
  - intros H a H' E. rewrite nfA_S in E. unbind E. pose proof (cellA_get _ _ _ E0) as EC. destruct (at_cell x) as [s| | |l|d|b Iv].
    + unbind E. split; [|eapply rel_setDec; eauto]. intros B. apply badA_cell in B as (c & E' & B). rewrite EC in E'. injection E' as <-. destruct B.
    + discriminate.
    + split; [|eapply rel_setDec; eauto]. intros B. apply badA_cell in B as (c & E' & B). rewrite EC in E'. injection E' as <-. destruct B.
    + unbind E. destruct (cat_decs_rel _ _ _ _ _ IA E1) as [R1 Nl].
      assert (Na : ~ badA H a).
      { intros B. apply badA_cell in B as (c & E' & B). rewrite EC in E'. injection E' as <-. destruct B as (b & I & B). exact (Nl b I B). }
      split; auto. unbind E. assert (R2 := rel_setDec _ _ _ _ E2). unbind E. destruct (merge_rel _ _ _ _ _ E3) as [R3 Il].
      assert (R : rel H (snd x2)) by (eapply rel_trans; [exact R1|]; eapply rel_trans; eauto). unbind E.
      assert (R4 : rel H x3).
      { eapply rel_trans; [exact R|]. assert (NA : ~ badA (snd x2) a) by (intros B; apply Na, (rel_backA _ _ R); auto).
        assert (NC : ~ badcell (snd x2) (ACat (fst x2))).
        { intros (b & I & B). apply (Nl b); [apply Il; auto|]. apply (rel_backA _ _ R). auto. }
        destruct (fst x2) as [|b [|b' t]] eqn:EF; [exact (rel_setCell _ _ _ _ NA NC E4)| |exact (rel_setCell _ _ _ _ NA NC E4)].
        unbind E4. assert (NB : ~ badcell (snd x2) (at_cell x4)).
        { intros B. apply NC. exists b. split; [left; auto|]. apply badA_cell. exists (at_cell x4). split; auto. apply cellA_get; auto. }
        destruct (at_cell x4); try discriminate; exact (rel_setCell _ _ _ _ NA NB E4). }
      unbind E. destruct (at_cell x4); try (injection E as <-; auto; fail). unbind E. destruct x5; [discriminate|injection E as <-; auto].
    + unbind E. destruct (ID _ _ _ E1) as [Nd R1]. split.
      { intros B. apply badA_cell in B as (c & E' & B). rewrite EC in E'. injection E' as <-. exact (Nd B). }
      assert (Na : ~ badA H a).
      { intros B. apply badA_cell in B as (c & E' & B). rewrite EC in E'. injection E' as <-. exact (Nd B). }
      unbind E. destruct (dn_dec x1); [|discriminate]. unbind E. assert (R2 := rel_setDec _ _ _ _ E3). unbind E.
      destruct (isMixed (plus_dec d0)); [discriminate|]. injection E4 as <-.
      assert (R : rel H x2) by (eapply rel_trans; eauto).
      destruct (isConstant (plus_dec d0)); [|injection E as <-; auto]. unbind E. injection E as <-.
      eapply rel_trans; [exact R|]. eapply (proj1 (snf_rel _ _)); [|exact E4]. intros B. apply Na, (rel_backA _ _ R). auto.
    + unbind E. destruct (IA _ _ _ E1) as [Nb R1].
      assert (Na : ~ badA H a).
      { intros B. apply badA_cell in B as (c & E' & B). rewrite EC in E'. injection E' as <-. exact (Nb B). }
      split; auto. unbind E. unbind E. assert (R2 := rel_setDec _ _ _ _ E3). assert (R : rel H x2) by (eapply rel_trans; eauto).
      unbind E. pose proof (cellA_get _ _ _ E4) as EY. destruct (at_cell x3); try discriminate; try (injection E as <-; auto; fail).
      * unbind E. unbind E. eapply rel_trans; [exact R|].
        assert (R5 := rel_setS x2 n (fst x4, land1 (snd x4) Iv)). eapply rel_trans; [exact R5|].
        assert (NB : ~ badA (setS x2 n (fst x4, land1 (snd x4) Iv)) b) by (intros B; apply Nb, (rel_backA _ _ R), (rel_backA _ _ R5); auto).
        assert (R6 := rel_setCell _ _ AMoved _ NB (fun X => X) E6). eapply rel_trans; [exact R6|]. eapply rel_setCell; [| |exact E]; auto.
        intros B. apply Na, (rel_backA _ _ R), (rel_backA _ _ R5), (rel_backA _ _ R6). auto.
      * eapply rel_trans; [exact R|]. eapply rel_setCell; [| |exact E]; auto. intros B. apply Na, (rel_backA _ _ R). auto.
      * destruct (isMixed x1); [discriminate|injection E as <-; auto].
  - intros H d H' E. rewrite nfD_S in E. unbind E. pose proof (listD_get _ _ _ E0) as EL. unbind E.
    assert (FW : forall H2 H3 y, rel H2 H3 -> badA H2 y -> badA H3 y) by (intros H2 H3 y R; apply (proj1 (rel_fwd _ _ R))).
    assert (IN : forall H0 l H1, hfold (nfA stop stop f) H0 l = Ok H1 -> ~ (exists b, In b l /\ badA H0 b) /\ rel H0 H1).
    { intros H0 l H1 E'. destruct (hfold_rel (nfA stop stop f) badA l H0 H1 IA FW E') as [R1 N1]. split; auto. intros (b & I & B). exact (N1 b I B). }
    assert (FW2 : forall H2 H3 (l : list nat), rel H2 H3 -> (exists b, In b l /\ badA H2 b) -> (exists b, In b l /\ badA H3 b)).
    { intros H2 H3 l R (b & I & B). exists b. split; auto. eapply FW; eauto. }
    destruct (hfold_rel (fun H l => hfold (nfA stop stop f) H l) (fun H l => exists b, In b l /\ badA H b) _ _ _ IN FW2 E1) as [R1 N1].
    unbind E. unbind E. destruct (existsb (fun b => b) x1); [discriminate|]. injection E3 as <-. unbind E. unbind E. unbind E. injection E as <-.
    split; [|eapply rel_trans; [exact R1|]; apply rel_setD_same; auto].
    intros B. assert (EL2 : listD x0 d = listD H d) by (apply (rel_D _ _ R1); auto).
    rewrite EL, (listD_get _ _ _ E3) in EL2. injection EL2 as EL2.
    inversion B as [d' ls l E' I L|d' ls l b E' I J Bb]; subst; rewrite EL in E'; injection E' as <-.
    + rewrite EL2 in E4. destruct (oseq_In _ _ _ E4 l I) as (y & Ey). apply conj_dec_one in Ey. lia.
    + exact (N1 l I (ex_intro _ b (conj J Bb))).
Qed.

(* ---------------- the heap built for an expression ---------------- *)

Record pre (H H' : heap) : Prop := mkPre {
  pre_A : forall a x, nth_error (hA H) a = Some x -> nth_error (hA H') a = Some x;
  pre_S : forall a x, nth_error (hS H) a = Some x -> nth_error (hS H') a = Some x;
  pre_D : forall a x, nth_error (hD H) a = Some x -> nth_error (hD H') a = Some x
}.

Lemma pre_refl : forall H, pre H H.
Proof. constructor; auto. Qed.
Lemma pre_trans : forall H1 H2 H3, pre H1 H2 -> pre H2 H3 -> pre H1 H3.
Proof. intros H1 H2 H3 [A1 S1 D1] [A2 S2 D2]. constructor; auto. Qed.

Lemma nth_snoc : forall {X} (l : list X) y a x, nth_error l a = Some x -> nth_error (l ++ [y]) a = Some x.
Proof. intros X l y a x E. rewrite nth_error_app1; auto. apply nth_error_Some. congruence. Qed.
Lemma nth_last : forall {X} (l : list X) y, nth_error (l ++ [y]) (length l) = Some y.
Proof. intros. rewrite nth_error_app2, Nat.sub_diag by lia. reflexivity. Qed.

Lemma pre_newA : forall H c, pre H (snd (newA H c)).
Proof. intros. constructor; cbn; auto. intros. apply nth_snoc; auto. Qed.
Lemma pre_newS : forall H c l, pre H (snd (newS H c l)).
Proof. intros. constructor; cbn; auto. intros. apply nth_snoc; auto. Qed.
Lemma pre_newD : forall H l, pre H (snd (newD H l)).
Proof. intros. constructor; cbn; auto. intros. apply nth_snoc; auto. Qed.
Lemma pre_newSingle : forall H c l, pre H (snd (newSingle H c l)).
Proof. intros. unfold newSingle. cbn. eapply pre_trans; [apply (pre_newS H c l)|]. apply (pre_newA (snd (newS H c l)) (ASing (length (hS H)))). Qed.

Lemma pre_cellA : forall H H' a c, pre H H' -> cellA H a = Some c -> cellA H' a = Some c.
Proof.
  intros H H' a c P E. unfold cellA in *. destruct (nth_error (hA H) a) eqn:N; [|discriminate]. rewrite (pre_A _ _ P _ _ N). auto.
Qed.
Lemma pre_listD : forall H H' a c, pre H H' -> listD H a = Some c -> listD H' a = Some c.
Proof.
  intros H H' a c P E. unfold listD in *. destruct (nth_error (hD H) a) eqn:N; [|discriminate]. rewrite (pre_D _ _ P _ _ N). auto.
Qed.

Lemma bad_pre : forall H H', pre H H' -> (forall a, badA H a -> badA H' a) /\ (forall d, badD H d -> badD H' d).
Proof.
  intros H H' P. apply (bad_mind H (fun a _ => badA H' a) (fun d _ => badD H' d)); intros.
  - eapply bad_cat; eauto. eapply pre_cellA; eauto.
  - eapply bad_within; eauto. eapply pre_cellA; eauto.
  - eapply bad_plus; eauto. eapply pre_cellA; eauto.
  - eapply bad_conj; eauto. eapply pre_listD; eauto.
  - eapply bad_in; eauto. eapply pre_listD; eauto.
Qed.

(* Every step of hmap. *)
Lemma hmap_steps : forall {X Y} (f : heap -> X -> outcome (Y * heap)) l H r,
  (forall H x r, f H x = Ok r -> pre H (snd r)) -> hmap f H l = Ok r ->
  pre H (snd r) /\ length (fst r) = length l /\
  (forall x, In x l -> exists H1 y H2, f H1 x = Ok (y, H2) /\ pre H H1 /\ pre H2 (snd r) /\ In y (fst r)) /\
  (forall y, In y (fst r) -> exists x H1 H2, In x l /\ f H1 x = Ok (y, H2) /\ pre H H1 /\ pre H2 (snd r)).
Proof.
  intros X Y f. induction l as [|a l IH]; intros H r Hf E; cbn in E.
  - injection E as <-. cbn. split; [apply pre_refl|]. split; auto. split; intros y [].
  - unbind E. unbind E. injection E as <-. cbn. destruct (IH _ _ Hf E1) as (P & L & S1 & S2). assert (P0 := Hf _ _ _ E0).
    split; [eapply pre_trans; eauto|]. split; [auto|]. split.
    + intros y [<-|I].
      * exists H, (fst x), (snd x). rewrite <- surjective_pairing. split; auto. split; [apply pre_refl|]. split; auto.
      * destruct (S1 y I) as (H1 & z & H2 & E2 & P1 & P2 & I2). exists H1, z, H2. split; auto. split; [eapply pre_trans; eauto|]. auto.
    + intros y [<-|I].
      * exists a, H, (snd x). rewrite <- surjective_pairing. split; auto. split; auto. split; [apply pre_refl|auto].
      * destruct (S2 y I) as (z & H1 & H2 & I1 & E2 & P1 & P2). exists z, H1, H2. split; auto. split; auto. split; [eapply pre_trans; eauto|auto].
Qed.

Lemma newCat_pre : forall H l r x, newCat H l r = Ok x -> pre H (snd x).
Proof.
  intros H l r x E. unfold newCat in E. unbind E. unbind E. destruct (x0 ++ x1) as [|y [|z t]]; try discriminate; injection E as <-.
  - apply (pre_newA H AEps).
  - apply (pre_newA H (ACat (y :: z :: t))).
Qed.
Lemma newWithin_pre : forall H a Iv x, newWithin H a Iv = Ok x -> pre H (snd x).
Proof.
  intros H a Iv x E. unfold newWithin in E. unbind E. destruct (at_cell x0); try discriminate; try (injection E as <-; apply (pre_newA H (AWithin a Iv))).
  unbind E. injection E as <-. apply pre_newSingle.
Qed.

Lemma hmap_pre : forall {X Y} (f : heap -> X -> outcome (Y * heap)) l H r,
  (forall H x r, f H x = Ok r -> pre H (snd r)) -> hmap f H l = Ok r -> pre H (snd r).
Proof. intros X Y f l H r Hf E. destruct (hmap_steps f l H r Hf E). auto. Qed.

Definition catstep (H : heap) (lr : list nat * list nat) : outcome (list nat * heap) :=
  hmap (fun H ab => newCat H (fst ab) (snd ab)) H (pairs (fst lr) (snd lr)).
Lemma catstep_pre : forall H x r, catstep H x = Ok r -> pre H (snd r).
Proof. intros H x r E. refine (hmap_pre _ _ _ _ _ E). intros H0 ab r0. apply newCat_pre. Qed.
Definition withinstep (Iv : interval) (H : heap) (l : list nat) : outcome (list nat * heap) :=
  hmap (fun H a => newWithin H a Iv) H l.
Lemma withinstep_pre : forall Iv H x r, withinstep Iv H x = Ok r -> pre H (snd r).
Proof. intros Iv H x r E. refine (hmap_pre _ _ _ _ _ E). intros H0 ab r0. apply newWithin_pre. Qed.

Lemma in_pairs : forall {X Y} (l : list X) (r : list Y) x y, In (x, y) (pairs l r) <-> In x l /\ In y r.
Proof.
  intros X Y l r x y. unfold pairs. rewrite in_flat_map. split.
  - intros (z & I & J). apply in_map_iff in J as (w & E & J). injection E as <- <-. auto.
  - intros [I J]. exists x. split; auto. apply in_map_iff. exists y. auto.
Qed.
Lemma pairs_len : forall {X Y} (l : list X) (r : list Y), length (pairs l r) = length l * length r.
Proof. intros X Y l r. unfold pairs. induction l as [|x l IH]; cbn; auto. rewrite app_length, map_length, IH. auto. Qed.

Lemma dnf_shape : forall r H X, dnf_of r H = Ok X -> pre H (snd X) /\ fst X <> [] /\ forall l, In l (fst X) -> l <> [].
Proof.
  induction r as [c| |r IH|r1 IH1 r2 IH2|r1 IH1 r2 IH2|r1 IH1 r2 IH2|r IH Iv]; intros H X E; cbn [dnf_of] in E.
  - injection E as <-. cbn. split; [apply (pre_newSingle H c [interval_default])|]. split; [discriminate|]. intros l [<-|[]]; discriminate.
  - injection E as <-. cbn. split; [apply (pre_newA H AEps)|]. split; [discriminate|]. intros l [<-|[]]; discriminate.
  - unbind E. cbn in E. injection E as <-. cbn. destruct (IH _ _ E0) as (P & _). split.
    { eapply pre_trans; [exact P|]. eapply pre_trans; [apply (pre_newD (snd x) (fst x))|].
      apply (pre_newA (snd (newD (snd x) (fst x))) (APlus (length (hD (snd x))))). }
    split; [discriminate|]. intros l [<-|[]]; discriminate.
  - unbind E. unbind E. unbind E. injection E as <-. cbn. destruct (IH1 _ _ E0) as (P1 & N1 & L1). destruct (IH2 _ _ E1) as (P2 & N2 & L2).
    change (hmap catstep (snd x0) (pairs (fst x) (fst x0)) = Ok x1) in E2.
    destruct (hmap_steps _ _ _ _ catstep_pre E2) as (P3 & _ & S1 & _). split; [eapply pre_trans; [exact P1|]; eapply pre_trans; eauto|].
    split; [|intros l I; apply filter_In in I as [_ I]; intros ->; discriminate].
    destruct (fst x) as [|l ls] eqn:EX; [congruence|]. destruct (fst x0) as [|r rs] eqn:EY; [congruence|].
    destruct (S1 (l, r)) as (H1 & y & H2 & Es & _ & _ & I); [apply in_pairs; split; left; auto|].
    intros F. assert (K : In y (filter (fun l => negb (is_nil l)) (fst x1))); [|rewrite F in K; destruct K].
    apply filter_In. split; auto. destruct (hmap_steps _ _ _ _ (fun H ab r => newCat_pre H (fst ab) (snd ab) r) Es) as (_ & Len & _). cbn [fst snd] in Len.
    rewrite pairs_len in Len. specialize (L1 l (or_introl eq_refl)). specialize (L2 r (or_introl eq_refl)).
    destruct y; [|reflexivity]. destruct l; [congruence|]. destruct r; [congruence|]. cbn in Len. discriminate.
  - unbind E. unbind E. injection E as <-. cbn. destruct (IH1 _ _ E0) as (P1 & N1 & L1). destruct (IH2 _ _ E1) as (P2 & N2 & L2).
    split; [eapply pre_trans; eauto|]. split; [intros F; apply app_eq_nil in F as [F _]; congruence|].
    intros l I. apply in_app_or in I as [I|I]; auto.
  - unbind E. unbind E. injection E as <-. cbn. destruct (IH1 _ _ E0) as (P1 & N1 & L1). destruct (IH2 _ _ E1) as (P2 & N2 & L2).
    split; [eapply pre_trans; eauto|]. split; [|intros l I; apply filter_In in I as [_ I]; intros ->; discriminate].
    destruct (fst x) as [|l ls]; [congruence|]. destruct (fst x0) as [|r rs]; [congruence|]. specialize (L1 l (or_introl eq_refl)).
    cbn. destruct l; [congruence|]. cbn. discriminate.
  - unbind E. destruct (IH _ _ E0) as (P1 & N1 & L1). change (hmap (withinstep Iv) (snd x) (fst x) = Ok X) in E.
    destruct (hmap_steps _ _ _ _ (withinstep_pre Iv) E) as (P3 & Len & _ & S2). split; [eapply pre_trans; eauto|]. split.
    + intros F. rewrite F in Len. destruct (fst x); [congruence|discriminate].
    + intros l I ->. destruct (S2 _ I) as (l0 & H1 & H2 & I0 & Es & _). specialize (L1 _ I0).
      destruct (hmap_steps _ _ _ _ (fun H a r => newWithin_pre H a Iv r) Es) as (_ & Len2 & _). destruct l0; [congruence|discriminate].
Qed.

Fixpoint has_and (r : tre) : bool :=
  match r with
  | Atom _ | Eps => false
  | And _ _ => true
  | Plus r1 | Within r1 _ => has_and r1
  | Cat r1 r2 | Alt r1 r2 => has_and r1 || has_and r2
  end.

Definition badL (H : heap) (ls : list (list nat)) : Prop :=
  (exists l, In l ls /\ 2 <= length l) \/ (exists l b, In l ls /\ In b l /\ badA H b).

Lemma badL_pre : forall H H' ls, pre H H' -> badL H ls -> badL H' ls.
Proof. intros H H' ls P [B|(l & b & I & J & B)]; [left; auto|right; exists l, b; repeat split; auto; apply (proj1 (bad_pre _ _ P)); auto]. Qed.

Lemma cat_items_bad : forall H a xs, cat_items H a = Ok xs -> badA H a -> exists b, In b xs /\ badA H b.
Proof.
  intros H a xs E B. unfold cat_items in E. unbind E. injection E as <-. pose proof (cellA_get _ _ _ E0) as EC.
  pose proof B as B'. apply badA_cell in B' as (c & E' & Bc). rewrite EC in E'. injection E' as <-.
  destruct (at_cell x); try destruct Bc as []; cbn; eauto.
Qed.

Lemma newCat_bad : forall H l r x, newCat H l r = Ok x -> badA H l \/ badA H r -> badA (snd x) (fst x).
Proof.
  intros H l r x E B. unfold newCat in E. unbind E. unbind E.
  assert (K : exists b, In b (x0 ++ x1) /\ badA H b).
  { destruct B as [B|B]; [destruct (cat_items_bad _ _ _ E0 B) as (b & I & Bb)|destruct (cat_items_bad _ _ _ E1 B) as (b & I & Bb)];
      exists b; split; auto; apply in_or_app; auto. }
  destruct K as (b & I & Bb). destruct (x0 ++ x1) as [|y [|z t]]; try discriminate; [destruct I|]. injection E as <-.
  eapply bad_cat; [cbn [fst]; rewrite cellA_newA, Nat.eqb_refl; reflexivity|exact I|].
  apply (proj1 (bad_pre _ _ (pre_newA H (ACat (y :: z :: t))))). auto.
Qed.

Lemma newWithin_bad : forall H a Iv x, newWithin H a Iv = Ok x -> badA H a -> badA (snd x) (fst x).
Proof.
  intros H a Iv x E B. unfold newWithin in E. unbind E. pose proof (cellA_get _ _ _ E0) as EC.
  pose proof B as B'. apply badA_cell in B' as (c & E' & Bc). rewrite EC in E'. injection E' as <-.
  assert (K : x = newA H (AWithin a Iv)) by (destruct (at_cell x0); try destruct Bc as []; injection E as <-; auto). subst x.
  eapply bad_within; [cbn [fst]; rewrite cellA_newA, Nat.eqb_refl; reflexivity|].
  apply (proj1 (bad_pre _ _ (pre_newA H (AWithin a Iv)))). auto.
Qed.

Lemma dnf_bad : forall r H X, has_and r = true -> dnf_of r H = Ok X -> badL (snd X) (fst X).
Proof.
  induction r as [c| |r IH|r1 IH1 r2 IH2|r1 IH1 r2 IH2|r1 IH1 r2 IH2|r IH Iv]; intros H X A E; cbn [has_and] in A; cbn [dnf_of] in E; try discriminate.
  - unbind E. cbn in E. injection E as <-. cbn. specialize (IH _ _ A E0). right. exists [length (hA (snd x))], (length (hA (snd x))).
    split; [left; auto|]. split; [left; auto|].
    change (badA (snd (newA (snd (newD (snd x) (fst x))) (APlus (length (hD (snd x)))))) (length (hA (snd x)))).
    eapply bad_plus; [rewrite cellA_newA; cbn; rewrite Nat.eqb_refl; reflexivity|].
    apply (proj2 (bad_pre _ _ (pre_newA _ _))). apply (badL_pre _ _ _ (pre_newD (snd x) (fst x))) in IH.
    assert (EL : listD (snd (newD (snd x) (fst x))) (length (hD (snd x))) = Some (fst x)) by (unfold listD; cbn; rewrite nth_last; reflexivity).
    destruct IH as [(l & I & L)|(l & b & I & J & B)]; [eapply bad_conj; eauto|eapply bad_in; eauto].
  - unbind E. unbind E. unbind E. injection E as <-. cbn [fst snd].
    change (hmap catstep (snd x0) (pairs (fst x) (fst x0)) = Ok x1) in E2.
    destruct (hmap_steps _ _ _ _ catstep_pre E2) as (P3 & _ & S1 & _).
    destruct (dnf_shape _ _ _ E0) as (P1 & N1 & L1). destruct (dnf_shape _ _ _ E1) as (P2 & N2 & L2).
    assert (KEY : forall l r, In l (fst x) -> In r (fst x0) ->
      (2 <= length l \/ 2 <= length r \/ (exists b, In b l /\ badA (snd x0) b) \/ (exists b, In b r /\ badA (snd x0) b)) ->
      badL (snd x1) (filter (fun l => negb (is_nil l)) (fst x1))).
    { intros l r Il Ir K. destruct (S1 (l, r)) as (H1 & y & H2 & Es & PA & PB & I); [apply in_pairs; auto|].
      destruct (hmap_steps _ _ _ _ (fun H ab r => newCat_pre H (fst ab) (snd ab) r) Es) as (_ & Len & S3 & _). cbn [fst snd] in Len, S3.
      rewrite pairs_len in Len. specialize (L1 l Il). specialize (L2 r Ir).
      assert (1 <= length l) by (destruct l; [congruence|cbn; lia]). assert (1 <= length r) by (destruct r; [congruence|cbn; lia]).
      assert (IF : In y (filter (fun l => negb (is_nil l)) (fst x1))).
      { apply filter_In. split; auto. destruct y; [cbn in Len; nia|reflexivity]. }
      assert (BAD : (exists b, In b l /\ badA (snd x0) b) \/ (exists b, In b r /\ badA (snd x0) b) -> badL (snd x1) (filter (fun l => negb (is_nil l)) (fst x1))).
      { intros BB.
        assert (exists a b, In a l /\ In b r /\ (badA (snd x0) a \/ badA (snd x0) b)) as (a & b & Ia & Ib & B).
        { destruct BB as [(b & Ib & B)|(b & Ib & B)].
          - destruct r as [|q r]; [congruence|]. exists b, q. repeat split; auto. left; auto.
          - destruct l as [|q l]; [congruence|]. exists q, b. repeat split; auto. left; auto. }
        destruct (S3 (a, b)) as (Ha & z & Hb & En & P4 & P5 & Iz); [apply in_pairs; auto|].
        right. exists y, z. repeat split; auto. apply (proj1 (bad_pre _ _ PB)), (proj1 (bad_pre _ _ P5)).
        apply (newCat_bad _ _ _ _ En). cbn [fst snd]. destruct B as [B|B]; [left|right];
          apply (proj1 (bad_pre _ _ P4)), (proj1 (bad_pre _ _ PA)); auto. }
      destruct K as [K|[K|[K|K]]]; auto; left; exists y; split; auto; nia. }
    apply orb_true_iff in A as [A|A].
    + specialize (IH1 _ _ A E0). apply (badL_pre _ _ _ P2) in IH1. destruct (fst x0) as [|r rs] eqn:EY; [congruence|].
      destruct IH1 as [(l & I & L)|(l & b & I & J & B)]; eapply (KEY l r); auto; try (left; auto; fail). right. right. left. eauto.
    + specialize (IH2 _ _ A E1). destruct (fst x) as [|r rs] eqn:EX; [congruence|].
      destruct IH2 as [(l & I & L)|(l & b & I & J & B)]; eapply (KEY r l); auto; try (left; auto; fail). right. right. right. eauto.
  - unbind E. unbind E. injection E as <-. cbn [fst snd]. destruct (dnf_shape _ _ _ E1) as (P2 & _).
    apply orb_true_iff in A as [A|A]; [specialize (IH1 _ _ A E0); apply (badL_pre _ _ _ P2) in IH1|clear IH1; specialize (IH2 _ _ A E1) as IH1];
      destruct IH1 as [(l & I & L)|(l & b & I & J & B)]; [left; exists l|right; exists l, b|left; exists l|right; exists l, b];
      repeat split; auto; apply in_or_app; auto.
  - unbind E. unbind E. injection E as <-. cbn [fst snd]. destruct (dnf_shape _ _ _ E0) as (P1 & N1 & L1). destruct (dnf_shape _ _ _ E1) as (P2 & N2 & L2).
    destruct (fst x) as [|l ls]; [congruence|]. destruct (fst x0) as [|r rs]; [congruence|]. specialize (L1 l (or_introl eq_refl)). specialize (L2 r (or_introl eq_refl)).
    left. exists (l ++ r). split.
    + apply filter_In. split; [cbn; left; auto|]. destruct l; [congruence|reflexivity].
    + rewrite app_length. destruct l; [congruence|]. destruct r; [congruence|]. cbn. lia.
  - unbind E. change (hmap (withinstep Iv) (snd x) (fst x) = Ok X) in E.
    destruct (hmap_steps _ _ _ _ (withinstep_pre Iv) E) as (_ & _ & S1 & _). specialize (IH _ _ A E0).
    assert (STEP : forall l, In l (fst x) -> exists y, In y (fst X) /\ length y = length l /\ forall b, In b l -> badA (snd x) b -> exists z, In z y /\ badA (snd X) z).
    { intros l I. destruct (S1 l I) as (H1 & y & H2 & Es & PA & PB & Iy). exists y. split; auto.
      destruct (hmap_steps _ _ _ _ (fun H a r => newWithin_pre H a Iv r) Es) as (_ & Len & S3 & _). cbn [fst snd] in *. split; auto.
      intros b Ib B. destruct (S3 b Ib) as (Ha & z & Hb & En & P4 & P5 & Iz). exists z. split; auto.
      apply (proj1 (bad_pre _ _ PB)), (proj1 (bad_pre _ _ P5)). apply (newWithin_bad _ _ _ _ En).
      apply (proj1 (bad_pre _ _ P4)), (proj1 (bad_pre _ _ PA)). auto. }
    destruct IH as [(l & I & L)|(l & b & I & J & B)]; destruct (STEP l I) as (y & Iy & Ly & By).
    + left. exists y. split; auto. lia.
    + destruct (By b J B) as (z & Iz & Bz). right. exists y, z. auto.
Qed.

Lemma and_never_returns : forall s1 s2 fuel al r n A m, has_and r = true -> toSignalTA s1 s2 fuel al r n <> Ok (A, m).
Proof.
  intros s1 s2 fuel al r n A m HA E. rewrite (signal_no_separation s1 s2 stop stop) in E. unfold toSignalTA in E.
  unbind E. pose proof (dnf_bad _ _ _ HA E0) as B. cbn [newD] in E. unbind E. apply (proj2 (nf_rel fuel)) in E1 as [N _]. apply N.
  apply (badL_pre _ _ _ (pre_newD (snd x) (fst x))) in B.
  assert (EL : listD (snd (newD (snd x) (fst x))) (length (hD (snd x))) = Some (fst x)) by (unfold listD; cbn; rewrite nth_last; reflexivity).
  destruct B as [(l & I & L)|(l & b & I & J & Bb)]; [eapply bad_conj; eauto|eapply bad_in; eauto].
Qed.

(* ---------------- termination without conjunctions ---------------- *)

Definition ends {T} (o : outcome T) : Prop := o <> OutOfFuel.
Lemma ends_bind : forall {T U} (o : outcome T) (f : T -> outcome U), ends o -> (forall t, o = Ok t -> ends (f t)) -> ends (bind o f).
Proof. intros T U [t| | |k|] f E Hf; cbn; try discriminate; auto; try (exfalso; apply E; reflexivity). Qed.
Lemma ends_Ok : forall {T} (t : T), ends (Ok t).
Proof. discriminate. Qed.
Lemma ends_getA : forall H a, ends (getA H a).
Proof. intros. unfold getA. destruct (nth_error _ _); discriminate. Qed.
Lemma ends_getS : forall H a, ends (getS H a).
Proof. intros. unfold getS. destruct (nth_error _ _); discriminate. Qed.
Lemma ends_getD : forall H a, ends (getD H a).
Proof. intros. unfold getD. destruct (nth_error _ _); discriminate. Qed.
Lemma ends_setCell : forall H a c, ends (setCell H a c).
Proof. intros. apply ends_bind; [apply ends_getA|]. discriminate. Qed.
Lemma ends_setDec : forall H a c, ends (setDec H a c).
Proof. intros. apply ends_bind; [apply ends_getA|]. discriminate. Qed.
Lemma ends_sing_of : forall H a, ends (sing_of H a).
Proof. intros. apply ends_bind; [apply ends_getA|]. intros t _. destruct (at_cell t); discriminate. Qed.
Lemma ends_dec_of : forall H a, ends (dec_of H a).
Proof. intros. apply ends_bind; [apply ends_getA|]. intros t _. destruct (at_dec t); discriminate. Qed.
Lemma ends_sings_of : forall H l, ends (sings_of H l).
Proof.
  induction l as [|a l IH]; cbn; [discriminate|]. apply ends_bind; [apply ends_sing_of|]. intros s _.
  apply ends_bind; [apply ends_getS|]. intros c _. apply ends_bind; auto. discriminate.
Qed.
Lemma ends_oseq : forall {X Y} (f : X -> outcome Y) l, (forall x, In x l -> ends (f x)) -> ends (oseq f l).
Proof.
  intros X Y f. induction l as [|x l IH]; intros Hf; cbn; [discriminate|]. apply ends_bind; [apply Hf; left; auto|]. intros y _.
  apply ends_bind; [apply IH; intros z Hz; apply Hf; right; auto|]. discriminate.
Qed.
Lemma ends_omap : forall {X Y} (f : X -> outcome Y) l, (forall x, ends (f x)) -> ends (omap f l).
Proof.
  intros X Y f l Hf. induction l as [|x l IH]; cbn; [discriminate|]. apply ends_bind; auto. intros y _. apply ends_bind; auto. discriminate.
Qed.
Lemma ends_plus_set : forall l, ends (plus_set l).
Proof.
  intros l. unfold plus_set. destruct (32 <=? length l); [discriminate|]. apply ends_bind.
  - apply ends_omap. intros Iv. unfold iplus. destruct (fst (upb Iv)); try discriminate. destruct (fst (lob Iv)); try discriminate.
    destruct (Qeq_bool _ _); try discriminate. destruct (_ <? _)%Z; discriminate.
  - intros ps _. destruct ps as [|p [|q r]]; discriminate.
Qed.

(* Ranks: an object only refers to objects of smaller rank. *)
Record ranks : Type := mkR { rkA : nat -> nat; rkD : nat -> nat }.

Definition cell_lt (R : ranks) (c : acell) (n : nat) : Prop :=
  match c with
  | ACat l => Forall (fun b => rkA R b < n) l
  | APlus d => rkD R d < n
  | AWithin b _ => rkA R b < n
  | _ => True
  end.

Definition list_lt (R : ranks) (ls : list (list nat)) (n : nat) : Prop :=
  0 < n /\ Forall (fun l => length l <= 1 /\ Forall (fun b => rkA R b < n) l) ls.

Record ranked (N : nat) (R : ranks) (H : heap) : Prop := mkRanked {
  rd_A : forall a c, cellA H a = Some c -> cell_lt R c (rkA R a);
  rd_D : forall d ls, listD H d = Some ls -> list_lt R ls (rkD R d);
  rd_0 : forall a, N <= a -> rkA R a = 0;
  rd_N : N <= length (hA H)
}.

Lemma cell_lt_le : forall R c n m, n <= m -> cell_lt R c n -> cell_lt R c m.
Proof. intros R c n m L C. destruct c; cbn in *; auto; try lia. eapply Forall_impl; [|exact C]. cbn. intros; lia. Qed.

Section Rank.
  Variable N : nat.
  Variable R : ranks.
  Notation rkd := (ranked N R).

  Lemma rkd_ext : forall H H', (forall a, cellA H' a = cellA H a) -> (forall d, listD H' d = listD H d) -> length (hA H) <= length (hA H') -> rkd H -> rkd H'.
  Proof.
    intros H H' EA ED L [A D Z M]. constructor; auto; try lia.
    - intros a c. rewrite EA. auto.
    - intros d ls. rewrite ED. auto.
  Qed.
  Lemma rkd_setS : forall H s x, rkd H -> rkd (setS H s x).
  Proof. intros H s x. apply rkd_ext; auto. Qed.
  Lemma rkd_newS : forall H c l, rkd H -> rkd (snd (newS H c l)).
  Proof. intros H s x. apply rkd_ext; auto. Qed.
  Lemma rkd_setDec : forall H a d H', setDec H a d = Ok H' -> rkd H -> rkd H'.
  Proof.
    intros H a d H' E. pose proof E as E'. apply cellA_setDec in E as (E1 & E2 & E3). apply rkd_ext; auto.
    - intros x. unfold listD. rewrite E3. auto.
    - unfold setDec in E'. unbind E'. injection E' as <-. cbn. rewrite set_nth_length. auto.
  Qed.
  Lemma rkd_setCell : forall H a c H', cell_lt R c (rkA R a) -> setCell H a c = Ok H' -> rkd H -> rkd H'.
  Proof.
    intros H a c H' C E [A D Z M]. pose proof E as E'. apply cellA_setCell in E as (E1 & E2 & E3). constructor; auto.
    - intros b c' Eb. rewrite E1 in Eb. destruct (Nat.eqb_spec b a) as [->|]; auto. injection Eb as <-. auto.
    - intros d ls El. apply D. unfold listD in *. rewrite E3 in El. auto.
    - unfold setCell in E'. unbind E'. injection E' as <-. cbn. rewrite set_nth_length. auto.
  Qed.
  Lemma rkd_setD : forall H d e, list_lt R (dn_list e) (rkD R d) -> rkd H -> rkd (setD H d e).
  Proof.
    intros H d e C [A D Z M]. constructor; auto. intros b ls El. rewrite listD_setD in El.
    destruct (Nat.eqb_spec b d) as [->|]; cbn [andb] in El; auto. destruct (d <? length (hD H)); auto. injection El as <-. auto.
  Qed.
  Lemma rkd_newSingle : forall H c l, rkd H -> rkd (snd (newSingle H c l)) /\ rkA R (fst (newSingle H c l)) = 0.
  Proof.
    intros H c l G. split; [|cbn; apply (rd_0 _ _ _ G), (rd_N _ _ _ G)].
    assert (G1 := rkd_newS H c l G). change (newSingle H c l) with (newA (snd (newS H c l)) (ASing (length (hS H)))).
    generalize dependent (snd (newS H c l)). intros H1 [A D Z M]. constructor; auto.
    - intros a c' E. rewrite cellA_newA in E. destruct (Nat.eqb_spec a (length (hA H1))) as [->|]; auto. injection E as <-. exact Logic.I.
    - cbn. rewrite app_length. lia.
  Qed.
End Rank.

Definition keeps {T} (N : nat) (R : ranks) (o : outcome T) (f : T -> heap) : Prop := ends o /\ forall t, o = Ok t -> ranked N R (f t).

Lemma keeps_bind : forall {T U} N R (o : outcome T) (g : T -> heap) (k : T -> outcome U) (f : U -> heap),
  keeps N R o g -> (forall t, o = Ok t -> ranked N R (g t) -> keeps N R (k t) f) -> keeps N R (bind o k) f.
Proof.
  intros T U N R o g k f [E K] Hk. split.
  - apply ends_bind; auto. intros t Et. apply (Hk t Et (K t Et)).
  - intros u Eu. destruct o as [t| | |k'|]; try discriminate. exact (proj2 (Hk t eq_refl (K t eq_refl)) u Eu).
Qed.
(* A step without effect on the heap. *)
Lemma keeps_pure : forall {T U} N R (o : outcome T) (k : T -> outcome U) (f : U -> heap),
  ends o -> (forall t, o = Ok t -> keeps N R (k t) f) -> keeps N R (bind o k) f.
Proof.
  intros T U N R o k f E Hk. split.
  - apply ends_bind; auto. intros t Et. apply (Hk t Et).
  - intros u Eu. destruct o as [t| | |k'|]; try discriminate. exact (proj2 (Hk t eq_refl) u Eu).
Qed.
Lemma keeps_Ok : forall {T} N R (t : T) (f : T -> heap), ranked N R (f t) -> keeps N R (Ok t) f.
Proof. intros T N R t f G. split; [discriminate|]. intros t' E. injection E as <-. auto. Qed.
Lemma keeps_UB : forall {T} N R (f : T -> heap), keeps N R UB f.
Proof. intros T N R f. split; discriminate. Qed.
Lemma keeps_setDec : forall N R H a d, ranked N R H -> keeps N R (setDec H a d) (fun H => H).
Proof. intros N R H a d G. split; [apply ends_setDec|]. intros t E. eapply rkd_setDec; eauto. Qed.
Lemma keeps_setCell : forall N R H a c, cell_lt R c (rkA R a) -> ranked N R H -> keeps N R (setCell H a c) (fun H => H).
Proof. intros N R H a d C G. split; [apply ends_setCell|]. intros t E. eapply rkd_setCell; eauto. Qed.

Lemma keeps_hall : forall N R f l H, (forall H a, In a l -> ranked N R H -> keeps N R (f H a) snd) -> ranked N R H -> keeps N R (hall f H l) snd.
Proof.
  intros N R f. induction l as [|a l IH]; intros H Hf G; cbn; [apply keeps_Ok; auto|].
  apply keeps_bind with (g := snd); [apply Hf; auto; left; auto|]. intros r _ G1. destruct (fst r); [|apply keeps_Ok; auto].
  apply IH; auto. intros H1 b I. apply Hf. right. auto.
Qed.
Lemma keeps_snf_keep : forall N R f ls H, (forall H l a, In l ls -> In a l -> ranked N R H -> keeps N R (f H a) snd) -> ranked N R H -> keeps N R (snf_keep f H ls) snd.
Proof.
  intros N R f. induction ls as [|l ls IH]; intros H Hf G; cbn; [apply keeps_Ok; auto|].
  apply keeps_bind with (g := snd); [apply keeps_hall; auto; intros; eapply Hf; eauto; left; auto|]. intros r _ G1.
  apply keeps_bind with (g := snd); [apply IH; auto; intros; eapply Hf; eauto; right; auto|]. intros q _ G2. apply keeps_Ok. auto.
Qed.
Lemma keeps_hfold : forall {X} N R (f : heap -> X -> outcome heap) l H, (forall H x, In x l -> ranked N R H -> keeps N R (f H x) (fun H => H)) ->
  ranked N R H -> keeps N R (hfold f H l) (fun H => H).
Proof.
  intros X N R f. induction l as [|a l IH]; intros H Hf G; cbn; [apply keeps_Ok; auto|].
  apply keeps_bind with (g := fun H => H); [apply Hf; auto; left; auto|]. intros r _ G1. apply IH; auto. intros; apply Hf; auto. right; auto.
Qed.
Lemma keeps_cat_decs : forall N R (f : heap -> nat -> outcome heap) l H acc, (forall H x, In x l -> ranked N R H -> keeps N R (f H x) (fun H => H)) ->
  ranked N R H -> keeps N R (cat_decs f H acc l) snd.
Proof.
  intros N R f. induction l as [|a l IH]; intros H acc Hf G; cbn; [apply keeps_Ok; auto|].
  apply keeps_bind with (g := fun H => H); [apply Hf; auto; left; auto|]. intros r _ G1.
  apply keeps_pure; [apply ends_dec_of|]. intros d _. apply IH; auto. intros; apply Hf; auto. right; auto.
Qed.

Lemma snf_keeps : forall fuel c N R,
  (forall H a, ranked N R H -> rkA R a < fuel -> keeps N R (snfA fuel c H a) snd) /\
  (forall H d, ranked N R H -> rkD R d < fuel -> keeps N R (snfD fuel c H d) (fun H => H)).
Proof.
  induction fuel as [|f IH]; intros c N R; [split; intros; lia|]. destruct (IH c N R) as [IA ID]. split.
  - intros H a G L. rewrite snfA_S. apply keeps_pure; [apply ends_getA|]. intros x E0. pose proof (rd_A _ _ _ G _ _ (cellA_get _ _ _ E0)) as C.
    destruct (at_cell x) as [s| | |l|d|b Iv]; cbn in C.
    + apply keeps_pure; [apply ends_getS|]. intros. apply keeps_Ok. auto.
    + apply keeps_UB.
    + apply keeps_Ok. auto.
    + apply keeps_bind with (g := snd).
      { apply keeps_hall; auto. intros H1 b I G1. apply IA; auto. rewrite Forall_forall in C. specialize (C b I). lia. }
      intros r _ G1. destruct (fst r); [|apply keeps_Ok; auto]. apply keeps_pure; [apply ends_sings_of|]. intros ls _.
      assert (G2 := rkd_newS N R (snd r) c (fold_left isum ls [mkI bzero bzero]) G1). cbn [newS snd] in *.
      apply keeps_bind with (g := fun H => H); [apply keeps_setCell; cbn; auto|]. intros H2 _ G3. apply keeps_Ok. auto.
    + apply keeps_bind with (g := fun H => H); [apply ID; auto; lia|]. intros H1 _ G1.
      apply keeps_pure; [apply ends_getD|]. intros e _. destruct (dn_list e) as [|[|b t] q]; try apply keeps_UB.
      apply keeps_pure; [apply ends_sing_of|]. intros s _. apply keeps_pure; [apply ends_getS|]. intros cl _.
      apply keeps_bind with (g := fun H => H); [apply keeps_setCell; cbn; auto|]. intros H2 _ G3.
      apply keeps_pure; [apply ends_plus_set|]. intros p _. apply keeps_Ok. cbn. apply rkd_setS. auto.
    + apply keeps_bind with (g := snd); [apply IA; auto; lia|]. intros r _ G1. destruct (fst r); [|apply keeps_Ok; auto].
      apply keeps_pure; [apply ends_sing_of|]. intros s _. apply keeps_pure; [apply ends_getS|]. intros cl _.
      apply keeps_bind with (g := fun H => H); [apply keeps_setCell; cbn; auto|]. intros H2 _ G3. apply keeps_Ok. cbn. apply rkd_setS. auto.
  - intros H d G L. rewrite snfD_S. apply keeps_pure; [apply ends_getD|]. intros e E0. destruct (rd_D _ _ _ G _ _ (listD_get _ _ _ E0)) as [Pd C].
    apply keeps_bind with (g := snd).
    { apply keeps_snf_keep; auto. intros H1 l a I J G1. apply IA; auto. rewrite Forall_forall in C. destruct (C l I) as [_ C1].
      rewrite Forall_forall in C1. specialize (C1 a J). lia. }
    intros r _ G1. apply keeps_pure.
    { apply ends_oseq. intros l _. apply ends_bind; [apply ends_sings_of|]. discriminate. }
    intros ls _. destruct (rkd_newSingle N R (snd r) c (concat ls) G1) as [G2 Z]. destruct (newSingle (snd r) c (concat ls)) as [a H1]. cbn in G2, Z.
    apply keeps_pure; [apply ends_getD|]. intros e1 _. apply keeps_Ok. apply rkd_setD; auto. cbn. split; auto.
    constructor; [|constructor]. split; [cbn; lia|]. constructor; [lia|constructor].
Qed.

Lemma keeps_merge : forall N R fuel H k l, length l < fuel -> ranked N R H -> keeps N R (merge_loop fuel H k l) snd.
Proof.
  intros N R. induction fuel as [|f IH]; intros H k l L G; [lia|]. cbn [merge_loop]. destruct l as [|a t]; [apply keeps_Ok; auto|]. cbn in L.
  assert (K : keeps N R (bind (merge_loop f H (S k) t) (fun q => Ok (a :: fst q, snd q))) snd).
  { apply keeps_bind with (g := snd); [apply IH; auto; lia|]. intros q _ G1. apply keeps_Ok. auto. }
  apply keeps_pure; [apply ends_getA|]. intros x _. destruct (at_cell x); auto.
  - destruct t as [|b t]; [apply keeps_Ok; auto|]. apply keeps_pure; [apply ends_getA|]. intros y _. destruct (at_cell y); auto; [|apply keeps_UB].
    apply keeps_pure; [apply ends_getS|]. intros c1 _. apply keeps_pure; [apply ends_getS|]. intros c2 _.
    destruct (fst c1 =? fst c2); auto. apply IH; [cbn in *; lia|]. apply rkd_setS; auto.
  - destruct (1 <? k + length (a :: t)); auto. apply IH; auto. lia.
Qed.

Lemma ends_cat_mixed : forall H l, ends (cat_mixed H l).
Proof.
  intros H. induction l as [|a l IH]; cbn; [discriminate|]. apply ends_bind; [apply ends_getA|]. intros x _. destruct (at_cell x); auto.
  apply ends_bind; [apply ends_getD|]. intros e _. destruct (dn_dec e); [|discriminate]. destruct (isMixed d); auto. discriminate.
Qed.
Lemma ends_conj_mixed : forall H l, ends (conj_mixed H l).
Proof.
  intros H. induction l as [|a l IH]; cbn; [discriminate|]. apply ends_bind; [apply ends_getA|]. intros x _. destruct (at_cell x); auto.
  apply ends_bind; [apply ends_dec_of|]. intros d _. destruct (isMixed d); auto. discriminate.
Qed.

Lemma nf_keeps : forall fuel N R,
  (forall H a, ranked N R H -> S (rkA R a) < fuel -> keeps N R (nfA stop stop fuel H a) (fun H => H)) /\
  (forall H d, ranked N R H -> S (rkD R d) < fuel -> keeps N R (nfD stop stop fuel H d) (fun H => H)).
Proof.
  induction fuel as [|f IH]; intros N R; [split; intros; lia|]. destruct (IH N R) as [IA ID]. split.
  - intros H a G L. rewrite nfA_S. apply keeps_pure; [apply ends_getA|]. intros x E0. pose proof (rd_A _ _ _ G _ _ (cellA_get _ _ _ E0)) as C.
    destruct (at_cell x) as [s| | |l|d|b Iv]; cbn in C.
    + apply keeps_pure; [apply ends_getS|]. intros. apply keeps_setDec. auto.
    + apply keeps_UB.
    + apply keeps_setDec. auto.
    + apply keeps_bind with (g := snd).
      { apply keeps_cat_decs; auto. intros H1 b I G1. apply IA; auto. rewrite Forall_forall in C. specialize (C b I). lia. }
      intros r _ G1. apply keeps_bind with (g := fun H => H); [apply keeps_setDec; auto|]. intros H1 _ G2.
      apply keeps_bind with (g := snd); [apply keeps_merge; auto; lia|]. intros m Em G3.
      assert (Il : incl (fst m) l) by (destruct (merge_rel _ _ _ _ _ Em); auto).
      apply keeps_bind with (g := fun H => H).
      { assert (CL : cell_lt R (ACat (fst m)) (rkA R a)).
        { cbn. rewrite Forall_forall in *. auto. }
        destruct (fst m) as [|b [|b' t]]; [apply keeps_setCell; auto| |apply keeps_setCell; auto].
        apply keeps_pure; [apply ends_getA|]. intros y Ey. cbn in CL. apply Forall_inv in CL.
        assert (CY : cell_lt R (at_cell y) (rkA R a)).
        { eapply cell_lt_le; [|apply (rd_A _ _ _ G3), cellA_get, Ey]. lia. }
        destruct (at_cell y); try apply keeps_UB; apply keeps_setCell; auto. }
      intros H2 _ G4. apply keeps_pure; [apply ends_getA|]. intros x2 _. destruct (at_cell x2); try (apply keeps_Ok; auto; fail).
      apply keeps_pure; [apply ends_cat_mixed|]. intros mx _. destruct mx; [apply keeps_UB|apply keeps_Ok; auto].
    + apply keeps_bind with (g := fun H => H); [apply ID; auto; lia|]. intros H1 _ G1. apply keeps_pure; [apply ends_getD|]. intros e _.
      destruct (dn_dec e) as [de|]; [|apply keeps_UB]. cbn zeta.
      apply keeps_bind with (g := fun H => H); [apply keeps_setDec; auto|]. intros H2 _ G2.
      apply keeps_bind with (g := fun H => H).
      { destruct (isMixed (plus_dec de)); [apply keeps_UB|apply keeps_Ok; auto]. }
      intros H3 E3 G3. destruct (isConstant (plus_dec de)); [|apply keeps_Ok; auto].
      apply keeps_bind with (g := snd); [apply (proj1 (snf_keeps _ _ _ _)); auto; lia|]. intros r _ G4. apply keeps_Ok. auto.
    + apply keeps_bind with (g := fun H => H); [apply IA; auto; lia|]. intros H1 _ G1. apply keeps_pure; [apply ends_dec_of|]. intros d _.
      apply keeps_bind with (g := fun H => H); [apply keeps_setDec; auto|]. intros H2 _ G2.
      apply keeps_pure; [apply ends_getA|]. intros y _. destruct (at_cell y); try apply keeps_UB; try (apply keeps_Ok; auto; fail).
      * apply keeps_pure; [apply ends_getS|]. intros cl _. cbn zeta.
        apply keeps_bind with (g := fun H => H); [apply keeps_setCell; [exact Logic.I|apply rkd_setS; auto]|]. intros H4 _ G4.
        apply keeps_setCell; cbn; auto.
      * apply keeps_setCell; cbn; auto.
      * destruct (isMixed d); [apply keeps_UB|apply keeps_Ok; auto].
  - intros H d G L. rewrite nfD_S. apply keeps_pure; [apply ends_getD|]. intros e E0. destruct (rd_D _ _ _ G _ _ (listD_get _ _ _ E0)) as [Pd C].
    apply keeps_bind with (g := fun H => H).
    { apply keeps_hfold; auto. intros H1 l I G1. apply keeps_hfold; auto. intros H2 a J G2. apply IA; auto.
      rewrite Forall_forall in C. destruct (C l I) as [_ C1]. rewrite Forall_forall in C1. specialize (C1 a J). lia. }
    intros H1 _ G1. apply keeps_pure; [apply ends_oseq; intros; apply ends_conj_mixed|]. intros ms _.
    apply keeps_bind with (g := fun H => H).
    { destruct (existsb (fun b => b) ms); [apply keeps_UB|apply keeps_Ok; auto]. }
    intros H2 _ G2. apply keeps_pure; [apply ends_getD|]. intros e2 E2. pose proof (rd_D _ _ _ G2 _ _ (listD_get _ _ _ E2)) as C2.
    apply keeps_pure.
    { apply ends_oseq. intros l I. destruct C2 as [_ C2]. rewrite Forall_forall in C2. destruct (C2 l I) as [Len _].
      destruct l as [|a [|b l]]; cbn in Len; [discriminate| |lia]. cbn. apply ends_bind; [apply ends_dec_of|]. intros d0 _. destruct f; [lia|]. discriminate. }
    intros ds _. apply keeps_pure; [destruct ds; discriminate|]. intros dec _. apply keeps_Ok. apply rkd_setD; auto.
Qed.

(* ---------------- the objects are made in order ---------------- *)

Record ordered (H : heap) : Prop := mkOrd {
  od_A : forall a c, cellA H a = Some c ->
           match c with
           | ACat l => forall b, In b l -> b < a
           | AWithin b _ => b < a
           | APlus d => exists ls, listD H d = Some ls /\ forall l b, In l ls -> In b l -> b < a
           | _ => True
           end;
  od_D : forall d ls, listD H d = Some ls -> forall l, In l ls -> length l <= 1 /\ forall b, In b l -> b < length (hA H)
}.

Definition inheap (H : heap) (ls : list (list nat)) : Prop := forall l, In l ls -> length l <= 1 /\ forall b, In b l -> b < length (hA H).

Lemma pre_lenA : forall H H', pre H H' -> length (hA H) <= length (hA H').
Proof.
  intros H H' P. destruct (le_lt_dec (length (hA H)) (length (hA H'))) as [L|L]; auto.
  destruct (nth_error (hA H) (length (hA H'))) as [x|] eqn:E; [|apply nth_error_None in E; lia].
  apply (pre_A _ _ P) in E. assert (nth_error (hA H') (length (hA H')) = None) by (apply nth_error_None; lia). congruence.
Qed.
Lemma inheap_pre : forall H H' ls, pre H H' -> inheap H ls -> inheap H' ls.
Proof. intros H H' ls P I l Hl. destruct (I l Hl) as [A B]. split; auto. intros b Hb. specialize (B b Hb). pose proof (pre_lenA _ _ P). lia. Qed.

Lemma od_newA : forall H c, ordered H ->
  match c with
  | ACat l => forall b, In b l -> b < length (hA H)
  | AWithin b _ => b < length (hA H)
  | APlus d => exists ls, listD H d = Some ls /\ inheap H ls
  | _ => True
  end -> ordered (snd (newA H c)).
Proof.
  intros H c [A D] C. constructor.
  - intros a c' E. rewrite cellA_newA in E. destruct (Nat.eqb_spec a (length (hA H))) as [->|N]; [|apply (A a c' E)]. injection E as <-.
    destruct c; auto. destruct C as (ls & E & I). exists ls. split; auto. intros l b Il Ib. apply (I l Il). auto.
  - intros d ls E l I. destruct (D d ls E l I) as [L B]. split; auto. intros b Hb. cbn. rewrite app_length. specialize (B b Hb). lia.
Qed.
Lemma od_newSingle : forall H c l, ordered H -> ordered (snd (newSingle H c l)).
Proof.
  intros H c l [A D]. apply (od_newA (snd (newS H c l)) (ASing (length (hS H)))); [|exact Logic.I]. constructor; auto.
Qed.
Lemma newSingle_in : forall H c l, fst (newSingle H c l) < length (hA (snd (newSingle H c l))).
Proof. intros. cbn. rewrite app_length. cbn. lia. Qed.

Lemma cat_items_in : forall H a xs, ordered H -> a < length (hA H) -> cat_items H a = Ok xs -> forall b, In b xs -> b < length (hA H).
Proof.
  intros H a xs O L E b I. unfold cat_items in E. unbind E. injection E as <-. pose proof (od_A _ O _ _ (cellA_get _ _ _ E0)) as C.
  destruct (at_cell x); try (destruct I as [<-|[]]; auto; fail); try (destruct I; fail). specialize (C b I). lia.
Qed.
Lemma newCat_od : forall H l r x, ordered H -> l < length (hA H) -> r < length (hA H) -> newCat H l r = Ok x ->
  ordered (snd x) /\ fst x < length (hA (snd x)).
Proof.
  intros H l r x O Ll Lr E. unfold newCat in E. unbind E. unbind E.
  assert (K : forall b, In b (x0 ++ x1) -> b < length (hA H)).
  { intros b I. apply in_app_or in I as [I|I]; [apply (cat_items_in _ _ _ O Ll E0 b I)|apply (cat_items_in _ _ _ O Lr E1 b I)]. }
  destruct (x0 ++ x1) as [|y [|z t]]; try discriminate; injection E as <-; (split; [|cbn; rewrite app_length; cbn; lia]).
  - apply (od_newA H AEps); auto.
  - apply (od_newA H (ACat (y :: z :: t))); auto.
Qed.
Lemma newWithin_od : forall H a Iv x, ordered H -> a < length (hA H) -> newWithin H a Iv = Ok x ->
  ordered (snd x) /\ fst x < length (hA (snd x)).
Proof.
  intros H a Iv x O L E. unfold newWithin in E. unbind E.
  destruct (at_cell x0); try discriminate;
    try (injection E as <-; split; [apply (od_newA H (AWithin a Iv)); auto|cbn; rewrite app_length; cbn; lia]).
  unbind E. injection E as <-. split; [apply od_newSingle; auto|apply newSingle_in].
Qed.

(* hmap over a list of singleton lists. *)
Lemma hmap_od : forall {X Y} (f : heap -> X -> outcome (Y * heap)) (P : heap -> X -> Prop) (Q : heap -> Y -> Prop) l H r,
  (forall H x r, f H x = Ok r -> pre H (snd r)) ->
  (forall H H' x, pre H H' -> P H x -> P H' x) -> (forall H H' x, pre H H' -> Q H x -> Q H' x) ->
  (forall H x r, ordered H -> P H x -> f H x = Ok r -> ordered (snd r) /\ Q (snd r) (fst r)) ->
  ordered H -> (forall x, In x l -> P H x) -> hmap f H l = Ok r -> ordered (snd r) /\ (forall y, In y (fst r) -> Q (snd r) y).
Proof.
  intros X Y f P Q. induction l as [|a l IH]; intros H r Hpre HP HQ Hf O Hl E; cbn in E.
  - injection E as <-. split; auto. intros y [].
  - unbind E. unbind E. injection E as <-. cbn. destruct (Hf _ _ _ O (Hl a (or_introl eq_refl)) E0) as [O1 Q1].
    assert (P1 := Hpre _ _ _ E0). destruct (IH (snd x) x0 Hpre HP HQ Hf O1) as [O2 Q2]; auto.
    { intros y Hy. eapply HP; [exact P1|]. apply Hl. right. auto. }
    split; auto. intros y [<-|Hy]; auto. eapply HQ; [|exact Q1]. exact (hmap_pre _ _ _ _ Hpre E1).
Qed.

Definition inl (H : heap) (l : list nat) : Prop := length l <= 1 /\ forall b, In b l -> b < length (hA H).
Lemma inl_pre : forall H H' l, pre H H' -> inl H l -> inl H' l.
Proof. intros H H' l P [A B]. split; auto. intros b Hb. specialize (B b Hb). pose proof (pre_lenA _ _ P). lia. Qed.
Lemma lt_pre : forall H H' (a : nat), pre H H' -> a < length (hA H) -> a < length (hA H').
Proof. intros H H' a P L. pose proof (pre_lenA _ _ P). lia. Qed.

Lemma catstep_od : forall H lr r, ordered H -> inl H (fst lr) /\ inl H (snd lr) -> catstep H lr = Ok r ->
  ordered (snd r) /\ inl (snd r) (fst r).
Proof.
  intros H lr r O [[L1 I1] [L2 I2]] E. unfold catstep in E.
  destruct (hmap_od (fun H ab => newCat H (fst ab) (snd ab)) (fun H ab => fst ab < length (hA H) /\ snd ab < length (hA H)) (fun H a => a < length (hA H))
              (pairs (fst lr) (snd lr)) H r) as [O1 Q1]; auto.
  - intros H0 x r0. apply newCat_pre.
  - intros H0 H1 x P [A B]. split; eapply lt_pre; eauto.
  - apply lt_pre.
  - intros H0 x r0 O0 [A B]. apply newCat_od; auto.
  - intros [a b] I. apply in_pairs in I as [Ia Ib]. cbn. auto.
  - split; auto. split; auto. destruct (hmap_steps _ _ _ _ (fun H ab r => newCat_pre H (fst ab) (snd ab) r) E) as (_ & Len & _).
    rewrite Len, pairs_len. nia.
Qed.
Lemma withinstep_od : forall Iv H l r, ordered H -> inl H l -> withinstep Iv H l = Ok r -> ordered (snd r) /\ inl (snd r) (fst r).
Proof.
  intros Iv H l r O [L1 I1] E. unfold withinstep in E.
  destruct (hmap_od (fun H a => newWithin H a Iv) (fun H a => a < length (hA H)) (fun H a => a < length (hA H)) l H r) as [O1 Q1]; auto.
  - intros H0 x r0. apply newWithin_pre.
  - apply lt_pre.
  - apply lt_pre.
  - intros H0 x r0 O0 A. apply newWithin_od; auto.
  - split; auto. split; auto. destruct (hmap_steps _ _ _ _ (fun H a r => newWithin_pre H a Iv r) E) as (_ & Len & _). rewrite Len. auto.
Qed.

Lemma od_newD : forall H ls, ordered H -> inheap H ls -> ordered (snd (newD H ls)) /\ listD (snd (newD H ls)) (length (hD H)) = Some ls.
Proof.
  intros H ls [A D] I. assert (EL : listD (snd (newD H ls)) (length (hD H)) = Some ls) by (unfold listD; cbn; rewrite nth_last; reflexivity).
  split; auto. constructor.
  - intros a c E. specialize (A a c E). destruct c; auto. destruct A as (ls' & E' & B). exists ls'. split; auto. eapply pre_listD; [apply pre_newD|auto].
  - intros d ls' E. destruct (Nat.eq_dec d (length (hD H))) as [->|N].
    + rewrite EL in E. injection E as <-. exact I.
    + apply (D d). unfold listD in *. cbn in E. destruct (lt_dec d (length (hD H))) as [L|L]; [rewrite nth_error_app1 in E; auto|].
      rewrite nth_error_app2 in E by lia. destruct (d - length (hD H)) as [|[|k]] eqn:Ek; cbn in E; try discriminate; lia.
Qed.

Lemma dnf_od : forall r H X, has_and r = false -> ordered H -> dnf_of r H = Ok X -> ordered (snd X) /\ inheap (snd X) (fst X).
Proof.
  induction r as [c| |r IH|r1 IH1 r2 IH2|r1 IH1 r2 IH2|r1 IH1 r2 IH2|r IH Iv]; intros H X A O E; cbn [has_and] in A; cbn [dnf_of] in E; try discriminate.
  - pose proof (od_newSingle H c [interval_default] O) as O1. pose proof (newSingle_in H c [interval_default]) as I1.
    destruct (newSingle H c [interval_default]) as [a H1]. injection E as <-. cbn in *. split; auto. intros l [<-|[]]. split; auto.
    intros b [<-|[]]. auto.
  - pose proof (od_newA H AEps O Logic.I) as O1. cbn [newA] in E. injection E as <-. split; auto. intros l [<-|[]]. split; auto.
    intros b [<-|[]]. cbn. rewrite app_length. cbn. lia.
  - unbind E. destruct (IH _ _ A O E0) as [O1 I1]. destruct (od_newD _ _ O1 I1) as [O2 EL].
    cbn [newD newA] in E. injection E as <-.
    assert (O3 : ordered (snd (newA (snd (newD (snd x) (fst x))) (APlus (length (hD (snd x))))))).
    { apply od_newA; auto. exists (fst x). split; auto. }
    split; [exact O3|]. intros l [<-|[]]. split; auto. intros b [<-|[]]. cbn. rewrite app_length. cbn. lia.
  - apply orb_false_iff in A as [A1 A2]. unbind E. unbind E. unbind E. injection E as <-. cbn [fst snd].
    destruct (IH1 _ _ A1 O E0) as [O1 I1]. destruct (IH2 _ _ A2 O1 E1) as [O2 I2]. destruct (dnf_shape _ _ _ E1) as (P2 & _).
    apply (inheap_pre _ _ _ P2) in I1.
    destruct (hmap_od catstep (fun H lr => inl H (fst lr) /\ inl H (snd lr)) inl (pairs (fst x) (fst x0)) (snd x0) x1 catstep_pre) as [O3 I3]; auto.
    + intros H0 H1 y P [B1 B2]. split; eapply inl_pre; eauto.
    + apply inl_pre.
    + apply catstep_od.
    + intros [l r] I. apply in_pairs in I as [Il Ir]. cbn. split; [apply I1|apply I2]; auto.
    + split; auto. intros l I. apply filter_In in I as [I _]. apply I3. auto.
  - apply orb_false_iff in A as [A1 A2]. unbind E. unbind E. injection E as <-. cbn [fst snd].
    destruct (IH1 _ _ A1 O E0) as [O1 I1]. destruct (IH2 _ _ A2 O1 E1) as [O2 I2]. destruct (dnf_shape _ _ _ E1) as (P2 & _).
    apply (inheap_pre _ _ _ P2) in I1. split; auto. intros l I. apply in_app_or in I as [I|I]; auto.
  - unbind E. destruct (IH _ _ A O E0) as [O1 I1].
    apply (hmap_od (withinstep Iv) inl inl (fst x) (snd x) X (withinstep_pre Iv)); auto.
    + apply inl_pre.
    + apply inl_pre.
    + apply withinstep_od.
Qed.

Definition listsup (ls : list (list nat)) : nat := fold_right (fun b m => Nat.max (S b) m) 0 (concat ls).
Lemma listsup_lt : forall ls l b, In l ls -> In b l -> b < listsup ls.
Proof.
  intros ls l b I J. unfold listsup. assert (K : In b (concat ls)) by (apply in_concat; eauto). clear I J.
  induction (concat ls) as [|x t IH]; [destruct K|]. cbn [fold_right]. destruct K as [<-|K]; [lia|]. specialize (IH K). lia.
Qed.
Lemma listsup_le : forall ls a, (forall l b, In l ls -> In b l -> b < a) -> listsup ls <= a.
Proof.
  intros ls a K. unfold listsup. assert (K' : forall b, In b (concat ls) -> b < a).
  { intros b I. apply in_concat in I as (l & Il & Ib). eauto. }
  clear K. induction (concat ls) as [|x t IH]; cbn [fold_right]; [lia|]. assert (x < a) by (apply K'; left; auto).
  assert (fold_right (fun b m => Nat.max (S b) m) 0 t <= a) by (apply IH; intros; apply K'; right; auto). lia.
Qed.

Definition order_ranks (H : heap) : ranks :=
  mkR (fun a => if a <? length (hA H) then 2 + 2 * a else 0)
      (fun d => match listD H d with Some ls => 1 + 2 * listsup ls | None => 1 end).

Lemma ordered_ranked : forall H, ordered H -> ranked (length (hA H)) (order_ranks H) H.
Proof.
  intros H [A D].
  assert (INA : forall a c, cellA H a = Some c -> a < length (hA H)).
  { intros a c E. unfold cellA in E. destruct (nth_error (hA H) a) eqn:N; [|discriminate]. apply nth_error_Some. congruence. }
  assert (RK : forall a, a < length (hA H) -> rkA (order_ranks H) a = 2 + 2 * a).
  { intros a L. cbn [order_ranks rkA]. rewrite (proj2 (Nat.ltb_lt _ _) L). auto. }
  constructor; auto.
  - intros a c E. specialize (A a c E). pose proof (INA _ _ E) as La. rewrite (RK a La). destruct c as [s| | |l|d|b Iv]; cbn [cell_lt]; auto.
    + apply Forall_forall. intros b I. specialize (A b I). rewrite RK by lia. lia.
    + destruct A as (ls & E' & B). cbn [order_ranks rkD]. rewrite E'. pose proof (listsup_le ls a B). lia.
    + rewrite RK by lia. lia.
  - intros d ls E. split; [cbn; rewrite E; lia|]. apply Forall_forall. intros l I. destruct (D d ls E l I) as [L B]. split; auto.
    apply Forall_forall. intros b J. specialize (B b J). rewrite RK by lia. cbn [order_ranks rkD]. rewrite E. pose proof (listsup_lt ls l b I J). lia.
  - intros a L. cbn [order_ranks rkA]. destruct (Nat.ltb_spec a (length (hA H))); auto. lia.
Qed.

(* ---------------- toSignalTA ends ---------------- *)

Lemma ends_hmap : forall {X Y} (f : heap -> X -> outcome (Y * heap)) l H, (forall H x, ends (f H x)) -> ends (hmap f H l).
Proof.
  intros X Y f. induction l as [|x l IH]; intros H Hf; cbn; [discriminate|]. apply ends_bind; auto. intros r _. apply ends_bind; auto. discriminate.
Qed.
Lemma ends_newCat : forall H l r, ends (newCat H l r).
Proof.
  intros H l r. unfold newCat. apply ends_bind; [apply ends_bind; [apply ends_getA|discriminate]|]. intros xs _.
  apply ends_bind; [apply ends_bind; [apply ends_getA|discriminate]|]. intros ys _. destruct (xs ++ ys) as [|? [|? ?]]; discriminate.
Qed.
Lemma ends_newWithin : forall H a Iv, ends (newWithin H a Iv).
Proof.
  intros H a Iv. unfold newWithin. apply ends_bind; [apply ends_getA|]. intros x _. destruct (at_cell x); try discriminate.
  apply ends_bind; [apply ends_getS|]. discriminate.
Qed.
Lemma ends_dnf : forall r H, ends (dnf_of r H).
Proof.
  induction r as [c| |r IH|r1 IH1 r2 IH2|r1 IH1 r2 IH2|r1 IH1 r2 IH2|r IH Iv]; intros H; cbn [dnf_of]; try discriminate;
    try (apply ends_bind; auto; intros X _).
  - discriminate.
  - apply ends_bind; auto. intros Y _. apply ends_bind; [|discriminate]. apply ends_hmap. intros. apply ends_hmap. intros. apply ends_newCat.
  - apply ends_bind; auto. discriminate.
  - apply ends_bind; auto. discriminate.
  - apply ends_hmap. intros. apply ends_hmap. intros. apply ends_newWithin.
Qed.

Lemma ends_singTA : forall al c ivs n, ends (singTA al c ivs n).
Proof.
  intros al c ivs n. unfold singTA. destruct ivs as [|i ivs]; [discriminate|]. apply ends_bind; [|discriminate]. apply ends_oseq. intros x _.
  unfold sing_guard. repeat match goal with |- ends (match ?e with _ => _ end) => destruct e; try discriminate end.
Qed.
Lemma ends_sw : forall A acc gs es, ends (sw_edges A acc gs es).
Proof. intros A acc gs. induction es as [|e es IH]; cbn; [discriminate|]. destruct (acc_tgt A e); auto. destruct es; discriminate. Qed.
Lemma ends_sigWithin : forall al A Iv n, ends (sigWithinTA al A Iv n).
Proof.
  intros al A Iv n. unfold sigWithinTA. destruct (num_to_int _); [|discriminate]. destruct (num_to_int _); [|discriminate].
  apply ends_bind; [|discriminate]. apply ends_oseq. intros ps _. apply ends_bind; [|discriminate]. apply ends_oseq. intros ce _.
  apply ends_bind; [apply ends_sw|discriminate].
Qed.

Lemma ta_ends : forall fuel N R al,
  (forall H a n, ranked N R H -> rkA R a < fuel -> ends (taA fuel al H a n)) /\
  (forall H d n, ranked N R H -> rkD R d < fuel -> ends (taD fuel al H d n)).
Proof.
  induction fuel as [|f IH]; intros N R al; [split; intros; lia|]. destruct (IH N R al) as [IA ID]. split.
  - intros H a n G L. cbn [taA]. apply ends_bind; [apply ends_getA|]. intros x E0. pose proof (rd_A _ _ _ G _ _ (cellA_get _ _ _ E0)) as C.
    destruct (at_cell x) as [s| | |l|d|b Iv]; cbn in C; try discriminate.
    + apply ends_bind; [apply ends_getS|]. intros. apply ends_singTA.
    + destruct l as [|b l]; [discriminate|]. apply ends_bind; [apply IA; auto; apply Forall_inv in C; lia|]. intros X _.
      apply Forall_inv_tail in C. revert X. induction l as [|b' l IHl]; intros X; [discriminate|].
      apply ends_bind; [apply IA; auto; apply Forall_inv in C; lia|]. intros Y _. apply IHl. apply Forall_inv_tail in C. auto.
    + apply ends_bind; [apply ID; auto; lia|]. intros X _. apply ends_bind; [|discriminate]. unfold sigPlusTA. destruct (_ && _); discriminate.
    + apply ends_bind; [apply IA; auto; lia|]. intros X _. apply ends_sigWithin.
  - intros H d n G L. cbn [taD]. apply ends_bind; [apply ends_getD|]. intros e E0. destruct (rd_D _ _ _ G _ _ (listD_get _ _ _ E0)) as [Pd C].
    generalize (mkTA [] [] [], n). induction (dn_list e) as [|l ls IHl]; intros X; [discriminate|]. destruct l as [|a l]; [discriminate|].
    apply ends_bind; [apply IA; auto; apply Forall_inv in C as [_ C]; apply Forall_inv in C; lia|]. intros Y _. apply IHl. apply Forall_inv_tail in C. auto.
Qed.

Lemma no_and_ends : forall r, has_and r = false ->
  exists F, forall s1 s2 fuel al n, F <= fuel -> toSignalTA s1 s2 fuel al r n <> OutOfFuel.
Proof.
  intros r A. destruct (dnf_of r (mkH [] [] [])) as [X| | |k|] eqn:E.
  2: { exists 0. intros. unfold toSignalTA. rewrite E. discriminate. }
  2: { exists 0. intros. unfold toSignalTA. rewrite E. discriminate. }
  2: { exists 0. intros. unfold toSignalTA. rewrite E. discriminate. }
  2: { exfalso. exact (ends_dnf _ _ E). }
  assert (O : ordered (mkH [] [] [])).
  { constructor; [intros a c Ea; destruct a; discriminate|intros d ls Ed; destruct d; discriminate]. }
  destruct (dnf_od _ _ _ A O E) as [O1 I1]. destruct (od_newD _ _ O1 I1) as [O2 EL].
  pose proof (ordered_ranked _ O2) as RK. set (H0 := snd (newD (snd X) (fst X))) in *.
  set (R := order_ranks H0) in *. exists (2 + rkD R (length (hD (snd X)))). intros s1 s2 fuel al n L.
  rewrite (signal_no_separation s1 s2 stop stop). unfold toSignalTA. rewrite E. cbn [bind newD].
  change (ends (do H1 <- nfD stop stop fuel H0 (length (hD (snd X))); do Y <- taD fuel al H1 (length (hD (snd X))) n; Ok (renameTA al (fst Y) (snd Y)))).
  destruct (proj2 (nf_keeps fuel _ _) H0 (length (hD (snd X))) RK) as [EN KN]; [lia|].
  apply ends_bind; auto. intros H1 E1. apply ends_bind; [|discriminate].
  apply (proj2 (ta_ends fuel _ _ al) _ _ _ (KN _ E1)). fold R. lia.
Qed.
