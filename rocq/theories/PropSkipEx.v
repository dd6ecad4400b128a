(* Concrete patterns for C26-C28, C30 and C47: cases meeting the hypotheses, and
   the witnesses of the refutations. *)
From Coq Require Import QArith Lqa Bool List ZArith Arith Lia Sorted.
From Verif Require Import Num NumFacts Outcome Constraint Zone ZoneFacts TA Spec TAFacts PropBase WfDec Word Monaa MonaaFacts MonaaVec
  ZA ZASpec ZAFacts PropZA Skip SkipFacts Sunday Kmp KmpRun KmpSafe KmpUB ApFacts PropMonaa PropSkip.
Import ListNotations.
Open Scope nat_scope.

(* ---------- checking the hypotheses ---------- *)

Definition alloc_okb (al : alloc) (B : ta) (m : nat) : bool :=
  nodupb (keys0 al B m) && nodupb (keysS al B) && nodupb (map (fun pq => a_2 al (fst pq) (snd pq)) (list_prod (keys0 al B m) (keysS al B))).

Lemma NoDup_map_inj : forall {X} (f : X -> nat) l, NoDup (map f l) -> forall x y, In x l -> In y l -> f x = f y -> x = y.
Proof.
  intros X f. induction l as [|a l IH]; cbn; intros N x y Hx Hy E; [contradiction|]. inversion N; subst.
  destruct Hx as [<-|Hx], Hy as [<-|Hy]; auto; exfalso; apply H1; [rewrite E|rewrite <- E]; apply in_map; auto.
Qed.

Lemma alloc_okb_ok : forall al B m, alloc_okb al B m = true -> alloc_ok al B m.
Proof.
  intros al B m H. unfold alloc_okb in H. apply andb_true_iff in H as [H H3]. apply andb_true_iff in H as [H1 H2].
  constructor; [apply nodupb_NoDup; auto|apply nodupb_NoDup; auto|].
  intros p1 p2 q1 q2 P1 Q1 P2 Q2 E. apply nodupb_NoDup in H3.
  pose proof (NoDup_map_inj _ _ H3 (p1, p2) (q1, q2)) as X. cbn [fst snd] in X.
  assert ((p1, p2) = (q1, q2)) as Y by (apply X; auto; apply in_prod; auto). injection Y. auto.
Qed.

Definition zerob (A : ta) : bool := forallb (fun ps => negb (zeroDur (snd ps))) (states A).
Lemma zerob_ok : forall A, zerob A = true -> forall p s, In (p, s) (states A) -> zeroDur s = false.
Proof. intros A H p s I. unfold zerob in H. rewrite forallb_forall in H. specialize (H _ I). cbn in H. now apply negb_true_iff in H. Qed.

Fixpoint sortedb (l : list nat) : bool := match l with x :: l' => forallb (fun y => x <=? y) l' && sortedb l' | [] => true end.
Lemma sortedb_ok : forall l, sortedb l = true -> StronglySorted le l.
Proof.
  induction l as [|x l IH]; intros H; constructor; cbn in H; apply andb_true_iff in H as [H1 H2]; auto.
  apply Forall_forall. intros y Hy. rewrite forallb_forall in H1. apply Nat.leb_le. auto.
Qed.

Lemma pattern_okb : forall A, wf_tab A && sortedb (inits A) && zerob A = true -> pattern_ok A.
Proof.
  intros A H. apply andb_true_iff in H as [H H3]. apply andb_true_iff in H as [H1 H2].
  constructor; [apply wf_tab_ok; auto|apply sortedb_ok; auto|apply zerob_ok; auto].
Qed.

Definition rankb (A : ta) (rk : ptr -> nat) : bool :=
  forallb (fun ps => forallb (fun ces => forallb (fun e => match etgt e with Some q => rk q <? rk (fst ps) | None => true end) (snd ces)) (next (snd ps))) (states A).
Lemma rankb_ok : forall A rk, rankb A rk = true -> forall p c e q, is_edge A p c e -> etgt e = Some q -> rk q < rk p.
Proof.
  intros A rk H p c e q (s & es & I1 & I2 & I3) Et. unfold rankb in H. rewrite forallb_forall in H. specialize (H _ I1).
  rewrite forallb_forall in H. specialize (H _ I2). rewrite forallb_forall in H. specialize (H _ I3). rewrite Et in H. now apply Nat.ltb_lt in H.
Qed.

Definition wordb (w : tword) : bool := forallb (fun ce => (1 <=? fst ce) && (fst ce <? char_max) && negb (fst ce =? dollar)) w.
Lemma wordb_ok : forall w, increasing 0 w -> wordb w = true -> word_ok w.
Proof.
  intros w I H. constructor; auto. intros c t X. unfold wordb in H. rewrite forallb_forall in H. specialize (H _ X). cbn [fst] in H.
  apply andb_true_iff in H as [H H3]. apply andb_true_iff in H as [H1 H2].
  apply Nat.leb_le in H1. apply Nat.ltb_lt in H2. apply negb_true_iff, Nat.eqb_neq in H3. auto.
Qed.


(* ---------- a pattern whose upper bounds follow resets ---------- *)

(* a at least 1 after the beginning, then b within 2. *)
Definition exN : ta := mkTA
  [ (0, mkS false false [(97, [mkE (Some 1) [0] [mkC 0 Gt 1%Z]])]);
    (1, mkS false false [(98, [mkE (Some 2) [] [mkC 0 Le 2%Z]])]);
    (2, mkS false false [(dollar, [mkE (Some 3) [] [mkC 0 Lt 8%Z]])]);
    (3, mkS true false []) ] [0] [8%Z].
Definition exNap : ta := Eval vm_compute in get exN (make_ap exN).
Definition exNw : tword := [(97, 1%Q); (98, 2%Q); (97, 5%Q); (98, 6%Q); (97, 8%Q); (98, 9%Q)].
Definition exNs : list (list nat) := Eval vm_compute in get [] (sunday_sets 100 exNap).
Definition exNb : list (ptr * nat) := Eval vm_compute in get [] (kmp 100 exAl exNap 2).
Definition exNz : list mat := Eval vm_compute in get [] (outer_loop vecC exN (the_tables exNs exNb) MDollar 100 exNw 0 [] []).

Lemma exN_ap : make_ap exN = Ok exNap.
Proof. reflexivity. Qed.
Lemma exN_pattern : pattern_ok exN.
Proof. apply pattern_okb. reflexivity. Qed.
Lemma exN_word : word_ok exNw.
Proof. apply wordb_ok; [|reflexivity]. cbn. repeat split; unfold Qlt; cbn; lia. Qed.
Lemma exN_sets : sunday_sets 100 exNap = Ok exNs.
Proof. vm_compute. reflexivity. Qed.
Lemma exN_kmp : kmp 100 exAl exNap (length exNs) = Ok exNb.
Proof. vm_compute. reflexivity. Qed.
Lemma exN_alloc : alloc_ok exAl exNap (length exNs).
Proof. apply alloc_okb_ok. vm_compute. reflexivity. Qed.
Lemma exN_useful : forall fuel, keeps_useful fuel exNap.
Proof.
  intros fuel. apply (keeps_useful_acyclic fuel exNap (fun p => 9 - p)).
  - apply wf_tab_ok. reflexivity.
  - vm_compute. lia.
  - apply rankb_ok. reflexivity.
Qed.
Lemma exN_uppers : uppers_after_reset exNap.
Proof.
  exists (fun p x => 1 <= p /\ x = 0). split.
  - intros p x [<-|[]] [L _]. lia.
  - intros p c e q (s & es & I1 & I2 & I3) Et.
    destruct I1 as [I1|[I1|[I1|[I1|[]]]]]; injection I1 as <- <-; cbn in I2;
      repeat (destruct I2 as [I2|I2]; [injection I2 as <- <-|]); try contradiction; destruct I3 as [<-|[]]; injection Et as <-; split.
    + intros g [<-|[]] [X|X]; discriminate.
    + intros x [_ ->]. right. left. auto.
    + intros g [<-|[]] _. cbn. auto.
    + intros x [_ ->]. left. auto.
Qed.

Example C26_case : 1 <= length exNs /\
  exists w, accepts exNap w /\ w <> [] /\ increasing 0 w /\ (forall c t, In (c, t) w -> 1 <= c /\ c < char_max) /\ length exNs = length w.
Proof.
  split; [cbn; lia|]. exists [(97, 5%Q); (98, 6%Q)]. split.
  - eexists 0, 2, _, _. split; [left; auto|]. split.
    + eapply run_cons with (e := mkE (Some 1) [0] [mkC 0 Gt 1%Z]) (q := 1).
      * eexists. eexists. split; [left; reflexivity|]. split; [left; reflexivity|left; reflexivity].
      * reflexivity.
      * intros g [<-|[]]. vm_compute. reflexivity.
      * eapply run_cons with (e := mkE (Some 2) [] [mkC 0 Le 2%Z]) (q := 2); [|reflexivity| |apply run_nil].
        -- eexists. eexists. split; [right; left; reflexivity|]. split; [left; reflexivity|left; reflexivity].
        -- intros g [<-|[]]. vm_compute. discriminate.
    + eexists. split; [right; right; left; reflexivity|reflexivity].
  - split; [discriminate|]. split; [cbn; repeat split; unfold Qlt; cbn; lia|]. split; [|reflexivity].
    intros c t [E|[E|[]]]; injection E as <- <-; unfold char_max; lia.
Qed.

(* the window at 1 ends with a: no match begins there *)
Example C27_case : no_match_at exN exNw 1 /\ sunday_delta exNs 97 = Some 2.
Proof.
  split; [|reflexivity].
  apply (C27_end 100 exN exNap exNw exNs exN_pattern ltac:(vm_compute; lia) exN_word exN_ap (exN_useful 100) exN_sets 1); cbn; [lia|].
  intros [E|[]]; discriminate.
Qed.

(* state 2 was reached from position 2: beta = 2, position 3 is skipped *)
Example C28_case : assoc 2 exNb = Some 2 /\ no_match_at exN exNw 3.
Proof.
  split; [reflexivity|].
  eapply (C28_shift_partial 100 exAl exN exNap exNw exNs exNb exN_pattern ltac:(vm_compute; lia) exN_word exN_ap (exN_useful 100)
    exN_sets exN_alloc exN_kmp exN_uppers 2 4 3 2 2 0 (5 # 2)%Q); try (cbn; lia); try reflexivity.
  - unfold at_pos. cbn. split; [lra|]. split; [intros _|]; unfold Qle, Qlt; cbn; lia.
  - eapply run_cons with (e := mkE (Some 1) [0] [mkC 0 Gt 1%Z]) (q := 1).
    * eexists. eexists. split; [left; reflexivity|]. split; [left; reflexivity|left; reflexivity].
    * reflexivity.
    * intros g [<-|[]]. vm_compute. reflexivity.
    * eapply run_cons with (e := mkE (Some 2) [] [mkC 0 Le 2%Z]) (q := 2); [|reflexivity| |apply run_nil].
      -- eexists. eexists. split; [right; left; reflexivity|]. split; [left; reflexivity|left; reflexivity].
      -- intros g [<-|[]]. vm_compute. discriminate.
Qed.

Example C30_case : exists T, tables_for 100 exAl exN exNap T /\ no_eps exN = true /\ uppers_after_reset exNap /\
  monaaDollar 100 exAl vecC exN exNw = Ok exNz /\ length exNz = 2 /\
  between exNw (5 # 2) 7 <> [] /\ matches exN exNw (5 # 2) 7.
Proof.
  exists (the_tables exNs exNb). split; [constructor; [exact exN_ap|exact (tables_with _ _ _ _ _ exN_sets exN_kmp)|apply exN_useful|exact exN_alloc]|].
  split; [reflexivity|]. split; [exact exN_uppers|].
  split; [refine (eq_trans (monaaDollar_with _ _ _ _ _ _ _ _ exN_ap exN_sets exN_kmp eq_refl) _); vm_compute; reflexivity|]. split; [reflexivity|]. split; [vm_compute; discriminate|].
  split; [vm_compute; discriminate|]. split; [vm_compute; discriminate|].
  eexists 0, 2, _, _, (mkE (Some 3) [] [mkC 0 Lt 8%Z]), 3. split; [left; auto|]. split.
  - eapply run_cons with (e := mkE (Some 1) [0] [mkC 0 Gt 1%Z]) (q := 1).
    * eexists. eexists. split; [left; reflexivity|]. split; [left; reflexivity|left; reflexivity].
    * reflexivity.
    * intros g [<-|[]]. vm_compute. reflexivity.
    * eapply run_cons with (e := mkE (Some 2) [] [mkC 0 Le 2%Z]) (q := 2); [|reflexivity| |apply run_nil].
      -- eexists. eexists. split; [right; left; reflexivity|]. split; [left; reflexivity|left; reflexivity].
      -- intros g [<-|[]]. vm_compute. discriminate.
  - split; [eexists; eexists; split; [right; right; left; reflexivity|]; split; [left; reflexivity|left; reflexivity]|].
    split; [reflexivity|]. split; [eexists; split; [right; right; right; left; reflexivity|reflexivity]|].
    intros g [<-|[]]. vm_compute. reflexivity.
Qed.

(* ---------- C26 refutations ---------- *)

Definition stp (cq : nat * nat) : nat * list edge := (fst cq, [mkE (Some (snd cq)) [] []]).
Definition node (b : bool) (l : list (nat * nat)) : tastate := mkS b false (map stp l).

(* A run without guards. *)
Fixpoint path (A : ta) (p : ptr) (w : tword) (q : ptr) : bool :=
  match w with
  | [] => p =? q
  | (c, _) :: w' => existsb (fun e => match etgt e with
                                      | Some p' => (match eguard e with [] => true | _ => false end) && path A p' w' q
                                      | None => false end) (edges_at A p c)
  end.
Lemma path_run : forall A w p v T q, wf_ta A -> path A p w q = true -> exists v' T', run A p v T w q v' T'.
Proof.
  intros A w. induction w as [|[c t] w IH]; intros p v T q W H; cbn in H.
  - apply Nat.eqb_eq in H. subst. eexists. eexists. constructor.
  - apply existsb_exists in H as (e & He & H). destruct (etgt e) as [p'|] eqn:Et; [|discriminate]. apply andb_true_iff in H as [Hg H].
    destruct (IH p' (reset_set (delay v (t - T)) (eresets e)) t q W H) as (v' & T' & R). exists v', T'. eapply run_cons; eauto.
    + unfold edges_at in He. destruct (deref A p) as [s|] eqn:D; [|contradiction].
      apply assoc_In in D. exists s. unfold next_find in He. destruct (assoc c (next s)) as [es|] eqn:E; [|contradiction].
      exists es. split; auto. split; auto. apply assoc_In. auto.
    + destruct (eguard e); [intros g []|discriminate].
Qed.

(* removeDeadStates loses state 8, which the shortest accepted word passes. *)
Definition exL : ta := mkTA [
  (0, node false [(97, 6); (98, 1)]); (1, node false [(97, 2)]); (2, node false [(97, 3)]); (3, node false [(97, 4)]); (4, node false [(97, 5)]);
  (5, node false [(97, 13); (98, 7)]); (6, node false [(97, 7)]); (7, node false [(97, 9); (98, 8)]); (8, node false [(97, 5)]);
  (9, node false [(97, 10)]); (10, node false [(97, 11)]); (11, node false [(97, 12)]); (12, node false [(97, 13)]); (13, node true [])] [0] [].
Definition exLw : tword := [(97, 1%Q); (97, 2%Q); (98, 3%Q); (97, 4%Q); (97, 5%Q)].

Theorem C26_lost_states_refuted : wf_ta exL /\ clockSize exL <= 255 /\ no_eps exL = true /\
  exists sets, sunday_sets 300 exL = Ok sets /\ length sets = 6 /\
    accepts exL exLw /\ increasing 0 exLw /\ (forall c t, In (c, t) exLw -> 1 <= c /\ c < char_max) /\ length exLw = 5.
Proof.
  assert (W : wf_ta exL) by (apply wf_tab_ok; reflexivity).
  split; [exact W|]. split; [vm_compute; lia|]. split; [reflexivity|]. eexists. split; [vm_compute; reflexivity|]. split; [reflexivity|]. split.
  - destruct (path_run exL exLw 0 zeroval 0%Q 13 W eq_refl) as (v & T & R). exists 0, 13, v, T. split; [left; auto|]. split; [exact R|].
    eexists. split; [do 13 right; left; reflexivity|reflexivity].
  - split; [cbn; repeat split; unfold Qlt; cbn; lia|]. split; [|reflexivity].
    intros c t H. cbn in H. unfold char_max. intuition (inversion H0; subst; lia) || (repeat destruct H as [H|H]; try contradiction; injection H as <- <-; lia).
Qed.

(* With an unobservable transition into the accepting state: a is accepted, m is 3. *)
Definition exE : ta := mkTA [(0, node false [(97, 1)]); (1, node false [(0, 2); (98, 3)]); (2, node true []); (3, node false [(99, 4)]); (4, node true [])] [0] [].

Theorem C26_unobservable_refuted : wf_ta exE /\ clockSize exE <= 255 /\
  exists sets, sunday_sets 300 exE = Ok sets /\ length sets = 3 /\ lang exE [(97, 1%Q)].
Proof.
  assert (W : wf_ta exE) by (apply wf_tab_ok; reflexivity).
  split; [exact W|]. split; [vm_compute; lia|]. eexists. split; [vm_compute; reflexivity|]. split; [reflexivity|].
  exists [(97, 1%Q); (0, 2%Q)]. split; [reflexivity|]. split; [cbn; repeat split; unfold Qle; cbn; lia|].
  destruct (path_run exE [(97, 1%Q); (0, 2%Q)] 0 zeroval 0%Q 2 W eq_refl) as (v & T & R). exists 0, 2, v, T. split; [left; auto|]. split; [exact R|].
  eexists. split; [do 2 right; left; reflexivity|reflexivity].
Qed.

(* ... and when every accepting state is entered by one, the process exits. *)
Definition exE2 : ta := mkTA [(0, node false [(97, 1)]); (1, node false [(0, 2)]); (2, node true [])] [0] [].
Theorem C26_unobservable_exit_refuted : wf_ta exE2 /\ sunday_sets 300 exE2 = Exit 10 /\ lang exE2 [(97, 1%Q)].
Proof.
  assert (W : wf_ta exE2) by (apply wf_tab_ok; reflexivity).
  split; [exact W|]. split; [vm_compute; reflexivity|].
  exists [(97, 1%Q); (0, 2%Q)]. split; [reflexivity|]. split; [cbn; repeat split; unfold Qle; cbn; lia|].
  destruct (path_run exE2 [(97, 1%Q); (0, 2%Q)] 0 zeroval 0%Q 2 W eq_refl) as (v & T & R). exists 0, 2, v, T. split; [left; auto|]. split; [exact R|].
  eexists. split; [do 2 right; left; reflexivity|reflexivity].
Qed.

(* ---------- C27 refutation: the pattern a (c d)* b ---------- *)

Definition exS : ta := mkTA [(0, node false [(97, 1)]); (1, node false [(98, 2); (99, 3)]); (2, node false [(dollar, 4)]); (3, node false [(100, 1)]); (4, node true [])] [0] [].
Definition exSap : ta := Eval vm_compute in get exS (make_ap exS).
Definition exSw : tword := [(97, 1%Q); (99, 2%Q); (100, 3%Q); (98, 4%Q)].

Lemma exS_match : match_from exS exSw 0.
Proof.
  exists 5%Q. split; [vm_compute; discriminate|]. split; [lra|]. split; [lra|].
  assert (W : wf_ta exS) by (apply wf_tab_ok; reflexivity).
  destruct (path_run exS (between exSw 0 5) 0 zeroval 0%Q 2 W eq_refl) as (v & T & R).
  eexists 0, 2, v, T, (mkE (Some 4) [] []), 4. split; [left; auto|]. split; [exact R|].
  split; [eexists; eexists; split; [do 2 right; left; reflexivity|]; split; [left; reflexivity|left; reflexivity]|].
  split; [reflexivity|]. split; [eexists; split; [do 4 right; left; reflexivity|reflexivity]|]. intros g [].
Qed.

Theorem C27_lost_states_refuted : pattern_ok exS /\ word_ok exSw /\ make_ap exS = Ok exSap /\
  exists sets, sunday_sets 100 exSap = Ok sets /\ 0 + length sets <= length exSw /\
    ~ In (fst (nth (0 + length sets - 1) exSw (0, 0%Q))) (last sets []) /\ ~ no_match_at exS exSw 0.
Proof.
  split; [apply pattern_okb; reflexivity|]. split; [apply wordb_ok; [cbn; repeat split; unfold Qlt; cbn; lia|reflexivity]|].
  split; [reflexivity|]. eexists. split; [vm_compute; reflexivity|]. split; [cbn; lia|]. split; [cbn; intros [E|[]]; discriminate|].
  intros H. apply (H 0%Q); [|exact exS_match]. unfold at_pos. cbn. split; [lra|]. split; [lia|lra].
Qed.

(* The user sees no match at all. *)
Theorem C30_lost_states_refuted : pattern_ok exS /\ word_ok exSw /\ no_eps exS = true /\ uppers_after_reset exSap /\
  monaaDollar 300 exAl vecC exS exSw = Ok [] /\ between exSw 0 5 <> [] /\ matches exS exSw 0 5.
Proof.
  split; [apply pattern_okb; reflexivity|]. split; [apply wordb_ok; [cbn; repeat split; unfold Qlt; cbn; lia|reflexivity]|].
  split; [reflexivity|]. split.
  - exists (fun _ _ => False). split; [auto|]. intros p c e q (s & es & I1 & I2 & I3) Et. split; [|tauto]. intros g G. exfalso.
    assert (X : forallb (fun ps => forallb (fun ces => forallb (fun e => match eguard e with [] => true | _ => false end) (snd ces)) (next (snd ps))) (states exSap) = true) by reflexivity.
    rewrite forallb_forall in X. specialize (X _ I1). rewrite forallb_forall in X. specialize (X _ I2). rewrite forallb_forall in X. specialize (X _ I3).
    destruct (eguard e); [contradiction|discriminate].
  - split; [vm_compute; reflexivity|]. split; [vm_compute; discriminate|].
    destruct exS_match as (t' & _ & _). split; [lra|]. split; [lra|].
    assert (W : wf_ta exS) by (apply wf_tab_ok; reflexivity).
    destruct (path_run exS (between exSw 0 5) 0 zeroval 0%Q 2 W eq_refl) as (v & T & R).
    eexists 0, 2, v, T, (mkE (Some 4) [] []), 4. split; [left; auto|]. split; [exact R|].
    split; [eexists; eexists; split; [do 2 right; left; reflexivity|]; split; [left; reflexivity|left; reflexivity]|].
    split; [reflexivity|]. split; [eexists; split; [do 4 right; left; reflexivity|reflexivity]|]. intros g [].
Qed.

(* ---------- C28 and C30 refutation: an upper bound on a clock never reset ---------- *)

Definition exK : ta := mkTA
  [ (0, mkS false false [(97, [mkE (Some 1) [1] [mkC 0 Lt 1%Z]])]);
    (1, mkS false false [(97, [mkE (Some 2) [1] [mkC 1 Gt 5%Z]])]);
    (2, mkS false false [(97, [mkE (Some 3) [] [mkC 1 Lt 2%Z]])]);
    (3, mkS false false [(dollar, [mkE (Some 4) [] []])]);
    (4, mkS true false []) ] [0] [1%Z; 5%Z].
Definition exKap : ta := Eval vm_compute in get exK (make_ap exK).
Definition exKw : tword := [(97, 10%Q); (97, 20%Q); (97, 30%Q); (97, 31%Q)].
Definition exKs : list (list nat) := Eval vm_compute in get [] (sunday_sets 100 exKap).
Definition exKb : list (ptr * nat) := Eval vm_compute in get [] (kmp 1000 exAl exKap (length exKs)).
Lemma exK_sets : sunday_sets 1000 exKap = Ok exKs.
Proof. vm_compute. reflexivity. Qed.
Lemma exK_kmp : kmp 1000 exAl exKap (length exKs) = Ok exKb.
Proof. vm_compute. reflexivity. Qed.

Lemma exK_pattern : pattern_ok exK.
Proof. apply pattern_okb. reflexivity. Qed.
Lemma exK_word : word_ok exKw.
Proof. apply wordb_ok; [|reflexivity]. cbn. repeat split; unfold Qlt; cbn; lia. Qed.
Lemma exK_ap : make_ap exK = Ok exKap.
Proof. reflexivity. Qed.
Lemma exK_useful : forall fuel, keeps_useful fuel exKap.
Proof.
  intros fuel. apply (keeps_useful_acyclic fuel exKap (fun p => 9 - p)).
  - apply wf_tab_ok. reflexivity.
  - vm_compute. lia.
  - apply rankb_ok. reflexivity.
Qed.
Lemma exK_alloc : alloc_ok exAl exKap 3.
Proof. apply alloc_okb_ok. vm_compute. reflexivity. Qed.

Lemma exK_matches : matches exK exKw (39 # 2) 32.
Proof.
  split; [vm_compute; discriminate|]. split; [vm_compute; discriminate|].
  eexists 0, 3, _, _, (mkE (Some 4) [] []), 4. split; [left; auto|]. split.
  - change (between exKw (39 # 2) 32) with [(97, 20%Q); (97, 30%Q); (97, 31%Q)].
    eapply run_cons with (e := mkE (Some 1) [1] [mkC 0 Lt 1%Z]) (q := 1).
    + eexists. eexists. split; [left; reflexivity|]. split; [left; reflexivity|left; reflexivity].
    + reflexivity.
    + intros g [<-|[]]. vm_compute. reflexivity.
    + eapply run_cons with (e := mkE (Some 2) [1] [mkC 1 Gt 5%Z]) (q := 2).
      * eexists. eexists. split; [right; left; reflexivity|]. split; [left; reflexivity|left; reflexivity].
      * reflexivity.
      * intros g [<-|[]]. vm_compute. reflexivity.
      * eapply run_cons with (e := mkE (Some 3) [] [mkC 1 Lt 2%Z]) (q := 3); [|reflexivity| |apply run_nil].
        -- eexists. eexists. split; [right; right; left; reflexivity|]. split; [left; reflexivity|left; reflexivity].
        -- intros g [<-|[]]. vm_compute. reflexivity.
  - split; [eexists; eexists; split; [do 3 right; left; reflexivity|]; split; [left; reflexivity|left; reflexivity]|].
    split; [reflexivity|]. split; [eexists; split; [do 4 right; left; reflexivity|reflexivity]|]. intros g [].
Qed.

(* A run from position 0 reached state 2 after two events, beta(2) = 2, and a
   match begins at position 1. *)
Theorem C28_shift_refuted : pattern_ok exK /\ 2 * clockSize exK <= 255 /\ word_ok exKw /\ make_ap exK = Ok exKap /\
  keeps_useful 1000 exKap /\ sunday_sets 1000 exKap = Ok exKs /\ alloc_ok exAl exKap (length exKs) /\
  exists beta b v T, kmp 1000 exAl exKap (length exKs) = Ok beta /\ assoc 2 beta = Some b /\
    at_pos exKw 0 (19 # 2) /\ run exK 0 zeroval (19 # 2) (firstn 2 exKw) 2 v T /\
    0 < 1 /\ 1 < 0 + b /\ ~ no_match_at exK exKw 1.
Proof.
  split; [exact exK_pattern|]. split; [vm_compute; lia|]. split; [exact exK_word|]. split; [exact exK_ap|]. split; [apply exK_useful|].
  split; [exact exK_sets|]. split; [exact exK_alloc|]. exists exKb, 2. eexists. eexists.
  split; [exact exK_kmp|]. split; [reflexivity|]. split; [unfold at_pos; cbn; split; [unfold Qle; cbn; lia|]; split; [lia|unfold Qlt; cbn; lia]|]. split.
  - cbn [firstn exKw].
    eapply run_cons with (e := mkE (Some 1) [1] [mkC 0 Lt 1%Z]) (q := 1).
    + eexists. eexists. split; [left; reflexivity|]. split; [left; reflexivity|left; reflexivity].
    + reflexivity.
    + intros g [<-|[]]. vm_compute. reflexivity.
    + eapply run_cons with (e := mkE (Some 2) [1] [mkC 1 Gt 5%Z]) (q := 2); [|reflexivity| |apply run_nil].
      * eexists. eexists. split; [right; left; reflexivity|]. split; [left; reflexivity|left; reflexivity].
      * intros g [<-|[]]. vm_compute. reflexivity.
  - split; [lia|]. split; [lia|]. intros H. apply (H (39 # 2)%Q).
    + unfold at_pos. cbn. split; [unfold Qle; cbn; lia|]. split; [intros _; unfold Qle; cbn; lia|unfold Qlt; cbn; lia].
    + exists 32%Q. split; [vm_compute; discriminate|exact exK_matches].
Qed.

Theorem C30_complete_refuted : pattern_ok exK /\ 2 * clockSize exK <= 255 /\ word_ok exKw /\ no_eps exK = true /\ keeps_useful 1000 exKap /\
  monaaDollar 1000 exAl vecC exK exKw = Ok [] /\ between exKw (39 # 2) 32 <> [] /\ matches exK exKw (39 # 2) 32.
Proof.
  split; [exact exK_pattern|]. split; [vm_compute; lia|]. split; [exact exK_word|]. split; [reflexivity|]. split; [apply exK_useful|].
  split; [refine (eq_trans (monaaDollar_with _ _ _ _ _ _ _ _ exK_ap exK_sets exK_kmp eq_refl) _); vm_compute; reflexivity|].
  split; [vm_compute; discriminate|exact exK_matches].
Qed.

(* A match without events is not reported. *)
Definition exZ : ta := mkTA
  [ (0, mkS false false [(97, [mkE (Some 1) [] []]); (dollar, [mkE (Some 2) [] []])]);
    (1, mkS false false [(dollar, [mkE (Some 2) [] []])]);
    (2, mkS true false []) ] [0] [].
Theorem C30_no_event_refuted : pattern_ok exZ /\ word_ok [(97, 1%Q)] /\ no_eps exZ = true /\
  monaaDollar 100 exAl vecC exZ [] = Ok [] /\ matches exZ [] 1 2.
Proof.
  split; [apply pattern_okb; reflexivity|]. split; [apply wordb_ok; [cbn; repeat split; unfold Qlt; cbn; lia|reflexivity]|].
  split; [reflexivity|]. split; [vm_compute; reflexivity|]. split; [lra|]. split; [lra|].
  eexists 0, 0, _, _, (mkE (Some 2) [] []), 2. split; [left; auto|]. split; [apply run_nil|].
  split; [eexists; eexists; split; [left; reflexivity|]; split; [right; left; reflexivity|left; reflexivity]|].
  split; [reflexivity|]. split; [eexists; split; [do 2 right; left; reflexivity|reflexivity]|]. intros g [].
Qed.

(* ================= C47 the KMP table and undefined behaviour ================= *)

Theorem C47_kmp_defined_partial : forall fuel al B m, wf_ta B -> alloc_ok al B m -> 2 * clockSize B <= 255 -> chars_ok B -> accepting_last B ->
  (exists beta, kmp fuel al B m = Ok beta) \/ kmp fuel al B m = OutOfFuel.
Proof. exact kmp_no_ub. Qed.

Example C47_case : wf_ta exKap /\ alloc_ok exAl exKap 3 /\ chars_ok exKap /\ accepting_last exKap /\ exists beta, kmp 1000 exAl exKap 3 = Ok beta /\ length beta = 5.
Proof.
  split; [apply wf_tab_ok; reflexivity|]. split; [exact exK_alloc|]. split; [|split].
  - intros p c e (s & es & I1 & I2 & I3).
    assert (X : forallb (fun ps => forallb (fun ces => fst ces <? char_max) (next (snd ps))) (states exKap) = true) by reflexivity.
    rewrite forallb_forall in X. specialize (X _ I1). rewrite forallb_forall in X. specialize (X _ I2). now apply Nat.ltb_lt in X.
  - intros p s c es e rest q sq I1 I2 (pre & ->) _ _ _.
    assert (X : forallb (fun ps => forallb (fun ces => length (snd ces) <=? 1) (next (snd ps))) (states exKap) = true) by reflexivity.
    rewrite forallb_forall in X. specialize (X _ I1). rewrite forallb_forall in X. specialize (X _ I2). apply Nat.leb_le in X. cbn [snd] in X.
    rewrite app_length in X. cbn in X. destruct rest; [auto|cbn in X; lia].
  - exists exKb. split; [exact exK_kmp|reflexivity].
Qed.

(* Two edges with one letter, the first into an accepting state: the vector is
   appended to while it is iterated over. *)
Definition exU : ta := mkTA [(0, mkS false false [(97, [mkE (Some 1) [] []; mkE (Some 0) [] []])]); (1, node true [])] [0] [].
Theorem C47_append_refuted : wf_ta exU /\ alloc_ok exAl exU 1 /\ chars_ok exU /\ forall fuel, kmp fuel exAl exU 1 = UB.
Proof.
  split; [apply wf_tab_ok; reflexivity|]. split; [apply alloc_okb_ok; vm_compute; reflexivity|]. split.
  - intros p c e (s & es & I1 & I2 & I3).
    assert (X : forallb (fun ps => forallb (fun ces => fst ces <? char_max) (next (snd ps))) (states exU) = true) by reflexivity.
    rewrite forallb_forall in X. specialize (X _ I1). rewrite forallb_forall in X. specialize (X _ I2). now apply Nat.ltb_lt in X.
  - intros fuel. reflexivity.
Qed.

(* It is reached from monaaDollar. *)
Definition exUd : ta := mkTA
  [ (0, mkS false false [(97, [mkE (Some 1) [] []; mkE (Some 0) [] []])]);
    (1, mkS false false [(dollar, [mkE (Some 2) [] []])]); (2, mkS true false []) ] [0] [].
Theorem C47_append_monaa_refuted : pattern_ok exUd /\ no_eps exUd = true /\ monaaDollar 100 exAl vecC exUd [(97, 1%Q)] = UB.
Proof. split; [apply pattern_okb; reflexivity|]. split; [reflexivity|]. vm_compute. reflexivity. Qed.
