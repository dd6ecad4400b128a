(* Properties C16-C19: membership, copying and products of timed automata. *)
From Coq Require Import QArith Lqa Bool List ZArith Arith Lia.
From Verif Require Import Num NumFacts Constraint Zone ZoneFacts TA Spec TAFacts Intersection IntersectionFacts WfDec.
Import ListNotations.
Open Scope nat_scope.

(* Example automata over a=97, b=98.
   exA: 0 -a, x:=0-> 1 -b, x<3-> 2(acc), 2 -a, x>=1-> 1.
   exB: 0 -a-> 0, 0 -b, y>1, y:=0-> 1(acc), 1 -a-> 0. *)
Definition exA : ta := mkTA
  [(0, mkS false false [(97, [mkE (Some 1) [0] []])]);
   (1, mkS false false [(98, [mkE (Some 2) [] [mkC 0 Lt 3]])]);
   (2, mkS true false [(97, [mkE (Some 1) [] [mkC 0 Ge 1]])])]
  [0] [3%Z].
Definition exB : ta := mkTA
  [(0, mkS false false [(98, [mkE (Some 1) [0] [mkC 0 Gt 1]]); (97, [mkE (Some 0) [] []])]);
   (1, mkS true false [(97, [mkE (Some 0) [] []])])]
  [0] [1%Z].

Lemma exA_wf : wf_ta exA. Proof. apply wf_tab_ok. vm_compute. reflexivity. Qed.
Lemma exB_wf : wf_ta exB. Proof. apply wf_tab_ok. vm_compute. reflexivity. Qed.

(* ================= C16 membership test ================= *)

Theorem C16_isMember : forall A w, wf_ta A -> (isMember A w = true <-> accepts A w).
Proof. intros A w W. apply isMember_correct; auto. Qed.

Example C16_case : wf_ta exA /\
  accepts exA [(97, (2)%Q); (98, (9#2)%Q)] /\ ~ accepts exA [(97, (2)%Q); (98, (5)%Q)] /\
  accepts exA [(97, (2)%Q); (98, (3)%Q); (97, (4)%Q); (98, (9#2)%Q)].
Proof.
  pose proof exA_wf as W. split; auto. rewrite <- !(isMember_correct exA) by auto.
  split; [vm_compute; reflexivity|]. split; [vm_compute; discriminate|vm_compute; reflexivity].
Qed.

(* ================= C17 deep copy ================= *)

(* [fresh] are the addresses of the newly allocated states: distinct, and
   different from the existing ones. *)
Theorem C17_deepCopy : forall A fresh, wf_ta A ->
  (forall p q, In p (map fst (states A)) -> In q (map fst (states A)) -> fresh p = fresh q -> p = q) ->
  (forall p q, In p (map fst (states A)) -> In q (map fst (states A)) -> fresh p <> q) ->
  wf_ta (deepCopy A fresh) /\
  (forall p, In p (map fst (states (deepCopy A fresh))) -> ~ In p (map fst (states A))) /\
  (forall p c e t, is_edge (deepCopy A fresh) p c e -> etgt e = Some t -> ~ In t (map fst (states A))) /\
  (forall w, accepts (deepCopy A fresh) w <-> accepts A w) /\
  clockSize (deepCopy A fresh) = clockSize A.
Proof.
  intros A fresh W Inj New.
  assert (D : forall p, In p (map fst (states (deepCopy A fresh))) -> ~ In p (map fst (states A))).
  { intros p Hp Hq. apply in_fst_exists in Hp as (s & Hs). apply copy_states_in in Hs as (p0 & s0 & H0 & -> & _).
    apply (New p0 (fresh p0)); auto. apply (in_map fst _ _ H0). }
  split; [apply copy_wf; auto|]. split; [exact D|]. split; [|split; [|reflexivity]].
  - intros p c e t He Et. apply D. eapply copy_targets; eauto.
  - apply copy_accepts; auto.
Qed.

Example C17_case : let f := fun p => p + 10 in
  (forall p q, In p (map fst (states exA)) -> In q (map fst (states exA)) -> f p = f q -> p = q) /\
  (forall p q, In p (map fst (states exA)) -> In q (map fst (states exA)) -> f p <> q) /\
  accepts (deepCopy exA f) [(97, (2)%Q); (98, (9#2)%Q)].
Proof.
  intros f. assert (I : forall p q, In p (map fst (states exA)) -> In q (map fst (states exA)) -> f p = f q -> p = q).
  { unfold f. intros; lia. }
  split; auto. split.
  - unfold f, ptr. simpl. intros p q H1 H2. lia.
  - apply (copy_accepts exA f exA_wf I). apply isMember_correct; [apply exA_wf|]. vm_compute. reflexivity.
Qed.

(* ================= C18 product ================= *)

(* Distinct addresses for distinct pairs. *)
Definition fresh_pairs (A B : ta) (f : ptr -> ptr -> ptr) : Prop :=
  forall p1 p2 q1 q2, In p1 (map fst (states A)) -> In q1 (map fst (states A)) ->
    In p2 (map fst (states B)) -> In q2 (map fst (states B)) -> f p1 p2 = f q1 q2 -> p1 = q1 /\ p2 = q2.

(* Observable languages, unobservable transitions interleaved freely.  Missing
   for the full statement: automata whose zeroDuration flags differ, and more
   than 256 clocks in total; both are refuted below. *)
Theorem C18_product_partial : forall A B f, wf_ta A -> wf_ta B -> fresh_pairs A B f ->
  clockSize A + clockSize B <= 256 -> same_zero_flag A B ->
  wf_ta (intersectionTA A B f) /\
  (forall u, lang (intersectionTA A B f) u <-> lang A u /\ lang B u).
Proof.
  intros A B f WA WB Inj S Z. split; [apply product_wf; auto|]. intros u. apply product_lang; auto.
Qed.

(* Without unobservable transitions, word for word. *)
Theorem C18_product_words_partial : forall A B f, wf_ta A -> wf_ta B -> fresh_pairs A B f ->
  clockSize A + clockSize B <= 256 -> same_zero_flag A B ->
  (forall p e, ~ is_edge A p 0 e) -> (forall p e, ~ is_edge B p 0 e) ->
  forall w, accepts (intersectionTA A B f) w <-> accepts A w /\ accepts B w.
Proof. intros. apply product_accepts; auto. Qed.

Definition expair (p q : ptr) : ptr := 3 * q + p.

Lemma expair_fresh : fresh_pairs exA exB expair.
Proof. unfold fresh_pairs, expair, ptr. simpl. intros p1 p2 q1 q2 H1 H2 H3 H4 E. lia. Qed.

Lemma ex_same_zero : same_zero_flag exA exB.
Proof. unfold same_zero_flag. simpl. intros. intuition; repeat match goal with H : (_, _) = (_, _) |- _ => inversion H; clear H end; subst; try reflexivity. Qed.

Example C18_case : clockSize exA + clockSize exB <= 256 /\
  accepts (intersectionTA exA exB expair) [(97, (2)%Q); (98, (9#2)%Q)] /\
  ~ accepts (intersectionTA exA exB expair) [(97, (2)%Q); (98, (5)%Q)] /\
  ~ accepts (intersectionTA exA exB expair) [(97, (2)%Q); (98, (3)%Q); (97, (4)%Q); (98, (4)%Q)].
Proof.
  assert (S : clockSize exA + clockSize exB <= 256) by (vm_compute; lia). split; auto.
  assert (W : wf_ta (intersectionTA exA exB expair)) by (apply product_wf; auto using exA_wf, exB_wf, expair_fresh; apply expair_fresh).
  rewrite <- !(isMember_correct (intersectionTA exA exB expair)) by auto.
  split; [vm_compute; reflexivity|]. split; vm_compute; discriminate.
Qed.

(* Unobservable transitions: exE: 0 -eps, x>=2, x:=0-> 1 -a, x<1-> 2(acc). *)
Definition exE : ta := mkTA
  [(0, mkS false false [(0, [mkE (Some 1) [0] [mkC 0 Ge 2]])]);
   (1, mkS false false [(97, [mkE (Some 2) [] [mkC 0 Lt 1]])]);
   (2, mkS true false [])] [0] [2%Z].

Example C18_case_eps : lang (intersectionTA exE exE expair) [(97, (5#2)%Q)] /\ same_zero_flag exE exE.
Proof.
  assert (W : wf_ta exE) by (apply wf_tab_ok; vm_compute; reflexivity).
  assert (Z : same_zero_flag exE exE).
  { unfold same_zero_flag. simpl. intros. intuition; repeat match goal with H : (_, _) = (_, _) |- _ => inversion H; clear H end; subst; try reflexivity. }
  assert (I : fresh_pairs exE exE expair) by (unfold fresh_pairs, expair, ptr; simpl; intros p1 p2 q1 q2 H1 H2 H3 H4 E; lia).
  split; auto. apply (C18_product_partial exE exE expair W W I ltac:(vm_compute; lia) Z).
  assert (L : lang exE [(97, (5#2)%Q)]).
  { exists [(0, (2)%Q); (97, (5#2)%Q)]. split; [reflexivity|]. split; [simpl; lra|].
    apply isMember_correct; [exact W|vm_compute; reflexivity]. }
  auto.
Qed.

(* A pair of states is dropped when the zeroDuration flags differ. *)
Theorem C18_product_zeroDuration_refuted : exists A B f w, wf_ta A /\ wf_ta B /\ fresh_pairs A B f /\
  accepts A w /\ accepts B w /\ ~ accepts (intersectionTA A B f) w.
Proof.
  exists (mkTA [(0, mkS false false [(97, [mkE (Some 0) [] []; mkE (Some 1) [] []])]); (1, mkS true false [])] [0] []),
         (mkTA [(0, mkS false false [(97, [mkE (Some 1) [] []])]); (1, mkS true true [])] [0] []), (fun p q => 2 * q + p), [(97, 1%Q)].
  split; [apply wf_tab_ok; vm_compute; reflexivity|]. split; [apply wf_tab_ok; vm_compute; reflexivity|].
  split; [unfold fresh_pairs, ptr; simpl; intros; lia|].
  split; [apply isMember_correct; [apply wf_tab_ok|]; vm_compute; reflexivity|].
  split; [apply isMember_correct; [apply wf_tab_ok|]; vm_compute; reflexivity|].
  rewrite <- isMember_correct; [vm_compute; discriminate|apply wf_tab_ok; vm_compute; reflexivity].
Qed.

(* Clock indices are uint8_t: they wrap around beyond 256 clocks. *)
Theorem C18_product_overflow_refuted : exists A B f w, wf_ta A /\ wf_ta B /\ fresh_pairs A B f /\ same_zero_flag A B /\
  accepts A w /\ accepts B w /\ ~ accepts (intersectionTA A B f) w.
Proof.
  exists (mkTA [(0, mkS false false [(97, [mkE (Some 1) [0] []])]); (1, mkS false false [(97, [mkE (Some 2) [] []])]); (2, mkS true false [])] [0] (repeat 0%Z 255)),
         (mkTA [(0, mkS false false [(97, [mkE (Some 1) [0] []])]); (1, mkS false false [(97, [mkE (Some 2) [] [mkC 1 Gt 1]])]); (2, mkS true false [])] [0] (repeat 1%Z 2)),
         expair, [(97, 2%Q); (97, 3%Q)].
  split; [apply wf_tab_ok; vm_compute; reflexivity|]. split; [apply wf_tab_ok; vm_compute; reflexivity|].
  split; [unfold fresh_pairs, expair, ptr; simpl; intros; lia|].
  split. { unfold same_zero_flag. simpl. intros. intuition; repeat match goal with H : (_, _) = (_, _) |- _ => inversion H; clear H end; subst; try reflexivity. }
  split; [apply isMember_correct; [apply wf_tab_ok|]; vm_compute; reflexivity|].
  split; [apply isMember_correct; [apply wf_tab_ok|]; vm_compute; reflexivity|].
  rewrite <- isMember_correct; [vm_compute; discriminate|apply wf_tab_ok; vm_compute; reflexivity].
Qed.

(* ================= C19 re-rooting ================= *)

(* [A'] and [B'] are [A] and [B] with other initial and accepting states; the
   updated product is again the product. *)
Theorem C19_reroot : forall A B A' B' f, wf_ta A -> wf_ta B -> wf_ta A' -> wf_ta B' ->
  same_graph A A' -> same_graph B B' -> fresh_pairs A B f -> same_zero_flag A B ->
  let P := updateInitAccepting A' B' (intersectionTA A B f) (toIState_keys A B) f in
  (forall q, In q (inits P) <-> exists p1 p2, In p1 (inits A') /\ In p2 (inits B') /\ q = f p1 p2) /\
  (forall p1 p2, In p1 (map fst (states A)) -> In p2 (map fst (states B)) ->
     (accepting P (f p1 p2) <-> accepting A' p1 /\ accepting B' p2)) /\
  (clockSize A + clockSize B <= 256 -> forall u, lang P u <-> lang A' u /\ lang B' u).
Proof.
  intros A B A' B' f WA WB WA' WB' SA SB Inj Z P.
  assert (EP : P = intersectionTA A' B' f) by (apply update_is_product; auto).
  pose proof (same_graph_keys A A' SA) as KA. pose proof (same_graph_keys B B' SB) as KB.
  assert (Inj' : fresh_pairs A' B' f) by (unfold fresh_pairs; rewrite <- KA, <- KB; exact Inj).
  assert (Z' : same_zero_flag A' B').
  { intros p1 s1 p2 s2 H1 H2. destruct SA as [FA _], SB as [FB _].
    assert (G : forall (C D : list (ptr * tastate)), Forall2 (fun a b => fst a = fst b /\ zeroDur (snd a) = zeroDur (snd b) /\ next (snd a) = next (snd b)) C D ->
       forall p s, In (p, s) D -> exists s0, In (p, s0) C /\ zeroDur s0 = zeroDur s).
    { intros C D F. induction F as [|[a sa] [b sb] l k (E1 & E2 & E3) F IH]; intros p s H; [destruct H|].
      simpl in *. destruct H as [H|H]; [inversion H; subst; exists sa; auto|]. destruct (IH p s H) as (s0 & ? & ?). eauto. }
    destruct (G _ _ FA _ _ H1) as (t1 & I1 & E1). destruct (G _ _ FB _ _ H2) as (t2 & I2 & E2).
    rewrite <- E1, <- E2. eapply Z; eauto. }
  rewrite EP. split; [|split].
  - intros q. rewrite (prod_inits_in A' B' f); auto. split.
    + intros (p1 & p2 & H1 & H2 & _ & ->). eauto.
    + intros (p1 & p2 & H1 & H2 & ->). exists p1, p2. repeat split; auto. apply same_zd; auto; [apply WA'|apply WB']; auto.
  - intros p1 p2 H1 H2. rewrite KA in H1. rewrite KB in H2. apply prod_accepting; auto. apply same_zd; auto.
  - intros S u. apply product_lang; auto. destruct SA as [_ EA], SB as [_ EB]. unfold clockSize in *. rewrite <- EA, <- EB. auto.
Qed.

(* exA started in state 1, accepting in 1 as well. *)
Definition exA' : ta := mkTA
  [(0, mkS false false [(97, [mkE (Some 1) [0] []])]);
   (1, mkS true false [(98, [mkE (Some 2) [] [mkC 0 Lt 3]])]);
   (2, mkS false false [(97, [mkE (Some 1) [] [mkC 0 Ge 1]])])]
  [1] [3%Z].

Example C19_case :
  let P := updateInitAccepting exA' exB (intersectionTA exA exB expair) (toIState_keys exA exB) expair in
  same_graph exA exA' /\ same_graph exB exB /\ wf_ta exA' /\
  inits P = [expair 1 0] /\ accepting P (expair 1 1) /\ ~ accepting P (expair 2 1).
Proof.
  intros P. assert (SA : same_graph exA exA') by repeat constructor. assert (SB : same_graph exB exB) by repeat constructor.
  assert (W : wf_ta exA') by (apply wf_tab_ok; vm_compute; reflexivity).
  destruct (C19_reroot exA exB exA' exB expair exA_wf exB_wf W exB_wf SA SB expair_fresh ex_same_zero) as (_ & HA & _).
  split; [exact SA|]. split; [exact SB|]. split; [exact W|]. split; [vm_compute; reflexivity|]. unfold P. split.
  - apply HA; [simpl; auto|simpl; auto|]. split; eexists; (split; [simpl; eauto|reflexivity]).
  - rewrite HA by (simpl; auto). intros [(s & H & M) _]. simpl in H. destruct H as [H|[H|[H|[]]]]; inversion H; subst; discriminate.
Qed.
