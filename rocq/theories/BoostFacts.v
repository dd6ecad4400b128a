(* Facts about reading automata: convBoostTA, printing and reading back. *)
From Coq Require Import QArith Lqa Bool List ZArith Arith Lia Permutation.
From Verif Require Import Num Outcome Constraint Zone TA Spec TAFacts Text TextFacts.
Import ListNotations.
Open Scope nat_scope.

(* ---------------- the language of a graph ---------------- *)

Inductive grun (G : bgraph) : nat -> valuation -> Q -> tword -> nat -> Prop :=
| grun_nil : forall v u T, grun G v u T [] v
| grun_cons : forall v u T c t e w q,
    In e (bedges G) -> be_src e = v -> be_label e = c -> sat_guard (delay u (t - T)) (be_guard e) ->
    grun G (be_tgt e) (reset_set (delay u (t - T)) (be_resets e)) t w q ->
    grun G v u T ((c, t) :: w) q.

Definition gaccepts (G : bgraph) (w : tword) : Prop :=
  exists v0 v1, In v0 (bverts G) /\ bv_init v0 = true /\ In v1 (bverts G) /\ bv_match v1 = true /\
    grun G (bv_id v0) zeroval 0 w (bv_id v1).

Record wf_graph (G : bgraph) : Prop := {
  wg_nodup : NoDup (map bv_id (bverts G));
  wg_ends : forall e, In e (bedges G) -> In (be_src e) (map bv_id (bverts G)) /\ In (be_tgt e) (map bv_id (bverts G))
}.

(* ---------------- next[c].emplace_back ---------------- *)

Lemma next_push_keys : forall c e nx k, In k (map fst (next_push c e nx)) <-> k = c \/ In k (map fst nx).
Proof.
  induction nx as [|[c' es] nx IH]; intros k; cbn [next_push map fst In]; [intuition|].
  destruct (Nat.eqb_spec c c'); cbn [map fst In]; [subst; intuition|]. rewrite IH. intuition.
Qed.
Lemma next_push_nodup : forall c e nx, NoDup (map fst nx) -> NoDup (map fst (next_push c e nx)).
Proof.
  induction nx as [|[c' es] nx IH]; intros N; cbn [next_push map fst]; [repeat constructor; intros []|].
  inversion N as [|? ? N1 N2]; subst. destruct (Nat.eqb_spec c c'); cbn [map fst]; [constructor; auto|]. constructor; auto.
  rewrite next_push_keys. intuition.
Qed.
Lemma next_push_in : forall c e nx k e', (exists es, In (k, es) (next_push c e nx) /\ In e' es) <->
  (k = c /\ e' = e) \/ (exists es, In (k, es) nx /\ In e' es).
Proof.
  induction nx as [|[c' es] nx IH]; intros k e'; cbn [next_push].
  - split.
    + intros (es & [[= <- <-]|[]] & [<-|[]]). auto.
    + intros [[-> ->]|(es & [] & _)]. exists [e]. cbn. auto.
  - destruct (Nat.eqb_spec c c') as [->|N].
    + split.
      * intros (es' & [[= <- <-]|H] & He).
        -- apply in_app_or in He as [He|[<-|[]]]; auto. right. exists es. cbn. auto.
        -- right. exists es'. cbn. auto.
      * intros [[-> ->]|(es' & [[= <- <-]|H] & He)].
        -- exists (es ++ [e]). split; [left; auto|]. apply in_or_app. right. left. auto.
        -- exists (es ++ [e]). split; [left; auto|]. apply in_or_app. auto.
        -- exists es'. split; [right; auto|auto].
    + split.
      * intros (es' & [[= <- <-]|H] & He).
        -- right. exists es. cbn. auto.
        -- destruct (proj1 (IH k e') (ex_intro _ es' (conj H He))) as [X|(es2 & X1 & X2)]; auto. right. exists es2. cbn. auto.
      * intros [X|(es' & [[= <- <-]|H] & He)].
        -- destruct (proj2 (IH k e') (or_introl X)) as (es2 & X1 & X2). exists es2. cbn. auto.
        -- exists es. cbn. auto.
        -- destruct (proj2 (IH k e') (or_intror (ex_intro _ es' (conj H He)))) as (es2 & X1 & X2). exists es2. cbn. auto.
Qed.

Lemma next_fold : forall al l nx,
  (NoDup (map fst nx) -> NoDup (map fst (fold_left (fun nx e => next_push (be_label e) (conv_edge al e) nx) l nx))) /\
  forall k e', (exists es, In (k, es) (fold_left (fun nx e => next_push (be_label e) (conv_edge al e) nx) l nx) /\ In e' es) <->
    (exists e, In e l /\ be_label e = k /\ e' = conv_edge al e) \/ (exists es, In (k, es) nx /\ In e' es).
Proof.
  induction l as [|e l IH]; intros nx; cbn [fold_left].
  - split; auto. intros k e'. split; [auto|]. intros [(e & [] & _)|H]; auto.
  - destruct (IH (next_push (be_label e) (conv_edge al e) nx)) as [IH1 IH2]. split.
    + intros N. apply IH1, next_push_nodup. auto.
    + intros k e'. rewrite IH2, next_push_in. split.
      * intros [(e0 & H1 & H2 & H3)|[[-> ->]|H]]; auto.
        -- left. exists e0. cbn. auto.
        -- left. exists e. cbn. auto.
      * intros [(e0 & [<-|H1] & H2 & H3)|H]; auto. left. exists e0. auto.
Qed.

(* ---------------- the automaton has the edges of the graph ---------------- *)

Definition inj_on (al : nat -> ptr) (l : list nat) : Prop := forall x y, In x l -> In y l -> al x = al y -> x = y.

Lemma conv_is_edge : forall al G v c e, wf_graph G -> inj_on al (map bv_id (bverts G)) -> In v (map bv_id (bverts G)) ->
  (is_edge (convBoostTA al G) (al v) c e <-> exists b, In b (bedges G) /\ be_src b = v /\ be_label b = c /\ e = conv_edge al b).
Proof.
  intros al G v c e W Inj Hv. unfold is_edge. cbn [states convBoostTA]. split.
  - intros (s & es & Hs & Hc & He). apply in_map_iff in Hs as (x & E & Hx).
    injection E as Ep Es. apply Inj in Ep; [|apply in_map; auto|auto]. subst s. cbn [next] in Hc.
    destruct (proj1 (proj2 (next_fold al (out_edges G (bv_id x)) []) c e) (ex_intro _ es (conj Hc He))) as [(b & Hb & Hl & ->)|(es' & [] & _)].
    unfold out_edges in Hb. apply filter_In in Hb as [Hb Hsrc]. apply Nat.eqb_eq in Hsrc. exists b. subst v. auto.
  - intros (b & Hb & Hsrc & Hl & ->). apply in_map_iff in Hv as (x & <- & Hx).
    destruct (proj2 (proj2 (next_fold al (out_edges G (bv_id x)) []) c (conv_edge al b))) as (es & Hc & He).
    { left. exists b. repeat split; auto. apply filter_In. split; auto. apply Nat.eqb_eq. auto. }
    eexists. exists es. split; [apply in_map_iff; exists x; split; [reflexivity|auto]|]. cbn [next]. auto.
Qed.

Lemma conv_accepting : forall al G v, wf_graph G -> inj_on al (map bv_id (bverts G)) -> In v (map bv_id (bverts G)) ->
  (accepting (convBoostTA al G) (al v) <-> exists x, In x (bverts G) /\ bv_id x = v /\ bv_match x = true).
Proof.
  intros al G v W Inj Hv. unfold accepting. cbn [states convBoostTA]. split.
  - intros (s & Hs & M). apply in_map_iff in Hs as (x & E & Hx). injection E as Ep Es. apply Inj in Ep; [|apply in_map; auto|auto].
    subst s. exists x. auto.
  - intros (x & Hx & <- & M). eexists. split; [apply in_map_iff; exists x; split; [reflexivity|auto]|]. auto.
Qed.

Lemma conv_run : forall al G p u T w q u' T', wf_graph G -> inj_on al (map bv_id (bverts G)) ->
  run (convBoostTA al G) p u T w q u' T' -> forall v, In v (map bv_id (bverts G)) -> p = al v ->
  exists v', In v' (map bv_id (bverts G)) /\ q = al v' /\ grun G v u T w v'.
Proof.
  intros al G p u T w q u' T' W Inj R. induction R as [x y z|p u T c t e w q p' u' T' He Et Sg R IH]; intros v Hv ->.
  - exists v. repeat split; auto. constructor.
  - apply conv_is_edge in He as (b & Hb & <- & <- & ->); auto. cbn [etgt conv_edge] in Et. injection Et as <-.
    destruct (IH (be_tgt b)) as (v' & Hv' & -> & G'); [apply (wg_ends _ W _ Hb)|reflexivity|].
    exists v'. repeat split; auto. econstructor; eauto.
Qed.
Lemma run_conv : forall al G v u T w v', wf_graph G -> inj_on al (map bv_id (bverts G)) -> grun G v u T w v' ->
  In v (map bv_id (bverts G)) -> exists u' T', run (convBoostTA al G) (al v) u T w (al v') u' T' /\ In v' (map bv_id (bverts G)).
Proof.
  intros al G v u T w v' W Inj R. induction R as [x y z|v0 u T c t e w q He Es El Sg R IH]; intros Hv.
  - exists y, z. split; [constructor|auto].
  - destruct IH as (u' & T' & R' & Hq); [apply (wg_ends _ W _ He)|]. exists u', T'. split; auto.
    econstructor; [apply conv_is_edge; eauto|reflexivity|exact Sg|exact R'].
Qed.

Lemma conv_language : forall al G w, wf_graph G -> inj_on al (map bv_id (bverts G)) ->
  (accepts (convBoostTA al G) w <-> gaccepts G w).
Proof.
  intros al G w W Inj. split.
  - intros (p & q & u & T & Hp & R & Ac). cbn [inits convBoostTA] in Hp. apply in_map_iff in Hp as (v0 & <- & H0).
    apply filter_In in H0 as [H0 I0]. destruct (conv_run _ _ _ _ _ _ _ _ _ W Inj R (bv_id v0)) as (v1 & H1 & -> & R'); [apply in_map; auto|auto|].
    apply conv_accepting in Ac as (x & Hx & <- & M); auto. exists v0, x. auto 6.
  - intros (v0 & v1 & H0 & I0 & H1 & M1 & R). destruct (run_conv al _ _ _ _ _ _ W Inj R) as (u & T & R' & _); [apply in_map; auto|].
    exists (al (bv_id v0)), (al (bv_id v1)), u, T. split; [|split; auto].
    + cbn [inits convBoostTA]. apply in_map_iff. exists v0. split; auto. apply filter_In. auto.
    + apply conv_accepting; auto; [apply in_map; auto|]. exists v1. auto.
Qed.

(* ---------------- maxConstraints ---------------- *)

Lemma set_nth_length : forall {X} (l : list X) i x, length (set_nth l i x) = length l.
Proof. induction l as [|y l IH]; intros [|i] x; cbn; auto. Qed.
Lemma nth_set_nth : forall {X} (l : list X) i j x d, i < length l -> nth j (set_nth l i x) d = if j =? i then x else nth j l d.
Proof.
  induction l as [|y l IH]; intros i j x d L; [cbn in L; lia|]. destruct i, j; cbn [set_nth nth Nat.eqb]; auto. apply IH. cbn in L. lia.
Qed.
Lemma nth_pad : forall (l : list Z) k x, nth x (l ++ repeat 0%Z k) 0%Z = nth x l 0%Z.
Proof.
  intros l k x. destruct (Nat.lt_ge_cases x (length l)); [apply app_nth1; auto|]. rewrite app_nth2, (nth_overflow l) by lia.
  destruct (Nat.lt_ge_cases (x - length l) k); [apply nth_repeat|]. apply nth_overflow. rewrite repeat_length. lia.
Qed.

Lemma max_push_length : forall l g, length (max_push l g) = Nat.max (length l) (S (cx g)).
Proof. intros l g. unfold max_push. rewrite set_nth_length, app_length, repeat_length. lia. Qed.
Lemma max_push_nth : forall l g x, nth x (max_push l g) 0%Z = if x =? cx g then Z.max (nth x l 0%Z) (cc g) else nth x l 0%Z.
Proof.
  intros l g x. unfold max_push. rewrite nth_set_nth by (rewrite app_length, repeat_length; lia). rewrite !nth_pad.
  destruct (Nat.eqb_spec x (cx g)); subst; auto.
Qed.

Lemma max_fold_length : forall gs l n, n <= length (fold_left max_push gs l) <->
  n <= length l \/ exists g, In g gs /\ n <= S (cx g).
Proof.
  induction gs as [|g gs IH]; intros l n; cbn [fold_left].
  - split; [auto|]. intros [H|(g & [] & _)]; auto.
  - rewrite IH, max_push_length. split.
    + intros [H|(g0 & H1 & H2)].
      * destruct (Nat.max_spec (length l) (S (cx g))) as [[_ E]|[_ E]]; rewrite E in H; auto. right. exists g. cbn. auto.
      * right. exists g0. cbn. auto.
    + intros [H|(g0 & [<-|H1] & H2)]; [left; lia|left; lia|]. right. exists g0. auto.
Qed.
Lemma max_fold_nth : forall gs l x b, (nth x (fold_left max_push gs l) 0 <= b)%Z <->
  (nth x l 0 <= b)%Z /\ forall g, In g gs -> cx g = x -> (cc g <= b)%Z.
Proof.
  induction gs as [|g gs IH]; intros l x b; cbn [fold_left].
  - split; [intros H; split; [auto|intros g []]|tauto].
  - rewrite IH, max_push_nth. destruct (Nat.eqb_spec x (cx g)) as [->|N]; split.
    + intros [H1 H2]. split; [lia|]. intros g0 [<-|H0] E; [lia|auto].
    + intros [H1 H2]. split; [|intros g0 H0 E; apply H2; cbn; auto]. specialize (H2 g (or_introl eq_refl) eq_refl). lia.
    + intros [H1 H2]. split; auto. intros g0 [<-|H0] E; [congruence|auto].
    + intros [H1 H2]. split; auto. intros g0 H0 E. apply H2; cbn; auto.
Qed.

Lemma graph_guards : forall G g, wf_graph G ->
  (In g (flat_map be_guard (flat_map (fun v => out_edges G (bv_id v)) (bverts G))) <-> exists e, In e (bedges G) /\ In g (be_guard e)).
Proof.
  intros G g W. rewrite in_flat_map. split.
  - intros (e & He & Hg). apply in_flat_map in He as (v & _ & He). unfold out_edges in He. apply filter_In in He as [He _]. eauto.
  - intros (e & He & Hg). exists e. split; auto. apply in_flat_map. destruct (wg_ends _ W e He) as [Hs _]. apply in_map_iff in Hs as (v & Ev & Hv).
    exists v. split; auto. unfold out_edges. apply filter_In. split; auto. apply Nat.eqb_eq. auto.
Qed.

(* Well-formed as soon as every reset clock has a guard. *)
Lemma conv_wf : forall al G, wf_graph G -> inj_on al (map bv_id (bverts G)) ->
  (forall e x, In e (bedges G) -> In x (be_resets e) -> exists e' g, In e' (bedges G) /\ In g (be_guard e') /\ x <= cx g) ->
  wf_ta (convBoostTA al G).
Proof.
  intros al G W Inj R.
  assert (K : map fst (states (convBoostTA al G)) = map al (map bv_id (bverts G))).
  { cbn [states convBoostTA]. rewrite !map_map. reflexivity. }
  assert (L : forall n, (exists e g, In e (bedges G) /\ In g (be_guard e) /\ n <= S (cx g)) -> n <= clockSize (convBoostTA al G)).
  { intros n (e & g & He & Hg & Hn). unfold clockSize. cbn [maxC convBoostTA]. apply max_fold_length. right. exists g. split; auto. apply graph_guards; eauto. }
  constructor.
  - rewrite K. assert (X : forall l, (forall x, In x l -> In x (map bv_id (bverts G))) -> NoDup l -> NoDup (map al l)).
    { induction l as [|x l IH]; intros Hl N; cbn; [constructor|]. inversion N; subst. constructor.
      - intros H. apply in_map_iff in H as (y & E & Hy). apply Inj in E; [subst; auto|apply Hl; right; auto|apply Hl; left; auto].
      - apply IH; auto. intros y Hy. apply Hl. right. auto. }
    apply X; auto. apply (wg_nodup _ W).
  - intros p s Hs. cbn [states convBoostTA] in Hs. apply in_map_iff in Hs as (x & E & Hx). injection E as <- <-. cbn [next].
    apply next_fold. constructor.
  - intros p s c es e Hs Hc He.
    assert (E : is_edge (convBoostTA al G) p c e) by (exists s, es; auto).
    cbn [states convBoostTA] in Hs. apply in_map_iff in Hs as (x & Ex & Hx). injection Ex as <- _.
    apply conv_is_edge in E as (b & Hb & Hsrc & Hl & ->); auto; [|apply in_map; auto]. split; [|split]; cbn [etgt eresets eguard conv_edge].
    + intros t [= <-]. rewrite K. apply in_map. apply (wg_ends _ W _ Hb).
    + apply Forall_forall. intros y Hy. destruct (R b y Hb Hy) as (e' & g & H1 & H2 & H3). apply L. exists e', g. repeat split; auto. lia.
    + apply Forall_forall. intros g Hg. apply L. exists b, g. auto.
  - intros p Hp. rewrite K. cbn [inits convBoostTA] in Hp. apply in_map_iff in Hp as (v & <- & Hv). apply filter_In in Hv as [Hv _].
    apply in_map, in_map. auto.
Qed.

(* ---------------- printing ---------------- *)

Lemma number_some : forall l k p n, number k l p = Some n -> k < n /\ nth_error l (n - S k) = Some p.
Proof.
  induction l as [|q l IH]; intros k p n H; cbn [number] in H; [discriminate|].
  destruct (number (S k) l p) as [i|] eqn:E.
  - injection H as <-. apply IH in E as [L E]. split; [lia|]. replace (i - S k) with (S (i - S (S k))) by lia. auto.
  - destruct (Nat.eqb_spec p q); [|discriminate]. injection H as <-. subst. split; [lia|]. replace (S k - S k) with 0 by lia. auto.
Qed.
Lemma number_in : forall l k p, In p l -> exists n, number k l p = Some n.
Proof.
  induction l as [|q l IH]; intros k p H; [destruct H|]. cbn [number]. destruct (number (S k) l p) as [i|] eqn:E; [eauto|].
  destruct H as [->|H]; [rewrite Nat.eqb_refl; eauto|]. destruct (IH (S k) p H) as (n & E2). congruence.
Qed.

Definition num (A : ta) (p : ptr) : nat := match number 0 (map fst (states A)) p with Some n => n | None => 0 end.
Lemma num_inj : forall A p q, In p (map fst (states A)) -> In q (map fst (states A)) -> num A p = num A q -> p = q.
Proof.
  intros A p q Hp Hq. unfold num. destruct (number_in _ 0 p Hp) as (n & En). destruct (number_in _ 0 q Hq) as (m & Em). rewrite En, Em.
  intros <-. apply number_some in En as [_ En]. apply number_some in Em as [_ Em]. congruence.
Qed.

Lemma traverse_ok : forall {X Y} (f : X -> outcome Y) (g : X -> Y) l, (forall x, In x l -> f x = Ok (g x)) -> traverse f l = Ok (map g l).
Proof.
  induction l as [|x l IH]; intros H; cbn [traverse map]; auto. rewrite H by (left; auto). cbn [bind].
  rewrite IH by (intros; apply H; right; auto). reflexivity.
Qed.

Definition text_edge (A : ta) (n c : nat) (e : edge) : tedge :=
  mkTE n (match etgt e with Some q => num A q | None => 0 end) c (attr guard_chars (eguard e)) (attr resets_chars (eresets e)).

Definition targets_ok (A : ta) : Prop := forall p s c es e, In (p, s) (states A) -> In (c, es) (next s) -> In e es ->
  exists q, etgt e = Some q /\ In q (map fst (states A)).

Definition text_edges (A : ta) : list tedge :=
  concat (concat (map (fun ps => map (fun ce => map (text_edge A (num A (fst ps)) (fst ce)) (snd ce)) (next (snd ps))) (states A))).
Definition text_verts (A : ta) : list tvert :=
  map (fun ps => mkTV (num A (fst ps)) (mem (fst ps) (inits A)) (isMatch (snd ps)) (zeroDur (snd ps))) (states A).

Lemma print_ta_ok : forall A, targets_ok A -> print_ta A = Ok (text_verts A, text_edges A).
Proof.
  intros A T. unfold print_ta.
  rewrite (traverse_ok _ (fun ps => map (fun ce => map (text_edge A (num A (fst ps)) (fst ce)) (snd ce)) (next (snd ps)))); [reflexivity|].
  intros [p s] Hs. cbn [fst snd]. apply traverse_ok. intros [c es] Hc. cbn [fst snd]. apply traverse_ok. intros e He.
  destruct (T p s c es e Hs Hc He) as (q & Et & Hq). unfold print_edge, text_edge, num. rewrite Et. destruct (number_in _ 0 q Hq) as (n & ->). reflexivity.
Qed.

Lemma text_edges_in : forall A t, In t (text_edges A) <->
  exists p c e, is_edge A p c e /\ t = text_edge A (num A p) c e.
Proof.
  intros A t. unfold text_edges. split.
  - intros H. apply in_concat in H as (l & Hl & Ht). apply in_concat in Hl as (ll & Hll & Hl). apply in_map_iff in Hll as ([p s] & <- & Hs).
    cbn [fst snd] in Hl. apply in_map_iff in Hl as ([c es] & <- & Hc). cbn [fst snd] in Ht. apply in_map_iff in Ht as (e & <- & He).
    exists p, c, e. split; auto. exists s, es. auto.
  - intros (p & c & e & (s & es & Hs & Hc & He) & ->).
    apply in_concat. exists (map (text_edge A (num A p) c) es). split; [|apply in_map; auto].
    apply in_concat. exists (map (fun ce => map (text_edge A (num A p) (fst ce)) (snd ce)) (next s)). split.
    + apply in_map_iff. exists (p, s). auto.
    + apply in_map_iff. exists (c, es). auto.
Qed.

Definition read_edge (A : ta) (n c : nat) (e : edge) : bedge :=
  mkBE n (match etgt e with Some q => num A q | None => 0 end) c (eresets e) (eguard e).

Lemma guard_round : forall l, l <> [] -> Forall printable l -> guard_of (guard_chars l) = Ok l.
Proof.
  intros l N H. unfold guard_of, guard_chars, list_chars. rewrite sep_map. eapply read_list_ok; [apply read_constr_ok| |auto].
  apply Forall2_map_l. eapply Forall_impl; [|exact H]. apply constr_chars_text.
Qed.
Lemma resets_round : forall l, l <> [] -> Forall (fun x => x < 256) l -> resets_of (resets_chars l) = Ok l.
Proof.
  intros l N H. unfold resets_of, resets_chars, list_chars. rewrite sep_map. eapply (read_list_ok read_clock clock_text).
  - intros t x r (z & Hz & Rz & ->) Nr. apply read_clock_ok; auto.
  - apply Forall2_map_l. eapply Forall_impl; [|exact H]. intros x Hx. exists (Z.of_nat x).
    split; [apply int_chars_numeral|]. split; [apply small_range; auto|]. rewrite to_uint8_id; auto.
  - auto.
Qed.

Lemma parse_text_edge : forall A n c e, Forall printable (eguard e) -> Forall (fun x => x < 256) (eresets e) ->
  parse_edge (text_edge A n c e) = Ok (read_edge A n c e).
Proof.
  intros A n c e Hg Hr. unfold parse_edge, text_edge, read_edge. cbn [te_guard te_reset te_src te_tgt te_label].
  assert (G : match attr guard_chars (eguard e) with Some s => guard_of s | None => Ok [] end = Ok (eguard e)).
  { unfold attr. destruct (eguard e) eqn:E; auto. rewrite <- E in *. apply guard_round; auto. rewrite E. discriminate. }
  assert (R : match attr resets_chars (eresets e) with Some s => resets_of s | None => Ok [] end = Ok (eresets e)).
  { unfold attr. destruct (eresets e) eqn:E; auto. rewrite <- E in *. apply resets_round; auto. rewrite E. discriminate. }
  rewrite G, R. reflexivity.
Qed.

Lemma traverse_in : forall {X Y} (f : X -> outcome Y) l, (forall x, In x l -> exists y, f x = Ok y) ->
  exists ys, traverse f l = Ok ys /\ forall y, In y ys <-> exists x, In x l /\ f x = Ok y.
Proof.
  induction l as [|x l IH]; intros H.
  - exists []. split; auto. intros y. split; [intros []|intros (x & [] & _)].
  - destruct (H x (or_introl eq_refl)) as (y & Ey). destruct IH as (ys & E & I); [intros; apply H; right; auto|].
    exists (y :: ys). split; [cbn [traverse]; rewrite Ey; cbn [bind]; rewrite E; reflexivity|]. intros z. split.
    + intros [<-|Hz]; [exists x; cbn; auto|]. apply I in Hz as (x' & Hx & Ez). exists x'. cbn. auto.
    + intros (x' & [<-|Hx] & Ez); [left; congruence|right; apply I; eauto].
Qed.
