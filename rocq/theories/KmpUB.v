(* Building the KMP table: which operations are undefined. *)
From Coq Require Import QArith Lqa Bool List ZArith Arith Lia.
From Verif Require Import Num NumFacts Outcome Constraint Zone ZoneFacts ZoneOps TA Spec TAFacts Word ZA ZASpec ZAFacts ZAGraph PropZA
  Intersection IntersectionFacts Monaa MonaaFacts Skip SkipFacts Kmp KmpRun KmpSafe.
Import ListNotations.
Open Scope nat_scope.

(* Every character labelling a transition is an index of the array next of a
   zone automaton state. *)
Definition chars_ok (A : ta) : Prop := forall p c e, is_edge A p c e -> c < char_max.

(* The outcome is a value or (fuel) the loop goes on. *)
Definition safe {X} (P : X -> Prop) (o : outcome X) : Prop :=
  match o with Ok x => P x | OutOfFuel => True | _ => False end.

Lemma safe_bind : forall {X Y} (P : X -> Prop) (Q : Y -> Prop) o (f : X -> outcome Y), safe P o -> (forall x, P x -> safe Q (f x)) -> safe Q (bind o f).
Proof. intros X Y P Q [x| | | |] f H HF; cbn in *; auto. Qed.

Lemma safe_impl : forall {X} (P Q : X -> Prop) o, (forall x, P x -> Q x) -> safe P o -> safe Q o.
Proof. intros X P Q [x| | | |] H; cbn; auto. Qed.

Lemma safe_fold : forall {X S} (P : S -> Prop) (f : X -> S -> outcome S) l s, (forall x s, In x l -> P s -> safe P (f x s)) -> P s -> safe P (fold_out f l s).
Proof.
  induction l as [|x l IH]; intros s H Hs; cbn; [exact Hs|]. apply (safe_bind P); [apply H; [left; auto|exact Hs]|].
  intros s' H'. apply IH; auto. intros; apply H; auto. right; auto.
Qed.

Section Safe.
  Variable A : ta.
  Hypothesis W : wf_ta A.
  Hypothesis C : chars_ok A.

  Definition zsafe (Z : za) : Prop := forall i s, zget Z i = Some s -> In (zq s) (map fst (states A)).
  Definition zq_safe (k : nat) (Zq : za * list nat) : Prop :=
    zsafe (fst Zq) /\ k <= length (zsts (fst Zq)) /\ forall i, In i (snd Zq) -> i < length (zsts (fst Zq)).

  Lemma zsafe_upd : forall Z i f, (forall s, zq (f s) = zq s) -> zsafe Z -> zsafe (zupd Z i f).
  Proof.
    intros Z i f Hf H j s G. rewrite zget_zupd in G. destruct (j =? i) eqn:E.
    - apply Nat.eqb_eq in E. subst j. destruct (zget Z i) as [s0|] eqn:G0; [|discriminate].
      injection G as <-. rewrite Hf. eapply H; eauto.
    - eapply H; eauto.
  Qed.

  Lemma edge_safe : forall M i now k p c e Zq, is_edge A p c e -> zq_safe k Zq -> safe (zq_safe k) (ta2za_edge A M i now c e Zq).
  Proof.
    intros M i now k p c e [Z nq] He (S1 & S2 & S3). cbn [fst snd] in *. unfold ta2za_edge.
    destruct (etgt e) as [q|] eqn:Et; [|cbn; split; auto]. destruct (succ_zone M now e) as [m|]; [|cbn; split; auto].
    destruct (char_max <=? c) eqn:EC; [apply Nat.leb_le in EC; specialize (C p c e He); lia|].
    pose proof (wf_is_edge _ _ _ _ W He) as (WT & _). specialize (WT q Et).
    destruct (zfind Z q m) as [j|] eqn:EF.
    - cbn. split; cbn [fst snd]; [apply zsafe_upd; auto|]. rewrite zupd_length. auto.
    - destruct (deref A q) as [s|] eqn:ED; [|apply assoc_None in ED; contradiction].
      cbn [safe]. split; cbn [fst snd].
      + apply zsafe_upd; auto. intros j s' G. destruct (zget_app1 _ _ _ _ _ G) as [[_ G']|[_ G']].
        * eapply S1; exact G'.
        * destruct (j - length (zsts Z)) as [|x]; cbn in G'; [injection G' as <-; exact WT|destruct x; discriminate].
      + rewrite zupd_length. cbn [zsts]. rewrite app_length. cbn [length]. split; [lia|].
        intros x Hx. apply in_app_or in Hx as [Hx|[<-|[]]]; [specialize (S3 x Hx); lia|lia].
  Qed.

  Lemma conf_safe : forall M i k Zq, i < k -> zq_safe k Zq -> safe (zq_safe k) (ta2za_conf A M i Zq).
  Proof.
    intros M i k Zq Hi HS. unfold ta2za_conf. destruct (zget_some (fst Zq) i ltac:(destruct HS as (_ & L & _); lia)) as (s & G). rewrite G.
    pose proof (proj1 HS i s G) as K. destruct (deref A (zq s)) as [ts|] eqn:ED; [|apply assoc_None in ED; contradiction].
    apply safe_fold; auto. intros [c es] Zq1 Hc H1. apply safe_fold; auto. intros e Zq2 He H2. eapply edge_safe; eauto.
    exists ts, es. split; [apply assoc_In; exact ED|]. split; auto.
  Qed.

  Lemma loop_safe : forall fuel M Z queue, zsafe Z -> (forall i, In i queue -> i < length (zsts Z)) -> safe zsafe (ta2za_loop fuel A M Z queue).
  Proof.
    induction fuel as [|f IH]; intros M Z queue HZ HQ; destruct queue as [|i rest]; cbn [ta2za_loop]; auto; [exact I|].
    apply (safe_bind (zq_safe (length (zsts Z)))).
    - apply conf_safe; [apply HQ; left; auto|]. split; auto. split; auto. intros x [].
    - intros Zq (S1 & S2 & S3). apply IH; auto. intros x Hx. apply in_app_or in Hx as [Hx|Hx]; auto. specialize (HQ x (or_intror Hx)). lia.
  Qed.

  Lemma ta2za_safe : forall fuel Z iz, zsafe Z -> safe zsafe (ta2za fuel A Z iz).
  Proof.
    intros fuel Z iz HZ. unfold ta2za. set (z := match iz with [] => _ | _ => _ end).
    set (new := filter _ (inits A)).
    assert (NS : forall p, In p new -> In p (map fst (states A))) by (intros p Hp; apply filter_In in Hp as [Hp _]; apply (wf_inits _ W); auto).
    destruct new as [|p0 new'] eqn:E; [exact HZ|]. rewrite <- E in *. clear p0 new' E.
    rewrite (new_states_ok A z new []) by auto. cbn [bind app]. apply loop_safe.
    - intros i s G. destruct (zget_app1 _ _ _ _ _ G) as [[_ G']|[_ G']]; [eapply HZ; exact G'|].
      apply nth_error_In in G'. apply in_map_iff in G' as (p & <- & Hp). cbn. auto.
    - intros i Hi. apply in_seq in Hi. cbn [zsts]. rewrite app_length, map_length. lia.
  Qed.
End Safe.

(* ---------- the characters of the product ---------- *)

Lemma As_chars : forall al B, chars_ok B -> chars_ok (kmp_As al B).
Proof.
  intros al B H p c e (s & es & I1 & I2 & I3). unfold kmp_As in I1. cbn [states] in I1. apply in_app_or in I1 as [I1|I1].
  - apply in_map_iff in I1 as ([p0 s0] & E & I1). cbn [fst snd] in E. injection E as <- <-. cbn [next] in I2.
    assert (X : has_edge (push_edge (next (copy_state B (a_S al) s0)) 0 (mkE (Some (a_dum al p0)) [] [])) c e) by (exists es; auto).
    apply has_edge_push in X as [(es' & X1 & X2)|[-> _]]; [|unfold char_max; lia].
    cbn [next copy_state] in X1. apply in_map_iff in X1 as ([c1 es1] & E & X1). cbn [fst snd] in E. injection E as -> <-.
    apply in_map_iff in X2 as (e1 & _ & X2). apply (H p0 c e1). exists s0, es1. auto.
  - apply in_map_iff in I1 as ([p0 s0] & E & I1). cbn [fst snd] in E. injection E as <- <-. cbn [next] in I2. unfold loops in I2.
    apply in_map_iff in I2 as (c1 & E & I2). injection E as -> _. apply in_letters in I2. tauto.
Qed.

Lemma product_chars : forall A B f, wf_ta A -> wf_ta B -> chars_ok B -> chars_ok (intersectionTA A B f).
Proof.
  intros A B f WA WB H p c e (s & es & I1 & I2 & I3). apply out_states_in in I1 as (p1 & s1 & p2 & s2 & J1 & J2 & _ & -> & ->).
  unfold prod_state in I2. cbn [next] in I2.
  assert (X : has_edge (fold_left (fun l ce => push_edge l (fst ce) (snd ce)) (prod_pushes A B f p1 s1 p2 s2) []) c e) by (exists es; auto).
  apply has_edge_fold in X as [(es' & [] & _)|X].
  apply (prod_pushes_in A B f WA WB p1 s1 p2 s2 c e J1 J2) in X as [(e1 & n1 & -> & _)|[(e2 & n2 & -> & _)|(e1 & n1 & e2 & n2 & _ & _ & X & _)]];
    [unfold char_max; lia|unfold char_max; lia|eapply H; eauto].
Qed.

Lemma chars_same : forall A B, same_graph A B -> chars_ok A -> chars_ok B.
Proof. intros A B SG H p c e He. apply (H p c e). eapply same_graph_edge; [apply same_graph_sym; exact SG|exact He]. Qed.

(* ---------- the loop over the shifts ---------- *)

Section Try.
  Variables (al : alloc) (B : ta) (m : nat) (A0 : ta).
  Hypothesis WB : wf_ta B.
  Hypothesis AO : alloc_ok al B m.
  Hypothesis KB : 2 * clockSize B <= 255.
  Hypothesis CB : chars_ok B.
  Hypothesis H0 : kmp_A0 al B m = Ok A0.

  Let S0 := kmp_As al B.
  Let KB' : clockSize B <= 256. Proof. lia. Qed.
  Let W0 : wf_ta A0 := A0_wf al B m A0 WB AO KB' H0.
  Let WS : wf_ta S0 := As_wf al B m WB AO.

  Let Inj2 : forall p1 p2 q1 q2, In p1 (map fst (states A0)) -> In q1 (map fst (states A0)) ->
    In p2 (map fst (states S0)) -> In q2 (map fst (states S0)) -> a_2 al p1 p2 = a_2 al q1 q2 -> p1 = q1 /\ p2 = q2.
  Proof.
    intros p1 p2 q1 q2. unfold S0. rewrite (A0_keys al B m A0 H0), (As_keys al B). apply (ao_2 _ _ _ AO).
  Qed.
  Let keys := toIState_keys A0 S0.

  Definition SInv (A2 : ta) (Z : za) : Prop :=
    (exists A' S' l, same_graph A0 A' /\ wf_ta A' /\ same_graph S0 S' /\ wf_ta S' /\ A2 = set_inits (intersectionTA A' S' (a_2 al)) l) /\
    Zinv A2 Z.

  Lemma step_facts : forall A2 Z n S', SInv A2 Z -> n <= m -> same_graph S0 S' -> wf_ta S' ->
    let A2' := updateInitAccepting (set_inits A0 [a_ext al n]) S' A2 keys (a_2 al) in
    let A2'' := set_inits A2' (sort_nat (inits A2')) in
    wf_ta A2'' /\ clockSize A2'' <= 255 /\ chars_ok A2'' /\ Zinv A2'' Z /\ same_graph (intersectionTA A0 S0 (a_2 al)) A2'' /\
    (exists A' S1 l, same_graph A0 A' /\ wf_ta A' /\ same_graph S0 S1 /\ wf_ta S1 /\ A2'' = set_inits (intersectionTA A' S1 (a_2 al)) l).
  Proof.
    intros A2 Z n S' ((A1 & S1 & l & SA & WA & SS & WS1 & ->) & ZI) Hn SS' WS' A2' A2''.
    set (A0n := set_inits A0 [a_ext al n]).
    assert (In_n : In (a_ext al n) (map fst (states A0))) by (rewrite (A0_keys al B m A0 H0); apply in0_ext; [exact KB'|auto]).
    assert (SGn : same_graph A0 A0n) by apply set_inits_same.
    assert (Wn : wf_ta A0n).
    { apply (same_graph_wf A0); auto. intros p [<-|[]]. exact In_n. }
    assert (EU : A2' = intersectionTA A0n S' (a_2 al)).
    { unfold A2', keys. rewrite (keys_same A0 A1 S0 S1) by auto.
      rewrite <- (update_is_product A1 S1 A0n S' (a_2 al)).
      - reflexivity.
      - exact WA.
      - exact WS1.
      - eapply same_graph_trans; [apply same_graph_sym; exact SA|exact SGn].
      - eapply same_graph_trans; [apply same_graph_sym; exact SS|exact SS'].
      - rewrite <- (same_graph_keys _ _ SA), <- (same_graph_keys _ _ SS). exact Inj2. }
    assert (W2 : wf_ta (intersectionTA A0n S' (a_2 al))).
    { apply product_wf; auto.
      - rewrite <- (same_graph_keys _ _ SGn), <- (same_graph_keys _ _ SS'). exact Inj2.
      - unfold clockSize at 2. rewrite <- (proj2 SS'). change (clockSize A0n) with (clockSize A0). fold (clockSize S0).
        rewrite (A0_clocks al B m A0 H0). unfold S0. rewrite As_clocks. lia. }
    assert (SG2 : same_graph (intersectionTA A0n S' (a_2 al)) A2'').
    { unfold A2''. rewrite EU. apply set_inits_same. }
    assert (WA2 : wf_ta A2'').
    { apply (same_graph_wf _ _ SG2 W2). intros p Hp. unfold A2'' in Hp. cbn [inits set_inits] in Hp. rewrite EU in Hp. apply (proj1 (in_sort_nat _ _)) in Hp. apply (wf_inits _ W2). exact Hp. }
    assert (K2 : clockSize A2'' <= 255).
    { unfold clockSize. rewrite <- (proj2 SG2). unfold intersectionTA. cbn [maxC]. rewrite app_length. change (maxC A0n) with (maxC A0). rewrite <- (proj2 SS').
      fold (clockSize A0) (clockSize S0). rewrite (A0_clocks al B m A0 H0). unfold S0. rewrite As_clocks. lia. }
    assert (C2 : chars_ok A2'').
    { apply (chars_same _ _ SG2). apply product_chars; auto. apply (chars_same _ _ SS'). apply As_chars. exact CB. }
    assert (SGold : same_graph (set_inits (intersectionTA A1 S1 (a_2 al)) l) A2'').
    { eapply same_graph_trans; [apply same_graph_sym; apply set_inits_same|]. eapply same_graph_trans; [|exact SG2].
      apply product_same_graph; (eapply same_graph_trans; [apply same_graph_sym|]); eauto. }
    pose proof (Zinv_same _ _ _ SGold ZI) as ZI2.
    split; auto. split; auto. split; auto. split; auto. split.
    - eapply same_graph_trans; [|exact SG2]. apply product_same_graph; auto.
    - exists A0n, S', (sort_nat (inits A2')). split; auto. split; auto. split; auto. split; auto. unfold A2''. rewrite EU. reflexivity.
  Qed.

  Lemma step_safe : forall fuel A2 Z n S', SInv A2 Z -> n <= m -> same_graph S0 S' -> wf_ta S' ->
    let A2' := updateInitAccepting (set_inits A0 [a_ext al n]) S' A2 keys (a_2 al) in
    let A2'' := set_inits A2' (sort_nat (inits A2')) in
    safe (fun Z1 => SInv A2'' (zupdate Z1 A2'' (inits A2'')) /\ exists b, zempty_check (zupdate Z1 A2'' (inits A2'')) = Ok b) (ta2za fuel A2'' Z []).
  Proof.
    intros fuel A2 Z n S' HI Hn SS' WS' A2' A2''.
    destruct (step_facts A2 Z n S' HI Hn SS' WS') as (WA2 & K2 & C2 & ZI2 & _ & ST). fold A2' in WA2, K2, C2, ZI2, ST. fold A2'' in WA2, K2, C2, ZI2, ST.
    assert (ZS : zsafe A2'' Z) by (intros i s G; destruct (proj1 ZI2 i s G) as [(_ & _ & _ & X & _) _]; exact X).
    pose proof (ta2za_safe A2'' WA2 C2 fuel Z [] ZS) as SF.
    destruct (ta2za fuel A2'' Z []) as [Z1| | | |] eqn:ET; cbn in SF |- *; auto.
    destruct (zero_zone_ok A2'') as [ZO _].
    destruct (ta2za_inv A2'' (max_const A2'') WA2 K2 fuel Z [] Z1 eq_refl (proj1 ZI2) (proj2 ZI2) ZO ET) as (I1 & _ & E1 & _).
    split.
    - split; [exact ST|apply zupdate_inv; split; auto].
    - destruct (zempty_check_spec _ (Zinv_wf A2'' Z1 (inits A2'') (conj I1 E1))) as (b & Hb & _). eauto.
  Qed.

  Lemma try_safe : forall fuel S', same_graph S0 S' -> wf_ta S' -> forall ns A2 Z, SInv A2 Z -> (forall n, In n ns -> n <= m) ->
    safe (fun r => SInv (snd (fst r)) (snd r)) (kmp_try fuel al m A0 S' keys ns A2 Z).
  Proof.
    intros fuel S' SS WS'. induction ns as [|n ns IH]; intros A2 Z HI Hn; cbn [kmp_try]; [exact HI|].
    pose proof (step_safe fuel A2 Z n S' HI (Hn n (or_introl eq_refl)) SS WS') as X. cbv zeta in X.
    eapply safe_bind; [exact X|]. intros Z1 (Y & b & Hb). cbv beta in *. rewrite Hb. cbn [bind].
    destruct b; [|exact Y]. apply IH; auto. intros; apply Hn; right; auto.
  Qed.

  Lemma states_safe : forall fuel ps A2 Z beta, SInv A2 Z -> safe (fun _ => True) (kmp_states fuel al m A0 S0 keys ps A2 Z beta).
  Proof.
    intros fuel. induction ps as [|p ps IH]; intros A2 Z beta HI; cbn [kmp_states]; [exact I|].
    assert (SM : same_graph S0 (kmp_mark al S0 p)) by apply mark_same.
    assert (WM : wf_ta (kmp_mark al S0 p)) by (apply (same_graph_wf S0); auto; intros q Hq; apply (wf_inits _ WS); exact Hq).
    eapply safe_bind; [apply (try_safe fuel _ SM WM (seq 1 m) A2 Z HI); intros n Hn; apply in_seq in Hn; lia|].
    intros [[b A2'] Z'] H. cbn [fst snd] in H. apply IH. exact H.
  Qed.

  Lemma kmp_safe_A0 : forall fuel, safe (fun _ => True) (kmp fuel al B m).
  Proof.
    intros fuel. unfold kmp. rewrite H0. cbn [bind]. apply states_safe. split.
    - exists A0, S0, (inits (intersectionTA A0 S0 (a_2 al))). split; [apply same_graph_refl|]. split; [exact W0|].
      split; [apply same_graph_refl|]. split; [exact WS|]. reflexivity.
    - split; intros i st Hs; unfold zget in *; cbn in *; [destruct i; discriminate|]. intros e H. destruct i; discriminate.
  Qed.
End Try.

(* Edges into accepting states stand last in their vectors. *)
Definition accepting_last (B : ta) : Prop := forall p s c es e rest q sq, In (p, s) (states B) -> In (c, es) (next s) ->
  (exists pre, es = pre ++ e :: rest) -> etgt e = Some q -> In (q, sq) (states B) -> isMatch sq = true -> rest = [].

Lemma append_ok : forall C acc es, (forall pre e rest, es = pre ++ e :: rest -> (match etgt e with Some q => match_at C q | None => false end) = true -> rest = []) ->
  exists r, acc_append C acc es = Ok r.
Proof.
  intros C acc. induction es as [|e es IH]; intros H; cbn [acc_append]; [eauto|].
  destruct (match etgt e with Some q => match_at C q | None => false end) eqn:E.
  - rewrite (H [] e es eq_refl E). eauto.
  - destruct IH as (r & Hr).
    + intros pre e' rest Er Em. apply (H (e :: pre) e' rest); auto. cbn. now rewrite Er.
    + rewrite Hr. cbn. eauto.
Qed.

Lemma map_out_ok : forall {X Y} (f : X -> outcome Y) l, (forall x, In x l -> exists y, f x = Ok y) -> exists r, map_out f l = Ok r.
Proof.
  intros X Y f. induction l as [|x l IH]; intros H; cbn [map_out]; [eauto|]. destruct (H x (or_introl eq_refl)) as (y & Hy). rewrite Hy. cbn [bind].
  destruct IH as (r & Hr); [intros; apply H; right; auto|]. rewrite Hr. cbn. eauto.
Qed.

Lemma A0_ok : forall al B m, wf_ta B -> alloc_ok al B m -> accepting_last B -> exists A0, kmp_A0 al B m = Ok A0.
Proof.
  intros al B m WB AO AL. unfold kmp_A0.
  match goal with |- context [map_out ?f ?l] => destruct (map_out_ok f l) as (r & Hr) end.
  2:{ rewrite Hr. cbn [bind]. eauto. }
  intros [p' s'] Hp. unfold deepCopy in Hp. cbn [states] in Hp. apply in_map_iff in Hp as ([p s] & E & Hp). cbn [fst snd] in E. injection E as <- <-.
  cbn [fst snd].
  match goal with |- context [map_out ?f ?l] => destruct (map_out_ok f l) as (r & Hr) end.
  2:{ rewrite Hr. cbn [bind]. eauto. }
  intros [c es'] Hc. cbn [next copy_state] in Hc. apply in_map_iff in Hc as ([c0 es] & E & Hc). cbn [fst snd] in E. injection E as -> <-. cbn [fst snd].
  destruct (append_ok (deepCopy B (a_0 al)) (a_acc al) (map (copy_edge B (a_0 al)) es)) as (r & Hr).
  2:{ rewrite Hr. cbn [bind]. eauto. }
  intros pre e' rest E M. apply map_eq_app in E as (l1 & l2 & -> & <- & E). apply map_eq_cons in E as (e & l3 & -> & <- & <-).
  cbn [etgt copy_edge] in M. destruct (etgt e) as [q|] eqn:Et; [|discriminate]. unfold old2new in M.
  destruct (mem q (map fst (states B))) eqn:Em; [|discriminate]. apply mem_In in Em.
  rewrite (C0_match al B m WB AO q Em) in M. destruct (in_fst_exists _ _ Em) as (sq & Hq).
  unfold match_at, deref in M. rewrite (In_assoc _ _ sq (wf_nodup _ WB) Hq) in M.
  rewrite (AL p s c _ e l3 q sq Hp Hc (ex_intro _ l1 eq_refl) Et Hq M). reflexivity.
Qed.

Theorem kmp_no_ub : forall fuel al B m, wf_ta B -> alloc_ok al B m -> 2 * clockSize B <= 255 -> chars_ok B -> accepting_last B ->
  (exists beta, kmp fuel al B m = Ok beta) \/ kmp fuel al B m = OutOfFuel.
Proof.
  intros fuel al B m WB AO K C AL. destruct (A0_ok al B m WB AO AL) as (A0 & H0).
  pose proof (kmp_safe_A0 al B m A0 WB AO K C H0 fuel) as S. destruct (kmp fuel al B m); cbn in S; try contradiction; eauto.
Qed.
