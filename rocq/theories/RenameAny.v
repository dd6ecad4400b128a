(* Renaming with whatever is left in the static map. *)
From Coq Require Import QArith Bool List ZArith Arith Lia.
From Verif Require Import Num Outcome Constraint Zone TA Spec TAFacts WfDec Tre TreFacts TreBuild Signal SignalFacts PropRename IntersectionFacts SkipFacts Rename.
Import ListNotations.
Open Scope nat_scope.

Lemma key_push_keys : forall k xs nx, ~ In k (map fst nx) -> map fst (key_push k xs nx) = map fst nx ++ [k].
Proof.
  intros k xs. induction nx as [|[c es] nx IH]; intros N; auto. cbn [key_push]. destruct (Nat.eqb_spec k c) as [->|E]; [destruct N; left; auto|].
  cbn. rewrite IH; auto. intros X. apply N. right. auto.
Qed.

Section Any.
  Variables (al : nat -> ptr) (A : ta) (n : nat).
  Hypothesis Inj : injective al.
  Hypothesis Fresh : forall k, n <= k -> ~ In (al k) (map fst (states A)).
  Hypothesis W : wf_ta A.

  Definition there (st : rstate) (q : ptr) : Prop := In q (map fst (states A)) \/ In q (map snd (r_acc st)).
  (* The fresh states are the ones with the numbers from n to r_n. *)
  Definition sane (st : rstate) : Prop := n <= r_n st /\ map snd (r_acc st) = map al (seq n (r_n st - n)).
  Definition more (st st' : rstate) : Prop := exists l, r_acc st' = r_acc st ++ l.
  (* No longer accepting, or never so. *)
  Definition dead (st : rstate) (q : ptr) : Prop := In q (map fst (r_acc st)) \/ (In q (map fst (states A)) /\ match_at A q = false).

  Lemma more_refl : forall st, more st st. Proof. intros st. exists []. rewrite app_nil_r. auto. Qed.
  Lemma more_trans : forall a b c, more a b -> more b c -> more a c.
  Proof. intros a b c (l & E) (k & F). exists (l ++ k). rewrite F, E, app_assoc. auto. Qed.
  Lemma there_more : forall a b q, more a b -> there a q -> there b q.
  Proof. intros a b q (l & E) [H|H]; [left; auto|right]. rewrite E, map_app, in_app_iff. auto. Qed.
  Lemma dead_more : forall a b q, more a b -> dead a q -> dead b q.
  Proof. intros a b q (l & E) [H|H]; [left; rewrite E, map_app, in_app_iff; auto|right; auto]. Qed.

  Lemma find_acc_in : forall q l p, find_acc q l = Some p -> In (q, p) l.
  Proof.
    intros q. induction l as [|[k x] l IH]; intros p E; cbn in E; [discriminate|]. destruct (Nat.eqb_spec k q) as [->|N]; [injection E as ->; left; auto|right; auto].
  Qed.

  (* What is known of the transitions that stay and of those that are pushed to next[0]. *)
  Definition fine (st' : rstate) (es stay eps : list edge) : Prop :=
    (forall e, In e stay \/ In e eps -> exists q, etgt e = Some q /\ there st' q /\ exists e0, In e0 es /\ eguard e = eguard e0 /\ eresets e = eresets e0) /\
    (forall e q, In e eps -> etgt e = Some q -> dead st' q).

  Lemma fine_more : forall a b es x y, more a b -> fine a es x y -> fine b es x y.
  Proof.
    intros a b es x y M (F1 & F2). split.
    - intros e H. destruct (F1 e H) as (q & E & T & G). exists q. split; auto. split; auto. eapply there_more; eauto.
    - intros e q H E. eapply dead_more; eauto.
  Qed.

  Lemma rn_edge_any : forall fuel st c e stay eps st', sane st -> (forall q, etgt e = Some q -> there st q) ->
    rn_edge fuel al A st c e = Ok (stay, eps, st') -> sane st' /\ more st st' /\ fine st' [e] stay eps.
  Proof.
    induction fuel as [|f IH]; intros st c e stay eps st' S T E; [discriminate|]. cbn [rn_edge] in E. destruct (etgt e) as [q|] eqn:Eq.
    2:{ injection E as <- <- <-. split; auto. split; [apply more_refl|]. split; [intros x [[]|[]]|intros x q []]. }
    specialize (T q eq_refl). destruct (have_to_change A st q c) as [b st1] eqn:HC.
    assert (ST : r_acc st1 = r_acc st /\ r_n st1 = r_n st).
    { unfold have_to_change in HC. destruct (c =? 0); [injection HC as _ <-; auto|]. destruct (has_key A q c); injection HC as _ <-; auto. }
    destruct ST as (SA & SN). assert (S1 : sane st1) by (unfold sane; rewrite SA, SN; exact S). assert (M1 : more st st1) by (exists []; rewrite app_nil_r; auto).
    assert (T1 : there st1 q) by (eapply there_more; eauto).
    destruct b.
    - destruct (match_now A st1 q) eqn:MN.
      + destruct (to_accepting al st1 q) as [q' st2] eqn:TA. destruct (rn_edge f al A st2 c _) as [r| | | |] eqn:R; cbn [bind] in E; try discriminate.
        assert (K : sane st2 /\ more st1 st2 /\ there st2 q' /\ In q (map fst (r_acc st2))).
        { unfold to_accepting in TA. destruct (find_acc q (r_acc st1)) as [p|] eqn:FA.
          - injection TA as <- <-. apply find_acc_in in FA. split; auto. split; [apply more_refl|]. split; [right; apply (in_map snd _ _ FA)|apply (in_map fst _ _ FA)].
          - injection TA as <- <-. destruct S1 as (L & E1). cbn [r_n r_acc]. split.
            + split; cbn [r_n r_acc]; [lia|]. rewrite map_app, E1. replace (Datatypes.S (r_n st1) - n) with (Datatypes.S (r_n st1 - n)) by lia.
              rewrite seq_S, map_app. cbn [map snd]. do 3 f_equal. lia.
            + split; [exists [(q, al (r_n st1))]; auto|]. split; [right|]; cbn [r_acc]; rewrite map_app, in_app_iff; right; left; auto. }
        destruct K as (S2 & M2 & T2 & G2). destruct r as [[stay' eps'] st3]. cbn [fst snd] in E. injection E as <- <- <-.
        assert (T3 : forall x, Some q' = Some x -> there st2 x) by (intros x Ex; injection Ex as <-; exact T2).
        destruct (IH st2 c (mkE (Some q') (eresets e) (eguard e)) stay' eps' st3 S2 T3 R) as (S3 & M3 & (F1 & F2)).
        assert (MA : more st1 st3) by (eapply more_trans; eauto). split; auto. split; [eapply more_trans; eauto|]. split.
        * intros x [Hx|[<-|Hx]].
          -- destruct (F1 x (or_introl Hx)) as (y & E1 & E2 & e0 & [<-|[]] & E3 & E4). exists y. split; auto. split; auto. exists e. split; [left; auto|auto].
          -- exists q. split; auto. split; [eapply there_more; [exact MA|exact T1]|]. exists e. split; [left; auto|auto].
          -- destruct (F1 x (or_intror Hx)) as (y & E1 & E2 & e0 & [<-|[]] & E3 & E4). exists y. split; auto. split; auto. exists e. split; [left; auto|auto].
        * intros x y [<-|Hx] Ey; [|eapply F2; eauto]. assert (y = q) as -> by congruence. eapply dead_more; [exact M3|]. left. exact G2.
      + injection E as <- <- <-. split; auto. split; auto. split.
        * intros x [[]|[<-|[]]]. exists q. split; auto. split; auto. exists e. split; [left; auto|auto].
        * intros x y [<-|[]] Ey. assert (y = q) as -> by congruence. unfold match_now in MN. apply orb_false_iff in MN as (MN1 & MN2). right. split; auto.
          destruct T1 as [T1|T1]; auto. exfalso. apply in_map_iff in T1 as (x & Ex & Hx). apply not_true_iff_false in MN2. apply MN2. apply existsb_exists. exists x. split; auto. apply Nat.eqb_eq. auto.
    - injection E as <- <- <-. split; auto. split; auto. split; [|intros x y []].
      intros x [[<-|[]]|[]]. exists q. split; auto. split; auto. exists e. split; [left; auto|auto].
  Qed.

  Lemma rn_edges_any : forall fuel c es st stay eps st', sane st -> (forall e q, In e es -> etgt e = Some q -> there st q) ->
    rn_edges fuel al A st c es = Ok (stay, eps, st') -> sane st' /\ more st st' /\ fine st' es stay eps.
  Proof.
    intros fuel c. induction es as [|e es IH]; intros st stay eps st' S T E; cbn [rn_edges] in E.
    - injection E as <- <- <-. split; auto. split; [apply more_refl|]. split; [intros x [[]|[]]|intros x q []].
    - destruct (rn_edge fuel al A st c e) as [[[s1 p1] st1]| | | |] eqn:E1; cbn [bind fst snd] in E; try discriminate.
      destruct (rn_edges fuel al A st1 c es) as [[[s2 p2] st2]| | | |] eqn:E2; cbn [bind fst snd] in E; try discriminate. injection E as <- <- <-.
      destruct (rn_edge_any _ _ _ _ _ _ _ S (fun q H => T e q (or_introl eq_refl) H) E1) as (S1 & M1 & F1).
      destruct (IH st1 s2 p2 st2 S1) as (S2 & M2 & F2); [intros x q Hx Ex; eapply there_more; [exact M1|]; eapply T; [right; exact Hx|exact Ex]|exact E2|].
      split; auto. split; [eapply more_trans; eauto|]. apply (fine_more _ _ _ _ _ M2) in F1. destruct F1 as (A1 & B1), F2 as (A2 & B2). split.
      + intros x Hx. assert (K : (In x s1 \/ In x p1) \/ (In x s2 \/ In x p2)) by (rewrite !in_app_iff in Hx; tauto).
        destruct K as [K|K]; [destruct (A1 x K) as (q & Q1 & Q2 & e0 & [<-|[]] & Q3)|destruct (A2 x K) as (q & Q1 & Q2 & e0 & Q4 & Q3)]; exists q; (split; [auto|]); (split; [auto|]).
        * exists e. split; [left; auto|auto].
        * exists e0. split; [right; auto|auto].
      + intros x q Hx Ex. apply in_app_or in Hx as [Hx|Hx]; eauto.
  Qed.

  Definition edges_of (nx : list (nat * list edge)) : list edge := concat (map snd nx).

  Lemma rn_keys_any : forall fuel nx st out eps st', sane st -> (forall e q, In e (edges_of nx) -> etgt e = Some q -> there st q) ->
    rn_keys fuel al A st nx = Ok (out, eps, st') -> sane st' /\ more st st' /\ map fst out = map fst nx /\ fine st' (edges_of nx) (edges_of out) eps.
  Proof.
    intros fuel. induction nx as [|[c es] nx IH]; intros st out eps st' S T E; cbn [rn_keys] in E.
    - injection E as <- <- <-. split; auto. split; [apply more_refl|]. split; auto. split; [intros x [[]|[]]|intros x q []].
    - destruct (rn_edges fuel al A st c es) as [[[s1 p1] st1]| | | |] eqn:E1; cbn [bind fst snd] in E; try discriminate.
      destruct (rn_keys fuel al A st1 nx) as [[[s2 p2] st2]| | | |] eqn:E2; cbn [bind fst snd] in E; try discriminate. injection E as <- <- <-.
      unfold edges_of in *. cbn [map snd concat] in *.
      destruct (rn_edges_any _ _ _ _ _ _ _ S (fun e q H1 H2 => T e q (in_or_app _ _ _ (or_introl H1)) H2) E1) as (S1 & M1 & F1).
      destruct (IH st1 s2 p2 st2 S1) as (S2 & M2 & K2 & F2); [intros x q Hx Ex; eapply there_more; [exact M1|]; eapply T; [apply in_or_app; right; exact Hx|exact Ex]|exact E2|].
      split; auto. split; [eapply more_trans; eauto|]. split; [cbn; f_equal; auto|]. apply (fine_more _ _ _ _ _ M2) in F1. destruct F1 as (A1 & B1), F2 as (A2 & B2). split.
      + intros x Hx. assert (K : (In x s1 \/ In x p1) \/ (In x (concat (map snd s2)) \/ In x p2)) by (rewrite !in_app_iff in Hx; tauto).
        destruct K as [K|K]; [destruct (A1 x K) as (q & Q1 & Q2 & e0 & Q4 & Q3)|destruct (A2 x K) as (q & Q1 & Q2 & e0 & Q4 & Q3)]; exists q; (split; [auto|]); (split; [auto|]).
        * exists e0. split; [apply in_or_app; auto|auto].
        * exists e0. split; [apply in_or_app; auto|auto].
      + intros x q Hx Ex. apply in_app_or in Hx as [Hx|Hx]; eauto.
  Qed.

  Lemma edges_of_in : forall nx e, In e (edges_of nx) <-> exists c es, In (c, es) nx /\ In e es.
  Proof.
    intros nx e. unfold edges_of. rewrite in_concat. split.
    - intros (es & H & He). apply in_map_iff in H as ([c es'] & <- & H). exists c, es'. auto.
    - intros (c & es & H & He). exists es. split; auto. apply (in_map snd _ _ H).
  Qed.

  (* A state of the result and the state it comes from. *)
  Definition comes (st' : rstate) (ps ps' : ptr * tastate) : Prop :=
    fst ps' = fst ps /\ isMatch (snd ps') = isMatch (snd ps) /\
    exists out eps, fine st' (edges_of (next (snd ps))) (edges_of out) eps /\ map fst out = map fst (next (snd ps)) /\
      next (snd ps') = match eps with [] => out | _ => key_push 0 eps out end.

  Lemma rn_states_any : forall fuel l st l' st', sane st -> incl l (states A) ->
    rn_states fuel al A st l = Ok (l', st') -> sane st' /\ more st st' /\ Forall2 (comes st') l l'.
  Proof.
    intros fuel. induction l as [|[p s] l IH]; intros st l' st' S I E; cbn [rn_states] in E.
    - injection E as <- <-. split; auto. split; [apply more_refl|constructor].
    - destruct (rn_keys fuel al A st (next s)) as [[[out eps] st1]| | | |] eqn:E1; cbn [bind fst snd] in E; try discriminate.
      destruct (rn_states fuel al A st1 l) as [[l2 st2]| | | |] eqn:E2; cbn [bind fst snd] in E; try discriminate. injection E as <- <-.
      destruct (rn_keys_any fuel (next s) st out eps st1 S) as (S1 & M1 & K1 & F1); [|exact E1|].
      { intros e q H Eq. apply edges_of_in in H as (c & es & H1 & H2). left. destruct (wf_edges _ W p s c es e (I _ (or_introl eq_refl)) H1 H2) as (H & _). auto. }
      destruct (IH st1 l2 st2 S1) as (S2 & M2 & F2); [intros x Hx; apply I; right; auto|exact E2|].
      split; auto. split; [eapply more_trans; eauto|]. constructor; auto. split; [reflexivity|]. split; [reflexivity|]. exists out, eps. split; [exact (fine_more _ _ _ _ _ M2 F1)|]. split; [exact K1|destruct eps; reflexivity].
  Qed.

End Any.

(* Whatever an earlier call has left in the map: no transition of the result
   leads to a state that does not exist, and no unobservable transition leads
   into an accepting state. *)
Theorem C75_any_map : forall fuel al out A n B m out', injective al -> (forall k, n <= k -> ~ In (al k) (map fst (states A))) -> wf_ta A ->
  (forall p s, In (p, s) (states A) -> ~ In 0 (map fst (next s))) ->
  renameStatic fuel al out A n = Ok (B, m, out') ->
  wf_ta B /\ (forall p e q, is_edge B p 0 e -> etgt e = Some q -> ~ accepting B q) /\ clockSize B = clockSize A.
Proof.
  intros fuel al out A n B m out' Inj Fr W NZ E. unfold renameStatic in E.
  destruct (rn_states fuel al A (mkR out [] n) (states A)) as [[l st]| | | |] eqn:R; cbn [bind fst snd] in E; try discriminate. injection E as <- _ _.
  destruct (rn_states_any al A n Inj W fuel (states A) (mkR out [] n) l st) as (S & _ & F2); auto.
  { split; cbn; [lia|]. rewrite Nat.sub_diag. reflexivity. }
  { apply incl_refl. }
  set (gone := map fst (r_acc st)). set (adj := fun ps : ptr * tastate => (fst ps, if mem (fst ps) gone then mkS false (zeroDur (snd ps)) (next (snd ps)) else snd ps)).
  set (frs := fun x : ptr * ptr => (snd x, mkS (negb (mem (snd x) gone)) false [])).
  set (B := mkTA _ _ _).
  assert (FL : map fst l = map fst (states A)).
  { clear - F2. induction F2 as [|a b la lb (C & _) F IH]; auto. cbn. congruence. }
  assert (ST : map fst (states B) = map fst (states A) ++ map snd (r_acc st)).
  { unfold B. cbn [states]. rewrite map_app, !map_map. f_equal. rewrite <- FL. apply map_ext. auto. }
  assert (CL : clockSize B = clockSize A) by reflexivity.
  assert (NX : forall p s, In (p, s) (states B) -> (exists s0 s1, In (p, s0) (states A) /\ In (p, s1) l /\ comes A st (p, s0) (p, s1) /\ next s = next s1 /\ (isMatch s = true -> isMatch s0 = true /\ ~ In p gone)) \/
             (In p (map snd (r_acc st)) /\ next s = [] /\ (isMatch s = true -> ~ In p gone))).
  { intros p s H. unfold B in H. cbn [states] in H. apply in_app_or in H as [H|H].
    - left. apply in_map_iff in H as ([p1 s1] & E & H). unfold adj in E. cbn [fst snd] in E. injection E as -> <-.
      assert (X : exists s0, In (p, s0) (states A) /\ comes A st (p, s0) (p, s1)).
      { clear - F2 H. induction F2 as [|[a x] b la lb C F IH]; [destruct H|]. destruct H as [->|H]; [|destruct (IH H) as (s0 & H0 & C0); exists s0; split; [right; auto|auto]].
        destruct C as (C1 & C2). cbn in C1. subst a. exists x. split; [left; auto|split; auto]. }
      destruct X as (s0 & H0 & C0). exists s0, s1. split; auto. split; auto. split; auto. destruct C0 as (_ & C2 & _). cbn [snd] in C2.
      destruct (mem p gone) eqn:G; cbn [next isMatch]; split; auto; intros M; [discriminate|]. split; [congruence|]. intros X. rewrite <- mem_In in X. congruence.
    - right. apply in_map_iff in H as ([k q] & E & H). unfold frs in E. cbn [fst snd] in E. injection E as -> <-. split; [apply (in_map snd _ _ H)|]. split; auto.
      cbn [isMatch]. intros M X. rewrite <- mem_In in X. rewrite X in M. discriminate. }
  assert (ED : forall p s c es e, In (p, s) (states B) -> In (c, es) (next s) -> In e es ->
     exists s0 out0 eps, In (p, s0) (states A) /\ fine A st (edges_of (next s0)) (edges_of out0) eps /\ map fst out0 = map fst (next s0) /\
       ((In (c, es) out0 /\ c <> 0) \/ (c = 0 /\ In e eps))).
  { intros p s c es e H Hc He. destruct (NX p s H) as [(s0 & s1 & H0 & H1 & (_ & _ & out0 & eps & F & K & E) & EN & _)|(_ & EN & _)]; rewrite EN in Hc; [|destruct Hc].
    cbn [fst snd] in *. exists s0, out0, eps. split; auto. split; auto. split; auto. rewrite E in Hc.
    assert (NK : forall c es, In (c, es) out0 -> c <> 0). { intros c1 es1 H2 ->. apply (NZ p s0 H0). rewrite <- K. apply (in_map fst _ _ H2). }
    destruct eps as [|x eps]; [left; split; eauto|].
    assert (KP : forall k xs nx c es, In (c, es) (key_push k xs nx) -> ~ In k (map fst nx) -> In (c, es) nx \/ (c = k /\ es = xs)).
    { clear. intros k xs. induction nx as [|[a b] nx IH]; intros c es H N; cbn [key_push] in H.
      - destruct H as [H|[]]. injection H as <- <-. auto.
      - destruct (Nat.eqb_spec k a) as [->|NE]; [destruct N; left; auto|]. destruct H as [H|H]; [left; left; auto|].
        destruct (IH c es H) as [X|X]; [intros Y; apply N; right; auto|left; right; auto|right; auto]. }
    destruct (KP 0 (x :: eps) out0 c es Hc) as [X|[-> ->]]; [rewrite K; exact (NZ p s0 H0)|left; split; eauto|right; auto]. }
  split; [|split; [|exact CL]].
  - constructor.
    + rewrite ST. apply NoDup_app.
      * apply (wf_nodup _ W).
      * destruct S as (_ & ->). apply FinFun.Injective_map_NoDup; [intros i j; apply Inj|apply seq_NoDup].
      * intros q H1 H2. destruct S as (_ & S). rewrite S in H2. apply in_map_iff in H2 as (k & <- & Hk). apply in_seq in Hk. exact (Fr k (proj1 Hk) H1).
    + intros p s H. destruct (NX p s H) as [(s0 & s1 & H0 & H1 & (_ & _ & out0 & eps & F & K & E) & EN & _)|(_ & EN & _)]; rewrite EN; [|constructor].
      cbn [fst snd] in *. rewrite E. pose proof (wf_keys _ W p s0 H0) as ND. destruct eps as [|x eps]; [rewrite K; auto|].
      rewrite key_push_keys by (rewrite K; exact (NZ p s0 H0)). rewrite K. apply NoDup_app; auto; [constructor; [intros []|constructor]|].
      intros q H2 [<-|[]]. exact (NZ p s0 H0 H2).
    + intros p s c es e H Hc He. destruct (ED p s c es e H Hc He) as (s0 & out0 & eps & H0 & (F1 & F3) & K & C).
      destruct (F1 e) as (q & Eq & T & e0 & H2 & EG & ER).
      { destruct C as [(C & _)|(_ & C)]; [left; apply edges_of_in; eauto|right; auto]. }
      apply edges_of_in in H2 as (c0 & es0 & H3 & H4). destruct (wf_edges _ W p s0 c0 es0 e0 H0 H3 H4) as (_ & W2 & W3).
      unfold wf_edge. rewrite EG, ER, CL. split; [|split; auto]. intros t Et. assert (t = q) as -> by congruence. rewrite ST. apply in_or_app. exact T.
    + intros p H. rewrite ST. apply in_or_app. left. apply (wf_inits _ W). exact H.
  - intros p e q (s & es & H & Hc & He) Eq (sq & Hq & M). destruct (ED p s 0 es e H Hc He) as (s0 & out0 & eps & H0 & (F1 & F3) & K & [(_ & C)|(_ & C)]); [congruence|].
    specialize (F3 e q C Eq). destruct (NX q sq Hq) as [(t0 & t1 & G0 & _ & _ & _ & G)|(G0 & _ & G)]; specialize (G M).
    + destruct F3 as [F3|(_ & F3)]; [destruct G; contradiction|]. unfold match_at, deref in F3. rewrite (In_assoc _ _ _ (wf_nodup _ W) G0) in F3. destruct G. congruence.
    + destruct F3 as [F3|(F3 & _)]; [contradiction|]. destruct S as (_ & S). rewrite S in G0. apply in_map_iff in G0 as (k & <- & Hk). apply in_seq in Hk. exact (Fr k (proj1 Hk) F3).
Qed.

(* The map says that the accepting state and the state that takes its place read
   the letter next: the state after that one accepts. *)
Definition exOut : omap := fun q => if q <=? 2 then 97 else 0.
Definition exOne : ta := mkTA [(0, mkS false false [(97, [mkE (Some 1) [] []])]); (1, mkS true false [])] [0] [].
Example C75_any_case : injective (fun k => k) /\ (forall k, 2 <= k -> ~ In k (map fst (states exOne))) /\ wf_ta exOne /\
  (forall p s, In (p, s) (states exOne) -> ~ In 0 (map fst (next s))) /\
  exists B out', renameStatic 5 (fun k => k) exOut exOne 2 = Ok (B, 4, out') /\
    is_edge B 0 0 (mkE (Some 1) [] []) /\ is_edge B 0 0 (mkE (Some 2) [] []) /\ is_edge B 0 97 (mkE (Some 3) [] []) /\ accepting B 3.
Proof.
  split; [intros i j E; exact E|]. split; [intros k L [X|[X|[]]]; cbn in X; lia|]. split; [apply wf_tab_ok; reflexivity|].
  split; [intros p s [E|[E|[]]] X; injection E as <- <-; cbn in X; [destruct X as [X|[]]; discriminate|destruct X]|].
  do 2 eexists. split; [vm_compute; reflexivity|].
  split; [do 2 eexists; split; [left; reflexivity|]; split; [right; left; reflexivity|left; reflexivity]|].
  split; [do 2 eexists; split; [left; reflexivity|]; split; [right; left; reflexivity|right; left; reflexivity]|].
  split; [do 2 eexists; split; [left; reflexivity|]; split; [left; reflexivity|left; reflexivity]|].
  eexists. split; [right; right; right; left; reflexivity|reflexivity].
Qed.
