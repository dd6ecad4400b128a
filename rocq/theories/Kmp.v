(* The automata built by the KMP table and their runs. *)
From Coq Require Import QArith Lqa Bool List ZArith Arith Lia.
From Verif Require Import Num NumFacts Outcome Constraint Zone ZoneFacts TA Spec TAFacts Word ZA ZASpec ZAFacts ZAGraph PropZA
  Intersection IntersectionFacts Monaa MonaaFacts Skip SkipFacts.
Import ListNotations.
Open Scope nat_scope.

(* The addresses are those of different objects. *)
Definition keys0 (al : alloc) (B : ta) (m : nat) : list ptr :=
  map (a_0 al) (map fst (states B)) ++ a_acc al :: a_ext al 0 :: map (a_ext al) (seq 1 m).
Definition keysS (al : alloc) (B : ta) : list ptr :=
  map (a_S al) (map fst (states B)) ++ map (a_dum al) (map fst (states B)).
Record alloc_ok (al : alloc) (B : ta) (m : nat) : Prop := mkAO {
  ao_0 : NoDup (keys0 al B m);
  ao_S : NoDup (keysS al B);
  ao_2 : forall p1 p2 q1 q2, In p1 (keys0 al B m) -> In q1 (keys0 al B m) -> In p2 (keysS al B) -> In q2 (keysS al B) ->
           a_2 al p1 p2 = a_2 al q1 q2 -> p1 = q1 /\ p2 = q2
}.

Lemma map_out_Forall2 : forall {X Y} (f : X -> outcome Y) l r, map_out f l = Ok r -> Forall2 (fun x y => f x = Ok y) l r.
Proof.
  induction l as [|x l IH]; intros r H; cbn [map_out] in H.
  - apply Ok_inj in H. subst r. constructor.
  - apply bind_Ok in H as (y & Hy & H). apply bind_Ok in H as (r' & Hr & H). apply Ok_inj in H. subst r. constructor; auto.
Qed.

Lemma Forall2_in_l : forall {X Y} (R : X -> Y -> Prop) l r x, Forall2 R l r -> In x l -> exists y, In y r /\ R x y.
Proof. intros X Y R l r x F. induction F; intros []; [subst; eexists; split; [left; reflexivity|auto]|]. destruct IHF as (y' & ? & ?); auto. exists y'. split; [right|]; auto. Qed.
Lemma Forall2_in_r : forall {X Y} (R : X -> Y -> Prop) l r y, Forall2 R l r -> In y r -> exists x, In x l /\ R x y.
Proof. intros X Y R l r x F. induction F; intros []; [subst; eexists; split; [left; reflexivity|auto]|]. destruct IHF as (y' & ? & ?); auto. exists y'. split; [right|]; auto. Qed.

Lemma F2_impl : forall {X Y} (R S : X -> Y -> Prop), (forall x y, R x y -> S x y) -> forall l r, Forall2 R l r -> Forall2 S l r.
Proof. intros X Y R S H l r F. induction F; constructor; auto. Qed.

Definition acc_copy (acc : ptr) (e : edge) : edge := mkE (Some acc) (eresets e) (widen (eguard e)).

Lemma acc_append_spec : forall A acc es es', acc_append A acc es = Ok es' ->
  (forall e, In e es -> In e es') /\
  (forall e q, In e es -> etgt e = Some q -> match_at A q = true -> In (acc_copy acc e) es') /\
  (forall e', In e' es' -> In e' es \/ exists e, In e es /\ e' = acc_copy acc e).
Proof.
  induction es as [|e es IH]; intros es' H; cbn [acc_append] in H.
  - apply Ok_inj in H. subst es'. split; [|split]; intros; try contradiction.
  - destruct (match etgt e with Some q => match_at A q | None => false end) eqn:Em.
    + destruct es as [|e2 es]; [|discriminate]. apply Ok_inj in H. subst es'. split; [|split].
      * intros x [<-|[]]. left; auto.
      * intros x q [<-|[]] _ _. right. left. reflexivity.
      * intros x [<-|[<-|[]]]; [left; left; auto|]. right. exists e. split; [left; auto|reflexivity].
    + apply bind_Ok in H as (r & Hr & H). apply Ok_inj in H. subst es'. destruct (IH r Hr) as (I1 & I2 & I3). split; [|split].
      * intros x [<-|Hx]; [left; auto|right; auto].
      * intros x q [<-|Hx] Et Ma; [rewrite Et in Em; congruence|]. right. eapply I2; eauto.
      * intros x [<-|Hx]; [left; left; auto|]. destruct (I3 x Hx) as [Hy|(e0 & He & ->)]; [left; right; auto|].
        right. exists e0. split; [right|]; auto.
Qed.

Lemma NoDup_app_l : forall {X} (l k : list X), NoDup (l ++ k) -> NoDup l.
Proof.
  induction l as [|a l IH]; intros k N; [constructor|]. cbn in N. inversion N; subst. constructor; [|eauto].
  intros H. apply H1. apply in_or_app. auto.
Qed.

Lemma in_letters : forall c, In c letters <-> 1 <= c /\ c < char_max.
Proof. intros c. unfold letters, char_max. rewrite in_seq. lia. Qed.

Lemma letters_nodup : NoDup letters.
Proof. apply seq_NoDup. Qed.

Global Opaque letters.

Section Auto.
  Variables (al : alloc) (B : ta) (m : nat) (A0 : ta).
  Hypothesis WB : wf_ta B.
  Hypothesis AO : alloc_ok al B m.
  Hypothesis KB : clockSize B <= 256.
  Hypothesis ZB : forall p s, In (p, s) (states B) -> zeroDur s = false.
  Hypothesis H0 : kmp_A0 al B m = Ok A0.

  Let inj0 : forall p q, In p (map fst (states B)) -> In q (map fst (states B)) -> a_0 al p = a_0 al q -> p = q.
  Proof.
    intros p q Hp Hq E. pose proof (ao_0 _ _ _ AO) as N. unfold keys0 in N. apply NoDup_app_l in N.
    revert N Hp Hq E. generalize (map fst (states B)). clear. induction l as [|a l IH]; cbn; intros N Hp Hq E; [contradiction|].
    inversion N; subst. destruct Hp as [<-|Hp], Hq as [<-|Hq]; auto; exfalso; apply H1; apply in_map_iff; eauto.
  Qed.
  Let injS : forall p q, In p (map fst (states B)) -> In q (map fst (states B)) -> a_S al p = a_S al q -> p = q.
  Proof.
    intros p q Hp Hq E. pose proof (ao_S _ _ _ AO) as N. unfold keysS in N. apply NoDup_app_l in N.
    revert N Hp Hq E. generalize (map fst (states B)). clear. induction l as [|a l IH]; cbn; intros N Hp Hq E; [contradiction|].
    inversion N; subst. destruct Hp as [<-|Hp], Hq as [<-|Hq]; auto; exfalso; apply H1; apply in_map_iff; eauto.
  Qed.

  (* ---------- A0 ---------- *)

  Let C0 := deepCopy B (a_0 al).

  Lemma A0_struct : exists sts, states A0 = sts ++ (a_acc al, mkS true false (loops (a_acc al))) ::
        (a_ext al 0, mkS false false (ext0_next C0)) :: map (fun i => (a_ext al i, mkS false false (ext_next al B i))) (seq 1 m) /\
     inits A0 = inits C0 /\ maxC A0 = maxC B /\
     Forall2 (fun ps qs => fst qs = fst ps /\ isMatch (snd qs) = isMatch (snd ps) /\ zeroDur (snd qs) = zeroDur (snd ps) /\
        Forall2 (fun a b => fst b = fst a /\ acc_append C0 (a_acc al) (snd a) = Ok (snd b)) (next (snd ps)) (next (snd qs)))
       (states C0) sts.
  Proof.
    unfold kmp_A0 in H0. apply bind_Ok in H0 as (sts & Hs & H). apply Ok_inj in H. exists sts. subst A0. cbn [states inits maxC].
    split; [reflexivity|]. split; [reflexivity|]. split; [reflexivity|].
    apply map_out_Forall2 in Hs. revert Hs. apply F2_impl. intros [p s] [q s'] H.
    apply bind_Ok in H as (nx & Hn & H). apply Ok_inj in H. cbn [fst snd] in *. injection H as <- <-. cbn.
    split; auto. split; auto. split; auto. apply map_out_Forall2 in Hn. revert Hn. apply F2_impl.
    intros [c es] [c' es'] H. apply bind_Ok in H as (r & Hr & H). apply Ok_inj in H. injection H as <- <-. cbn in *. auto.
  Qed.

  Lemma C0_keys : map fst (states C0) = map (a_0 al) (map fst (states B)).
  Proof. unfold C0, deepCopy. cbn [states]. rewrite !map_map. reflexivity. Qed.

  Lemma C0_nodup : NoDup (map fst (states C0)).
  Proof. rewrite C0_keys. pose proof (ao_0 _ _ _ AO) as N. unfold keys0 in N. now apply NoDup_app_l in N. Qed.

  Lemma A0_keys : map fst (states A0) = keys0 al B m.
  Proof.
    destruct A0_struct as (sts & E & _ & _ & F). rewrite E, map_app. unfold keys0. f_equal.
    - rewrite <- C0_keys. symmetry. clear E. induction F as [|a b l k (F1 & _) F IH]; cbn; [auto|]. rewrite F1. f_equal. exact IH.
    - cbn. rewrite map_map. reflexivity.
  Qed.

  Lemma A0_clocks : clockSize A0 = clockSize B.
  Proof. destruct A0_struct as (sts & _ & _ & E & _). unfold clockSize. now rewrite E. Qed.

  Lemma C0_match : forall q, In q (map fst (states B)) -> match_at C0 (a_0 al q) = match_at B q.
  Proof.
    intros q Hq. destruct (in_fst_exists _ _ Hq) as (s & Hs).
    unfold match_at, deref. rewrite (In_assoc _ _ s (wf_nodup _ WB) Hs).
    rewrite (In_assoc (states C0) (a_0 al q) (copy_state B (a_0 al) s)); [reflexivity| |].
    - exact C0_nodup.
    - unfold C0, deepCopy. cbn [states]. apply in_map_iff. exists (q, s). auto.
  Qed.

  Lemma mem_states : forall q, In q (map fst (states B)) -> mem q (map fst (states B)) = true.
  Proof. intros. now apply mem_In. Qed.

  (* the copy of an edge *)
  Lemma copy_tgt : forall f e q, etgt e = Some q -> In q (map fst (states B)) -> copy_edge B f e = mkE (Some (f q)) (eresets e) (eguard e).
  Proof. intros f e q E H. unfold copy_edge. rewrite E. unfold old2new. now rewrite mem_states. Qed.

  Lemma A0_edge_copy : forall p c e q, is_edge B p c e -> etgt e = Some q ->
    is_edge A0 (a_0 al p) c (mkE (Some (a_0 al q)) (eresets e) (eguard e)) /\
    (match_at B q = true -> is_edge A0 (a_0 al p) c (acc_copy (a_acc al) e)).
  Proof.
    intros p c e q He Et. pose proof (wf_is_edge _ _ _ _ WB He) as (WT & _). specialize (WT q Et).
    destruct He as (s & es & I1 & I2 & I3). destruct A0_struct as (sts & E & _ & _ & F).
    assert (IC : In (a_0 al p, copy_state B (a_0 al) s) (states C0)).
    { unfold C0, deepCopy. cbn [states]. apply in_map_iff. exists (p, s). auto. }
    destruct (Forall2_in_l _ _ _ _ F IC) as ([q' s'] & Iq & E1 & _ & _ & F'). cbn [fst snd] in *. subst q'.
    assert (IE : In (c, map (copy_edge B (a_0 al)) es) (next (copy_state B (a_0 al) s))).
    { cbn. apply in_map_iff. exists (c, es). auto. }
    destruct (Forall2_in_l _ _ _ _ F' IE) as ([c' es'] & Ic & E2 & E3). cbn [fst snd] in *. subst c'.
    destruct (acc_append_spec _ _ _ _ E3) as (S1 & S2 & _).
    assert (Ie : In (mkE (Some (a_0 al q)) (eresets e) (eguard e)) (map (copy_edge B (a_0 al)) es)).
    { rewrite <- (copy_tgt (a_0 al) e q Et WT). apply in_map. auto. }
    split.
    - exists s', es'. split; [rewrite E; apply in_or_app; auto|]. split; auto.
    - intros M. exists s', es'. split; [rewrite E; apply in_or_app; auto|]. split; auto.
      apply (S2 _ (a_0 al q) Ie); auto. rewrite C0_match; auto.
  Qed.

  Lemma A0_edge_acc : forall c, 1 <= c -> c < char_max -> is_edge A0 (a_acc al) c (mkE (Some (a_acc al)) [] []).
  Proof.
    intros c C1 C2. destruct A0_struct as (sts & E & _). eexists. eexists. split; [rewrite E; apply in_or_app; right; left; reflexivity|].
    cbn [next]. split; [unfold loops; apply in_map_iff; exists c; split; [reflexivity|apply in_letters; auto]|]. left; auto.
  Qed.

  Lemma A0_edge_ext : forall i c, 1 <= i -> i <= m -> 1 <= c -> c < char_max ->
    is_edge A0 (a_ext al i) c (mkE (Some (a_ext al (i - 1))) (all_clocks B) []).
  Proof.
    intros i c I1 I2 C1 C2. destruct A0_struct as (sts & E & _). eexists. eexists. split.
    - rewrite E. apply in_or_app. right. right. right. apply in_map_iff. exists i. split; [reflexivity|]. apply in_seq. lia.
    - cbn [next]. split; [unfold ext_next; apply in_map_iff; exists c; split; [reflexivity|apply in_letters; auto]|]. left; auto.
  Qed.

  Lemma C0_inits : forall p, In p (inits B) -> In (a_0 al p) (inits C0).
  Proof.
    intros p Hp. unfold C0, deepCopy. cbn [inits]. apply in_flat_map. exists p. split; auto.
    unfold old2new. rewrite mem_states by (apply (wf_inits _ WB); auto). left; auto.
  Qed.

  Lemma C0_inits_inv : forall p, In p (inits C0) -> exists q, In q (inits B) /\ p = a_0 al q /\ In q (map fst (states B)).
  Proof.
    intros p Hp. unfold C0, deepCopy in Hp. cbn [inits] in Hp. apply in_flat_map in Hp as (q & Hq & H).
    unfold old2new in H. destruct (mem q (map fst (states B))) eqn:E; [|contradiction]. destruct H as [<-|[]]. exists q.
    split; auto. split; auto. apply mem_In; auto.
  Qed.

  Lemma C0_deref : forall p s, In (p, s) (states B) -> deref C0 (a_0 al p) = Some (copy_state B (a_0 al) s).
  Proof.
    intros p s Hs. unfold deref. apply In_assoc.
    - exact C0_nodup.
    - unfold C0, deepCopy. cbn [states]. apply in_map_iff. exists (p, s). auto.
  Qed.

  Lemma ext0_has : forall c e, has_edge (ext0_next C0) c e <->
    exists p s ces e0, In p (inits B) /\ In (p, s) (states B) /\ In ces (next s) /\ In e0 (snd ces) /\ c = fst ces /\
      e = widen_edge (copy_edge B (a_0 al) e0).
  Proof.
    intros c e. unfold ext0_next. rewrite has_edge_fold. split.
    - intros [(es & [] & _)|H]. apply in_flat_map in H as (p & Hp & H). apply C0_inits_inv in Hp as (q & Hq & -> & Sq).
      destruct (in_fst_exists _ _ Sq) as (s & Hs). rewrite (C0_deref q s Hs) in H. cbn [next copy_state] in H.
      apply in_flat_map in H as (ces & Hc & H). apply in_map_iff in Hc as (ces0 & <- & Hc). cbn [fst snd] in H.
      apply in_map_iff in H as (e1 & E & H). apply in_map_iff in H as (e0 & <- & He). inversion E; subst.
      exists q, s, ces0, e0. auto 10.
    - intros (p & s & ces & e0 & Hp & Hs & Hc & He & -> & ->). right. apply in_flat_map. exists (a_0 al p). split; [apply C0_inits; auto|].
      rewrite (C0_deref p s Hs). cbn [next copy_state]. apply in_flat_map. exists (fst ces, map (copy_edge B (a_0 al)) (snd ces)). split.
      + apply in_map_iff. exists ces. auto.
      + cbn [fst snd]. apply in_map_iff. exists (copy_edge B (a_0 al) e0). split; auto. apply in_map; auto.
  Qed.

  Lemma A0_edge_ext0 : forall p c e q, In p (inits B) -> is_edge B p c e -> etgt e = Some q ->
    is_edge A0 (a_ext al 0) c (mkE (Some (a_0 al q)) (eresets e) (widen (eguard e))).
  Proof.
    intros p c e q Hp He Et. pose proof (wf_is_edge _ _ _ _ WB He) as (WT & _). specialize (WT q Et).
    destruct He as (s & es & I1 & I2 & I3). destruct A0_struct as (sts & E & _).
    assert (X : has_edge (ext0_next C0) c (mkE (Some (a_0 al q)) (eresets e) (widen (eguard e)))).
    { apply ext0_has. exists p, s, (c, es), e. split; auto. split; auto. split; auto. split; auto. split; auto.
      rewrite (copy_tgt (a_0 al) e q Et WT). reflexivity. }
    destruct X as (es' & X1 & X2). exists (mkS false false (ext0_next C0)), es'.
    split; [rewrite E; apply in_or_app; right; right; left; reflexivity|]. auto.
  Qed.

  Lemma A0_acc_copy : forall q, In q (map fst (states B)) -> match_at B q = true -> accepting A0 (a_0 al q).
  Proof.
    intros q Hq M. destruct (in_fst_exists _ _ Hq) as (s & Hs). destruct A0_struct as (sts & E & _ & _ & F).
    assert (IC : In (a_0 al q, copy_state B (a_0 al) s) (states C0)).
    { unfold C0, deepCopy. cbn [states]. apply in_map_iff. exists (q, s). auto. }
    destruct (Forall2_in_l _ _ _ _ F IC) as ([q' s'] & Iq & E1 & E2 & _). cbn [fst snd] in *. subst q'.
    exists s'. split; [rewrite E; apply in_or_app; auto|]. rewrite E2. cbn.
    unfold match_at, deref in M. rewrite (In_assoc _ _ s (wf_nodup _ WB) Hs) in M. auto.
  Qed.

  Lemma A0_acc_acc : accepting A0 (a_acc al).
  Proof. destruct A0_struct as (sts & E & _). eexists. split; [rewrite E; apply in_or_app; right; left; reflexivity|reflexivity]. Qed.

  (* well-formedness *)
  Lemma in0_copy : forall q, In q (map fst (states B)) -> In (a_0 al q) (keys0 al B m).
  Proof. intros. unfold keys0. apply in_or_app. left. apply in_map; auto. Qed.
  Lemma in0_acc : In (a_acc al) (keys0 al B m).
  Proof. unfold keys0. apply in_or_app. right. left. auto. Qed.
  Lemma in0_ext : forall i, i <= m -> In (a_ext al i) (keys0 al B m).
  Proof.
    intros i Hi. unfold keys0. apply in_or_app. right. right. destruct i; [left; auto|right]. apply in_map, in_seq. lia.
  Qed.

  Lemma all_clocks_in : forall x, In x (all_clocks B) <-> x < clockSize B.
  Proof.
    intros x. unfold all_clocks. rewrite in_map_iff. split.
    - intros (y & <- & Hy). apply in_seq in Hy. rewrite Nat.mod_small; lia.
    - intros Hx. exists x. rewrite Nat.mod_small by lia. split; auto. apply in_seq. lia.
  Qed.

  Lemma widen_incl : forall gs g, In g (widen gs) -> In g gs.
  Proof. intros gs g H. unfold widen in H. apply filter_In in H. tauto. Qed.

  Lemma wf_copy : forall e, wf_edge B e -> forall t, etgt (copy_edge B (a_0 al) e) = Some t -> In t (keys0 al B m).
  Proof.
    intros e (WT & _) t Et. unfold copy_edge in Et. cbn in Et. destruct (etgt e) as [q|] eqn:E; [|discriminate].
    unfold old2new in Et. destruct (mem q (map fst (states B))) eqn:Em; [|discriminate]. injection Et as <-.
    apply in0_copy. apply mem_In; auto.
  Qed.

  Lemma widen_forall : forall (P : constr -> Prop) gs, Forall P gs -> Forall P (widen gs).
  Proof. intros P gs H. rewrite Forall_forall in *. intros g Hg. apply H, widen_incl; auto. Qed.

  Lemma A0_wf : wf_ta A0.
  Proof.
    destruct A0_struct as (sts & E & EI & EM & F). pose proof A0_keys as KK. constructor.
    - rewrite KK. apply (ao_0 _ _ _ AO).
    - intros p s H. rewrite E in H. apply in_app_or in H as [H|[H|[H|H]]].
      + destruct (Forall2_in_r _ _ _ _ F H) as ([p0 s0] & I0 & _ & _ & _ & F'). cbn [snd] in F'.
        assert (EK : map fst (next s) = map fst (next s0)).
        { clear - F'. induction F' as [|a b l k (X & _) F IH]; cbn; congruence. }
        rewrite EK. unfold C0, deepCopy in I0. cbn [states] in I0. apply in_map_iff in I0 as ([p1 s1] & I0 & I1).
        cbn [fst snd] in I0. injection I0 as <- <-. cbn [next copy_state]. rewrite map_map. cbn. apply (wf_keys _ WB _ _ I1).
      + injection H as <- <-. cbn [next]. unfold loops. rewrite map_map. cbn. rewrite map_id. apply letters_nodup.
      + injection H as <- <-. cbn [next]. unfold ext0_next. apply fold_push_keys. constructor.
      + apply in_map_iff in H as (i & H & _). injection H as <- <-. cbn [next]. unfold ext_next. rewrite map_map. cbn. rewrite map_id. apply letters_nodup.
    - intros p s c es e H Hc He. unfold wf_edge. rewrite KK, A0_clocks. rewrite E in H. apply in_app_or in H as [H|[H|[H|H]]].
      + destruct (Forall2_in_r _ _ _ _ F H) as ([p0 s0] & I0 & _ & _ & _ & F'). cbn [snd] in F'.
        unfold C0, deepCopy in I0. cbn [states] in I0. apply in_map_iff in I0 as ([p1 s1] & I0 & I1).
        cbn [fst snd] in I0. injection I0 as <- <-.
        destruct (Forall2_in_r _ _ _ _ F' Hc) as ([c0 es0] & Ic & _ & EA). cbn [fst snd] in EA.
        cbn [next copy_state] in Ic. apply in_map_iff in Ic as ([c1 es1] & Ic & I2). cbn [fst snd] in Ic. injection Ic as <- <-.
        destruct (acc_append_spec _ _ _ _ EA) as (_ & _ & S3).
        destruct (S3 e He) as [Hi|(e' & Hi & ->)]; apply in_map_iff in Hi as (e1 & Ee & He1);
          pose proof (wf_edges _ WB _ _ _ _ _ I1 I2 He1) as W1; subst.
        * split; [apply wf_copy; auto|]. destruct W1 as (_ & W2 & W3). auto.
        * split; [cbn; intros t [= <-]; apply in0_acc|]. destruct W1 as (_ & W2 & W3). split; auto. cbn. apply widen_forall; auto.
      + injection H as <- <-. cbn [next] in Hc. unfold loops in Hc. apply in_map_iff in Hc as (c0 & Hc & _). injection Hc as <- <-.
        destruct He as [<-|[]]. split; [cbn; intros t [= <-]; apply in0_acc|]. split; constructor.
      + injection H as <- <-. cbn [next] in Hc.
        assert (X : has_edge (ext0_next C0) c e) by (exists es; auto).
        apply ext0_has in X as (p1 & s1 & ces & e0 & Hp & Hs & Hcs & He0 & -> & ->). destruct ces as [c1 es1].
        pose proof (wf_edges _ WB _ _ _ _ _ Hs Hcs He0) as W1. split; [apply wf_copy; auto|]. destruct W1 as (_ & W2 & W3).
        split; auto. cbn. apply widen_forall; auto.
      + apply in_map_iff in H as (i & H & Hi). injection H as <- <-. apply in_seq in Hi. cbn [next] in Hc. unfold ext_next in Hc.
        apply in_map_iff in Hc as (c0 & Hc & _). injection Hc as <- <-. destruct He as [<-|[]].
        split; [cbn; intros t [= <-]; apply in0_ext; lia|]. split; [|constructor]. cbn. apply Forall_forall. intros x. apply all_clocks_in.
    - intros p Hp. rewrite EI in Hp. rewrite KK. apply C0_inits_inv in Hp as (q & _ & -> & Hq). apply in0_copy; auto.
  Qed.

  Lemma A0_zero : forall p s, In (p, s) (states A0) -> zeroDur s = false.
  Proof.
    intros p s H. destruct A0_struct as (sts & E & _ & _ & F). rewrite E in H. apply in_app_or in H as [H|[H|[H|H]]].
    - destruct (Forall2_in_r _ _ _ _ F H) as ([p0 s0] & I0 & _ & _ & Ez & _). cbn [snd] in Ez. rewrite Ez.
      unfold C0, deepCopy in I0. cbn [states] in I0. apply in_map_iff in I0 as ([p1 s1] & I0 & I1).
      cbn [fst snd] in I0. injection I0 as <- <-. cbn. eapply ZB; eauto.
    - now injection H as <- <-.
    - now injection H as <- <-.
    - apply in_map_iff in H as (i & H & _). now injection H as <- <-.
  Qed.

  (* ---------- As ---------- *)

  Let S0 := kmp_As al B.

  Lemma As_keys : map fst (states S0) = keysS al B.
  Proof. unfold S0, kmp_As, keysS. cbn [states]. rewrite map_app, !map_map. reflexivity. Qed.

  Lemma As_clocks : clockSize S0 = clockSize B.
  Proof. reflexivity. Qed.

  Lemma As_edge_copy : forall p c e q, is_edge B p c e -> etgt e = Some q ->
    is_edge S0 (a_S al p) c (mkE (Some (a_S al q)) (eresets e) (eguard e)).
  Proof.
    intros p c e q He Et. pose proof (wf_is_edge _ _ _ _ WB He) as (WT & _). specialize (WT q Et).
    destruct He as (s & es & I1 & I2 & I3).
    assert (X : has_edge (push_edge (next (copy_state B (a_S al) s)) 0 (mkE (Some (a_dum al p)) [] [])) c (mkE (Some (a_S al q)) (eresets e) (eguard e))).
    { apply has_edge_push. left. exists (map (copy_edge B (a_S al)) es). split.
      - cbn. apply in_map_iff. exists (c, es). auto.
      - rewrite <- (copy_tgt (a_S al) e q Et WT). apply in_map. auto. }
    destruct X as (es' & X1 & X2). eexists. exists es'. split; [|split; [|exact X2]].
    - unfold S0, kmp_As. cbn [states]. apply in_or_app. left. apply in_map_iff. exists (p, s). split; [reflexivity|auto].
    - exact X1.
  Qed.

  Lemma As_edge_eps : forall p, In p (map fst (states B)) -> is_edge S0 (a_S al p) 0 (mkE (Some (a_dum al p)) [] []).
  Proof.
    intros p Hp. destruct (in_fst_exists _ _ Hp) as (s & Hs).
    assert (X : has_edge (push_edge (next (copy_state B (a_S al) s)) 0 (mkE (Some (a_dum al p)) [] [])) 0 (mkE (Some (a_dum al p)) [] [])).
    { apply has_edge_push. right. auto. }
    destruct X as (es' & X1 & X2). eexists. exists es'. split; [|split; [|exact X2]].
    - unfold S0, kmp_As. cbn [states]. apply in_or_app. left. apply in_map_iff. exists (p, s). split; [reflexivity|auto].
    - exact X1.
  Qed.

  Lemma As_edge_dum : forall p c, In p (map fst (states B)) -> 1 <= c -> c < char_max ->
    is_edge S0 (a_dum al p) c (mkE (Some (a_dum al p)) [] []).
  Proof.
    intros p c Hp C1 C2. destruct (in_fst_exists _ _ Hp) as (s & Hs). eexists. eexists. split; [|split].
    - unfold S0, kmp_As. cbn [states]. apply in_or_app. right. apply in_map_iff. exists (p, s). split; [reflexivity|auto].
    - cbn [next]. unfold loops. apply in_map_iff. exists c. split; [reflexivity|apply in_letters; auto].
    - left; auto.
  Qed.

  Lemma inS_copy : forall q, In q (map fst (states B)) -> In (a_S al q) (keysS al B).
  Proof. intros. unfold keysS. apply in_or_app. left. apply in_map; auto. Qed.
  Lemma inS_dum : forall q, In q (map fst (states B)) -> In (a_dum al q) (keysS al B).
  Proof. intros. unfold keysS. apply in_or_app. right. apply in_map; auto. Qed.

  Lemma As_wf : wf_ta S0.
  Proof.
    pose proof As_keys as KK. constructor.
    - rewrite KK. apply (ao_S _ _ _ AO).
    - intros p s H. unfold S0, kmp_As in H. cbn [states] in H. apply in_app_or in H as [H|H]; apply in_map_iff in H as ([p0 s0] & H & I0);
        cbn [fst snd] in H; injection H as <- <-.
      + cbn [next]. apply push_edge_keys. cbn. rewrite map_map. cbn. apply (wf_keys _ WB _ _ I0).
      + cbn [next]. unfold loops. rewrite map_map. cbn. rewrite map_id. apply letters_nodup.
    - intros p s c es e H Hc He. unfold wf_edge. rewrite KK, As_clocks. unfold S0, kmp_As in H. cbn [states] in H.
      apply in_app_or in H as [H|H]; apply in_map_iff in H as ([p0 s0] & H & I0); cbn [fst snd] in H; injection H as <- <-.
      + cbn [next] in Hc.
        assert (X : has_edge (push_edge (next (copy_state B (a_S al) s0)) 0 (mkE (Some (a_dum al p0)) [] [])) c e) by (exists es; auto).
        apply has_edge_push in X as [(es0 & X1 & X2)|[-> ->]].
        * cbn in X1. apply in_map_iff in X1 as ([c1 es1] & X1 & I1). cbn [fst snd] in X1. injection X1 as <- <-.
          apply in_map_iff in X2 as (e1 & <- & He1). pose proof (wf_edges _ WB _ _ _ _ _ I0 I1 He1) as (W1 & W2 & W3).
          split; [|split; auto]. intros t Et. unfold copy_edge in Et. cbn in Et. destruct (etgt e1) as [q|] eqn:E; [|discriminate].
          unfold old2new in Et. destruct (mem q (map fst (states B))) eqn:Em; [|discriminate]. injection Et as <-. apply inS_copy, mem_In; auto.
        * split; [cbn; intros t [= <-]; apply inS_dum; apply in_map_iff; exists (p0, s0); auto|]. split; constructor.
      + cbn [next] in Hc. unfold loops in Hc. apply in_map_iff in Hc as (c0 & Hc & _). injection Hc as <- <-. destruct He as [<-|[]].
        split; [cbn; intros t [= <-]; apply inS_dum; apply in_map_iff; exists (p0, s0); auto|]. split; constructor.
    - intros p Hp. rewrite KK. unfold S0, kmp_As in Hp. cbn [inits] in Hp. cbn in Hp. apply in_flat_map in Hp as (q & _ & H).
      unfold old2new in H. destruct (mem q (map fst (states B))) eqn:E; [|contradiction]. destruct H as [<-|[]]. apply inS_copy, mem_In; auto.
  Qed.

  Lemma As_zero : forall p s, In (p, s) (states S0) -> zeroDur s = false.
  Proof.
    intros p s H. unfold S0, kmp_As in H. cbn [states] in H. apply in_app_or in H as [H|H]; apply in_map_iff in H as ([p0 s0] & H & I0);
        cbn [fst snd] in H; injection H as <- <-; auto. cbn. eapply ZB; eauto.
  Qed.

  Lemma As_inits : forall p, In p (inits B) -> In (a_S al p) (inits S0).
  Proof.
    intros p Hp. unfold S0, kmp_As. cbn [inits]. cbn. apply in_flat_map. exists p. split; auto.
    unfold old2new. rewrite mem_states by (apply (wf_inits _ WB); auto). left; auto.
  Qed.
End Auto.
