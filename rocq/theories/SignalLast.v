(* Signal mode: the automata that are made of the disjuncts have no cycles, and
   a transition into an accepting state is alone in its vector if the last
   letter of every disjunct has one interval of durations. *)
From Coq Require Import QArith Bool List ZArith Arith Lia.
From Verif Require Import Num NumFacts Outcome Interval IntervalFacts Constraint Zone TA Spec TAFacts Tre TreRun TreFacts TreBuild TreMild ZATerm ZAFin KmpUB
  Signal SignalFacts SignalTerm SignalSpec SignalRep SignalBuild SignalTop SignalDur SignalWords SignalAut.
Import ListNotations.
Open Scope nat_scope.

Definition rising (al : nat -> ptr) (m : nat) (A : ta) : Prop := forall p c e q, is_edge A p c e -> etgt e = Some q ->
  exists i j, p = al i /\ q = al j /\ i < j < m.
Definition lettered (L : nat -> Prop) (A : ta) : Prop := forall p c e, is_edge A p c e -> L c.
Definition lonely (A : ta) : Prop := forall p s c es e q, In (p, s) (states A) -> In (c, es) (next s) -> In e es -> etgt e = Some q -> accepting A q -> es = [e].

Lemma oseq_len : forall {X Y} (f : X -> outcome Y) l r, oseq f l = Ok r -> length r = length l.
Proof.
  intros X Y f. induction l as [|x l IH]; intros r E; cbn in E; [injection E as <-; auto|]. destruct (f x); cbn in E; try discriminate.
  destruct (oseq f l) as [t| | | |]; cbn in E; try discriminate. injection E as <-. cbn. rewrite (IH t); auto.
Qed.

Lemma sing_neat : forall al (L : nat -> Prop) c v n A m, singTA al c v n = Ok (A, m) -> L c ->
  rising al m A /\ lettered L A /\ (length v <= 1 -> lonely A) /\ n <= m.
Proof.
  intros al L c v n A m E Lc. unfold singTA in E. destruct v as [|K v].
  { injection E as <- <-. split; [intros p c0 e q (s & es & [] & _)|]. split; [intros p c0 e (s & es & [] & _)|]. split; [intros _ p s c0 es e q []|lia]. }
  destruct (oseq sing_guard (K :: v)) as [gs| | | |] eqn:G; cbn [bind] in E; try discriminate. injection E as <- <-.
  assert (ED : forall p s c' es, In (p, s) (states (mkTA [(al n, mkS false false [(c, map (fun g => mkE (Some (al (S n))) [] g) gs)]); (al (S n), mkS true false [])] [] [])) ->
     In (c', es) (next s) -> p = al n /\ c' = c /\ es = map (fun g => mkE (Some (al (S n))) [] g) gs).
  { intros p s c' es [H|[H|[]]] Hc; injection H as <- <-; cbn in Hc; [|destruct Hc]. destruct Hc as [Hc|[]]. injection Hc as <- <-. auto. }
  split; [|split; [|split; [|lia]]].
  - intros p c' e q (s & es & H & Hc & He) Et. destruct (ED p s c' es H Hc) as (-> & -> & ->). apply in_map_iff in He as (g & <- & _). injection Et as <-.
    exists n, (S n). repeat split; lia.
  - intros p c' e (s & es & H & Hc & He). destruct (ED p s c' es H Hc) as (-> & -> & ->). auto.
  - intros Ln p s c' es e q H Hc He _ _. destruct (ED p s c' es H Hc) as (-> & -> & ->). pose proof (oseq_len _ _ _ G) as LG.
    destruct gs as [|g [|g' gs]]; cbn in LG, Ln, He; [destruct He|destruct He as [<-|[]]; auto|lia].
Qed.

Section Join.
  Variables (al : nat -> ptr) (L : nat -> Prop) (n m m' : nat) (A B : ta).
  Hypothesis Inj : injective al.
  Hypothesis T1 : tinv al n m A.
  Hypothesis T2 : tinv al m m' B.
  Hypothesis Le : m <= m'.
  Hypothesis R1 : rising al m A.
  Hypothesis R2 : rising al m' B.
  Hypothesis L1 : lettered L A.
  Hypothesis L2 : lettered L B.

  Let DJ : forall p, In p (map fst (states A)) -> In p (map fst (states B)) -> False.
  Proof. intros p. eapply ranges_disjoint; eauto. Qed.

  Lemma cat_rising : rising al m' (concat2 A B).
  Proof.
    intros p c e q He Et. apply (cat_edge al n m A B T1) in He as [He|[He|(e1 & q1 & i & He & Et1 & Ac & Hi & ->)]].
    - destruct (R1 _ _ _ _ He Et) as (i & j & E1 & E2 & Lt). exists i, j. repeat split; auto; lia.
    - apply (R2 _ _ _ _ He Et).
    - injection Et as <-. assert (Hp : In p (map fst (states A))) by (destruct He as (s & es & H & _); apply (in_map fst _ _ H)).
      destruct (ti_rng _ _ _ _ T1 p Hp) as (k & Hk & ->). destruct (ti_rng _ _ _ _ T2 i (wf_inits _ (ti_wf _ _ _ _ T2) i Hi)) as (j & Hj & ->).
      exists k, j. repeat split; auto; lia.
  Qed.
  Lemma cat_lettered : lettered L (concat2 A B).
  Proof.
    intros p c e He. apply (cat_edge al n m A B T1) in He as [He|[He|(e1 & q1 & i & He & Et1 & Ac & Hi & ->)]]; [eapply L1|eapply L2|eapply L1]; eauto.
  Qed.
  Lemma cat_lonely : (forall i, In i (inits B) -> ~ accepting B i) -> lonely B -> lonely (concat2 A B).
  Proof.
    intros NI Lo p s' c es e q H Hc He Et Ac. apply (proj1 (cat_accepting A B q)) in Ac. apply cat_state in H as [(s & H & ->)|(s & H & ->)].
    - exfalso. cbn [left_state next] in Hc. apply in_map_next in Hc as (es0 & Hc & ->). unfold cat_edges in He. apply in_app_or in He as [He|He].
      + apply (DJ q); [eapply edge_target; eauto; [eapply ti_wf; eauto|exists s, es0; eauto]|eapply accepting_in; eauto].
      + apply in_flat_map in He as (e0 & _ & He). destruct (acc_tgt A e0); [|destruct He]. apply in_map_iff in He as (i & <- & Hi). injection Et as <-. exact (NI i Hi Ac).
    - destruct (right_state_same A B p s) as (_ & E & _). rewrite E in Hc. eapply Lo; eauto.
  Qed.
  Lemma alt_rising : rising al m' (altTA A B).
  Proof.
    intros p c e q He Et. apply alt_edge in He as [He|He]; [|eapply R2; eauto]. destruct (R1 _ _ _ _ He Et) as (i & j & E1 & E2 & Lt). exists i, j. repeat split; auto; lia.
  Qed.
  Lemma alt_lettered : lettered L (altTA A B).
  Proof. intros p c e He. apply alt_edge in He as [He|He]; [eapply L1|eapply L2]; eauto. Qed.
  Lemma alt_lonely : lonely A -> lonely B -> lonely (altTA A B).
  Proof.
    intros LA LB p s c es e q H Hc He Et (sq & Hq & M). unfold altTA in H, Hq. cbn [states] in H, Hq. apply in_app_or in H as [H|H]; apply in_app_or in Hq as [Hq|Hq].
    - apply (LA p s c es e q); auto. exists sq. auto.
    - exfalso; apply (DJ q); [eapply edge_target; eauto; [eapply ti_wf; eauto|exists s, es; eauto]|apply (in_map fst _ _ Hq)].
    - exfalso; apply (DJ q); [apply (in_map fst _ _ Hq)|eapply edge_target; eauto; [eapply ti_wf; eauto|exists s, es; eauto]].
    - apply (LB p s c es e q); auto. exists sq. auto.
  Qed.
End Join.

Definition neat (al : nat -> ptr) (L : nat -> Prop) (m : nat) (A : ta) : Prop := rising al m A /\ lettered L A.
Definition short (cv : nat * list interval) : Prop := length (snd cv) <= 1.

Lemma chain_go_neat : forall al b n (L : nat -> Prop), injective al -> forall t pre A m B m', pre <> [] -> adjd (map fst (pre ++ t)) -> SignalAut.plain b t ->
  (forall q, In q t -> L (fst q)) -> cinv al n m pre A -> neat al L m A -> (short (last pre (0, [])) -> lonely A) ->
  chain_go al t (A, m) = Ok (B, m') -> neat al L m' B /\ (short (last (pre ++ t) (0, [])) -> lonely B).
Proof.
  intros al b n L Inj. induction t as [|[c v] t IH]; intros pre A m B m' NE AD P Lt C (R1 & L1) Lo E.
  - cbn in E. injection E as <- <-. rewrite app_nil_r. split; [split|]; auto.
  - cbn [chain_go fst snd] in E. destruct (P (c, v) (or_introl eq_refl)) as (Cl & Nc). cbn [fst snd] in *.
    destruct (cat_cinv al b n m pre c v A Inj Cl Nc C (adjd_last _ _ _ NE AD)) as (B1 & m1 & E1 & C'). rewrite E1 in E. cbn [bind fst snd] in E.
    destruct (sing_neat al L c v m B1 m1 E1 (Lt (c, v) (or_introl eq_refl))) as (R2 & L2 & Lo2 & Le).
    destruct (sing_spec al m c v b Inj Cl Nc) as (B2 & m2 & E2 & _ & T2 & _ & _ & _ & _ & I2). rewrite E1 in E2. injection E2 as <- <-.
    destruct C as (_ & T1 & _).
    destruct (IH (pre ++ [(c, v)]) (concat2 A B1) m1 B m') as (X & Y).
    + intros X. destruct pre; discriminate.
    + rewrite <- app_assoc. exact AD.
    + intros q Hq. apply P. right. auto.
    + intros q Hq. apply Lt. right. auto.
    + exact C'.
    + split; [eapply cat_rising; eauto|eapply cat_lettered; eauto].
    + rewrite last_last. intros S. eapply cat_lonely; eauto. intros i Hi. apply (I2 i Hi).
    + exact E.
    + rewrite <- app_assoc in Y. split; auto.
Qed.

Lemma chain_neat : forall al b n (L : nat -> Prop) ch B m, injective al -> ch <> [] -> adjd (map fst ch) -> SignalAut.plain b ch -> (forall q, In q ch -> L (fst q)) ->
  chainTA al ch n = Ok (B, m) -> neat al L m B /\ (short (last ch (0, [])) -> lonely B).
Proof.
  intros al b n L [|[c v] t] B m Inj NE AD P Lt E; [congruence|]. cbn [chainTA fst snd] in E. destruct (P (c, v) (or_introl eq_refl)) as (Cl & Nc). cbn [fst snd] in *.
  destruct (sing_spec al n c v b Inj Cl Nc) as (A & m1 & E1 & Le & T & Cs & La & S & Ls & _). rewrite E1 in E. cbn [bind] in E.
  destruct (sing_neat al L c v n A m1 E1 (Lt (c, v) (or_introl eq_refl))) as (R2 & L2 & Lo2 & _).
  apply (chain_go_neat al b n L Inj t [(c, v)] A m1 B m); auto.
  - discriminate.
  - intros q Hq; apply P; right; auto.
  - intros q Hq. apply Lt. right. auto.
  - split; [auto|]. split; [auto|]. auto.
  - split; auto.
Qed.

Lemma dnf_go_neat : forall al b n (L : nat -> Prop), injective al -> forall chs A m B m', 
  (forall ch, In ch chs -> ch <> [] /\ adjd (map fst ch) /\ SignalAut.plain b ch /\ (forall q, In q ch -> L (fst q)) /\ short (last ch (0, []))) ->
  n <= m -> tinv al n m A -> neat al L m A -> lonely A -> dnf_go al chs (A, m) = Ok (B, m') -> neat al L m' B /\ lonely B.
Proof.
  intros al b n L Inj. induction chs as [|ch chs IH]; intros A m B m' P Le T (R1 & L1) Lo E.
  - cbn in E. injection E as <- <-. split; [split|]; auto.
  - cbn [dnf_go snd fst] in E. destruct (P ch (or_introl eq_refl)) as (NE & AD & PL & Lt & Sh).
    destruct (chain_spec al b m ch Inj NE AD PL) as (B1 & m1 & E1 & (Le1 & T1 & _)). rewrite E1 in E. cbn [bind fst snd] in E.
    destruct (chain_neat al b m L ch B1 m1 Inj NE AD PL Lt E1) as ((R2 & L2) & Lo2). specialize (Lo2 Sh).
    apply (IH (altTA A B1) m1 B m'); auto.
    + intros q Hq. apply P. right. auto.
    + lia.
    + eapply alt_tinv; eauto.
    + split; [eapply alt_rising; eauto|eapply alt_lettered; eauto].
    + eapply alt_lonely; eauto.
Qed.

(* ---------------- the number of intervals ---------------- *)

(* Every iterated expression has one disjunct: the durations of every letter are
   one interval. *)
Fixpoint slim (r : tre) : Prop :=
  match r with
  | Atom _ | Eps => True
  | Plus r1 => length (runs r1) = 1
  | Cat r1 r2 | Alt r1 r2 | And r1 r2 => slim r1 /\ slim r2
  | Within r1 _ => slim r1
  end.
(* The same for the last letter of every disjunct. *)
Fixpoint narrow (r : tre) : Prop :=
  slim r \/
  match r with
  | Cat r1 r2 => narrow r2 /\ forall l, In l (runs (Cat r1 r2)) -> adjd l
  | Alt r1 r2 => narrow r1 /\ narrow r2
  | _ => False
  end.

Lemma isum_short : forall v w, length v <= 1 -> length w <= 1 -> length (isum v w) <= 1.
Proof. intros [|x [|y v]] [|x' [|y' w]] A B; cbn in *; lia. Qed.
Lemma sum_short : forall vs, (forall v, In v vs -> length v <= 1) -> length (sum_vs vs) <= 1.
Proof.
  intros [|v vs] H; [cbn; lia|]. cbn [sum_vs]. assert (H0 : length v <= 1) by (apply H; left; auto). assert (H1 : forall w, In w vs -> length w <= 1) by (intros w Hw; apply H; right; auto).
  clear H. revert v H0. induction vs as [|w vs IH]; intros v H0; auto. cbn [fold_left]. apply IH; [intros x Hx; apply H1; right; auto|]. apply isum_short; auto. apply H1. left. auto.
Qed.
Lemma filter_short : forall {X} (f : X -> bool) l, length (filter f l) <= length l.
Proof. intros X f. induction l as [|x l IH]; cbn; [lia|]. destruct (f x); cbn; lia. Qed.
Lemma allok_in : forall l vs v, allok l = Ok vs -> In v vs -> In (Ok v) l.
Proof.
  induction l as [|x l IH]; intros vs v E H; cbn in E; [injection E as <-; destruct H|]. destruct x as [w| | | |]; cbn in E; try discriminate.
  destruct (allok l) as [ws| | | |]; cbn in E; try discriminate. injection E as <-. destruct H as [<-|H]; [left; auto|right; eauto].
Qed.

Lemma slim_pch : forall r, sigfrag r -> simple_plus r -> slim r -> forall ch, In ch (pch r) -> forall p v, In p ch -> snd p = Ok v -> length v <= 1.
Proof.
  induction r as [c| |r IH|r1 IH1 r2 IH2|r1 IH1 r2 IH2|r1 IH1 r2 IH2|r IH Iv]; intros F S N ch Hc p v Hp E; cbn [pch] in Hc; try contradiction.
  - destruct Hc as [<-|[]]. destruct Hp as [<-|[]]. cbn in E. injection E as <-. cbn. lia.
  - destruct Hc as [<-|[]]. destruct Hp as [<-|[]]. cbn [snd] in E. destruct S as (NW & NP & Ln). destruct F as (F & _). cbn [slim] in N. rewrite <- pch_runs, map_length in N.
    destruct (pch_ne r F) as (_ & NE). destruct (pch r) as [|x [|y t]] eqn:EP; try discriminate. cbn [map] in E.
    destruct (bare_sum x (NE x (or_introl eq_refl))) as (K & EK & HK); [intros q Hq; eapply bare_pch; eauto; rewrite EP; left; auto|].
    unfold plusV in E. rewrite EK in E. cbn [allok bind map concat] in E. rewrite app_nil_r in E. destruct (land_unb K HK) as (L1 & P1).
    destruct (land [interval_default] [K]) as [|J [|J' Js]]; [| |cbn in L1; lia].
    + cbn in E. injection E as <-. cbn. lia.
    + unfold plus_set in E. cbn [length Nat.leb omap] in E. unfold iplus in E. rewrite (P1 J (or_introl eq_refl)) in E. cbn [bind] in E. injection E as <-. cbn. lia.
  - destruct F as (F1 & F2 & _), S as (S1 & S2), N as (N1 & N2). apply in_flat_map in Hc as (x & Hx & Hc). apply in_map_iff in Hc as (y & <- & Hy). apply in_app_or in Hp as [Hp|Hp]; [eapply IH1|eapply IH2]; eauto.
  - destruct F as (F1 & F2), S as (S1 & S2), N as (N1 & N2). apply in_app_or in Hc as [Hc|Hc]; [eapply IH1|eapply IH2]; eauto.
  - destruct F as (F & _). apply in_map_iff in Hc as (x & <- & Hx). destruct Hp as [<-|[]]. cbn [snd] in E. unfold withinV, och_V, sumV in E.
    destruct (allok (map snd x)) as [vs| | | |] eqn:EA; cbn [bind] in E; try discriminate. injection E as <-. unfold land1. etransitivity; [apply filter_short|]. rewrite map_length.
    apply sum_short. intros w Hw. pose proof (allok_in _ _ _ EA Hw) as X. apply in_map_iff in X as (q & Eq & Hq). eapply IH; eauto.
Qed.

Lemma mv_short : forall t p, short p -> (forall q, In q t -> short q) -> forall q, In q (mv p t) -> short q.
Proof.
  induction t as [|a t IH]; intros p Sp St q Hq; cbn [mv] in Hq; [destruct Hq as [<-|[]]; auto|]. destruct (fst p =? fst a).
  - eapply IH; [| |exact Hq]; [|intros; apply St; right; auto]. unfold short. cbn [snd]. apply isum_short; [exact Sp|apply St; left; auto].
  - destruct Hq as [<-|Hq]; auto. eapply IH; [| |exact Hq]; [apply St; left; auto|intros; apply St; right; auto].
Qed.
Lemma last_in : forall {X} (l : list X) d, l <> [] -> In (last l d) l.
Proof. intros X. induction l as [|x l IH]; intros d N; [congruence|]. destruct l as [|y l]; [left; auto|]. right. apply IH. discriminate. Qed.

Lemma adjd_app : forall l r, adjd (l ++ r) -> adjd r.
Proof. induction l as [|x l IH]; intros r H; auto. apply IH. cbn in H. tauto. Qed.
Lemma mvs_adjd : forall l, adjd (map fst l) -> mvs l = l.
Proof. intros [|p l] H; auto. apply mv_adjd. auto. Qed.
Lemma last_app2 : forall {X} (l r : list X) d, r <> [] -> last (l ++ r) d = last r d.
Proof. intros X. induction l as [|x l IH]; intros r d N; auto. cbn [app]. destruct (l ++ r) eqn:E; [destruct l, r; cbn in E; congruence|]. rewrite <- E. rewrite <- (IH r d N). rewrite E. reflexivity. Qed.

Lemma narrow_last : forall r, sigfrag r -> simple_plus r -> narrow r -> forall o cv, In o (pch r) -> okc o cv -> short (last (mvs cv) (0, [])).
Proof.
  assert (SL : forall r, sigfrag r -> simple_plus r -> slim r -> forall o cv, In o (pch r) -> okc o cv -> short (last (mvs cv) (0, []))).
  { intros r F S N o cv Ho O. assert (A : forall q, In q cv -> short q).
    { intros q Hq. unfold okc in O. clear - F S N Ho O Hq. assert (X : exists p, In p o /\ p = (fst q, Ok (snd q))).
      { clear F S N Ho. induction O as [|p q' o cv E O IH]; [destruct Hq|]. destruct Hq as [<-|Hq]; [exists p; split; [left; auto|auto]|]. destruct (IH Hq) as (p' & H1 & H2). exists p'. split; [right; auto|auto]. }
      destruct X as (p & Hp & ->). eapply slim_pch; eauto. }
    destruct cv as [|p cv]; [unfold short; cbn; lia|]. cbn [mvs]. apply (mv_short cv p).
    - apply A. left. auto.
    - intros q Hq. apply A. right. auto.
    - apply last_in. intros X. apply (mvs_nil (p :: cv)) in X. discriminate. }
  induction r as [c| |r IH|r1 IH1 r2 IH2|r1 IH1 r2 IH2|r1 IH1 r2 IH2|r IH Iv]; intros F S [N|N] o cv Ho O; try contradiction; try (eapply SL; eauto; fail).
  - pose proof F as (F1 & F2 & _). pose proof S as (S1 & S2). destruct N as (N & AD). pose proof Ho as Ho'. cbn [pch] in Ho. apply in_flat_map in Ho as (x & Hx & Ho). apply in_map_iff in Ho as (y & <- & Hy).
    unfold okc in O. apply Forall2_app_inv_l in O as (cx & cy & Ox & Oy & ->).
    assert (AA : adjd (map fst (cx ++ cy))).
    { rewrite <- (okc_fst (x ++ y) (cx ++ cy)) by (apply Forall2_app; auto). apply AD. rewrite <- pch_runs. apply in_map. exact Ho'. }
    pose proof AA as AB. rewrite map_app in AB. apply adjd_app in AB. rewrite (mvs_adjd _ AA).
    assert (NEy : cy <> []). { intros ->. inversion Oy; subst. destruct (pch_ne r2 F2) as (_ & X). apply (X [] Hy). auto. }
    rewrite (last_app2 cx cy _ NEy). rewrite <- (mvs_adjd cy AB). eapply IH2; eauto.
  - pose proof F as (F1 & F2). pose proof S as (S1 & S2). destruct N as (N1 & N2). cbn [pch] in Ho. apply in_app_or in Ho as [Ho|Ho]; [eapply IH1|eapply IH2]; eauto.
Qed.

Lemma runs_atoms : forall r, sigfrag r -> forall l c, In l (runs r) -> In c l -> In c (tatoms r).
Proof.
  induction r as [c| |r IH|r1 IH1 r2 IH2|r1 IH1 r2 IH2|r1 IH1 r2 IH2|r IH Iv]; intros F l x Hl Hx; cbn [runs] in Hl; cbn [sigfrag] in F; cbn [tatoms]; try contradiction.
  - destruct Hl as [<-|[]]. exact Hx.
  - destruct F as (F & _). destruct (runs_ne r F) as (N1 & N2). destruct Hl as [<-|[]]. destruct Hx as [<-|[]]. destruct (runs r) as [|l0 ls] eqn:E; [congruence|]. cbn [hd].
    specialize (N2 l0 (or_introl eq_refl)). destruct l0 as [|y l0]; [congruence|]. cbn. apply (IH F (y :: l0)); left; auto.
  - destruct F as (F1 & F2 & _). apply in_flat_map in Hl as (a & Ha & Hl). apply in_map_iff in Hl as (b & <- & Hb). apply in_or_app. apply in_app_or in Hx as [Hx|Hx]; [left; eapply IH1|right; eapply IH2]; eauto.
  - destruct F as (F1 & F2). apply in_or_app. apply in_app_or in Hl as [Hl|Hl]; [left; eapply IH1|right; eapply IH2]; eauto.
  - destruct F as (F & _). destruct (runs_ne r F) as (_ & N2). apply in_map_iff in Hl as (a & <- & Ha). destruct Hx as [<-|[]]. specialize (N2 a Ha). destruct a as [|y a]; [congruence|]. cbn. apply (IH F (y :: a)); [auto|left; auto].
Qed.

Lemma finish_neat : forall al b r vss n A m, injective al -> sigfrag r -> dur_ok b r -> pV (cls b) r -> simple_plus r -> narrow r -> vchs r = Ok vss ->
  finish al (sig_chains r vss) n = Ok (A, m) -> rising al m A /\ lettered (fun c => In c (tatoms r)) A /\ lonely A.
Proof.
  intros al b r vss n A m Inj F DU P SP N E FI.
  assert (CH : forall ch, In ch (sig_chains r vss) -> ch <> [] /\ adjd (map fst ch) /\ SignalAut.plain b ch /\ (forall q, In q ch -> In (fst q) (tatoms r)) /\ short (last ch (0, []))).
  { intros ch Hc. pose proof (runs_chains_ne r vss F E) as NE. rewrite Forall_forall in NE. split; [auto|]. unfold sig_chains in Hc. rewrite <- pch_runs in Hc.
    unfold vchs in E. apply (chains_in _ _ E) in Hc as (o & cv & Ho & O & ->). destruct cv as [|p cv]; [split; [exact Logic.I|split; [intros q []|split; [intros q []|unfold short; cbn; lia]]]|].
    pose proof (narrow_last r F SP N o (p :: cv) Ho O) as SH. cbn [mvs] in SH |- *.
    split; [apply adjd_mv|]. assert (CL : forall q, In q (p :: cv) -> clsv b (snd q)) by (intros q Hq K HK; eapply okc_cls; eauto).
    assert (LT : forall q, In q (mv p cv) -> exists l, In l (runs r) /\ In (fst q) l).
    { intros q Hq. destruct (mv_letters _ _ _ Hq) as (q' & Hq' & EQ). exists (map fst o). split; [rewrite <- pch_runs; apply in_map; auto|]. rewrite (okc_fst _ _ O), <- EQ. apply in_map. auto. }
    split; [|split; [|exact SH]].
    - intros q Hq. split; [eapply mv_cls; [apply CL; left; auto|intros x Hx; apply CL; right; exact Hx|exact Hq]|]. destruct (LT q Hq) as (l & H1 & H2). eapply runs_letters; eauto.
    - intros q Hq. destruct (LT q Hq) as (l & H1 & H2). eapply runs_atoms; eauto. }
  destruct (dnf_go_spec al b n Inj (sig_chains r vss) (mkTA [] [] []) n) as (B & m1 & G & Le & T & S & _).
  - intros ch Hc. destruct (CH ch Hc) as (X1 & X2 & X3 & _). auto.
  - lia.
  - apply empty_tinv.
  - intros p c e q (s & es & [] & _).
  - cbn. lia.
  - unfold finish in FI. rewrite G in FI. cbn [bind fst snd] in FI. rewrite (rename_steady al n m1 B T S) in FI. injection FI as <- <-.
    destruct (dnf_go_neat al b n (fun c => In c (tatoms r)) Inj (sig_chains r vss) (mkTA [] [] []) n B m1) as ((X1 & X2) & X3); auto.
    + apply empty_tinv.
    + split; [intros p c e q (s & es & [] & _)|intros p c e (s & es & [] & _)].
    + intros p s c es e q [].
Qed.

(* ---------------- ranks ---------------- *)

Fixpoint place (p : ptr) (l : list ptr) : nat := match l with [] => 0 | q :: t => if p =? q then 0 else S (place p t) end.
Definition down (al : nat -> ptr) (m : nat) (p : ptr) : nat := m - place p (map al (seq 0 m)).
Lemma place_al : forall al, injective al -> forall len i k, k <= i < k + len -> place (al i) (map al (seq k len)) = i - k.
Proof.
  intros al Inj. induction len as [|len IH]; intros i k H; [lia|]. cbn [seq map place]. destruct (Nat.eqb_spec (al i) (al k)) as [E|NE].
  - apply Inj in E. lia.
  - assert (i <> k) by (intros ->; apply NE; auto). rewrite (IH i (S k)) by lia. lia.
Qed.
Lemma rising_idle : forall al m A, injective al -> rising al m A -> idle_loops A (down al m).
Proof.
  intros al m A Inj R p c e q He Et. left. destruct (R p c e q He Et) as (i & j & -> & -> & Lt). unfold down. rewrite !(place_al al Inj) by lia. lia.
Qed.
Lemma lonely_last : forall A, lonely A -> accepting_last A.
Proof.
  intros A Lo p s c es e rest q sq H Hc (pre & ->) Et Hq M.
  assert (X : pre ++ e :: rest = [e]) by (eapply (Lo p s c _ e q); eauto; [apply in_or_app; right; left; auto|exists sq; auto]).
  assert (L : length (pre ++ e :: rest) = 1) by (rewrite X; auto). rewrite app_length in L. cbn in L. destruct rest; auto. cbn in L. lia.
Qed.
