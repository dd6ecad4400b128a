(* Signal mode: the language of the automaton made of the runs. *)
From Coq Require Import QArith Qround Lqa Bool List ZArith Arith Lia.
From Verif Require Import Num NumFacts Outcome Interval IntervalFacts Constraint Zone TA Spec TAFacts Tre TreRun TreFacts TreBuild
  Signal SignalFacts SignalTerm SignalSpec SignalRep SignalBuild SignalTop SignalDur SignalWords.
Import ListNotations.
Open Scope nat_scope.

(* ---------------- the runs ---------------- *)

Lemma chains_in : forall chs vss, allok2 (map (map snd) chs) = Ok vss -> forall ch,
  (In ch (chains_of (map (map fst) chs) vss) <-> exists o cv, In o chs /\ okc o cv /\ ch = mvs cv).
Proof.
  induction chs as [|o chs IH]; intros vss E ch; cbn in E.
  - injection E as <-. cbn. split; [intros []|intros (o & cv & [] & _)].
  - destruct (allok (map snd o)) as [v| | | |] eqn:E1; cbn in E; try discriminate. destruct (allok2 (map (map snd) chs)) as [vs| | | |] eqn:E2; cbn in E; try discriminate.
    injection E as <-. cbn [map chains_of]. pose proof (okc_allok o v E1) as O. split.
    + intros [<-|H]; [exists o, (combine (map fst o) v); split; [left; auto|auto]|]. apply IH in H as (o' & cv & H1 & H2); auto. exists o', cv. split; [right; auto|auto].
    + intros (o' & cv & [<-|H] & H1 & ->); [left|right; apply IH; eauto]. unfold chain_of. f_equal.
      destruct (okc_sum _ _ H1) as (X & Y). assert (v = map snd cv) by congruence. subst v. rewrite Y. clear. induction cv as [|[c v] cv IHc]; cbn; congruence.
Qed.

Lemma vchs_defined : forall r vss, vchs r = Ok vss -> defined r.
Proof.
  intros r vss E ch Hc. unfold vchs in E. revert vss E. induction (pch r) as [|o chs IH]; intros vss E; [destruct Hc|]. cbn in E.
  destruct (allok (map snd o)) as [v| | | |] eqn:E1; cbn in E; try discriminate. destruct (allok2 (map (map snd) chs)) as [vs| | | |] eqn:E2; cbn in E; try discriminate.
  destruct Hc as [<-|Hc]; [exists (combine (map fst o) v); apply okc_allok; auto|]. eapply IH; eauto.
Qed.

Lemma sig_chains_words : forall b r vss, sigfrag r -> dur_ok b r -> pV (cls b) r -> vchs r = Ok vss -> forall u,
  (exists ch, In ch (sig_chains r vss) /\ win ch u) <-> exists w, sig_words false r w /\ deq (merge_dw w) u.
Proof.
  intros b r vss F DU P E u. pose proof (vchs_defined r vss E) as D. unfold sig_chains. rewrite <- pch_runs. unfold vchs in E.
  assert (CL : forall o cv, In o (pch r) -> okc o cv -> forall q, In q cv -> clsv b (snd q)) by (intros o cv Ho O q Hq K HK; eapply okc_cls; eauto).
  split.
  - intros (ch & Hc & W). apply (chains_in _ _ E) in Hc as (o & cv & Ho & O & ->). apply (win_mvs b) in W as (w' & W & DW); [|eapply CL; eauto].
    destruct (runs_words b r F DU P D o cv w' Ho O W) as (w & S & M). exists w. split; auto. eapply deq_trans; [exact M|exact DW].
  - intros (w & S & DW). destruct (words_runs b r F DU P D w S) as (o & cv & w' & Ho & O & W & M). exists (mvs cv). split; [apply (chains_in _ _ E); eauto|].
    apply (win_mvs b); [eapply CL; eauto|]. exists w'. split; auto. eapply deq_trans; [apply deq_sym; exact M|exact DW].
Qed.

(* ---------------- one letter ---------------- *)


Lemma int_of : forall q z, (q == inject_Z z)%Q -> num_to_int (Fin q) = Some z.
Proof.
  intros [n d] z E. unfold Qeq in E. cbn in *. f_equal. assert (n = (z * Z.pos d)%Z) as -> by lia. apply Z.quot_mul. lia.
Qed.

Definition glo (B : bound) : option (list constr) :=
  if beqb B bzero then Some []
  else match num_to_int (fst B) with Some z => Some [mkC 0 (if snd B then Ge else Gt) z] | None => None end.
Definition gup (B : bound) : option (list constr) :=
  match fst B with
  | PInf | MInf => Some []
  | n => match num_to_int n with Some z => Some [mkC 0 (if snd B then Le else Lt) z] | None => None end
  end.
Lemma guard_split : forall K, sing_guard K = match glo (lob K), gup (upb K) with Some l, Some u => Ok (l ++ u) | _, _ => UB end.
Proof. reflexivity. Qed.

Lemma guard_spec : forall b K, cls b K -> exists g, sing_guard K = Ok g /\ (forall k, In k g -> cx k = 0 /\ (0 <= cc k)%Z) /\
  forall d, (0 <= d)%Q -> ((forall k, In k g -> holds k d) <-> iin K d).
Proof.
  intros b [[lv lc] [uv uc]] ((l & E & (z & Z) & L) & U & (x & X1 & X2)). unfold cls_up in U. cbn in E, U, L. subst lv.
  unfold above, below in X1, X2. cbn in X1, X2. assert (L0 : (0 <= l)%Q) by (destruct L as [[L _]|[L _]]; lra).
  assert (Z0 : (0 <= z)%Z) by (rewrite Z in L0; change 0%Q with (inject_Z 0) in L0; rewrite <- Zle_Qle in L0; auto).
  assert (UP : exists gu, gup (uv, uc) = Some gu /\
            (forall k, In k gu -> cx k = 0 /\ (0 <= cc k)%Z) /\ forall d, (forall k, In k gu -> holds k d) <-> below (uv, uc) d).
  { unfold gup. cbn [fst snd]. destruct U as [->|(u & -> & (y & Y))].
    - exists []. split; auto. split; [intros ? []|]. intros d. split; [intros _; exact Logic.I|intros _ k []].
    - exists [mkC 0 (if uc then Le else Lt) y]. rewrite (int_of u y Y). split; auto. split.
      + intros k [<-|[]]. split; auto. cbn. assert (0 <= u)%Q by (destruct lc, uc; lra). rewrite Y in H. change 0%Q with (inject_Z 0) in H. rewrite <- Zle_Qle in H. auto.
      + intros d. unfold below. cbn [fst snd]. split.
        * intros H. specialize (H _ (or_introl eq_refl)). destruct uc; cbn in H; rewrite Y; auto.
        * intros H k [<-|[]]. destruct uc; cbn; rewrite <- Y; auto. }
  destruct UP as (gu & EU & GU & SU). rewrite guard_split. cbn [lob upb]. rewrite EU.
  unfold glo, beqb, neqb. cbn [fst snd bzero]. destruct (Qeq_bool l 0) eqn:B; cbn [andb].
  - apply Qeq_bool_iff in B. assert (lc = true) as -> by (destruct L as [[_ L]|[L _]]; [auto|lra]). cbn [Bool.eqb app].
    exists gu. split; auto. split; auto. intros d D. rewrite SU. unfold iin, above. cbn. split; [intros; split; [lra|auto]|tauto].
  - apply Qeq_bool_neq in B. rewrite (int_of l z Z). exists ([mkC 0 (if lc then Ge else Gt) z] ++ gu). split; auto. split.
    + intros k [<-|H]; auto.
    + intros d D. unfold iin. cbn [lob upb]. rewrite <- SU. unfold above. cbn [fst snd]. split.
      * intros H. split; [|intros k Hk; apply H; right; auto]. specialize (H _ (or_introl eq_refl)). destruct lc; cbn in H; rewrite Z; auto.
      * intros (H1 & H2) k [<-|Hk]; auto. destruct lc; cbn; rewrite <- Z; auto.
Qed.

Lemma guards_spec : forall b v, clsv b v -> exists gs, oseq sing_guard v = Ok gs /\ length gs = length v /\ (forall g, In g gs -> forall k, In k g -> cx k = 0 /\ (0 <= cc k)%Z) /\
  forall d, (0 <= d)%Q -> ((exists g, In g gs /\ forall k, In k g -> holds k d) <-> iins v d).
Proof.
  intros b. induction v as [|K v IH]; intros C.
  - exists []. split; [auto|]. split; [auto|]. split; [intros ? []|]. intros d D. split; intros (x & [] & _).
  - destruct (guard_spec b K (C K (or_introl eq_refl))) as (g & E & G & S). destruct IH as (gs & E' & L & G' & S'); [intros J HJ; apply C; right; auto|].
    exists (g :: gs). cbn [oseq]. rewrite E. cbn [bind]. rewrite E'. cbn [bind]. split; auto. split; [cbn; auto|]. split; [intros y [<-|Hy] k Hk; [apply G; auto|apply (G' y Hy k Hk)]|]. intros d D. split.
    + intros (x & [<-|Hx] & H); [exists K; split; [left; auto|apply S; auto]|]. destruct (proj1 (S' d D)) as (J & HJ & X); [eauto|]. exists J. split; [right; auto|auto].
    + intros (J & [<-|HJ] & X); [exists g; split; [left; auto|apply S; auto]|]. destruct (proj2 (S' d D)) as (x & Hx & H); [exists J; auto|]. exists x. split; [right; auto|auto].
Qed.

(* ---------------- letters of the edges ---------------- *)

Definition keyed (A : ta) (q : ptr) (c : nat) : Prop := exists s es, In (q, s) (states A) /\ In (c, es) (next s).
Definition steady (A : ta) : Prop := forall p c e q, is_edge A p c e -> etgt e = Some q -> ~ keyed A q c.
Definition lastly (c : nat) (A : ta) : Prop := forall p c' e q, is_edge A p c' e -> etgt e = Some q -> accepting A q -> c' = c.

(* A constraint says something about the size. *)
Lemma fold_max : forall (gs : list constr) m, (m <= fold_left (fun m g => Z.max m (cc g)) gs m)%Z /\ forall g, In g gs -> (cc g <= fold_left (fun m g => Z.max m (cc g)) gs m)%Z.
Proof.
  induction gs as [|g gs IH]; intros m; cbn; [split; [lia|intros ? []]|]. destruct (IH (Z.max m (cc g))) as (A & B). split; [lia|]. intros x [<-|Hx]; [lia|auto].
Qed.

Lemma win_one : forall c v u, win [(c, v)] u <-> exists d, u = [(c, d)] /\ iins v d.
Proof.
  intros c v u. split.
  - intros W. inversion W as [|p a t t' H1 H2]; subst. inversion H2; subst. destruct a as [x d]. cbn in H1. destruct H1 as [<- H1]. eauto.
  - intros (d & -> & H). constructor; [split; auto|constructor].
Qed.

Section Sing.
  Variables (al : nat -> ptr) (n c : nat) (v : list interval) (b : bool).
  Hypothesis Inj : injective al.
  Hypothesis Cl : clsv b v.
  Hypothesis Nc : c <> 0.

  Lemma sing_spec : exists A m, singTA al c v n = Ok (A, m) /\ n <= m /\ tinv al n m A /\ clockSize A <= 1 /\
    (forall u, nonneg u -> (lang_of A u <-> win [(c, v)] u)) /\ steady A /\ lastly c A /\
    (forall i, In i (inits A) -> ~ accepting A i /\ forall c', keyed A i c' -> c' = c).
  Proof.
    destruct (guards_spec b v Cl) as (gs & E & L & G & SP). unfold singTA. destruct v as [|K v'] eqn:EV.
    { exists (mkTA [] [] []), n. split; auto. split; auto. split.
      { constructor; try (intros; cbn in *; contradiction).
        - constructor; cbn; [constructor|intros ? ? []|intros ? ? ? ? ? []|intros ? []].
        - intros p c0 e (s & es & [] & _).
        - intros p c0 e (s & es & [] & _). }
      split; [cbn; lia|]. split.
      { intros u _. split.
        - intros (p & q & w & [] & _).
        - intros W. apply win_one in W as (d & _ & J & [] & _). }
      split; [intros p c' e q (s & es & [] & _)|]. split; [intros p c' e q (s & es & [] & _)|]. intros i []. }
    rewrite E. cbn [bind]. set (m := fold_left _ _ _). set (A := mkTA _ _ _). exists A, (S (S n)). split; auto. split; [lia|].
    assert (D : al n <> al (S n)) by (intros X; apply Inj in X; lia).
    assert (NG : gs <> []) by (intros ->; discriminate).
    assert (ED : forall p c' e, is_edge A p c' e <-> p = al n /\ c' = c /\ exists g, In g gs /\ e = mkE (Some (al (S n))) [] g).
    { intros p c' e. split.
      - intros (s & es & H & Hc & He). cbn in H. destruct H as [H|[H|[]]]; injection H as <- <-; cbn in Hc; [|destruct Hc].
        destruct Hc as [Hc|[]]. injection Hc as <- <-. apply in_map_iff in He as (g & <- & Hg). split; auto. split; auto. exists g. auto.
      - intros (-> & -> & g & Hg & ->). eexists. eexists. split; [left; reflexivity|]. split; [left; reflexivity|]. apply in_map_iff. exists g. auto. }
    assert (AC : forall p, accepting A p <-> p = al (S n)).
    { intros p. split.
      - intros (s & H & M). cbn in H. destruct H as [H|[H|[]]]; injection H as <- <-; cbn in M; [discriminate|auto].
      - intros ->. eexists. split; [right; left; reflexivity|reflexivity]. }
    assert (KY : forall q c', keyed A q c' -> q = al n /\ c' = c).
    { intros q c' (s & es & H & Hc). cbn in H. destruct H as [H|[H|[]]]; injection H as <- <-; cbn in Hc; [|destruct Hc]. destruct Hc as [Hc|[]]. injection Hc as <- <-. auto. }
    assert (CS : clockSize A <= 1 /\ forall g k, In g gs -> In k g -> cx k < clockSize A).
    { unfold clockSize, A. cbn [maxC]. destruct (m =? -1)%Z eqn:B; cbn [length].
      - split; [lia|]. intros g k Hg Hk. exfalso. apply Z.eqb_eq in B. destruct (fold_max (concat gs) (-1)) as (_ & X). fold m in X.
        specialize (X k ltac:(apply in_concat; eauto)). destruct (G g Hg k Hk). lia.
      - split; [lia|]. intros g k Hg Hk. destruct (G g Hg k Hk) as (-> & _). lia. }
    destruct CS as (CS1 & CS2). split; [|split; [auto|split; [|split; [|split]]]].
    - constructor.
      + constructor.
        * cbn. constructor; [intros [H|[]]; congruence|]. constructor; [intros []|constructor].
        * intros p s H. cbn in H. destruct H as [H|[H|[]]]; injection H as <- <-; cbn; constructor; [intros []|constructor].
        * intros p s c' es e H1 H2 H3. assert (HE : is_edge A p c' e) by (exists s, es; auto). apply ED in HE as (_ & _ & g & Hg & ->).
          split; [|split]; cbn; auto; [intros t Et; injection Et as <-; auto|]. apply Forall_forall. intros k Hk. eapply CS2; eauto.
        * intros p [H|[]]. left. auto.
      + intros p [H|[H|[]]]; cbn in H; subst; [exists n|exists (S n)]; split; auto; lia.
      + intros p c' e H. apply ED in H as (_ & _ & g & _ & ->). cbn. eauto.
      + intros p s H M. cbn in H. destruct H as [H|[H|[]]]; injection H as <- <-; cbn in M; [discriminate|auto].
      + intros p c' e H. apply ED in H as (_ & -> & _). auto.
      + intros p s H M. cbn in H. destruct H as [H|[H|[]]]; injection H as <- <-; cbn in M; discriminate.
      + intros p s c' es H M. cbn in H. destruct H as [H|[H|[]]]; injection H as <- <-; cbn in M; [|destruct M].
        destruct M as [M|[]]. injection M as <- <-. destruct gs; [congruence|discriminate].
    - intros u NU. split.
      + intros (p & q & w & Hi & R & F). destruct Hi as [<-|[]]. apply AC in F. subst q.
        inversion R as [|p0 v0 c0 d e u' q p' w' He Et Sg R']; subst; [congruence|]. apply ED in He as (_ & -> & g & Hg & ->). injection Et as <-.
        inversion R' as [|p0 v0 c1 d1 e1 u1 q1 p1 w1 He1 Et1 Sg1 R1]; subst; [|apply ED in He1 as (He1 & _); congruence].
        inversion NU as [|? ? Hd _]; subst. cbn in Hd. apply win_one. eexists. split; [reflexivity|]. apply SP; auto. exists g. split; auto.
        intros k Hk. specialize (Sg k Hk). destruct (G g Hg k Hk) as (X & _). rewrite X in Sg. eapply holds_eq; [|exact Sg]. unfold delay, zeroval. ring.
      + intros W. apply win_one in W as (d & -> & X2). inversion NU as [|? ? Hd _]; subst. cbn in Hd.
        apply SP in X2 as (g & Hg & H); auto. exists (al n), (al (S n)). eexists. split; [left; reflexivity|]. split; [|apply AC; auto].
        eapply dr_cons; [apply ED; split; [reflexivity|split; [reflexivity|exists g; split; [exact Hg|reflexivity]]]|reflexivity| |constructor].
        intros k Hk. cbn in Hk. destruct (G g Hg k Hk) as (X & _). rewrite X. eapply holds_eq; [|apply H; auto]. unfold delay, zeroval. ring.
    - intros p c' e q H Et K'. apply ED in H as (_ & _ & g & _ & ->). injection Et as <-. apply KY in K' as (X & _). congruence.
    - intros p c' e q H _ _. apply ED in H as (_ & H & _). auto.
    - intros i [<-|[]]. split; [intros X; apply AC in X; congruence|]. intros c' X. apply KY in X. tauto.
  Qed.
End Sing.

(* ---------------- a chain of letters ---------------- *)

Definition cinv (al : nat -> ptr) (n m : nat) (ch : chain) (A : ta) : Prop :=
  n <= m /\ tinv al n m A /\ clockSize A <= 1 /\ (forall u, nonneg u -> (lang_of A u <-> win ch u)) /\ steady A /\
  lastly (fst (last ch (0, []))) A.

Lemma keyed_in : forall A q c, keyed A q c -> In q (map fst (states A)).
Proof. intros A q c (s & es & H & _). apply (in_map fst _ _ H). Qed.

Lemma cat_keyed : forall L R q c, keyed (concat2 L R) q c -> keyed L q c \/ keyed R q c.
Proof.
  intros L R q c (s' & es & H & Hc). apply cat_state in H as [(s & H & ->)|(s & H & ->)].
  - cbn [left_state next] in Hc. apply in_map_next in Hc as (es0 & Hc & _). left. exists s, es0. auto.
  - destruct (right_state_same L R q s) as (_ & E & _). rewrite E in Hc. right. exists s, es. auto.
Qed.

Lemma nonneg_app : forall u1 u2, nonneg (u1 ++ u2) <-> nonneg u1 /\ nonneg u2.
Proof. intros. apply Forall_app. Qed.

Lemma adjd_last : forall pre cv t, pre <> [] -> adjd (map fst (pre ++ cv :: t)) -> fst (last pre (0, @nil interval)) <> fst cv.
Proof.
  induction pre as [|p pre IH]; intros cv t N A; [congruence|]. cbn in A. destruct A as (A1 & A2). destruct pre as [|q pre].
  - cbn in *. auto.
  - change (last (p :: q :: pre) (0, [])) with (last (q :: pre) (0, @nil interval)). eapply IH; [discriminate|exact A2].
Qed.

Lemma cat_cinv : forall al b n m pre c v A, injective al -> clsv b v -> c <> 0 -> cinv al n m pre A -> fst (last pre (0, [])) <> c ->
  exists B m', singTA al c v m = Ok (B, m') /\ cinv al n m' (pre ++ [(c, v)]) (concat2 A B).
Proof.
  intros al b n m pre c v A Inj Cl Nc (Le1 & T1 & C1 & L1 & S1 & La1) NE.
  destruct (sing_spec al m c v b Inj Cl Nc) as (B & m' & E & Le2 & T2 & C2 & L2 & S2 & La2 & I2). exists B, m'. split; auto.
  assert (DJ : forall p, In p (map fst (states A)) -> In p (map fst (states B)) -> False) by (intros p; eapply ranges_disjoint; eauto).
  pose proof (ti_wf _ _ _ _ T1) as W1. pose proof (ti_wf _ _ _ _ T2) as W2.
  assert (Sm : clockSize B <= 256) by lia.
  split; [lia|]. split; [eapply cat_tinv; eauto|]. split; [rewrite cat_clocks; lia|]. split; [|split].
  - intros u N. rewrite (cat_lang al n m m' A B Inj T1 T2 Sm u). split.
    + intros (u1 & u2 & -> & H1 & H2). apply nonneg_app in N as (N1 & N2). apply win_app; [apply L1|apply L2]; auto.
    + intros W. apply Forall2_app_inv_l in W as (u1 & u2 & W1' & W2' & ->). apply nonneg_app in N as (N1 & N2). exists u1, u2. split; auto. split; [apply L1|apply L2]; auto.
  - intros p x e q He Et K. apply (cat_edge al n m A B T1) in He as [He|[He|(e1 & q1 & i & He & Et1 & Ac & Hi & ->)]].
    + apply cat_keyed in K as [K|K]; [exact (S1 _ _ _ _ He Et K)|]. apply (DJ q); [eapply edge_target; eauto|eapply keyed_in; eauto].
    + apply cat_keyed in K as [K|K]; [|exact (S2 _ _ _ _ He Et K)]. apply (DJ q); [eapply keyed_in; eauto|eapply edge_target; eauto].
    + injection Et as <-. apply (La1 _ _ _ _ He Et1) in Ac. apply cat_keyed in K as [K|K]; [apply (DJ i); [eapply keyed_in; eauto|apply (wf_inits _ W2); auto]|].
      destruct (I2 i Hi) as (_ & X). apply X in K. congruence.
  - rewrite last_last. cbn [fst]. intros p x e q He Et Ac. apply (proj1 (cat_accepting A B q)) in Ac.
    apply (cat_edge al n m A B T1) in He as [He|[He|(e1 & q1 & i & He & Et1 & Ac1 & Hi & ->)]].
    + exfalso. apply (DJ q); [exact (edge_target _ _ _ _ _ W1 He Et)|exact (accepting_in _ _ Ac)].
    + exact (La2 _ _ _ _ He Et Ac).
    + injection Et as <-. destruct (I2 i Hi) as (X & _). contradiction.
Qed.

Definition plain (b : bool) (ch : chain) : Prop := forall q, In q ch -> clsv b (snd q) /\ fst q <> 0.

Lemma chain_go_spec : forall al b n, injective al -> forall t pre A m, pre <> [] -> adjd (map fst (pre ++ t)) -> plain b t -> cinv al n m pre A ->
  exists B m', chain_go al t (A, m) = Ok (B, m') /\ cinv al n m' (pre ++ t) B.
Proof.
  intros al b n Inj. induction t as [|[c v] t IH]; intros pre A m NE AD P C.
  - exists A, m. rewrite app_nil_r. auto.
  - cbn [chain_go fst snd]. destruct (P (c, v) (or_introl eq_refl)) as (Cl & Nc). cbn [fst snd] in *.
    destruct (cat_cinv al b n m pre c v A Inj Cl Nc C (adjd_last _ _ _ NE AD)) as (B & m' & -> & C'). cbn [bind fst snd].
    destruct (IH (pre ++ [(c, v)]) (concat2 A B) m') as (B' & m'' & E & C'').
    + intros X. destruct pre; discriminate.
    + rewrite <- app_assoc. exact AD.
    + intros q Hq. apply P. right. auto.
    + exact C'.
    + rewrite <- app_assoc in C''. eauto.
Qed.

Lemma chain_spec : forall al b n ch, injective al -> ch <> [] -> adjd (map fst ch) -> plain b ch ->
  exists B m, chainTA al ch n = Ok (B, m) /\ cinv al n m ch B.
Proof.
  intros al b n [|[c v] t] Inj NE AD P; [congruence|]. cbn [chainTA fst snd]. destruct (P (c, v) (or_introl eq_refl)) as (Cl & Nc). cbn [fst snd] in *.
  destruct (sing_spec al n c v b Inj Cl Nc) as (A & m & -> & Le & T & Cs & L & S & La & _). cbn [bind].
  apply (chain_go_spec al b n Inj t [(c, v)] A m); auto; [discriminate|intros q Hq; apply P; right; auto|]. split; [auto|]. split; [auto|]. auto.
Qed.

(* ---------------- the disjunction ---------------- *)

Lemma alt_keyed : forall A B q c, keyed (altTA A B) q c -> keyed A q c \/ keyed B q c.
Proof. intros A B q c (s & es & H & Hc). unfold altTA in H. cbn in H. apply in_app_or in H as [H|H]; [left|right]; exists s, es; auto. Qed.

Lemma empty_tinv : forall al n, tinv al n n (mkTA [] [] []).
Proof.
  intros al n. constructor; try (intros; cbn in *; contradiction).
  - constructor; cbn; [constructor|intros ? ? []|intros ? ? ? ? ? []|intros ? []].
  - intros p c0 e (s & es & [] & _).
  - intros p c0 e (s & es & [] & _).
Qed.

Lemma dnf_go_spec : forall al b n, injective al -> forall chs A m, (forall ch, In ch chs -> ch <> [] /\ adjd (map fst ch) /\ plain b ch) ->
  n <= m -> tinv al n m A -> steady A -> clockSize A <= 1 ->
  exists B m', dnf_go al chs (A, m) = Ok (B, m') /\ m <= m' /\ tinv al n m' B /\ steady B /\ clockSize B <= 1 /\
    forall u, nonneg u -> (lang_of B u <-> lang_of A u \/ exists ch, In ch chs /\ win ch u).
Proof.
  intros al b n Inj. induction chs as [|ch chs IH]; intros A m P Le T S Cs.
  - exists A, m. split; auto. split; auto. split; auto. split; auto. split; auto. intros u _. split; auto. intros [H|(ch & [] & _)]; auto.
  - cbn [dnf_go snd fst]. destruct (P ch (or_introl eq_refl)) as (NE & AD & PL). destruct (chain_spec al b m ch Inj NE AD PL) as (B & m1 & -> & (Le1 & T1 & C1 & L1 & S1 & _)).
    cbn [bind fst snd]. assert (DJ : forall p, In p (map fst (states A)) -> In p (map fst (states B)) -> False) by (intros p; eapply ranges_disjoint; eauto).
    destruct (IH (altTA A B) m1) as (B' & m2 & E & Le2 & T2 & S2 & C2 & L2).
    + intros q Hq. apply P. right. auto.
    + lia.
    + eapply alt_tinv; eauto.
    + intros p c e q He Et K. apply alt_edge in He as [He|He]; apply alt_keyed in K as [K|K].
      * exact (S _ _ _ _ He Et K).
      * apply (DJ q); [eapply edge_target; eauto; eapply ti_wf; eauto|eapply keyed_in; eauto].
      * apply (DJ q); [eapply keyed_in; eauto|eapply edge_target; eauto; eapply ti_wf; eauto].
      * exact (S1 _ _ _ _ He Et K).
    + rewrite alt_clocks. lia.
    + exists B', m2. split; auto. split; [lia|]. split; auto. split; auto. split; auto. intros u N. rewrite (L2 u N), (alt_lang al n m m1 A B Inj T T1 u), (L1 u N). split.
      * intros [[H|H]|(c & Hc & W)]; auto; right; [exists ch; split; [left; auto|auto]|exists c; split; [right; auto|auto]].
      * intros [H|(c & [<-|Hc] & W)]; auto. right. eauto.
Qed.

(* ---------------- nothing to rename ---------------- *)

Lemma steady_keeps : forall A p c e, steady A -> is_edge A p c e -> to_change A c e = false.
Proof.
  intros A p c e S H. unfold to_change. destruct (etgt e) as [q|] eqn:E; auto. destruct (negb (c =? 0)); auto. cbn [andb].
  unfold has_key. destruct (deref A q) as [s|] eqn:D; auto. apply not_true_iff_false. intros X. apply existsb_exists in X as ([c' es] & Hc & X). cbn in X.
  apply Nat.eqb_eq in X. subst c'. apply (S p c e q H E). exists s, es. split; auto. apply assoc_In. auto.
Qed.

Lemma nothing_changed : forall A, steady A -> changed_accepting A = [].
Proof.
  intros A S. unfold changed_accepting. set (l := flat_map _ _). assert (E : l = []); [|rewrite E; reflexivity].
  destruct l as [|x l'] eqn:X; auto. exfalso. assert (H : In x l) by (rewrite X; left; auto). unfold l in H.
  apply in_flat_map in H as ([p s] & H1 & H). apply in_flat_map in H as ([c es] & H2 & H). apply in_flat_map in H as (e & H3 & H). cbn [fst snd] in *.
  rewrite (steady_keeps A p c e S) in H; [destruct H|]. exists s, es. auto.
Qed.

Lemma flat_map_one : forall {X} (f : X -> list X) l, (forall x, In x l -> f x = [x]) -> flat_map f l = l.
Proof. intros X f. induction l as [|x l IH]; intros H; auto. cbn. rewrite (H x (or_introl eq_refl)), IH; auto. intros y Hy. apply H. right. auto. Qed.
Lemma flat_map_none : forall {X Y} (f : X -> list Y) l, (forall x, In x l -> f x = []) -> flat_map f l = [].
Proof. intros X Y f. induction l as [|x l IH]; intros H; auto. cbn. rewrite (H x (or_introl eq_refl)), IH; auto. intros y Hy. apply H. right. auto. Qed.
Lemma filter_none : forall {X} (f : X -> bool) l, (forall x, In x l -> f x = false) -> filter f l = [].
Proof. intros X f. induction l as [|x l IH]; intros H; auto. cbn. rewrite (H x (or_introl eq_refl)), IH; auto. intros y Hy. apply H. right. auto. Qed.

Lemma rename_steady : forall al n0 n A, tinv al n0 n A -> steady A -> renameTA al A n = (A, n).
Proof.
  intros al n0 n A T S. unfold renameTA. rewrite (nothing_changed A S). cbn [map length]. rewrite app_nil_r, Nat.add_0_r. f_equal.
  match goal with |- mkTA ?x _ _ = _ => enough (X : x = states A) by (rewrite X; destruct A; reflexivity) end.
  rewrite <- (map_id (states A)) at 2. apply map_ext_in. intros [p s] H. cbn [fst snd]. f_equal. cbn [mem existsb].
  assert (ED : forall c es e, In (c, es) (next s) -> In e es -> is_edge A p c e) by (intros c es e H1 H2; exists s, es; auto).
  assert (R : rename_state A (fun q => al (n + pos q [])) s = s); [|exact (f_equal (pair p) R)].
  unfold rename_state. rewrite (flat_map_none (fun ce => filter (to_change A (fst ce)) (snd ce))).
  - destruct s as [ma ze nx]. cbn [isMatch zeroDur next] in *. f_equal. rewrite <- (map_id nx) at 2. apply map_ext_in. intros [c es] Hc. cbn [fst snd]. f_equal.
    unfold rename_edges. apply flat_map_one. intros e He. destruct (ti_tgt _ _ _ _ T p c e (ED _ _ _ Hc He)) as (q & Eq). rewrite Eq.
    rewrite (steady_keeps A p c e S (ED _ _ _ Hc He)). reflexivity.
  - intros [c es] Hc. cbn [fst snd]. apply filter_none. intros e He. apply (steady_keeps A p c e S). eauto.
Qed.

(* ---------------- when the durations are defined ---------------- *)

Fixpoint no_plus (r : tre) : Prop :=
  match r with
  | Atom _ | Eps => True
  | Plus _ => False
  | Cat r1 r2 | Alt r1 r2 | And r1 r2 => no_plus r1 /\ no_plus r2
  | Within r1 _ => no_plus r1
  end.
(* What is iterated has neither restrictions nor iterations in it, and fewer
   than 32 disjuncts. *)
Fixpoint simple_plus (r : tre) : Prop :=
  match r with
  | Atom _ | Eps => True
  | Plus r1 => no_within r1 /\ no_plus r1 /\ length (runs r1) < 32
  | Cat r1 r2 | Alt r1 r2 | And r1 r2 => simple_plus r1 /\ simple_plus r2
  | Within r1 _ => simple_plus r1
  end.

Lemma bare_pch : forall r, no_within r -> no_plus r -> forall ch, In ch (pch r) -> forall p, In p ch -> snd p = Ok [interval_default].
Proof.
  induction r as [c| |r IH|r1 IH1 r2 IH2|r1 IH1 r2 IH2|r1 IH1 r2 IH2|r IH Iv]; intros NW NP ch Hc p Hp; cbn [pch] in Hc; try contradiction.
  - destruct Hc as [<-|[]]. destruct Hp as [<-|[]]. reflexivity.
  - destruct NW as [W1 W2], NP as [P1 P2]. apply in_flat_map in Hc as (x & Hx & Hc). apply in_map_iff in Hc as (y & <- & Hy). apply in_app_or in Hp as [Hp|Hp]; [eapply IH1|eapply IH2]; eauto.
  - destruct NW as [W1 W2], NP as [P1 P2]. apply in_app_or in Hc as [Hc|Hc]; [eapply IH1|eapply IH2]; eauto.
  - destruct NW as [_ []].
Qed.

Definition unb (V : durs) : Prop := exists K, V = Ok [K] /\ fst (upb K) = PInf.

Lemma bare_sum : forall ch, ch <> [] -> (forall p, In p ch -> snd p = Ok [interval_default]) -> unb (och_V ch).
Proof.
  intros [|[c V] ch] N B; [congruence|]. unfold och_V, sumV. cbn [map allok snd]. pose proof (B _ (or_introl eq_refl)) as BV. cbn [snd] in BV. rewrite BV. cbn [bind].
  assert (X : allok (map snd ch) = Ok (map (fun _ => [interval_default]) ch)).
  { assert (B' : forall p, In p ch -> snd p = Ok [interval_default]) by (intros q Hq; apply B; right; auto). clear - B'.
    induction ch as [|[c V] ch IH]; auto. cbn. pose proof (B' _ (or_introl eq_refl)) as BV. cbn [snd] in BV. rewrite BV. cbn [bind]. rewrite IH by (intros x Hx; apply B'; right; auto). reflexivity. }
  match goal with |- context [allok ?l] => change (allok l) with (allok (map snd ch)) end. rewrite X. cbn [bind sum_vs]. clear. assert (G : forall K, fst (upb K) = PInf -> unb (Ok (fold_left isum (map (fun _ => [interval_default]) ch) [K]))).
  { induction ch as [|q ch IH]; intros K HK; [exists K; auto|]. cbn [map fold_left]. apply IH. cbn. rewrite HK. reflexivity. }
  apply G. reflexivity.
Qed.

Lemma land_unb : forall K, fst (upb K) = PInf -> length (land [interval_default] [K]) <= 1 /\ forall J, In J (land [interval_default] [K]) -> fst (upb J) = PInf.
Proof.
  intros K HK. unfold land, land1. cbn [map flat_map]. rewrite app_nil_r. cbn [filter]. destruct (negb _); cbn [length]; [|split; [lia|intros J []]].
  split; [lia|]. intros J [<-|[]]. cbn. unfold bmin, binf. destruct (bltb _ _); auto.
Qed.

Lemma plus_set_unb : forall L, length L < 32 -> (forall K, In K L -> fst (upb K) = PInf) -> exists R, plus_set L = Ok R.
Proof.
  intros L Ln U. unfold plus_set. destruct (Nat.leb_spec 32 (length L)); [lia|]. assert (X : exists ps, omap iplus L = Ok ps).
  { clear - U. induction L as [|K L IH]; [eexists; reflexivity|]. cbn. unfold iplus at 1. rewrite (U K (or_introl eq_refl)). cbn [bind].
    destruct IH as (ps & ->); [intros J HJ; apply U; right; auto|]. cbn [bind]. eauto. }
  destruct X as (ps & ->). cbn [bind]. destruct ps as [|p [|p' ps]]; eauto.
Qed.

Lemma plusV_unb : forall l, length l < 32 -> (forall V, In V l -> unb V) -> exists R, plusV l = Ok R.
Proof.
  intros l Ln U. unfold plusV. assert (X : exists vs, allok l = Ok vs /\ length (concat (map (fun v => land [interval_default] v) vs)) <= length l /\
      forall J, In J (concat (map (fun v => land [interval_default] v) vs)) -> fst (upb J) = PInf).
  { clear Ln. induction l as [|V l IH]; [exists []; split; [auto|split; [cbn; lia|intros J []]]|].
    destruct IH as (vs & E & L1 & P1); [intros W HW; apply U; right; auto|]. destruct (U V (or_introl eq_refl)) as (K & -> & HK).
    exists ([K] :: vs). split; [cbn [allok bind]; rewrite E; reflexivity|]. cbn [map concat]. destruct (land_unb K HK) as (L2 & P2). split.
    - rewrite app_length. cbn [length]. lia.
    - intros J HJ. apply in_app_or in HJ as [HJ|HJ]; auto. }
  destruct X as (vs & -> & L1 & P1). cbn [bind]. apply plus_set_unb; auto. lia.
Qed.

Lemma pch_ok : forall r, sigfrag r -> simple_plus r -> forall ch, In ch (pch r) -> forall p, In p ch -> exists v, snd p = Ok v.
Proof.
  assert (SV : forall ch : ochain, (forall p, In p ch -> exists v, snd p = Ok v) -> exists vs, allok (map snd ch) = Ok vs).
  { induction ch as [|[c V] ch IH]; intros H; [eexists; reflexivity|]. cbn. destruct (H _ (or_introl eq_refl)) as (v & EV). cbn [snd] in EV. rewrite EV. cbn [bind].
    destruct IH as (vs & ->); [intros q Hq; apply H; right; auto|]. cbn [bind]. eauto. }
  induction r as [c| |r IH|r1 IH1 r2 IH2|r1 IH1 r2 IH2|r1 IH1 r2 IH2|r IH Iv]; intros F S ch Hc p Hp; cbn [pch] in Hc; try contradiction.
  - destruct Hc as [<-|[]]. destruct Hp as [<-|[]]. eexists. reflexivity.
  - destruct Hc as [<-|[]]. destruct Hp as [<-|[]]. cbn [snd]. destruct S as (NW & NP & Ln). destruct F as (F & _). destruct (pch_ne r F) as (_ & NE).
    apply plusV_unb; [rewrite map_length; rewrite <- pch_runs, map_length in Ln; auto|]. intros V HV. apply in_map_iff in HV as (x & <- & Hx).
    apply bare_sum; auto. intros q Hq. eapply bare_pch; eauto.
  - destruct F as (F1 & F2 & _), S as (S1 & S2). apply in_flat_map in Hc as (x & Hx & Hc). apply in_map_iff in Hc as (y & <- & Hy). apply in_app_or in Hp as [Hp|Hp]; [eapply IH1|eapply IH2]; eauto.
  - destruct F as (F1 & F2), S as (S1 & S2). apply in_app_or in Hc as [Hc|Hc]; [eapply IH1|eapply IH2]; eauto.
  - destruct F as (F & _). apply in_map_iff in Hc as (x & <- & Hx). destruct Hp as [<-|[]]. cbn [snd]. destruct (SV x) as (vs & E); [intros q Hq; eapply IH; eauto|].
    unfold och_V, sumV. rewrite E. cbn. eauto.
Qed.

Lemma vchs_ok : forall r, sigfrag r -> simple_plus r -> exists vss, vchs r = Ok vss.
Proof.
  intros r F S. pose proof (pch_ok r F S) as H. unfold vchs. clear F S. induction (pch r) as [|ch chs IH]; [eexists; reflexivity|]. cbn.
  assert (X : exists vs, allok (map snd ch) = Ok vs).
  { specialize (H ch (or_introl eq_refl)). clear IH. induction ch as [|[c V] ch IH]; [eexists; reflexivity|]. cbn. destruct (H _ (or_introl eq_refl)) as (v & EV). cbn [snd] in EV. rewrite EV. cbn [bind].
    destruct IH as (vs & ->); [intros q Hq; apply H; right; auto|]. cbn [bind]. eauto. }
  destruct X as (vs & ->). cbn [bind]. destruct IH as (vss & ->); [intros x Hx; apply H; right; auto|]. cbn [bind]. eauto.
Qed.

(* ---------------- the automaton ---------------- *)

Lemma runs_letters : forall r, sigfrag r -> forall l, In l (runs r) -> forall c, In c l -> c <> 0.
Proof.
  induction r as [c| |r IH|r1 IH1 r2 IH2|r1 IH1 r2 IH2|r1 IH1 r2 IH2|r IH Iv]; intros F l Hl x Hx; cbn [runs] in Hl; cbn [sigfrag] in F; try contradiction.
  - destruct Hl as [<-|[]]. destruct Hx as [<-|[]]. auto.
  - destruct F as (F & _). destruct (runs_ne r F) as (N1 & N2). destruct Hl as [<-|[]]. destruct Hx as [<-|[]]. destruct (runs r) as [|l0 ls] eqn:E; [congruence|]. cbn [hd].
    specialize (N2 l0 (or_introl eq_refl)). destruct l0 as [|y l0]; [congruence|]. cbn. apply (IH F (y :: l0)); left; auto.
  - destruct F as (F1 & F2 & _). apply in_flat_map in Hl as (a & Ha & Hl). apply in_map_iff in Hl as (b & <- & Hb). apply in_app_or in Hx as [Hx|Hx]; [eapply IH1|eapply IH2]; eauto.
  - destruct F as (F1 & F2). apply in_app_or in Hl as [Hl|Hl]; [eapply IH1|eapply IH2]; eauto.
  - destruct F as (F & _). destruct (runs_ne r F) as (_ & N2). apply in_map_iff in Hl as (a & <- & Ha). destruct Hx as [<-|[]]. specialize (N2 a Ha). destruct a as [|y a]; [congruence|]. cbn. apply (IH F (y :: a)); [auto|left; auto].
Qed.

Lemma finish_spec : forall al b r vss n, injective al -> sigfrag r -> dur_ok b r -> pV (cls b) r -> vchs r = Ok vss ->
  exists A m, finish al (sig_chains r vss) n = Ok (A, m) /\ tinv al n m A /\ clockSize A <= 1 /\
    forall u, nonneg u -> (lang_of A u <-> exists w, sig_words false r w /\ deq (merge_dw w) u).
Proof.
  intros al b r vss n Inj F DU P E.
  destruct (dnf_go_spec al b n Inj (sig_chains r vss) (mkTA [] [] []) n) as (B & m & G & Le & T & S & Cs & L).
  - intros ch Hc. pose proof (runs_chains_ne r vss F E) as NE. rewrite Forall_forall in NE. split; [auto|]. unfold sig_chains in Hc. rewrite <- pch_runs in Hc.
    unfold vchs in E. apply (chains_in _ _ E) in Hc as (o & cv & Ho & O & ->). destruct cv as [|p cv]; [split; [exact Logic.I|intros q []]|]. cbn [mvs].
    split; [apply adjd_mv|]. assert (CL : forall q, In q (p :: cv) -> clsv b (snd q)) by (intros q Hq K HK; eapply okc_cls; eauto).
    intros q Hq. split; [eapply mv_cls; [apply CL; left; auto|intros x Hx; apply CL; right; exact Hx|exact Hq]|].
    destruct (mv_letters _ _ _ Hq) as (q' & Hq' & EQ). intros Z0. assert (Z1 : fst q' = 0) by (etransitivity; [exact EQ|exact Z0]). revert Z1. apply (runs_letters r F (map fst o)); [rewrite <- pch_runs; apply in_map; auto|]. rewrite (okc_fst _ _ O). apply in_map. auto.
  - lia.
  - apply empty_tinv.
  - intros p c e q (s & es & [] & _).
  - cbn. lia.
  - unfold finish. rewrite G. cbn [bind fst snd]. rewrite (rename_steady al n m B T S). exists B, m. split; auto. split; auto. split; auto.
    intros u N. rewrite (L u N), <- (sig_chains_words b r vss F DU P E u). split; auto. intros [(p & q & v & [] & _)|H]; auto.
Qed.
