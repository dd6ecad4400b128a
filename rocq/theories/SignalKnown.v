(* Signal mode: the constants of the guards of a translated expression are known
   to its zone automaton, if no restriction has the upper bound 0. *)
From Coq Require Import QArith Qround Lqa Bool List ZArith Arith Lia.
From Verif Require Import Num NumFacts Outcome Interval IntervalFacts Constraint Zone TA Spec TAFacts Tre TreRun TreFacts TreBuild TreMild TreKnown PropReal
  Signal SignalFacts SignalTerm SignalSpec SignalRep SignalBuild SignalTop SignalDur SignalWords SignalAut SignalLast.
Import ListNotations.
Open Scope nat_scope.

(* The lower bound is finite; the upper bound is infinite or at least 1. *)
Definition late (K : interval) : Prop := (exists l, fst (lob K) = Fin l) /\ (fst (upb K) = PInf \/ exists u, fst (upb K) = Fin u /\ (1 <= u)%Q).

Lemma late_add : addy late.
Proof.
  intros I J ((l & E) & U) ((m & F) & V). unfold late, iadd, badd. cbn [lob upb fst snd]. rewrite E, F. split; [eexists; reflexivity|].
  destruct U as [->|(u & -> & Lu)], V as [->|(v & -> & Lv)]; cbn; auto. right. exists (u + v)%Q. split; auto. lra.
Qed.
Lemma late_zero : padd late.
Proof.
  intros J ((m & F) & V). unfold late, iadd, badd. cbn [lob upb fst snd bzero]. rewrite F. split; [eexists; reflexivity|].
  destruct V as [->|(v & -> & Lv)]; cbn; auto. right. exists (0 + v)%Q. split; auto. lra.
Qed.
Lemma bmax_one : forall a b, bmax a b = a \/ bmax a b = b.
Proof. intros a b. unfold bmax. destruct (bltb a b); auto. Qed.
Lemma late_iand : forall I J, late I -> late J -> late (iand I J).
Proof.
  intros I J (LI & UI) (LJ & UJ). unfold late, iand. cbn [lob upb]. split.
  - destruct (bmax_one (lob I) (lob J)) as [-> | ->]; auto.
  - destruct (SignalDur.bmin_cases (upb I) (upb J)) as [-> | ->]; auto.
Qed.
Lemma late_default : late interval_default.
Proof. split; [eexists; reflexivity|left; reflexivity]. Qed.
Lemma late_iplus : forall K p J, late K -> iplus K = Ok p -> In J p -> late J.
Proof.
  intros [[lv lc] [uv uc]] p J ((l & E) & U) EP HJ. cbn in E, U. subst lv. unfold iplus in EP. cbn in EP. destruct U as [->|(u & -> & Lu)].
  - injection EP as <-. destruct HJ as [<-|[]]. split; [eexists; reflexivity|left; reflexivity].
  - destruct (Qeq_bool (u - l) 0); [discriminate|]. destruct (_ <? 0)%Z; [discriminate|]. injection EP as <-. apply in_app_or in HJ as [HJ|[<-|[]]].
    + apply in_map_iff in HJ as (i & <- & Hi). apply in_seq in Hi. split; [eexists; reflexivity|]. right. eexists. split; [reflexivity|].
      assert (1 <= inject_Z (Z.of_nat i))%Q by (change 1%Q with (inject_Z 1); rewrite <- Zle_Qle; lia). nra.
    + split; [eexists; reflexivity|left; reflexivity].
Qed.
Lemma cu_late : closed_under late.
Proof. constructor; [exact late_default|exact late_add|exact late_zero|intros I H; apply late_iand; auto; exact late_default|intros I p K H E HK; eapply late_iplus; eauto]. Qed.

Lemma pV_late : forall r, all_within late r -> pV late r.
Proof.
  induction r as [c| |r IH|r1 IH1 r2 IH2|r1 IH1 r2 IH2|r1 IH1 r2 IH2|r IH Iv]; intros N; cbn in N.
  - apply pV_atom. exact late_default.
  - intros ch o [].
  - eapply pV_plus; [exact cu_late|auto|auto].
  - destruct N. apply pV_cat; auto.
  - destruct N. apply pV_alt; auto.
  - intros ch o [].
  - destruct N as [N B]. eapply pV_within; [exact late_add|auto|]. intros v K HV HK. unfold land1 in HK. apply filter_In in HK as [HK _]. apply in_map_iff in HK as (J & <- & HJ).
    apply late_iand; auto.
Qed.

Lemma mv_late : forall t p, (forall K, In K (snd p) -> late K) -> (forall q, In q t -> forall K, In K (snd q) -> late K) -> forall q, In q (mv p t) -> forall K, In K (snd q) -> late K.
Proof.
  induction t as [|q t IH]; intros p CP CT x Hx; cbn [mv] in Hx; [destruct Hx as [<-|[]]; auto|].
  destruct (fst p =? fst q).
  - apply (IH (fst p, isum (snd p) (snd q))); auto; [cbn; apply isum_all; auto; [exact late_add|apply CT; left; auto]|intros; eapply CT; [right|]; eauto].
  - destruct Hx as [<-|Hx]; auto. apply (IH q); auto; [apply CT; left; auto|intros; eapply CT; [right|]; eauto].
Qed.

(* ---------------- the guards ---------------- *)

Lemma guard_late : forall b K g, cls b K -> late K -> sing_guard K = Ok g -> forall k, In k g -> (1 <= cc k)%Z.
Proof.
  intros b [[lv lc] [uv uc]] g ((l & E & (z & Z) & L) & U & _) (_ & LU) G k Hk. rewrite guard_split in G. unfold cls_up in U. cbn [lob upb fst snd] in *. subst lv.
  unfold glo, beqb, neqb in G. cbn [fst snd bzero] in G.
  assert (P1 : forall (x : Q) y, (x == inject_Z y)%Q -> (0 < x)%Q -> (1 <= y)%Z).
  { intros x y Exy Hx. rewrite Exy in Hx. change 0%Q with (inject_Z 0) in Hx. rewrite <- Zlt_Qlt in Hx. lia. }
  assert (GU : exists gu, gup (uv, uc) = Some gu /\ forall k, In k gu -> (1 <= cc k)%Z).
  { destruct U as [->|(u & -> & (y & Y))]; [exists []; split; [auto|intros ? []]|]. unfold gup. cbn [fst snd]. rewrite (int_of u y Y). eexists. split; [reflexivity|]. intros k0 [<-|[]]. cbn.
    destruct LU as [LU|(u' & Eu & Lu)]; [discriminate|]. injection Eu as <-. apply (P1 u y Y). lra. }
  destruct GU as (gu & EU & HU). rewrite EU in G. destruct (Qeq_bool l 0) eqn:B; cbn [andb] in G.
  - apply Qeq_bool_iff in B. assert (lc = true) as -> by (destruct L as [[_ L]|[L _]]; [auto|lra]). cbn [Bool.eqb app] in G. injection G as <-. auto.
  - apply Qeq_bool_neq in B. rewrite (int_of l z Z) in G. injection G as <-. destruct Hk as [<-|Hk]; auto. cbn. apply (P1 l z Z). destruct L as [[L _]|[L _]]; lra.
Qed.
Lemma guards_late : forall b v gs, clsv b v -> (forall K, In K v -> late K) -> oseq sing_guard v = Ok gs -> forall g k, In g gs -> In k g -> (1 <= cc k)%Z.
Proof.
  intros b. induction v as [|K v IH]; intros gs C L E g k Hg Hk; cbn [oseq] in E; [injection E as <-; destruct Hg|].
  destruct (sing_guard K) as [g0| | | |] eqn:G; cbn [bind] in E; try discriminate. destruct (oseq sing_guard v) as [gs0| | | |] eqn:O; cbn [bind] in E; try discriminate.
  injection E as <-. destruct Hg as [<-|Hg].
  - eapply guard_late; eauto; [apply C|apply L]; left; auto.
  - eapply IH; eauto; [intros J HJ; apply C|intros J HJ; apply L]; right; auto.
Qed.

Lemma sing_known : forall al b c v n A m, clsv b v -> (forall K, In K v -> late K) -> singTA al c v n = Ok (A, m) -> consts_known A.
Proof.
  intros al b c v n A m C L E. unfold singTA in E. destruct v as [|K v].
  { injection E as <- <-. split; [left; reflexivity|]. intros p c0 e g (s & es & [] & _). }
  destruct (oseq sing_guard (K :: v)) as [gs| | | |] eqn:G; cbn [bind] in E; try discriminate. injection E as <- _.
  pose proof (guards_late b (K :: v) gs C L G) as GL. destruct (fold_max (concat gs) (-1)%Z) as (_ & FM).
  assert (M0 : fold_left (fun m g => Z.max m (cc g)) (concat gs) (-1)%Z = (-1)%Z \/ (1 <= fold_left (fun m g => Z.max m (cc g)) (concat gs) (-1)%Z)%Z).
  { destruct (concat gs) as [|g0 t] eqn:EC; [left; reflexivity|right]. specialize (FM g0 (or_introl eq_refl)).
    assert (In g0 (concat gs)) by (rewrite EC; left; auto). apply in_concat in H as (x & Hx & H). specialize (GL x g0 Hx H). lia. }
  set (M := fold_left _ _ _) in *. split; cbn [maxC].
  - destruct (Z.eqb_spec M (-1)) as [EM|NM]; [left; reflexivity|right]. exists M. split; [left; auto|]. destruct M0; [congruence|auto].
  - intros p c0 e g (s & es & H & Hc & He) Hg. destruct H as [H|[H|[]]]; injection H as <- <-; cbn [next] in Hc; [|destruct Hc]. destruct Hc as [Hc|[]]. injection Hc as <- <-.
    apply in_map_iff in He as (g0 & <- & H0). cbn [eguard] in Hg. assert (X : In g (concat gs)) by (apply in_concat; eauto). specialize (FM g X). specialize (GL g0 g H0 Hg).
    destruct (Z.eqb_spec M (-1)) as [EM|NM]; [lia|]. exists M. split; [left; auto|auto].
Qed.

Lemma known_join : forall A B C, consts_known A -> consts_known B -> maxC C = max_merge (maxC A) (maxC B) ->
  (forall p c e, is_edge C p c e -> exists p' e', (is_edge A p' c e' \/ is_edge B p' c e') /\ eguard e = eguard e') -> consts_known C.
Proof.
  intros A B C (A1 & A2) (B1 & B2) E ED. unfold clockSize in *. split; unfold clockSize; rewrite E.
  - destruct A1 as [A1|(k & H & K)]; [destruct B1 as [B1|(k & H & K)]|].
    + left. destruct (maxC A), (maxC B); try discriminate. reflexivity.
    + right. destruct (under_merge (maxC A) (maxC B) 1) as (k' & H1 & H2); eauto. right. exists k. auto.
    + right. destruct (under_merge (maxC A) (maxC B) 1) as (k' & H1 & H2); eauto. left. exists k. auto.
  - intros p c e g He Hg. destruct (ED p c e He) as (p' & e' & He' & EG). rewrite EG in Hg. apply under_merge. destruct He' as [H|H]; [left; eapply A2|right; eapply B2]; eauto.
Qed.
Lemma cat_known : forall al n m A B, tinv al n m A -> consts_known A -> consts_known B -> consts_known (concat2 A B).
Proof.
  intros al n m A B T KA KB. apply (known_join A B); auto. intros p c e He. apply (cat_edge al n m A B T) in He as [He|[He|(e1 & q1 & i & He & Et1 & Ac & Hi & ->)]]; eauto.
Qed.
Lemma alt_known : forall A B, consts_known A -> consts_known B -> consts_known (altTA A B).
Proof. intros A B KA KB. apply (known_join A B); auto. intros p c e He. apply alt_edge in He as [He|He]; eauto. Qed.

Definition latec (ch : list (nat * list interval)) : Prop := forall q, In q ch -> forall K, In K (snd q) -> late K.

Lemma chain_go_known : forall al b n, injective al -> forall t pre A m B m', pre <> [] -> adjd (map fst (pre ++ t)) -> SignalAut.plain b t -> latec t ->
  cinv al n m pre A -> consts_known A -> chain_go al t (A, m) = Ok (B, m') -> consts_known B.
Proof.
  intros al b n Inj. induction t as [|[c v] t IH]; intros pre A m B m' NE AD P Lt C KA E.
  - cbn in E. injection E as <- <-. auto.
  - cbn [chain_go fst snd] in E. destruct (P (c, v) (or_introl eq_refl)) as (Cl & Nc). cbn [fst snd] in *.
    destruct (cat_cinv al b n m pre c v A Inj Cl Nc C (adjd_last _ _ _ NE AD)) as (B1 & m1 & E1 & C'). rewrite E1 in E. cbn [bind fst snd] in E.
    apply (IH (pre ++ [(c, v)]) (concat2 A B1) m1 B m'); auto.
    + intros X. destruct pre; discriminate.
    + rewrite <- app_assoc. exact AD.
    + intros q Hq. apply P. right. auto.
    + intros q Hq. apply Lt. right. auto.
    + eapply cat_known; [apply C|auto|]. eapply sing_known; eauto. apply (Lt (c, v) (or_introl eq_refl)).
Qed.
Lemma chain_known : forall al b n ch B m, injective al -> ch <> [] -> adjd (map fst ch) -> SignalAut.plain b ch -> latec ch -> chainTA al ch n = Ok (B, m) -> consts_known B.
Proof.
  intros al b n [|[c v] t] B m Inj NE AD P Lt E; [congruence|]. cbn [chainTA fst snd] in E. destruct (P (c, v) (or_introl eq_refl)) as (Cl & Nc). cbn [fst snd] in *.
  destruct (sing_spec al n c v b Inj Cl Nc) as (A & m1 & E1 & Le & T & Cs & La & S & Ls & _). rewrite E1 in E. cbn [bind] in E.
  apply (chain_go_known al b n Inj t [(c, v)] A m1 B m); auto.
  - discriminate.
  - intros q Hq; apply P; right; auto.
  - intros q Hq. apply Lt. right. auto.
  - split; [auto|]. split; [auto|]. auto.
  - eapply sing_known; eauto. apply (Lt (c, v) (or_introl eq_refl)).
Qed.
Lemma dnf_go_known : forall al b, injective al -> forall chs A m B m',
  (forall ch, In ch chs -> ch <> [] /\ adjd (map fst ch) /\ SignalAut.plain b ch /\ latec ch) ->
  consts_known A -> dnf_go al chs (A, m) = Ok (B, m') -> consts_known B.
Proof.
  intros al b Inj. induction chs as [|ch chs IH]; intros A m B m' P KA E.
  - cbn in E. injection E as <- <-. auto.
  - cbn [dnf_go snd fst] in E. destruct (P ch (or_introl eq_refl)) as (NE & AD & PL & Lt).
    destruct (chainTA al ch m) as [[B1 m1]| | | |] eqn:E1; cbn [bind fst snd] in E; try discriminate.
    apply (IH (altTA A B1) m1 B m'); auto; [intros q Hq; apply P; right; auto|]. apply alt_known; auto. eapply chain_known; eauto.
Qed.

Lemma finish_known : forall al b r vss n A m, injective al -> sigfrag r -> dur_ok b r -> pV (cls b) r -> all_within late r -> vchs r = Ok vss ->
  finish al (sig_chains r vss) n = Ok (A, m) -> consts_known A.
Proof.
  intros al b r vss n A m Inj F DU P LT E FI. pose proof (pV_late r LT) as PL.
  assert (CH : forall ch, In ch (sig_chains r vss) -> ch <> [] /\ adjd (map fst ch) /\ SignalAut.plain b ch /\ latec ch).
  { intros ch Hc. pose proof (runs_chains_ne r vss F E) as NE. rewrite Forall_forall in NE. split; [auto|]. unfold sig_chains in Hc. rewrite <- pch_runs in Hc.
    unfold vchs in E. apply (chains_in _ _ E) in Hc as (o & cv & Ho & O & ->). destruct cv as [|p cv]; [split; [exact Logic.I|split; [intros q []|intros q []]]|]. cbn [mvs].
    split; [apply adjd_mv|]. assert (CL : forall q, In q (p :: cv) -> clsv b (snd q)) by (intros q Hq K HK; eapply okc_cls; eauto).
    assert (CT : forall q, In q (p :: cv) -> forall K, In K (snd q) -> late K) by (intros q Hq K HK; eapply okc_cls; eauto). split.
    - intros q Hq. split; [eapply mv_cls; [apply CL; left; auto|intros x Hx; apply CL; right; exact Hx|exact Hq]|].
      destruct (mv_letters _ _ _ Hq) as (q' & Hq' & EQ). eapply runs_letters; [exact F|rewrite <- pch_runs; apply in_map; exact Ho|].
      rewrite (okc_fst _ _ O), <- EQ. apply in_map. auto.
    - intros q Hq. eapply mv_late; [apply CT; left; auto|intros x Hx; apply CT; right; exact Hx|exact Hq]. }
  destruct (dnf_go_spec al b n Inj (sig_chains r vss) (mkTA [] [] []) n) as (B & m1 & G & Le & T & S & _).
  - intros ch Hc. destruct (CH ch Hc) as (X1 & X2 & X3 & _). auto.
  - lia.
  - apply empty_tinv.
  - intros p c e q (s & es & [] & _).
  - cbn. lia.
  - unfold finish in FI. rewrite G in FI. cbn [bind fst snd] in FI. rewrite (rename_steady al n m1 B T S) in FI. injection FI as <- <-.
    eapply dnf_go_known; eauto. split; [left; reflexivity|]. intros p c e g (s & es & [] & _).
Qed.
