(* Property C77: the message that the pattern matches nothing. *)
From Coq Require Import QArith Lqa Bool List ZArith Arith Lia Sorted Ascii String List.
From Verif Require Import Num NumFacts Outcome Interval IntervalFacts Constraint Zone TA Spec TAFacts PropBase WfDec Word ZA ZAFacts ZASpec ZAGraph PropZA ZATerm ZALive ZADiv ZAFin ZAIdle ZALast ZALoop Monaa MonaaFacts MonaaVec Skip SkipFacts ApFacts Sunday
  SundayTerm Kmp KmpUB KmpTerm KmpHang PropSkip PropSkipEx PropMonaa PropTerm Intersection Tre TreRun TreFacts TreBuild TreLang PropTre TreMild TreLean TreLoop TreOrder TreKnown Text TextFacts PropText Ans Signal Parse ParseSpec ParseFacts PropParse Main MainFacts PropMain PropEvent PropExact PropReal.
Import ListNotations.
Open Scope list_scope.
Open Scope nat_scope.

(* No interval is written backwards. *)
Fixpoint rising_range (r : restr) : Prop := match r with RRange _ a b _ => (a <= b)%Z | RPar r => rising_range r | RLt z | RLe z => (0 <= z)%Z | _ => True end.
Fixpoint forwards (x : sx) : Prop :=
  match x with
  | XAtom _ => True
  | XPar y | XPlus y | XStar y => forwards y
  | XCat y z | XOr y z | XAnd y z => forwards y /\ forwards z
  | XIn y r => forwards y /\ rising_range r
  end.
Lemma range_ordered : forall r, rising_range r -> forall lo up, fst (lob (rden r)) = Fin (inject_Z lo) -> fst (upb (rden r)) = Fin (inject_Z up) -> (lo <= up)%Z.
Proof.
  induction r as [lc a b rc|z|z|z|z|z|r IH]; cbn; intros H lo up E1 E2; try discriminate; auto; injection E1 as E1; injection E2 as E2; lia.
Qed.
Lemma forwards_ordered : forall x, forwards x -> ordered (den x).
Proof.
  induction x as [c|y IH|y IH|y IH|y IHy z IHz|y IHy z IHz|y IHy z IHz|y IH r]; cbn [forwards den]; intros H; auto; try exact Logic.I; try (destruct H; split; auto).
  - specialize (IH H). destruct (mkPlus_cases (den y)) as [->|(r1 & E & ->)]; auto.
  - specialize (IH H). split; [exact Logic.I|]. destruct (mkPlus_cases (den y)) as [->|(r1 & E & ->)]; auto.
  - apply range_ordered. auto.
Qed.

Lemma last_ge : forall w lo, increasing lo w -> (lo <= last (map snd w) lo)%Q.
Proof.
  induction w as [|[c t] w IH]; intros lo I; [cbn; lra|]. destruct I as [I1 I2]. specialize (IH t I2). cbn [map snd]. rewrite last_cons'. lra.
Qed.
Lemma between_all : forall w lo t' , increasing lo w -> (last (map snd w) lo < t')%Q -> between w lo t' = w.
Proof.
  intros w lo t' I L. unfold between.
  assert (X : forall w lo0, (lo <= lo0)%Q -> increasing lo0 w -> (last (map snd w) lo0 < t')%Q ->
    filter (fun e => negb (Qle_bool (snd e) lo) && negb (Qle_bool t' (snd e))) w = w).
  { clear. induction w as [|[c t] w IH]; intros lo0 L0 I L; auto. cbn [increasing] in I. destruct I as [I1 I2]. cbn [map snd] in L. rewrite last_cons' in L.
    cbn [filter snd].
    assert (A : Qle_bool t lo = false) by (destruct (Qle_bool t lo) eqn:B; auto; apply Qle_bool_iff in B; lra). rewrite A.
    pose proof (last_ge w t I2) as LT.
    assert (B : Qle_bool t' t = false) by (destruct (Qle_bool t' t) eqn:B; auto; apply Qle_bool_iff in B; lra). rewrite B. cbn [negb andb].
    apply (f_equal (cons (c, t))). apply (IH t); auto. lra. }
  apply (X w lo); auto. lra.
Qed.

Lemma delays_in : forall w T c d, In (c, d) (delays T w) -> exists t, In (c, t) w.
Proof.
  induction w as [|[c t] w IH]; intros T c0 d H; [destruct H|]. destruct H as [[= <- <-]|H]; [exists t; left; auto|].
  destruct (IH _ _ _ H) as (t0 & H0). exists t0. right. auto.
Qed.

(* A word that the automaton without $ accepts, followed by $, is accepted. *)
Lemma accepted_match : forall al0 x D m Ap w, injective al0 -> TreMild.plain (den (XCat x (XAtom dollar))) -> nclocks (den (XCat x (XAtom dollar))) <= 256 ->
  toEventTA al0 (den (XCat x (XAtom dollar))) 0 = Ok (D, m) -> wf_ta D -> make_ap D = Ok Ap -> StronglySorted le (inits D) ->
  (forall p e, is_edge D p dollar e -> eguard e = [] /\ exists q, etgt e = Some q /\ accepting D q) ->
  increasing 0 w -> accepts Ap w -> exists t', is_match x w 0 t' /\ between w 0 t' = w.
Proof.
  intros al0 x D m Ap w Inj Pl K E WD HA SO DA Inc (p & q & v & T & Hp & R & Ac). pose proof (toEventTA_inv _ _ _ _ _ Inj (plain_ok _ Pl) K E) as B.
  assert (RD : forall p v T w q v' T', Spec.run Ap p v T w q v' T' -> Spec.run D p v T w q v' T' /\ forall c t, In (c, t) w -> c <> dollar).
  { clear - HA. intros p v T w q v' T' R. induction R as [|p v T c t e w q p' v' T' He Et Sg R [IH1 IH2]]; [split; [constructor|intros c t []]|].
    apply (ap_edge D Ap HA) in He as [He N]. split; [econstructor; eauto|]. intros c0 t0 [[= <- <-]|H]; eauto. }
  destruct (RD _ _ _ _ _ _ _ R) as [R' ND]. apply (ap_inits D Ap WD HA SO) in Hp.
  assert (X : accepting D q \/ exists e, is_edge D q dollar e).
  { destruct Ac as (s & Hs & Ms). destruct (make_ap_states _ _ HA) as (ES & _). rewrite ES in Hs. apply in_map_iff in Hs as ([q0 s0] & [= <- <-] & Hs).
    unfold ap_state in Ms. destruct (assoc dollar (next s0)) as [es|] eqn:Ea; [right|left; exists s0; auto]. apply assoc_In in Ea.
    destruct es as [|e es]; [exfalso; exact (ti_full _ _ _ _ (bu_inv _ _ _ _ _ B) q0 s0 dollar [] Hs Ea eq_refl)|]. exists e, s0, (e :: es). cbn. auto. }
  destruct X as [AD|(e & He)].
  - exfalso. assert (L : lang_of D (delays 0 w)) by (apply (proj1 (accepts_alang D w)); exists p, q, v, T; auto).
    apply (bu_lang _ _ _ _ _ B) in L. destruct L as (u1 & u2 & Eu & _ & (d & ->)).
    destruct (delays_in w 0%Q dollar d) as (t & Ht); [rewrite Eu; apply in_or_app; right; left; auto|]. exact (ND _ _ Ht eq_refl).
  - set (t' := (last (map snd w) 0 + 1)%Q). exists t'.
    pose proof (last_ge w 0%Q Inc) as L0.
    assert (BA : between w 0 t' = w) by (apply between_all; auto; unfold t'; lra). split; auto.
    assert (Mt : matches D w 0 t').
    { split; [lra|]. split; [unfold t'; lra|]. destruct (DA q e He) as (Eg & q' & Et & Aq). exists p, q, v, T, e, q'. rewrite BA. repeat split; auto. rewrite Eg.
      intros g []. }
    apply (C42_matches al0 _ 0 D m w 0 t' Inj (plain_ok _ Pl) K E) in Mt as (M0 & M1 & M2). split; auto. split; auto. apply den_sem. exact M2.
Qed.

Section Empty.
Context (sepA sepD : heap -> nat -> outcome heap) (dec : list nat -> Q) (al0 : nat -> ptr) (al : alloc) (W : world).
Notation run fuel o := (main sepA sepD dec fuel al0 al W o).

(* monaa exits with 10 exactly if no word has a match of the pattern with an event:
   the word that it reads plays no role.  Missing: what C68_exact_partial lacks, and
   intervals that are written backwards. *)
Theorem C77_message_partial : forall x o s input w, injective al0 -> (forall B m, wf_ta B -> alloc_ok al B m) ->
  event_run o s -> meant (XCat x (XAtom dollar)) s -> tame x -> fair_loops x -> plain_start x \/ rising al0 -> forwards x -> ~ In dollar (atoms x) -> 2 * restrictions x <= 255 ->
  word_from W o input -> rendered w input -> nondecreasing 0 w -> (forall c t, In (c, t) w -> c < char_max) ->
  exists fuel, forall k,
    (run (fuel + k) o = Exit 10 <-> forall u t t', word_ok u -> between u t t' <> [] -> ~ is_match x u t t') /\
    ((exists p, run (fuel + k) o = Ok (Printed p)) <-> exists u t t', word_ok u /\ between u t t' <> [] /\ is_match x u t t').
Proof.
  intros x o s input w Inj AO ER M T LL PS FW ND K Wf R NW HC.
  destruct (ready dec al0 x s Inj M T LL PS ND K) as (D & m & Ap & rk & E & [WD HA NE CO AL] & WP & Cm & KP & EK & SO & KU & UR & PO & NT & DA).
  pose proof (meant_parse _ _ M) as Ps.
  assert (L : forall c, In c (atoms x) -> ParseSpec.letter c) by (intros c Hc; apply (meant_atoms _ _ c M); cbn; apply in_app_iff; auto).
  pose proof (den_clocks x T L) as DK.
  assert (T' : tame (XCat x (XAtom dollar))) by (cbn; auto).
  assert (L' : forall c, In c (atoms (XCat x (XAtom dollar))) -> ParseSpec.letter c) by (intros c Hc; apply (meant_atoms _ _ c M); auto).
  pose proof (tame_plain _ T' L') as Pl. pose proof (plain_ok _ Pl) as O.
  assert (K' : nclocks (den (XCat x (XAtom dollar))) <= 256) by (cbn; lia).
  assert (X : forall f, run f o = do p <- (do zs <- monaaDollar f al vecC D w ; Ok (fold_left pr_op (Clear :: map Push zs) (mkPr (o_quiet o) 0 []))) ; Ok (Printed p)).
  { intros f. rewrite (event_run_main sepA sepD dec f al0 al W o s _ input ER Wf Ps), E. cbn [bind fst]. unfold main_event.
    rewrite (C39_wellformed w input R). cbn [bind]. rewrite C36_online_offline. reflexivity. }
  destruct (tables_end al Ap rk WP (fun m => AO Ap m WP) KP CO NT AL Cm) as (fuel & [H|(Tb & H)]).
  - exists fuel. intros k.
    assert (Ex : run (fuel + k) o = Exit 10) by (rewrite X; unfold monaaDollar; rewrite HA; cbn [bind]; rewrite H; reflexivity).
    assert (HS : sunday_sets fuel Ap = Exit 10).
    { specialize (H 0). rewrite Nat.add_0_r in H. unfold tables in H. destruct (sunday_sets fuel Ap) as [sets| | |n|]; cbn [bind] in H; try congruence.
      destruct (kmp_no_ub fuel al Ap (List.length sets) WP (AO _ _ WP) ltac:(lia) CO AL) as [(beta & B)|B]; rewrite B in H; discriminate. }
    assert (No : forall u t t', word_ok u -> between u t t' <> [] -> ~ is_match x u t t').
    { intros u t t' WO NB (H0 & H1 & Sm).
      assert (Mm : matches D u t t') by (apply (C42_matches al0 _ 0 D m u t t' Inj O K' E); split; auto; split; auto; apply den_sem; auto).
      pose proof (increasing_nondecreasing _ _ (wo_inc _ WO)) as NU. destruct (between_start u t t' NB) as (k0 & L0 & B1 & B2).
      destruct (find_start u t NU H0) as (j0 & Lj & Sj); [eauto|].
      destruct (match_ap D Ap u j0 t PO HA WO Lj Sj) as (j & p & q & v & T1 & L1 & L2 & Hp & Rn & Ac); [exists t'; auto|].
      apply (sunday_exit fuel Ap 10 WP ltac:(lia) (KU _) HS _ _ _ _ _ _ Hp Rn Ac).
      - apply increasing_slice; [apply (wo_inc _ WO)|lia|lia|intros _; apply (proj2 (proj2 Sj))].
      - intros Sl. apply (f_equal (@List.length _)) in Sl. rewrite slice_length in Sl by lia. cbn in Sl. lia.
      - intros c t0 I. destruct (slice_chars u j0 j c t0 WO I) as (C1 & C2 & _). auto. }
    split; [split; auto|]. rewrite Ex. split; [intros (p & Ep); discriminate|]. intros (u & t & t' & U1 & U2 & U3). destruct (No u t t' U1 U2 U3).
  - exists (fuel + List.length w). intros k. pose proof (H (List.length w + k)) as Hk. rewrite Nat.add_assoc in Hk.
    destruct (C32_terminates (fuel + List.length w + k) al D w Ap Tb) as (zs & Mz); auto; [lia|].
    assert (Ep : exists p, run (fuel + List.length w + k) o = Ok (Printed p)) by (eexists; rewrite X, Mz; reflexivity).
    assert (Yes : exists u t t', word_ok u /\ between u t t' <> [] /\ is_match x u t t').
    { clear Hk. specialize (H 0). rewrite Nat.add_0_r in H. unfold tables in H. apply bind_Ok in H as (sets & HS & _).
      pose proof (sunday_sets_length _ _ _ HS) as LS.
      assert (CK : consts_known Ap).
      { apply (known_ap D Ap HA). apply (toEventTA_known al0 _ 0 D m Inj Pl); auto. apply forwards_ordered. cbn. auto. }
      destruct (C26_attained fuel Ap sets WP ltac:(lia) CK HS) as (u & Inc & Ac & Lu).
      assert (WO : word_ok u).
      { constructor; auto. intros c t Hc. destruct Ac as (p & q & v & T1 & Hp & Rn & Aq).
        assert (Y : forall p v T w q v' T', Spec.run Ap p v T w q v' T' -> forall c t, In (c, t) w -> exists p0 e, is_edge Ap p0 c e).
        { clear. intros p v T w q v' T' R. induction R as [|p v T c t e w q p' v' T' He Et Sg R IH]; intros c0 t0 I; [destruct I|]. destruct I as [[= <- <-]|I]; eauto. }
        destruct (Y _ _ _ _ _ _ _ Rn c t Hc) as (p0 & e & He). pose proof (CO p0 c e He) as C1. split; [|split].
        - destruct c; [destruct (NT p0 e He)|lia].
        - exact C1.
        - apply (ap_edge D Ap HA) in He as [_ Hn]. exact Hn. }
      rewrite observe_all in Lu by (intros c t Hc; apply (wo_chars _ WO c t Hc)).
      destruct (accepted_match al0 x D m Ap u Inj Pl K' E WD HA SO DA Inc Ac) as (t' & Mt & Bt). exists u, 0%Q, t'. split; auto. split; auto. rewrite Bt. intros ->. cbn in Lu. lia. }
    split; [|split; auto]. destruct Ep as (p & Ep). rewrite Ep. split; [discriminate|]. intros No. destruct Yes as (u & t & t' & U1 & U2 & U3). destruct (No u t t' U1 U2 U3).
Qed.
End Empty.

(* Of the two patterns the first matches nothing, and the second something that is
   not in the word. *)
Definition exM : sx := XPar (XAnd (XIn (XAtom 68) (RRange false 0 6 false)) (XIn (XAtom 68) (RRange false 5 7 false))).
Definition exMs : list nat := str "(D%(0,6)&D%(5,7))$".
Lemma exM_meant : meant (XCat exM (XAtom dollar)) exMs.
Proof. right. split; [cbn; lia|]. split; [cbn; auto 10|]. unfold exMs. spelled. Qed.
Example C77_case : rising (fun k => k) /\
  (event_run (cmd [exXs]) exXs /\ meant (XCat exX (XAtom dollar)) exXs /\ tame exX /\ fair_loops exX /\ plain_start exX /\ forwards exX /\ ~ In dollar (atoms exX) /\ 2 * restrictions exX <= 255 /\
   forall u t t', ~ is_match exX u t t') /\
  (event_run (cmd [exMs]) exMs /\ meant (XCat exM (XAtom dollar)) exMs /\ tame exM /\ fair_loops exM /\ plain_start exM /\ forwards exM /\ ~ In dollar (atoms exM) /\ 2 * restrictions exM <= 255 /\
   is_match exM [(68, 5.5%Q)] 0 6 /\ forall t t', ~ is_match exM doc_tword t t').
Proof.
  split; [intros n k L; exact L|]. split.
  - split; [apply event1; discriminate|]. split; [exact exX_meant|]. split; [cbn; intuition lia|]. split; [left; cbn; intuition discriminate|]. split; [cbn; intuition discriminate|].
    split; [cbn; intuition lia|]. split; [cbn; unfold dollar; intuition discriminate|]. split; [cbn; lia|].
    intros u t t' (_ & _ & Sm). cbn [sem exX rin] in Sm. destruct Sm as (u1 & u2 & _ & ((S1 & R1 & R2) & (S2 & R3 & R4)) & _).
    change (inject_Z 0) with 0%Q in *. change (inject_Z 1) with 1%Q in *. change (inject_Z 5) with 5%Q in *. lra.
  - split; [apply event1; discriminate|]. split; [exact exM_meant|]. split; [cbn; intuition lia|]. split; [left; cbn; intuition discriminate|]. split; [cbn; intuition discriminate|].
    split; [cbn; intuition lia|]. split; [cbn; unfold dollar; intuition discriminate|]. split; [cbn; lia|]. split.
    + split; [unfold Qle; cbn; lia|]. split; [unfold Qle; cbn; lia|]. exists [(68, (5.5 - 0)%Q)], [(dollar, (6 - 5.5)%Q)]. split; [reflexivity|]. split; [|eexists; reflexivity].
      cbn. unfold duration. split; (split; [eauto|unfold Qlt; cbn; lia]).
    + intros t t' (_ & _ & Sm). cbn [sem] in Sm. destruct Sm as (u1 & u2 & Eu & (((d & ->) & _) & _) & (d' & ->)).
      destruct (delays_in (between doc_tword t t' ++ [(dollar, t')]) t 68 d) as (t0 & H); [rewrite Eu; left; reflexivity|]. apply in_app_iff in H as [H|[H|[]]]; [|discriminate].
      unfold between in H. apply filter_In in H as [H _]. cbn in H. repeat destruct H as [H|H]; try contradiction; discriminate.
Qed.
