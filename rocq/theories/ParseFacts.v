(* Facts about the lexer and the parser of timed regular expressions. *)
From Coq Require Import QArith Bool List ZArith Arith Lia Lqa.
From Verif Require Import Num NumFacts Outcome Interval Constraint Zone TA Tre Text Parse ParseSpec PropTre.
Import ListNotations.
Open Scope nat_scope.

(* ---------------- meaning of the built expression ---------------- *)

Fixpoint rden (r : restr) : interval :=
  match r with
  | RRange lc a b rc => mkI (zbound a lc) (zbound b rc)
  | RLt z => mkI (zbound 0 true) (zbound z false)
  | RLe z => mkI (zbound 0 true) (zbound z true)
  | REq z => mkI (zbound z true) (zbound z true)
  | RGe z => mkI (zbound z true) (PInf, false)
  | RGt z => mkI (zbound z false) (PInf, false)
  | RPar r1 => rden r1
  end.
Fixpoint den (x : sx) : tre :=
  match x with
  | XAtom c => Atom c
  | XPar y => den y
  | XPlus y => mkPlus (den y)
  | XStar y => mkStar (den y)
  | XCat y z => Cat (den y) (den z)
  | XOr y z => Alt (den y) (den z)
  | XAnd y z => And (den y) (den z)
  | XIn y r => Within (den y) (rden r)
  end.

Lemma rden_rin : forall r d, iin (rden r) d <-> rin r d.
Proof.
  induction r as [lc a b rc|z|z|z|z|z|r IH]; intros d; cbn; unfold iin, above, below, zbound; cbn.
  - destruct lc, rc; tauto.
  - tauto.
  - tauto.
  - split; [intros [A B]; apply Qle_antisym; auto|intros E; rewrite E; split; apply Qle_refl].
  - tauto.
  - tauto.
  - apply IH.
Qed.

Lemma Forall_iff : forall {X} (P Q : X -> Prop) l, (forall x, P x <-> Q x) -> (Forall P l <-> Forall Q l).
Proof. intros X P Q l E. rewrite !Forall_forall. split; intros K x I; apply E; auto. Qed.

Lemma den_sem : forall x u, tre_lang (den x) u <-> sem x u.
Proof.
  induction x as [c|y IH|y IH|y IH|y IHy z IHz|y IHy z IHz|y IHy z IHz|y IH r]; intros u; cbn [den sem].
  - cbn. tauto.
  - apply IH.
  - rewrite C42_plus_collapse. split; intros (us & N & F & E); exists us; split; auto; split; auto; eapply Forall_iff; try exact F; intros; rewrite IH; tauto.
  - rewrite C42_star. split; intros (us & F & E); exists us; split; auto; eapply Forall_iff; try exact F; intros; rewrite IH; tauto.
  - cbn. split; intros (u1 & u2 & E & A & B); exists u1, u2; split; auto; split; try apply IHy; try apply IHz; auto.
  - cbn. rewrite IHy, IHz. tauto.
  - cbn. rewrite IHy, IHz. tauto.
  - cbn. rewrite IH, rden_rin. tauto.
Qed.

(* ---------------- trees as the parser builds them ---------------- *)

Inductive lv : Type := Post | Rn.
Fixpoint rn (l : lv) (x : sx) : Prop :=
  match x with
  | XAtom _ => True
  | XPar y => rn Rn y
  | XPlus y | XStar y | XIn y _ => rn Post y
  | XCat y z | XOr y z | XAnd y z => l = Rn /\ rn Post y /\ rn Rn z
  end.

Definition startable (st : list sym) : Prop :=
  match st with
  | [] | SE _ :: _ | SLp :: _ | SOr :: _ | SAnd :: _ => True
  | _ => False
  end.

(* The stack after the tokens of a tree. *)
Fixpoint push (x : sx) (st : list sym) : list sym :=
  match x with
  | XCat y z => push z (SE (den y) :: st)
  | XOr y z => push z (SOr :: SE (den y) :: st)
  | XAnd y z => push z (SAnd :: SE (den y) :: st)
  | _ => SE (den x) :: st
  end.

Lemma push_reduce : forall x st, exists z st', push x st = SE z :: st' /\ reduce z st' = reduce (den x) st.
Proof.
  induction x as [c|y IH|y IH|y IH|y IHy z IHz|y IHy z IHz|y IHy z IHz|y IH r]; intros st; cbn [push]; try (eexists; eexists; split; reflexivity).
  - destruct (IHz (SE (den y) :: st)) as (q & st' & E & R). exists q, st'. split; auto.
  - destruct (IHz (SOr :: SE (den y) :: st)) as (q & st' & E & R). exists q, st'. split; auto.
  - destruct (IHz (SAnd :: SE (den y) :: st)) as (q & st' & E & R). exists q, st'. split; auto.
Qed.

Lemma reduce_stop : forall r st, (forall q, st <> SE q :: tl st) -> (st = [] \/ exists st', st = SLp :: st') -> reduce r st = (r, st).
Proof. intros r st _ [->|(st' & ->)]; reflexivity. Qed.

(* Reading a restriction. *)
Lemma read_restr : forall r k q st ts, 
  parse_from (repeat SIp k ++ SWithin :: SE q :: st) (rtoks r ++ ts) =
  match k with
  | O => parse_from (SE (Within q (rden r)) :: st) ts
  | S k' => parse_from (SI (rden r) :: SIp :: repeat SIp k' ++ SWithin :: SE q :: st) ts
  end.
Proof.
  induction r as [lc a b rc|z|z|z|z|z|r IH]; intros k q st ts; cbn [rtoks].
  1-6: destruct k; try destruct lc, rc; reflexivity.
  rewrite <- !app_assoc. cbn [app]. transitivity (parse_from (repeat SIp (S k) ++ SWithin :: SE q :: st) (rtoks r ++ TRp :: ts)); [destruct k; reflexivity|].
  rewrite IH. destruct k; reflexivity.
Qed.

Lemma read_tree : forall x,
  (rn Post x -> forall st ts, startable st -> parse_from st (toks x ++ ts) = parse_from (SE (den x) :: st) ts) /\
  (rn Rn x -> forall st ts, startable st -> parse_from st (toks x ++ ts) = parse_from (push x st) ts).
Proof.
  assert (K : forall x, item x -> forall st, push x st = SE (den x) :: st) by (intros [] I st; cbn in *; tauto || reflexivity).
  induction x as [c|y [IP IR]|y [IP IR]|y [IP IR]|y [IPy IRy] z [IPz IRz]|y [IPy IRy] z [IPz IRz]|y [IPy IRy] z [IPz IRz]|y [IP IR] r].
  - assert (X : forall st ts, startable st -> parse_from st (toks (XAtom c) ++ ts) = parse_from (SE (den (XAtom c)) :: st) ts).
    { intros [|[] st] ts S; cbn in S; try contradiction; reflexivity. }
    split; auto.
  - assert (X : rn Rn y -> forall st ts, startable st -> parse_from st (toks (XPar y) ++ ts) = parse_from (SE (den (XPar y)) :: st) ts).
    { intros R st ts S. cbn [toks]. rewrite <- !app_assoc. cbn [app].
      transitivity (parse_from (SLp :: st) (toks y ++ TRp :: ts)); [destruct st as [|[] st]; cbn in S; try contradiction; reflexivity|].
      rewrite IR by (cbn; auto). destruct (push_reduce y (SLp :: st)) as (q & st' & E & Q). rewrite E. cbn. rewrite Q. reflexivity. }
    split; auto.
  - assert (X : rn Post y -> forall st ts, startable st -> parse_from st (toks (XPlus y) ++ ts) = parse_from (SE (den (XPlus y)) :: st) ts).
    { intros R st ts S. cbn [toks]. rewrite <- app_assoc, IP; auto. }
    split; auto.
  - assert (X : rn Post y -> forall st ts, startable st -> parse_from st (toks (XStar y) ++ ts) = parse_from (SE (den (XStar y)) :: st) ts).
    { intros R st ts S. cbn [toks]. rewrite <- app_assoc, IP; auto. }
    split; auto.
  - split; [intros [X _]; discriminate|]. intros (_ & P & R) st ts S. cbn [toks push]. rewrite <- app_assoc, IPy, IRz; cbn; auto.
  - split; [intros [X _]; discriminate|]. intros (_ & P & R) st ts S. cbn [toks push]. rewrite <- !app_assoc, IPy by auto. cbn [app].
    transitivity (parse_from (SOr :: SE (den y) :: st) (toks z ++ ts)); [reflexivity|]. rewrite IRz; cbn; auto.
  - split; [intros [X _]; discriminate|]. intros (_ & P & R) st ts S. cbn [toks push]. rewrite <- !app_assoc, IPy by auto. cbn [app].
    transitivity (parse_from (SAnd :: SE (den y) :: st) (toks z ++ ts)); [reflexivity|]. rewrite IRz; cbn; auto.
  - assert (X : rn Post y -> forall st ts, startable st -> parse_from st (toks (XIn y r) ++ ts) = parse_from (SE (den (XIn y r)) :: st) ts).
    { intros R st ts S. cbn [toks]. rewrite <- !app_assoc, IP by auto. cbn [app].
      transitivity (parse_from (SWithin :: SE (den y) :: st) (rtoks r ++ ts)); [reflexivity|]. apply (read_restr r 0). }
    split; auto.
Qed.

Lemma parse_rn : forall x rest, rn Rn x -> parse_from [] (toks x ++ TEnd :: rest) = Ok (Some (den x)).
Proof.
  intros x rest R. rewrite (proj2 (read_tree x)) by (cbn; auto). destruct (push_reduce x []) as (q & st' & E & Q). rewrite E. cbn. rewrite Q. reflexivity.
Qed.

(* ---------------- what the stack has read ---------------- *)

Inductive rep : list sym -> list token -> Prop :=
| rep_nil : rep [] []
| rep_E : forall x st ts, rep st ts -> startable st -> rn Post x -> rep (SE (den x) :: st) (ts ++ toks x)
| rep_lp : forall st ts, rep st ts -> startable st -> rep (SLp :: st) (ts ++ [TLp])
| rep_or : forall r st ts, rep (SE r :: st) ts -> rep (SOr :: SE r :: st) (ts ++ [TOr])
| rep_and : forall r st ts, rep (SE r :: st) ts -> rep (SAnd :: SE r :: st) (ts ++ [TAnd])
| rep_in : forall r st ts, rep (SE r :: st) ts -> rep (SWithin :: SE r :: st) (ts ++ [TWithin])
| rep_ip1 : forall st ts, rep (SWithin :: st) ts -> rep (SIp :: SWithin :: st) (ts ++ [TLp])
| rep_ip2 : forall st ts, rep (SIp :: st) ts -> rep (SIp :: SIp :: st) (ts ++ [TLp])
| rep_isq1 : forall st ts, rep (SWithin :: st) ts -> rep (SIsq :: SWithin :: st) (ts ++ [TLsq])
| rep_isq2 : forall st ts, rep (SIp :: st) ts -> rep (SIsq :: SIp :: st) (ts ++ [TLsq])
| rep_cmp1 : forall o st ts, rep (SWithin :: st) ts -> rep (SCmp o :: SWithin :: st) (ts ++ [o])
| rep_cmp2 : forall o st ts, rep (SIp :: st) ts -> rep (SCmp o :: SIp :: st) (ts ++ [o])
| rep_a1 : forall z st ts, rep (SIp :: st) ts -> rep (SInt z :: SIp :: st) (ts ++ [TInt z])
| rep_a2 : forall z st ts, rep (SIsq :: st) ts -> rep (SInt z :: SIsq :: st) (ts ++ [TInt z])
| rep_comma : forall z st ts, rep (SInt z :: st) ts -> rep (SComma :: SInt z :: st) (ts ++ [TComma])
| rep_b : forall z st ts, rep (SComma :: st) ts -> rep (SInt z :: SComma :: st) (ts ++ [TInt z])
| rep_i : forall r st ts, rep (SIp :: st) ts -> rep (SI (rden r) :: SIp :: st) (ts ++ rtoks r).

Lemma rep_startable : forall r st ts, rep (SE r :: st) ts -> startable st /\ exists x ts', r = den x /\ rn Post x /\ rep st ts' /\ ts = ts' ++ toks x.
Proof. intros r st ts R. inversion R; subst. split; auto. exists x, ts0. auto. Qed.

Lemma rep_in_inv : forall r st ts, rep (SWithin :: SE r :: st) ts -> exists ts', rep (SE r :: st) ts' /\ ts = ts' ++ [TWithin].
Proof. intros r st ts R. inversion R; subst; eauto. Qed.
Lemma rep_or_inv : forall r st ts, rep (SOr :: SE r :: st) ts -> exists ts', rep (SE r :: st) ts' /\ ts = ts' ++ [TOr].
Proof. intros r st ts R. inversion R; subst; eauto. Qed.
Lemma rep_and_inv : forall r st ts, rep (SAnd :: SE r :: st) ts -> exists ts', rep (SE r :: st) ts' /\ ts = ts' ++ [TAnd].
Proof. intros r st ts R. inversion R; subst; eauto. Qed.
Lemma rep_lp_inv : forall st ts, rep (SLp :: st) ts -> exists ts', rep st ts' /\ startable st /\ ts = ts' ++ [TLp].
Proof. intros st ts R. inversion R; subst; eauto. Qed.
Lemma rep_comma_inv : forall z y s st ts, rep (SInt z :: SComma :: SInt y :: s :: st) ts ->
  exists ts', rep (s :: st) ts' /\ ts = ((ts' ++ [TInt y]) ++ [TComma]) ++ [TInt z].
Proof.
  intros z y s st ts R. inversion R as [| | | | | | | | | | | | | | |? ? ? Rc|]; subst. inversion Rc as [| | | | | | | | | | | | | |? ? ? Ra| |]; subst.
  inversion Ra; subst; eauto.
Qed.
Lemma rep_i_inv : forall J st ts, rep (SI J :: SIp :: st) ts -> exists r ts', J = rden r /\ rep (SIp :: st) ts' /\ ts = ts' ++ rtoks r.
Proof. intros J st ts R. inversion R; subst; eauto. Qed.

Lemma done_rep : forall r st st' ts, interval_done (rden r) st = Some st' -> rep st ts ->
  rep st' (ts ++ rtoks r).
Proof.
  intros r st st' ts E R. destruct st as [|[] st]; try discriminate.
  - destruct st as [|[] st]; try discriminate. injection E as <-. apply rep_in_inv in R as (t0 & R & ->).
    destruct (rep_startable _ _ _ R) as (S & x & t' & -> & P & Rst & ->).
    replace (((t' ++ toks x) ++ [TWithin]) ++ rtoks r) with (t' ++ toks (XIn x r)) by (cbn; rewrite <- !app_assoc; reflexivity).
    exact (rep_E (XIn x r) _ _ Rst S P).
  - injection E as <-. apply rep_i. auto.
Qed.

Lemma reduce_rep : forall x st ts r st', rep st ts -> rn Rn x -> startable st -> reduce (den x) st = (r, st') ->
  exists y ts', r = den y /\ rn Rn y /\ rep st' ts' /\ ts ++ toks x = ts' ++ toks y /\ startable st' /\ (forall q s, st' <> SE q :: s).
Proof.
  intros x st. remember (length st) as n eqn:L. assert (L' : length st <= n) by lia. clear L. revert x st L'.
  induction n as [|n IH]; intros x st L ts r st' R N S E.
  - destruct st; [|cbn in L; lia]. injection E as <- <-. exists x, ts. inversion R; subst. repeat split; auto; try constructor; congruence.
  - destruct st as [|[] st]; cbn in S; try contradiction; cbn in E, L.
    + injection E as <- <-. exists x, ts. inversion R; subst. repeat split; auto; try constructor; congruence.
    + destruct (rep_startable _ _ _ R) as (S' & y & t' & -> & P & Rst & ->).
      destruct (IH (XCat y x) st ltac:(lia) t' r st' Rst (conj eq_refl (conj P N)) S' E) as (z & t2 & A & B & C & D & F & G).
      exists z, t2. repeat split; auto. cbn in D. rewrite <- app_assoc. auto.
    + injection E as <- <-. exists x, ts. repeat split; auto. congruence.
    + destruct st as [|[] st]; try (inversion R; fail). apply rep_or_inv in R as (t0 & R & ->). destruct (rep_startable _ _ _ R) as (S' & y & t' & -> & P & Rst & ->).
      cbn in L. destruct (IH (XOr y x) st ltac:(lia) t' r st' Rst (conj eq_refl (conj P N)) S' E) as (z & t2 & A & B & C & D & F & G).
      exists z, t2. repeat split; auto. cbn in D. rewrite <- !app_assoc. auto.
    + destruct st as [|[] st]; try (inversion R; fail). apply rep_and_inv in R as (t0 & R & ->). destruct (rep_startable _ _ _ R) as (S' & y & t' & -> & P & Rst & ->).
      cbn in L. destruct (IH (XAnd y x) st ltac:(lia) t' r st' Rst (conj eq_refl (conj P N)) S' E) as (z & t2 & A & B & C & D & F & G).
      exists z, t2. repeat split; auto. cbn in D. rewrite <- !app_assoc. auto.
Qed.

Lemma post_rn : forall x, rn Post x -> rn Rn x.
Proof. intros [] R; cbn in *; auto; destruct R; discriminate. Qed.

Lemma step_rep : forall st t st' ts, step st t = Some st' -> rep st ts -> rep st' (ts ++ [t]).
Proof.
  intros st t st' ts E R.
  assert (AT : forall c, startable st -> rep (SE (Atom c) :: st) (ts ++ [TAtom c])) by (intros c S; exact (rep_E (XAtom c) _ _ R S Logic.I)).
  destruct st as [|s st].
  - destruct t; cbn in E; try discriminate; injection E as <-; [apply AT; cbn; auto|apply rep_lp; cbn; auto].
  - destruct s.
    + (* SE *) destruct (rep_startable _ _ _ R) as (S & x & t' & -> & P & Rst & ->).
      destruct t; cbn in E; try discriminate.
      * injection E as <-. apply AT. cbn; auto.
      * injection E as <-. apply rep_or. auto.
      * injection E as <-. apply rep_and. auto.
      * injection E as <-. replace ((t' ++ toks x) ++ [TStar]) with (t' ++ toks (XStar x)) by (cbn; rewrite <- app_assoc; reflexivity).
        exact (rep_E (XStar x) _ _ Rst S P).
      * injection E as <-. replace ((t' ++ toks x) ++ [TPlus]) with (t' ++ toks (XPlus x)) by (cbn; rewrite <- app_assoc; reflexivity).
        exact (rep_E (XPlus x) _ _ Rst S P).
      * injection E as <-. apply rep_in. auto.
      * injection E as <-. apply rep_lp; cbn; auto.
      * destruct (reduce (den x) st) as [r q] eqn:Q. destruct q as [|[] q]; try discriminate. injection E as <-.
        destruct (reduce_rep _ _ _ _ _ Rst (post_rn _ P) S Q) as (y & t2 & -> & B & C & D & F & G). apply rep_lp_inv in C as (t3 & C & S3 & ->).
        replace ((t' ++ toks x) ++ [TRp]) with (t3 ++ toks (XPar y)); [exact (rep_E (XPar y) _ _ C S3 B)|].
        cbn [toks]. rewrite D, <- !app_assoc. reflexivity.
    + destruct t; cbn in E; try discriminate; injection E as <-; [apply AT; cbn; auto|apply rep_lp; cbn; auto].
    + destruct t; cbn in E; try discriminate; injection E as <-; [apply AT; cbn; auto|apply rep_lp; cbn; auto].
    + destruct t; cbn in E; try discriminate; injection E as <-; [apply AT; cbn; auto|apply rep_lp; cbn; auto].
    + destruct t; cbn in E; try discriminate; injection E as <-; constructor; auto.
    + destruct t; cbn in E; try discriminate; injection E as <-; constructor; auto.
    + destruct t; cbn in E; try discriminate; injection E as <-; constructor; auto.
    + destruct t; cbn in E; try discriminate. destruct (cmp_interval t0 z) as [J|] eqn:C; [|discriminate].
      assert (R1 : exists t1, rep st t1 /\ ts = t1 ++ [t0]) by (inversion R; subst; eauto). destruct R1 as (t1 & R1 & ->). rewrite <- app_assoc.
      destruct t0; cbn in C; try discriminate; injection C as <-.
      * exact (done_rep (RGt z) _ _ _ E R1).
      * exact (done_rep (RGe z) _ _ _ E R1).
      * exact (done_rep (RLe z) _ _ _ E R1).
      * exact (done_rep (RLt z) _ _ _ E R1).
      * exact (done_rep (REq z) _ _ _ E R1).
    + destruct st as [|s st]; [destruct t; cbn in E; inversion R|].
      destruct s; try (inversion R; fail).
      * destruct t; cbn in E; try discriminate; injection E as <-; constructor; auto.
      * destruct t; cbn in E; try discriminate; injection E as <-; constructor; auto.
      * destruct st as [|[] st]; try (inversion R as [| | | | | | | | | | | | | | |? ? ? Rc|]; inversion Rc; fail).
        destruct st as [|s st]; [destruct t; discriminate|]. 
        apply rep_comma_inv in R as (t1 & R1 & ->). rewrite <- !app_assoc. cbn [app].
        destruct s; try (destruct t; discriminate); destruct t; cbn in E; try discriminate.
        -- assert (R2 : exists t2, rep st t2 /\ t1 = t2 ++ [TLp]) by (inversion R1; subst; eauto). destruct R2 as (t2 & R2 & ->). rewrite <- app_assoc.
           exact (done_rep (RRange false z0 z false) _ _ _ E R2).
        -- assert (R2 : exists t2, rep st t2 /\ t1 = t2 ++ [TLp]) by (inversion R1; subst; eauto). destruct R2 as (t2 & R2 & ->). rewrite <- app_assoc.
           exact (done_rep (RRange false z0 z true) _ _ _ E R2).
        -- assert (R2 : exists t2, rep st t2 /\ t1 = t2 ++ [TLsq]) by (inversion R1; subst; eauto). destruct R2 as (t2 & R2 & ->). rewrite <- app_assoc.
           exact (done_rep (RRange true z0 z false) _ _ _ E R2).
        -- assert (R2 : exists t2, rep st t2 /\ t1 = t2 ++ [TLsq]) by (inversion R1; subst; eauto). destruct R2 as (t2 & R2 & ->). rewrite <- app_assoc.
           exact (done_rep (RRange true z0 z true) _ _ _ E R2).
    + destruct t; cbn in E; try discriminate; injection E as <-; constructor; auto.
    + destruct st as [|[] st]; try (inversion R; fail). destruct t; cbn in E; try discriminate.
      apply rep_i_inv in R as (r & ts0 & -> & R & ->). assert (R2 : exists t2, rep st t2 /\ ts0 = t2 ++ [TLp]) by (inversion R; subst; eauto). destruct R2 as (t2 & R2 & ->). rewrite <- !app_assoc.
      exact (done_rep (RPar r) _ _ _ E R2).
Qed.

Definition plain (t : token) : Prop := match t with TEnd | TJam | TOver => False | _ => True end.

Lemma parse_sound : forall ts st ts0 rest r, Forall plain ts -> rep st ts0 -> parse_from st (ts ++ TEnd :: rest) = Ok (Some r) ->
  exists x, rn Rn x /\ toks x = ts0 ++ ts /\ r = den x.
Proof.
  induction ts as [|t ts IH]; intros st ts0 rest r P R E.
  - cbn in E. injection E as E. unfold accept in E. destruct st as [|[] st]; try discriminate.
    destruct (reduce t st) as [q st'] eqn:Q. destruct st'; try discriminate. injection E as <-.
    destruct (rep_startable _ _ _ R) as (S & x & t' & -> & Px & Rst & ->).
    destruct (reduce_rep _ _ _ _ _ Rst (post_rn _ Px) S Q) as (y & t2 & -> & B & C & D & F & G). inversion C; subst.
    exists y. split; auto. split; auto. rewrite app_nil_r. auto.
  - inversion P as [|? ? Pt Pts]; subst. cbn [app parse_from] in E.
    assert (X : exists st', step st t = Some st' /\ parse_from st' (ts ++ TEnd :: rest) = Ok (Some r)).
    { destruct t; cbn in Pt; try contradiction; destruct (step st _) eqn:S; try discriminate; eauto. }
    destruct X as (st' & S & E'). destruct (IH _ _ _ _ Pts (step_rep _ _ _ _ S R) E') as (x & A & B & C). exists x. split; auto. split; auto.
    rewrite B, <- app_assoc. reflexivity.
Qed.

Lemma parse_plain : forall ts st rest, Forall plain ts -> exists o, parse_from st (ts ++ TEnd :: rest) = Ok o.
Proof.
  induction ts as [|t ts IH]; intros st rest P; [cbn; eauto|]. inversion P as [|? ? Pt Pts]; subst. cbn [app parse_from].
  destruct t; cbn in Pt; try contradiction; destruct (step st _); eauto.
Qed.

(* ---------------- every derivation has a right-nested one ---------------- *)

Lemma rn_postfix : forall (f : sx -> sx) suf, (forall y, toks (f y) = toks y ++ suf) -> (forall y l, rn Post y -> rn l (f y)) ->
  forall y, rn Rn y -> exists w, toks w = toks y ++ suf /\ rn Rn w.
Proof.
  intros f suf Ft Fr. induction y as [c|y IH|y IH|y IH|y IHy z IHz|y IHy z IHz|y IHy z IHz|y IH r]; intros R.
  - exists (f (XAtom c)). split; [apply Ft|]. apply Fr. auto.
  - exists (f (XPar y)). split; [apply Ft|]. apply Fr. auto.
  - exists (f (XPlus y)). split; [apply Ft|]. apply Fr. auto.
  - exists (f (XStar y)). split; [apply Ft|]. apply Fr. auto.
  - destruct R as (_ & A & B). destruct (IHz B) as (w & E & W). exists (XCat y w). split; [cbn [toks]; rewrite E, app_assoc; auto|cbn; auto].
  - destruct R as (_ & A & B). destruct (IHz B) as (w & E & W). exists (XOr y w). split; [cbn [toks]; rewrite E, <- !app_assoc; auto|cbn; auto].
  - destruct R as (_ & A & B). destruct (IHz B) as (w & E & W). exists (XAnd y w). split; [cbn [toks]; rewrite E, <- !app_assoc; auto|cbn; auto].
  - exists (f (XIn y r)). split; [apply Ft|]. apply Fr. auto.
Qed.

Lemma rn_join : forall (f : sx -> sx -> sx) mid, (forall y z, toks (f y z) = toks y ++ mid ++ toks z) ->
  (forall y z, rn Post y -> rn Rn z -> rn Rn (f y z)) ->
  forall y z, rn Rn y -> rn Rn z -> exists w, toks w = toks y ++ mid ++ toks z /\ rn Rn w.
Proof.
  intros f mid Ft Fr y z Ry Rz. revert Ry. induction y as [c|y IH|y IH|y IH|y IHy y2 IHy2|y IHy y2 IHy2|y IHy y2 IHy2|y IH r]; intros R.
  - exists (f (XAtom c) z). split; [apply Ft|]. apply Fr; auto.
  - exists (f (XPar y) z). split; [apply Ft|]. apply Fr; auto.
  - exists (f (XPlus y) z). split; [apply Ft|]. apply Fr; auto.
  - exists (f (XStar y) z). split; [apply Ft|]. apply Fr; auto.
  - destruct R as (_ & A & B). destruct (IHy2 B) as (w & E & W). exists (XCat y w). split; [cbn [toks]; rewrite E, <- !app_assoc; auto|cbn; auto].
  - destruct R as (_ & A & B). destruct (IHy2 B) as (w & E & W). exists (XOr y w). split; [cbn [toks]; rewrite E, <- !app_assoc; auto|cbn; auto].
  - destruct R as (_ & A & B). destruct (IHy2 B) as (w & E & W). exists (XAnd y w). split; [cbn [toks]; rewrite E, <- !app_assoc; auto|cbn; auto].
  - exists (f (XIn y r) z). split; [apply Ft|]. apply Fr; auto.
Qed.

Lemma rn_exists : forall x, exists y, toks y = toks x /\ rn Rn y.
Proof.
  induction x as [c|y IH|y IH|y IH|y IHy z IHz|y IHy z IHz|y IHy z IHz|y IH r].
  - exists (XAtom c). cbn. auto.
  - destruct IH as (w & E & W). exists (XPar w). cbn. rewrite E. auto.
  - destruct IH as (w & E & W). destruct (rn_postfix XPlus [TPlus] (fun _ => eq_refl) (fun _ _ H => H) w W) as (v & Ev & Rv). exists v. rewrite Ev, E. auto.
  - destruct IH as (w & E & W). destruct (rn_postfix XStar [TStar] (fun _ => eq_refl) (fun _ _ H => H) w W) as (v & Ev & Rv). exists v. rewrite Ev, E. auto.
  - destruct IHy as (w & E & W). destruct IHz as (w' & E' & W').
    destruct (rn_join XCat [] (fun _ _ => eq_refl) (fun _ _ A B => conj eq_refl (conj A B)) w w' W W') as (v & Ev & Rv). exists v. rewrite Ev, E, E'. auto.
  - destruct IHy as (w & E & W). destruct IHz as (w' & E' & W').
    destruct (rn_join XOr [TOr] (fun _ _ => eq_refl) (fun _ _ A B => conj eq_refl (conj A B)) w w' W W') as (v & Ev & Rv). exists v. rewrite Ev, E, E'. auto.
  - destruct IHy as (w & E & W). destruct IHz as (w' & E' & W').
    destruct (rn_join XAnd [TAnd] (fun _ _ => eq_refl) (fun _ _ A B => conj eq_refl (conj A B)) w w' W W') as (v & Ev & Rv). exists v. rewrite Ev, E, E'. auto.
  - destruct IH as (w & E & W). destruct (rn_postfix (fun y => XIn y r) ([TWithin] ++ rtoks r) (fun _ => eq_refl) (fun _ _ H => H) w W) as (v & Ev & Rv).
    exists v. rewrite Ev, E. auto.
Qed.

Lemma rtoks_plain : forall r, Forall plain (rtoks r).
Proof.
  induction r; cbn [rtoks]; try (repeat constructor; fail).
  - destruct b, b0; repeat constructor.
  - apply Forall_app. split; [repeat constructor|]. apply Forall_app. split; [auto|repeat constructor].
Qed.
Lemma toks_plain : forall x, Forall plain (toks x).
Proof.
  induction x; cbn [toks]; repeat (apply Forall_app; split); auto; try (repeat constructor; fail). apply rtoks_plain.
Qed.

(* The usual tree is the one the parser builds exactly when left operands are items. *)
Lemma usual_mono : forall x l l', l' <= l -> usual l x -> usual l' x.
Proof. intros [] l l' L U; cbn in *; try tauto; intuition lia. Qed.
Lemma usual_item : forall x, usual 3 x -> item x.
Proof. intros [] U; cbn in *; auto; lia. Qed.
Lemma usual_rn : forall x l, usual l x -> left_items x -> rn Rn x /\ (item x -> rn Post x).
Proof.
  induction x as [c|y IH|y IH|y IH|y IHy z IHz|y IHy z IHz|y IHy z IHz|y IH r]; intros l U L; cbn in U, L; cbn [rn item].
  - auto.
  - destruct (IH _ U L). auto.
  - destruct (IH _ U L) as [A B]. pose proof (B (usual_item _ U)). auto.
  - destruct (IH _ U L) as [A B]. pose proof (B (usual_item _ U)). auto.
  - destruct U as (Q & U1 & U2). destruct L as (L1 & L2). destruct (IHy _ U1 L1) as [A B]. destruct (IHz _ U2 L2) as [A' B'].
    split; [|contradiction]. split; auto. split; auto. apply B. apply usual_item; auto.
  - destruct U as (Q & U1 & U2). destruct L as (I & L1 & L2). destruct (IHy _ U1 L1) as [A B]. destruct (IHz _ U2 L2) as [A' B'].
    split; [|contradiction]. auto.
  - destruct U as (Q & U1 & U2). destruct L as (I & L1 & L2). destruct (IHy _ U1 L1) as [A B]. destruct (IHz _ U2 L2) as [A' B'].
    split; [|contradiction]. auto.
  - destruct (IH _ U L) as [A B]. pose proof (B (usual_item _ U)). auto.
Qed.
Lemma rn_item : forall x, rn Post x -> item x.
Proof. intros [] R; cbn in *; auto; destruct R; discriminate. Qed.
Lemma rn_left_items : forall x l, rn l x -> left_items x.
Proof.
  induction x as [c|y IH|y IH|y IH|y IHy z IHz|y IHy z IHz|y IHy z IHz|y IH r]; intros l R; cbn in R |- *; eauto.
  - destruct R as (_ & A & B). eauto.
  - destruct R as (_ & A & B). split; [apply rn_item; auto|]. eauto.
  - destruct R as (_ & A & B). split; [apply rn_item; auto|]. eauto.
Qed.
Lemma paren_rn : forall x, rn Post (paren x) /\ rn Rn (paren x).
Proof. 
  induction x; cbn; repeat match goal with H : _ /\ _ |- _ => destruct H end; auto 6.
Qed.
Lemma paren_den : forall x, den (paren x) = den x.
Proof. induction x; cbn; congruence. Qed.

(* ---------------- the lexer ---------------- *)

Lemma digit_val_spec : forall c, (decimal c -> digit_val c = Some (Z.of_nat c - 48)%Z) /\ (~ decimal c -> digit_val c = None).
Proof.
  intros c. unfold digit_val, decimal. destruct (Nat.leb_spec 48 c), (Nat.leb_spec c 57); cbn; split; intros K; try lia; auto. f_equal. lia.
Qed.
Lemma is_letter_spec : forall c, is_letter c = true <-> letter c.
Proof.
  intros c. unfold is_letter, letter. rewrite !orb_true_iff, !andb_true_iff, !Nat.leb_le, Nat.eqb_eq. tauto.
Qed.

(* Not followed by a digit, the pending number is a token of its own. *)
Lemma lex_flush : forall z s, ~ starts decimal s -> lex_from (Some z) s = flush (Some z) ++ lex_from None s.
Proof.
  intros z [|c s] N; [reflexivity|]. cbn [lex_from]. cbn in N. rewrite (proj2 (digit_val_spec c) N). reflexivity.
Qed.
Lemma lex_digits : forall ds z s, Forall decimal ds -> lex_from (Some z) (ds ++ s) = lex_from (Some (value z ds)) s.
Proof.
  induction ds as [|c ds IH]; intros z s F; [reflexivity|]. inversion F as [|? ? D Ds]; subst. cbn [app lex_from value].
  rewrite (proj1 (digit_val_spec c) D). apply IH; auto.
Qed.

Lemma lex_letter : forall c s, letter c -> lex_from None (c :: s) = TAtom c :: lex_from None s.
Proof.
  intros c s L. cbn [lex_from]. assert (N : ~ decimal c) by (unfold letter, decimal in *; lia).
  rewrite (proj2 (digit_val_spec c) N). rewrite (proj2 (is_letter_spec c) L). reflexivity.
Qed.

Lemma lex_spells : forall ts s, spells ts s -> lex s = ts ++ [TEnd].
Proof.
  unfold lex. induction 1 as [|s|c ts s [->| ->] S IH|c ts s L S IH|t cs ts s P N S IH|ds ts s Nn D V N S IH]; try reflexivity; try exact IH.
  - rewrite lex_letter, IH; auto.
  - destruct t; cbn in P; try discriminate; injection P as <-; cbn [app]; try (cbn; rewrite IH; reflexivity).
    + transitivity (TGt :: lex_from None s); [|rewrite IH; reflexivity]. destruct s as [|c s]; [reflexivity|]. specialize (N (or_intror eq_refl)). cbn in N.
      change (lex_from None (62 :: c :: s)) with (if c =? 61 then TGe :: lex_from None s else TGt :: lex_from None (c :: s)).
      destruct (Nat.eqb_spec c 61); [congruence|reflexivity].
    + transitivity (TLt :: lex_from None s); [|rewrite IH; reflexivity]. destruct s as [|c s]; [reflexivity|]. specialize (N (or_introl eq_refl)). cbn in N.
      change (lex_from None (60 :: c :: s)) with (if c =? 61 then TLe :: lex_from None s else TLt :: lex_from None (c :: s)).
      destruct (Nat.eqb_spec c 61); [congruence|reflexivity].
  - destruct ds as [|c ds]; [congruence|]. inversion D as [|? ? Dc Ds]; subst. cbn [app lex_from].
    rewrite (proj1 (digit_val_spec c) Dc), lex_digits by auto. cbn [value] in V |- *. rewrite Z.mul_0_r, Z.add_0_l in *.
    rewrite lex_flush, IH by auto. cbn [flush]. unfold int_max. rewrite (proj2 (Z.leb_le _ _) V). reflexivity.
Qed.

Lemma span_digits : forall s, exists ds s', s = ds ++ s' /\ Forall decimal ds /\ ~ starts decimal s'.
Proof.
  induction s as [|c s (ds & s' & -> & D & N)]; [exists [], []; cbn; auto|].
  destruct (Nat.le_gt_cases 48 c) as [A|A]; [destruct (Nat.le_gt_cases c 57) as [B|B]|].
  - exists (c :: ds), s'. split; auto. split; auto. constructor; auto. unfold decimal. lia.
  - exists [], (c :: ds ++ s'). split; auto. split; auto. cbn. unfold decimal. lia.
  - exists [], (c :: ds ++ s'). split; auto. split; auto. cbn. unfold decimal. lia.
Qed.

Inductive lexed (s : list nat) : list token -> Prop :=
| lexed_ok : forall ts, Forall plain ts -> spells ts s -> lexed s (ts ++ [TEnd])
| lexed_jam : forall ts rest c, Forall plain ts -> In c s -> ~ legal c -> lexed s (ts ++ TJam :: rest)
| lexed_over : forall ts rest a ds b, Forall plain ts -> s = a ++ ds ++ b -> Forall decimal ds -> (2147483647 < value 0 ds)%Z ->
    lexed s (ts ++ TOver :: rest).

Lemma lexed_cons : forall t cs s l, plain t -> lexed s l -> (forall ts, spells ts s -> spells (t :: ts) (cs ++ s)) -> lexed (cs ++ s) (t :: l).
Proof.
  intros t cs s l P L K. destruct L as [ts F S|ts rest c F I N|ts rest a ds b F E D V].
  - apply (lexed_ok (cs ++ s) (t :: ts)); auto.
  - apply (lexed_jam (cs ++ s) (t :: ts) rest c); auto. apply in_or_app. auto.
  - apply (lexed_over (cs ++ s) (t :: ts) rest (cs ++ a) ds b); auto. rewrite E, app_assoc. auto.
Qed.
Lemma lexed_skip : forall c s l, lexed s l -> (forall ts, spells ts s -> spells ts (c :: s)) -> lexed (c :: s) l.
Proof.
  intros c s l L K. destruct L as [ts F S|ts rest x F I N|ts rest a ds b F E D V].
  - apply lexed_ok; auto.
  - apply (lexed_jam _ ts rest x); cbn; auto.
  - apply (lexed_over _ ts rest (c :: a) ds b); auto. rewrite E. auto.
Qed.

Lemma lex_lexed : forall n s, length s <= n -> lexed s (lex_from None s).
Proof.
  induction n as [|n IH]; intros s L.
  - destruct s; [|cbn in L; lia]. apply (lexed_ok [] []); constructor.
  - destruct s as [|c s]; [apply (lexed_ok [] []); constructor|]. cbn in L. assert (IHs := IH s ltac:(lia)).
    destruct (span_digits (c :: s)) as (ds & s' & E & D & N). destruct ds as [|d ds].
    + cbn in E. rewrite <- E in N. clear s' E D. cbn in N.
      destruct (is_letter c) eqn:EL.
      { apply is_letter_spec in EL. rewrite lex_letter by auto. apply (lexed_cons (TAtom c) [c] s); cbn; auto. intros. apply sp_letter; auto. }
      assert (NL : ~ letter c) by (rewrite <- is_letter_spec; congruence).
      cbn [lex_from]. rewrite (proj2 (digit_val_spec c) N), EL. cbn [flush app].
      assert (P : forall t cs, plain t -> punct t = Some cs -> t <> TLt -> t <> TGt -> forall s0, length s0 <= n -> lexed (cs ++ s0) (t :: lex_from None s0)).
      { intros t cs Pt Pc N1 N2 s0 L0. apply lexed_cons; auto. intros ts S. apply sp_punct; auto. intros [|]; congruence. }
      assert (J : ~ legal c -> lexed (c :: s) [TJam]).
      { intros NG. apply (lexed_jam (c :: s) [] [] c); cbn; auto. }
      assert (LS : length s <= n) by lia.
      destruct (Nat.eqb_spec c 32) as [->|N32]; [apply lexed_skip; auto; intros; apply sp_blank; auto|].
      destruct (Nat.eqb_spec c 9) as [->|N9]; [apply lexed_skip; auto; intros; apply sp_blank; auto|].
      cbn [orb]. destruct (Nat.eqb_spec c 10) as [->|N10]; [apply (lexed_ok _ []); constructor|].
      destruct (sign_of c) as [k|] eqn:EK.
      * unfold sign_of in EK. destruct (find _ _) as [[c' k']|] eqn:EF; [|discriminate]. injection EK as <-. cbn [snd].
        apply find_some in EF as [I Q]. cbn [fst] in Q. apply Nat.eqb_eq in Q. subst c'.
        assert (SG : forall t ch, plain t -> punct t = Some [ch] -> t = TLt \/ t = TGt -> lexed (ch :: s)
                  (match s with x :: t' => if x =? 61 then match t with TLt => TLe | _ => TGe end :: lex_from None t' else t :: lex_from None s | [] => t :: lex_from None s end)).
        { intros t ch Pt Pc T. destruct s as [|x s]; [apply (lexed_cons t [ch] []); cbn; auto; intros; apply (sp_punct t [ch]); auto|].
          cbn in L. destruct (Nat.eqb_spec x 61) as [->|Nx].
          - destruct T as [-> | ->]; injection Pc as <-; [apply (P TLe [60; 61])|apply (P TGe [62; 61])]; cbn; auto; try discriminate; lia.
          - apply (lexed_cons t [ch] (x :: s)); auto. intros. apply (sp_punct t [ch]); auto; try (intros _ Q; cbn in Q; congruence). }
        cbn [In] in I. repeat (destruct I as [I|I]; [injection I as <- <-; cbn [snd];
          try (apply (SG TLt 60); cbn; auto; fail); try (apply (SG TGt 62); cbn; auto; fail);
          match goal with |- lexed _ (?t :: _) => apply (P t _ Logic.I eq_refl); auto; discriminate end|]). contradiction.
      * apply J. intros [A|[A|A]]; auto. unfold sign_of in EK. destruct (find _ _) eqn:EF; [discriminate|].
        assert (F := fun q I => find_none _ _ EF q I). cbn [In] in A.
        repeat (destruct A as [<-|A]; [try congruence; try (revert EF; cbn; discriminate)|]). contradiction.
    + rewrite E. assert (Ld : length s' <= n). { assert (Q := f_equal (@length nat) E). rewrite app_length in Q. cbn in Q. lia. }
      inversion D as [|? ? Dc Ds]; subst. cbn [app lex_from]. rewrite (proj1 (digit_val_spec d) Dc), lex_digits by auto.
      replace (value (Z.of_nat d - 48) ds) with (value 0 (d :: ds)) by (cbn [value]; rewrite Z.mul_0_r, Z.add_0_l; reflexivity).
      rewrite lex_flush by auto. cbn [flush]. unfold int_max. destruct (Z.leb_spec (value 0 (d :: ds)) 2147483647) as [V|V].
      * cbn [app]. apply (lexed_cons _ (d :: ds) s'); cbn [plain]; auto. intros. apply (sp_int (d :: ds)); auto. discriminate.
      * apply (lexed_over _ [] _ [] (d :: ds) s'); auto.
Qed.

Lemma parse_form : forall s, lexed s (lex s).
Proof. intros s. apply (lex_lexed (length s)). auto. Qed.

Lemma parse_prefix : forall ts st t rest o, Forall plain ts -> (forall st', parse_from st' (t :: rest) = o) ->
  parse_from st (ts ++ t :: rest) = o \/ parse_from st (ts ++ t :: rest) = Ok None.
Proof.
  induction ts as [|x ts IH]; intros st t rest o P K; [left; apply K|]. inversion P as [|? ? Px Pts]; subst. cbn [app parse_from].
  destruct x; cbn in Px; try contradiction; destruct (step st _); auto.
Qed.
