(* Timed automata with longer cycles that wait for nothing: the cycles are left by
   transitions that stand behind the ones that go round, and removeDeadStates
   loses nothing useful. *)
From Coq Require Import QArith Lqa Bool List ZArith Arith Lia.
From Verif Require Import Num NumFacts Outcome Constraint Zone ZoneFacts ZoneOps TA Spec TAFacts PropBase ZA ZASpec ZAFacts ZAGraph PropZA SkipFacts Sunday ZATerm ZAFin ZAIdle ZALast ZACong ZAOrder.
Import ListNotations.
Open Scope nat_scope.

(* ---------- the automata ---------- *)

Definition quiet (e : edge) : Prop := eguard e = [] /\ eresets e = [].
Definition lower (rg ps : ptr -> nat) (p : ptr) (e : edge) (q : ptr) : Prop := rg q < rg p \/ (rg q = rg p /\ quiet e /\ ps q < ps p).
Definition dead_end (A : ta) (y : ptr) : Prop := ~ accepting A y /\ forall c e, ~ is_edge A y c e.

(* A transition e goes down, or is a self-loop that does nothing, or does nothing
   inside of a set S of states such that whatever leaves S leads nowhere, or is
   also among the transitions behind e and goes down; while the automaton is
   [open], S may also be left into acceptance by what stands beside e.  Unless it
   is [wide], the transitions behind e do not accept. *)
Definition ring (open wide : Prop) (A : ta) (rg ps : ptr -> nat) (p : ptr) (es E2 : list edge) (S : ptr -> Prop) : Prop :=
  (forall x, S x -> ~ accepting A x) /\
  forall x c e y, S x -> is_edge A x c e -> etgt e = Some y ->
    (S y /\ quiet e) \/ dead_end A y \/
    (accepting A y /\ open /\ exists e1 q1, In e1 es /\ etgt e1 = Some q1 /\ accepting A q1 /\ eguard e1 = eguard e) \/
    ((wide \/ ~ accepting A y) /\ exists e2, In e2 E2 /\ etgt e2 = Some y /\ eguard e2 = eguard e /\ eresets e2 = eresets e /\ lower rg ps p e2 y).
Definition rounds_first (open wide : Prop) (A : ta) (rg ps : ptr -> nat) : Prop := forall p s c es E1 e E2 q,
  In (p, s) (states A) -> In (c, es) (next s) -> es = E1 ++ e :: E2 -> etgt e = Some q ->
  lower rg ps p e q \/ (q = p /\ quiet e) \/ (quiet e /\ rg q = rg p /\ exists S, S p /\ S q /\ ring open wide A rg ps p es E2 S).

(* ---------- lists ---------- *)

Lemma last_split : forall {X} (P : X -> Prop) l, (forall x, In x l -> P x \/ ~ P x) -> (exists x, In x l /\ P x) ->
  exists pre x post, l = pre ++ x :: post /\ P x /\ forall k, In k post -> ~ P k.
Proof.
  intros X P. induction l as [|a l IH]; intros D (x & I & Px); [destruct I|].
  assert (Dl : forall x, In x l -> P x \/ ~ P x) by (intros; apply D; right; auto).
  assert (E : (exists y, In y l /\ P y) \/ forall y, In y l -> ~ P y).
  { clear - Dl. induction l as [|b l IH]; [right; intros y []|]. destruct (Dl b (or_introl eq_refl)) as [H|H]; [left; exists b; split; [left; auto|auto]|].
    destruct IH as [(y & Iy & Py)|N]; [intros; apply Dl; right; auto|left; exists y; split; [right; auto|auto]|]. right. intros y [<-|Hy]; auto. }
  destruct E as [E|E].
  - destruct (IH Dl E) as (pre & y & post & -> & Py & N). exists (a :: pre), y, post. auto.
  - destruct I as [->|I]; [|destruct (E x I Px)]. exists [], x, l. auto.
Qed.

Lemma flat_map_split : forall {X Y} (f : X -> list Y) l pre y post, flat_map f l = pre ++ y :: post ->
  exists x n1 n2, In x l /\ f x = n1 ++ y :: n2 /\ forall k, In k n2 -> In k post.
Proof.
  intros X Y f. induction l as [|x l IH]; intros pre y post E; cbn in E; [destruct pre; discriminate|].
  assert (C : forall (a b pre post : list Y) y, a ++ b = pre ++ y :: post -> (exists n, a = pre ++ y :: n /\ post = n ++ b) \/ exists p2, b = p2 ++ y :: post).
  { clear. induction a as [|z a IH]; intros b pre post y E; cbn in E; [right; eauto|]. destruct pre as [|z' pre]; cbn in E; injection E as <- E.
    - left. exists a. auto.
    - destruct (IH b pre post y E) as [(n & -> & ->)|R]; [left; exists n; auto|right; auto]. }
  destruct (C _ _ _ _ _ E) as [(n & E1 & ->)|(p2 & E1)].
  - exists x, pre, n. split; [left; auto|]. split; auto. intros k Hk. apply in_or_app. auto.
  - destruct (IH _ _ _ E1) as (x' & n1 & n2 & I & H). exists x', n1, n2. split; [right; auto|auto].
Qed.
Lemma map_split : forall {X Y} (f : X -> Y) l n1 y n2, map f l = n1 ++ y :: n2 -> exists l1 x l2, l = l1 ++ x :: l2 /\ map f l1 = n1 /\ f x = y /\ map f l2 = n2.
Proof.
  intros X Y f. induction l as [|a l IH]; intros n1 y n2 E; [destruct n1; discriminate|]. destruct n1 as [|b n1]; cbn in E; injection E as E1 E.
  - exists [], a, l. auto.
  - destruct (IH _ _ _ E) as (l1 & x & l2 & -> & <- & E2 & E3). exists (a :: l1), x, l2. cbn. subst. auto.
Qed.
Lemma filter_split : forall {X} (f : X -> bool) l n1 y n2, filter f l = n1 ++ y :: n2 -> exists l1 l2, l = l1 ++ y :: l2 /\ filter f l1 = n1 /\ filter f l2 = n2 /\ f y = true.
Proof.
  intros X f. induction l as [|a l IH]; intros n1 y n2 E; cbn in E; [destruct n1; discriminate|]. destruct (f a) eqn:Fa.
  - destruct n1 as [|b n1]; cbn in E; injection E as <- E.
    + exists [], l. auto.
    + destruct (IH _ _ _ E) as (l1 & l2 & -> & <- & E2 & E3). exists (a :: l1), l2. cbn. rewrite Fa. auto.
  - destruct (IH _ _ _ E) as (l1 & l2 & -> & <- & E2 & E3). exists (a :: l1), l2. cbn. rewrite Fa. auto.
Qed.

Lemma zedges_split : forall s pre j post, zedges s = pre ++ j :: post -> exists c L1 L2, znx s = L1 ++ (c, j) :: L2 /\ forall k, In (c, k) L2 -> In k post.
Proof.
  intros s pre j post E. unfold zedges in E. apply flat_map_split in E as (c & n1 & n2 & _ & E & H). unfold znext in E.
  apply map_split in E as (l1 & [c' j'] & l2 & E & _ & Ej & E2). cbn in Ej. subst j'. apply filter_split in E as (L1 & L2 & E & _ & E3 & Ec). cbn in Ec. apply Nat.eqb_eq in Ec. subst c'.
  exists c, L1, L2. split; auto. intros k Hk. apply H. rewrite <- E2, <- E3. apply in_map_iff. exists (c, k). split; auto. apply filter_In. split; auto. apply Nat.eqb_refl.
Qed.
Lemma aedges_split : forall ts l1 c e l2, aedges ts = l1 ++ (c, e) :: l2 -> exists es E1 E2, In (c, es) (next ts) /\ es = E1 ++ e :: E2 /\ forall x, In x E2 -> In (c, x) l2.
Proof.
  intros ts l1 c e l2 E. unfold aedges in E. apply flat_map_split in E as ([c' es] & n1 & n2 & I & E & H). cbn [fst snd] in E.
  apply map_split in E as (E1 & x & E2 & -> & _ & Ex & E3). injection Ex as -> ->. exists (E1 ++ e :: E2), E1, E2. split; auto. split; auto.
  intros x Hx. apply H. rewrite <- E3. apply in_map. auto.
Qed.

Lemma mgood_nan : forall n m, square n m -> mgood n m -> Forall (Forall (fun b => fst b <> NaN)) m.
Proof.
  intros n m [L R] G. rewrite Forall_forall in R. apply Forall_forall. intros r Hr. apply Forall_forall. intros b Hb. apply (In_nth _ _ []) in Hr as (i & Hi & Er). apply (In_nth _ _ binf) in Hb as (j & Hj & Eb).
  assert (Gb : good b). { rewrite <- Eb, <- Er. apply (G i j); [rewrite <- L; exact Hi|]. rewrite <- (R r); [auto|]. rewrite <- Er. apply nth_In. auto. }
  intros E. unfold good in Gb. rewrite E in Gb. exact Gb.
Qed.

(* ---------- nothing useful is lost ---------- *)

Section Loop.
  Variables (A : ta) (rg ps : ptr -> nat) (fuel : nat) (Z : za).
  Hypothesis WF : wf_ta A.
  Hypothesis K : clockSize A <= 255.
  Hypothesis ND : NoDup (inits A).
  Hypothesis CA : rounds_first False True A rg ps.
  Hypothesis HZ : ta2za fuel A zempty [] = Ok Z.
  Let n := S (clockSize A).
  Let M := max_const A.
  Let B := list_max (map ps (map fst (states A))).
  Definition unst (s : zst) : nat := if zone_eqb (idle M (zm s)) (zm s) then 0 else 1.
  Definition zrank (i : nat) : nat := match zget Z i with Some s => (2 * rg (zq s) + unst s) * S B + ps (zq s) | None => 0 end.

  Lemma okZ : Inv A M Z /\ (forall i, ordered A M Z i) /\ za_wf Z /\ all_alive Z /\ once Z /\ (forall j s, zget Z j = Some s -> zacc s = match_at A (zq s)).
  Proof.
    destruct (ta2za_fresh fuel A Z WF K HZ) as (I & _ & WZ & AA & _ & _ & AC). split; auto. split; [apply (ta2za_order fuel A Z WF HZ)|]. split; auto. split; auto. split; auto.
    apply (once_fresh A WF K fuel Z ND HZ).
  Qed.
  Lemma st : forall i s, zget Z i = Some s -> square n (zm s) /\ mgood n (zm s) /\ (exists v, zin n (elapse (zm s)) v) /\ In (zq s) (map fst (states A)).
  Proof.
    intros i s G. destruct okZ as (I & _). destruct (I i s G) as [(S1 & G1 & (v & Hv) & Q & _) _]. split; auto. split; auto. split; auto.
    eexists. apply (elapse_forward n _ v 1%Q); auto. lra.
  Qed.
  Lemma ps_le : forall q, In q (map fst (states A)) -> ps q <= B.
  Proof. intros q H. unfold B. pose proof (proj1 (list_max_le (map ps (map fst (states A))) _) (le_n _)) as F. rewrite Forall_forall in F. apply F. apply in_map. auto. Qed.

  Lemma Hn : 0 < n. Proof. unfold n. lia. Qed.
  Lemma zsym : forall m z, square n m -> square n z -> mgood n m -> mgood n z -> zone_eqb m z = true -> zone_eqb z m = true.
  Proof. intros m z H1 H2 H3 H4. apply (C15_symmetric n); auto. apply Hn. Qed.

  (* one configuration for one location and one zone *)
  Lemma uniq : forall i j s s', zget Z i = Some s -> zget Z j = Some s' -> zq s' = zq s -> zone_eqb (zm s) (zm s') = true -> i = j.
  Proof.
    intros i j s s' Gi Gj Q E. destruct okZ as (_ & _ & _ & _ & ON & _). destruct (st i s Gi) as (S1 & G1 & _). destruct (st j s' Gj) as (S2 & G2 & _).
    destruct (Nat.lt_total i j) as [L|[L|L]]; auto.
    - pose proof (zsym _ _ S1 S2 G1 G2 E) as E'. rewrite (ON i j s s' L Gi Gj Q) in E'. discriminate.
    - rewrite (ON j i s' s L Gj Gi (eq_sym Q)) in E. discriminate.
  Qed.

  Lemma same_eqb : forall m z, square n m -> mgood n m -> same m z -> zone_eqb m z = true.
  Proof. intros m z S1 G1 [H|<-]; auto. apply (zone_eqb_refl n); auto. apply Hn. Qed.

  (* after a transition that does nothing *)
  Lemma quiet_zone : forall i s j s' e m, zget Z i = Some s -> zget Z j = Some s' -> quiet e -> succ_zone M (elapse (zm s)) e = Some m -> zone_eqb m (zm s') = true ->
    unst s' = 0 /\ (unst s = 0 -> zone_eqb (zm s') (zm s) = true).
  Proof.
    intros i s j s' e m Gi Gj [E1 E2] Em Ez. destruct (st i s Gi) as (S1 & G1 & N1 & _). destruct (st j s' Gj) as (S2 & G2 & N2 & _). pose proof Hn as Hn.
    destruct (max_const_fin A) as (x & EM). destruct (idle_succ _ _ _ _ E1 E2 Em) as [Hm _]. unfold unst. fold M in EM. rewrite EM in *.
    destruct (idle_facts n x Hn (zm s) S1 G1 N1) as (Sr & Gr & _ & (v & Hv) & _). fold (idle (Fin x, true) (zm s)) in Sr, Gr, Hv. rewrite <- Hm in Sr, Gr, Hv.
    assert (NEm : exists v, zin n (elapse m) v) by (eexists; apply (elapse_forward n _ v 1%Q); auto; lra).
    assert (Ezs : zone_eqb (zm s') m = true) by (apply zsym; auto).
    assert (X1 : zone_eqb (idle (Fin x, true) m) m = true) by (rewrite Hm; apply (idle_idle n); auto).
    destruct (idle_facts n x Hn (zm s') S2 G2 N2) as (Sr2 & Gr2 & _). fold (idle (Fin x, true) (zm s')) in Sr2, Gr2.
    destruct (idle_facts n x Hn m Sr Gr NEm) as (Sr3 & Gr3 & _). fold (idle (Fin x, true) m) in Sr3, Gr3.
    assert (X2 : zone_eqb (idle (Fin x, true) (zm s')) (zm s') = true).
    { apply (zone_eqb_trans n _ m); auto. apply (zone_eqb_trans n _ (idle (Fin x, true) m)); auto. apply (idle_cong n); auto. }
    rewrite X2. split; auto. intros U. destruct (zone_eqb (idle (Fin x, true) (zm s)) (zm s)) eqn:X3; [|discriminate]. rewrite <- Hm in X3. apply (zone_eqb_trans n _ m); auto.
  Qed.

  Lemma lt_pair : forall p q x y, p < x -> q <= B -> p * S B + q < x * S B + y.
  Proof. intros p q x y H1 H2. clear - H1 H2. generalize dependent B. intros b H2. assert (S p * S b <= x * S b) by (apply Nat.mul_le_mono_r; lia). change (S p * S b) with (S b + p * S b) in *. lia. Qed.

  Lemma lower_rank : forall i s j s' e m, zget Z i = Some s -> zget Z j = Some s' -> lower rg ps (zq s) e (zq s') ->
    succ_zone M (elapse (zm s)) e = Some m -> zone_eqb m (zm s') = true -> zrank j < zrank i.
  Proof.
    intros i s j s' e m Gi Gj L Em Ez. unfold zrank. rewrite Gi, Gj. destruct (st j s' Gj) as (_ & _ & _ & Kq). pose proof (ps_le _ Kq) as Lq.
    assert (U : unst s' <= 1) by (unfold unst; case (zone_eqb (idle M (zm s')) (zm s')); auto).
    destruct L as [L|(E & Q & L)]; [apply lt_pair; auto; lia|]. destruct (quiet_zone i s j s' e m Gi Gj Q Em Ez) as [U' _]. rewrite U', E.
    destruct (unst s) as [|u]; [lia|]. apply lt_pair; auto. lia.
  Qed.

  Hypothesis DEC : forall i, i < length (zsts Z) -> zproductive Z i \/ ~ zproductive Z i.

  Lemma rounds_closer : last_closer Z zrank.
  Proof.
    destruct okZ as (HI & HO & WZ & AA & ON & AC). intros i s G _ PR NA. assert (Gi : zget Z i = Some s) by exact G.
    assert (EX : exists k, In k (zedges s) /\ zproductive Z k /\ k <> i).
    { destruct PR as (w & k & P & Ak). revert Gi NA G. induction P as [i|i c j w k E P IH]; intros Gi NA G.
      - exfalso. destruct Ak as (s' & G' & A'). congruence.
      - destruct (Nat.eq_dec j i) as [->|N]; [apply IH; auto|]. exists j. split; [|split; auto; exists w, k; auto].
        destruct E as (s' & G' & _ & Hc & _). rewrite G in G'. injection G' as <-. unfold zedges. apply in_flat_map. exists c. split; [apply in_seq; pose proof (zwf_edge Z WZ i s c j G Hc); lia|].
        unfold znext. apply in_map_iff. exists (c, j). split; auto. apply filter_In. split; auto. apply Nat.eqb_refl. }
    assert (LTe : forall k, In k (zedges s) -> k < length (zsts Z)).
    { intros k Hk. unfold zedges in Hk. apply in_flat_map in Hk as (c & _ & Hk). unfold znext in Hk. apply in_map_iff in Hk as ([c' j'] & <- & Hk). apply filter_In in Hk as [Hk _]. apply (zwf_edge Z WZ i s c' j' G Hk). }
    destruct (last_split (fun k => zproductive Z k /\ k <> i) (zedges s)) as (pre & j & post & E & (Pj & Nj) & PO).
    { intros k Hk. destruct (DEC k (LTe k Hk)) as [D|D]; [|right; tauto]. destruct (Nat.eq_dec k i); [right; tauto|left; auto]. }
    { destruct EX as (k & H1 & H2). exists k. auto. }
    exists pre, j, post. split; auto. split; auto. split.
    2:{ intros k Hk. specialize (PO k Hk). destruct (Nat.eq_dec k i); [right; auto|left; tauto]. }
    destruct (zedges_split s pre j post E) as (c & L1 & L2 & EL & HL). destruct (HO i s Gi) as (ts & Ed & EM). rewrite EL in EM.
    apply emits_split in EM as (l1 & e & l2 & q & m & sj & Ea & Et & Es & Gj & Qj & Sm & EM2).
    destruct (aedges_split ts l1 c e l2 Ea) as (es & E1 & E2 & Hes & Ees & HE2). assert (Hts : In (zq s, ts) (states A)) by (apply assoc_In; auto).
    destruct (st i s Gi) as (S1 & G1 & N1 & K1). destruct (st j sj Gj) as (S2 & G2 & N2 & K2). pose proof Hn as Hn.
    assert (SZ : forall a sa x c0 e0 m0, zget Z a = Some sa -> is_edge A x c0 e0 -> succ_zone M (elapse (zm sa)) e0 = Some m0 -> square n m0 /\ mgood n m0).
    { intros a sa x c0 e0 m0 Ga He0 Em0. destruct (st a sa Ga) as (Sa & Ga' & _). pose proof (wf_is_edge _ _ _ _ WF He0) as (_ & WR & WG).
      destruct (succ_zone_ok (clockSize A) K M (elapse (zm sa)) e0 m0) as (X1 & X2 & _); auto; [apply elapse_square; auto|apply elapse_good; auto]. }
    assert (He : is_edge A (zq s) c e) by (exists ts, es; split; auto; split; auto; rewrite Ees; apply in_elt).
    destruct (SZ i s _ _ _ _ Gi He Es) as [Sm1 Gm1]. pose proof (same_eqb _ _ Sm1 Gm1 Sm) as Ez.
    destruct (CA (zq s) ts c es E1 e E2 q Hts Hes Ees Et) as [L|[(Eq & Q)|(Q & Er & S & Sp & Sq & SA & SE)]]; subst q.
    - apply (lower_rank i s j sj e m); auto.
    - destruct (quiet_zone i s j sj e m Gi Gj Q Es Ez) as [U1 U2]. destruct (unst s) as [|u] eqn:U.
      + exfalso. apply Nj. apply (uniq j i sj s); auto.
      + unfold zrank. rewrite Gi, Gj, U, U1, Eq. apply lt_pair; [lia|apply ps_le; auto].
    - destruct (quiet_zone i s j sj e m Gi Gj Q Es Ez) as [U1 U2]. destruct (unst s) as [|u] eqn:U.
      2:{ unfold zrank. rewrite Gi, Gj, U, U1, Er. apply lt_pair; [lia|apply ps_le; auto]. }
      exfalso. specialize (U2 eq_refl). destruct Pj as (w & k & P & Ak).
      assert (Main : forall a w k, zpath Z a w k -> zaccepting Z k -> forall sa, zget Z a = Some sa -> S (zq sa) -> zone_eqb (zm sa) (zm s) = true -> False).
      { clear w k P Ak j Nj sj Gj E EL U1 U2 Sm Ez Sq Et K2 S2 G2 N2 Er. intros a w k P Ak.
        induction P as [a|a c1 b w k Eab P IH]; intros sa Ga Sa Za.
        - destruct Ak as (sk & Gk & Acc). assert (Gk' : zget Z a = Some sk) by exact Gk. rewrite Ga in Gk'. injection Gk' as <-. rewrite (AC a sa Ga) in Acc.
          apply (match_at_spec A _ (wf_nodup _ WF)) in Acc. exact (SA _ Sa Acc).
        - destruct Eab as (sa' & Ga' & _ & Hc & _). assert (X : zget Z a = Some sa') by exact Ga'. rewrite Ga in X. injection X as <-.
          destruct (HI a sa Ga) as [_ EO]. destruct (EO c1 b Hc) as (_ & sb & e' & y & m' & Gb & He' & Et' & Em' & Qb & Ez'). subst y.
          destruct (st a sa Ga) as (Sa1 & Ga1 & Na1 & _). destruct (st b sb Gb) as (Sb1 & Gb1 & Nb1 & _). destruct (SZ a sa _ _ _ _ Ga He' Em') as [Sm' Gm'].
          destruct (SE _ _ _ _ Sa He' Et') as [(Sy & Qe)|[(NAy & NEy)|[(_ & [] & _)|(NAy & e2 & I2 & Et2 & Eg2 & Er2 & L2')]]].
          + apply (IH Ak sb Gb Sy). destruct (quiet_zone a sa b sb e' m' Ga Gb Qe Em' Ez') as [Ub Ub2].
            assert (Ua : unst sa = 0).
            { unfold unst in *. destruct (max_const_fin A) as (x & EMx). fold M in EMx. rewrite EMx in *. destruct (zone_eqb (idle (Fin x, true) (zm s)) (zm s)) eqn:Us; [|discriminate].
              destruct (idle_facts n x Hn (zm s) S1 G1 N1) as (Sr & Gr & _). fold (idle (Fin x, true) (zm s)) in Sr, Gr.
              destruct (idle_facts n x Hn (zm sa) Sa1 Ga1 Na1) as (Sra & Gra & _). fold (idle (Fin x, true) (zm sa)) in Sra, Gra.
              assert (Zs : zone_eqb (zm s) (zm sa) = true) by (apply zsym; auto).
              replace (zone_eqb (idle (Fin x, true) (zm sa)) (zm sa)) with true; auto. symmetry.
              apply (zone_eqb_trans n _ (idle (Fin x, true) (zm s))); auto; [apply (idle_cong n); auto|]. apply (zone_eqb_trans n _ (zm s)); auto. }
            apply (zone_eqb_trans n _ (zm sa)); auto.
          + inversion P as [|b' c2 b2 w' k' E2' P']; subst.
            * destruct Ak as (sk & Gk & Acc). assert (Gk' : zget Z k = Some sk) by exact Gk. rewrite Gb in Gk'. injection Gk' as <-. rewrite (AC k sb Gb) in Acc.
              apply (match_at_spec A _ (wf_nodup _ WF)) in Acc. exact (NAy Acc).
            * destruct E2' as (sb' & Gb' & _ & Hc2 & _). assert (X : zget Z b = Some sb') by exact Gb'. rewrite Gb in X. injection X as <-.
              destruct (HI b sb Gb) as [_ EO2]. destruct (EO2 c2 b2 Hc2) as (_ & s2 & e3 & y & m3 & _ & He3 & _). exact (NEy _ _ He3).
          + destruct (succ_zone_r M (zm sa) (zm s) e' m' Za Em') as (z' & Ez2 & Rz).
            assert (Es2 : succ_zone M (elapse (zm s)) e2 = Some z') by (unfold succ_zone in *; rewrite Eg2, Er2; exact Ez2).
            destruct (emits_in _ _ _ _ _ c e2 _ _ EM2 (HE2 e2 I2) Et2 Es2) as (k2 & sk & Ik & Gk & Qk & Sk).
            destruct (st k2 sk Gk) as (Sk1 & Gk1 & _).
            destruct (SZ i s _ _ _ _ Gi He' Ez2) as [Sz Gz]. pose proof (same_eqb _ _ Sz Gz Sk) as Ek.
            assert (b = k2).
            { apply (uniq b k2 sb sk); auto. apply (zone_eqb_trans n _ m'); auto; [apply zsym; auto|]. apply (zone_eqb_trans n _ z'); auto. apply mr_eqb; auto. apply (mgood_nan n); auto. }
            subst k2. apply (PO b (HL b Ik)). split; [exists w, k; auto|]. intros ->.
            assert (zrank i < zrank i); [|lia]. apply (lower_rank i s i sk e2 z'); auto. rewrite Qk. auto. }
      apply (Main j w k P Ak sj Gj); auto.
  Qed.
End Loop.

Lemma keeps_useful_rounds : forall fuel A rg ps, wf_ta A -> clockSize A <= 255 -> NoDup (inits A) -> rounds_first False True A rg ps -> keeps_useful fuel A.
Proof.
  intros fuel A rg ps WF K ND CA Z Z' HZ HZ' i RE PR. destruct (ta2za_fresh fuel A Z WF K HZ) as (_ & _ & WZ & AA & _).
  assert (Dk : alive Z' i \/ ~ alive Z' i).
  { unfold alive. destruct (nth_error (zsts Z') i) as [s|]; [|right; intros (s & E & _); discriminate].
    destruct (zlive s) eqn:E; [left; eauto|right; intros (s' & E' & L); congruence]. }
  destruct Dk as [|Dk]; auto. exfalso. apply (finite_dec (zproductive Z) (length (zsts Z))). intros D.
  apply Dk. apply (last_kept Z (zrank A rg ps Z) WZ AA (rounds_closer A rg ps fuel Z WF K ND CA HZ D) D fuel Z' HZ'); auto.
Qed.
