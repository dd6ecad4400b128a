(* Properties C47 and C72 from the text of a pattern: when monaa is defined and
   when it returns. *)
From Coq Require Import QArith Lqa Bool List ZArith Arith Lia Ascii String List.
From Verif Require Import Num NumFacts Outcome Interval IntervalFacts Constraint Zone TA Spec TAFacts PropBase WfDec Word ZA ZAFacts ZASpec ZAGraph PropZA ZATerm ZALive ZADiv ZAFin Monaa MonaaFacts MonaaVec Skip SkipFacts ApFacts Sunday
  SundayTerm Kmp KmpUB KmpTerm KmpHang PropSkipEx PropMonaa PropTerm Intersection Tre TreRun TreFacts TreBuild TreLang PropTre TreMild Text TextFacts PropText Ans Signal Parse ParseSpec ParseFacts PropParse Main MainFacts PropMain.
Import ListNotations.
Open Scope list_scope.
Open Scope nat_scope.

(* ---------------- a property that only the last element has ---------------- *)

Definition lastP {X} (P : X -> Prop) (l : list X) : Prop := forall pre e rest, l = pre ++ e :: rest -> P e -> rest = [].
Lemma lastP_cons : forall {X} (P : X -> Prop) x l, (P x -> l = []) -> lastP P l -> lastP P (x :: l).
Proof.
  intros X P x l H HL [|y pre] e rest E Pe; cbn in E; injection E as -> E; [subst; auto|]. eapply HL; eauto.
Qed.
Lemma lastP_tail : forall {X} (P : X -> Prop) x l, lastP P (x :: l) -> (P x -> l = []) /\ lastP P l.
Proof. intros X P x l H. split; [apply (H [] x l eq_refl)|]. intros pre e rest -> Pe. apply (H (x :: pre) e rest); auto. Qed.
Lemma lastP_filter : forall {X} (P : X -> Prop) h l, lastP P l -> lastP P (filter h l).
Proof.
  intros X P h. induction l as [|x l IH]; cbn; auto. intros H. apply lastP_tail in H as [H1 H2]. destruct (h x); auto. apply lastP_cons; auto.
  intros Px. rewrite (H1 Px). reflexivity.
Qed.
Lemma lastP_map : forall {X Y} (P : Y -> Prop) (g : X -> Y) l, lastP (fun x => P (g x)) l -> lastP P (map g l).
Proof.
  intros X Y P g. induction l as [|x l IH]; intros H; [intros [|] ? ? E; discriminate|]. apply lastP_tail in H as [H1 H2]. cbn. apply lastP_cons; auto.
  intros Px. rewrite (H1 Px). reflexivity.
Qed.
Lemma lastP_app : forall {X} (P : X -> Prop) l k, (forall x, In x l -> ~ P x) -> length k <= 1 -> lastP P (l ++ k).
Proof.
  intros X P l k H L. induction l as [|x l IH]; cbn.
  - intros pre e rest E _. subst k. rewrite app_length in L. cbn in L. destruct rest; auto. cbn in L. lia.
  - apply lastP_cons; [intros Px; destruct (H x (or_introl eq_refl) Px)|]. apply IH. intros y Hy. apply H. right. auto.
Qed.
Lemma lastP_impl : forall {X} (P Q : X -> Prop) l, (forall x, In x l -> Q x -> P x) -> lastP P l -> lastP Q l.
Proof. intros X P Q l H HL pre e rest E Qe. apply (HL pre e rest E). apply H; auto. rewrite E. apply in_or_app. right. left. auto. Qed.

(* ---------------- patterns that end with $ ---------------- *)

Lemma atom_built : forall al c n, toEventTA al (Atom c) n = Ok (atomTA al c n, S (S n)).
Proof.
  intros al c n. cbn. unfold redirect, tgt_in. cbn. unfold mem. cbn. rewrite Nat.eqb_refl. cbn. reflexivity.
Qed.

Lemma cat_built : forall al r1 r2 n, toEventTA al (Cat r1 r2) n =
  do X <- (do X <- toEventTA al r1 n ; do Y <- toEventTA al r2 (snd X) ; Ok (concat2 (fst X) (fst Y), snd Y)) ; do B <- reduceStates (merge (fst X)) ; Ok (B, snd X).
Proof. reflexivity. Qed.

Section Dollar.
  Variables (al : nat -> ptr) (r : tre) (n n1 m : nat) (L D Ap : ta).
  Hypothesis Inj : injective al.
  Hypothesis Pl : TreMild.plain r.
  Hypothesis K : nclocks r <= 256.
  Hypothesis ND : ~ In dollar (tatoms r).
  Hypothesis E1 : toEventTA al r n = Ok (L, n1).
  Hypothesis E2 : reduceStates (merge (concat2 L (atomTA al dollar n1))) = Ok D.
  Hypothesis HA : make_ap D = Ok Ap.

  Let R := atomTA al dollar n1.
  Let C := concat2 L R.

  Lemma d_built : built al r n n1 L.
  Proof. apply toEventTA_inv; auto. apply plain_ok. auto. Qed.
  Lemma d_tinv : tinv al n (S (S n1)) C.
  Proof.
    pose proof d_built as B. eapply (cat_tinv al n n1); eauto using bu_inv, bu_le; [apply atom_tinv; auto; discriminate|]. cbn. lia.
  Qed.
  Lemma d_merge : exists f rest, terminals C = f :: rest.
  Proof.
    assert (X : In (al (S n1)) (terminals C)).
    { apply terminals_in. exists (mkS true false []). split; auto. apply (cat_state L R). right. exists (mkS true false []). split; [right; left; auto|].
      unfold right_state. destruct (_ && _); reflexivity. }
    destruct (terminals C) as [|f rest]; [destruct X|]. eauto.
  Qed.

  (* The states with a transition on $. *)
  Lemma d_dollar : forall q e, is_edge D q dollar e -> q = al n1.
  Proof.
    intros q e H. pose proof d_built as B. pose proof d_tinv as T. pose proof (ti_wf _ _ _ _ (bu_inv _ _ _ _ _ B)) as WL.
    destruct d_merge as (f & rest & ET). pose proof (ti_wf _ _ _ _ (merge_tinv1 al _ _ C f rest T ET)) as WM.
    destruct (reduceStates_ok (merge C) WM) as (D' & E' & Rd & _). assert (D' = D) by (unfold C, R in E'; congruence); subst D'. unfold C, R in *.
    apply (rd_edge _ _ Rd) in H. destruct (proj1 (merge_edge al _ _ _ f rest T ET q dollar e) H) as (e0 & q0 & H0 & _).
    pose proof (toEventTA_calmed al r n L n1 Inj Pl K E1) as Ca.
    apply (cat_edge al n n1 L _ (bu_inv _ _ _ _ _ B)) in H0 as [H0|[H0|(e1 & q1 & i & H0 & _)]].
    - destruct (ND (ca_char _ _ Ca _ _ _ H0)).
    - apply (atom_edge al n1 Inj) in H0 as (-> & _). reflexivity.
    - destruct (ND (ca_char _ _ Ca _ _ _ H0)).
  Qed.

  Lemma d_last : accepting_last Ap.
  Proof.
    pose proof d_built as B. pose proof d_tinv as T. pose proof (bu_inv _ _ _ _ _ B) as TL.
    destruct d_merge as (f & rest & ET). pose proof (ti_wf _ _ _ _ (merge_tinv1 al _ _ C f rest T ET)) as WM.
    destruct (reduceStates_ok (merge C) WM) as (D' & E' & Rd & _). assert (D' = D) by (unfold C, R in E'; congruence); subst D'. unfold C, R in *.
    pose proof (toEventTA_calmed al r n L n1 Inj Pl K E1) as Ca.
    destruct (make_ap_states _ _ HA) as (ES & _).
    intros p s c es e rst q sq Hp Hc Hes Et Hq Mq. destruct Hes as (pre & Ees).
    rewrite ES in Hp. apply in_map_iff in Hp as ([p0 s0] & X & Hp). cbn [fst snd] in X. injection X as -> <-.
    apply (ap_next) in Hc as [Hc Dc]. rewrite ES in Hq. apply in_map_iff in Hq as ([q0 sq0] & X & Hq). cbn [fst snd] in X. injection X as -> <-.
    destruct (thin_reduce _ _ E' p s0 c es Hp Hc) as (s1 & es1 & h & H1 & Hc1 & Eh).
    apply (merge_states _ f rest ET) in H1 as (s2 & H2 & _ & ->). cbn [merged_state next] in Hc1. apply in_map_next in Hc1 as (es2 & Hc2 & ->).
    (* which states accept *)
    assert (Q : q = al n1 \/ accepting (concat2 L (atomTA al dollar n1)) q).
    { unfold ap_state in Mq. destruct (assoc dollar (next sq0)) as [es0|] eqn:X.
      - left. apply assoc_In in X. destruct es0 as [|e0 es0].
        + exfalso. assert (FD : full D) by (destruct (reduceStates_ok _ WM) as (D2 & E3 & _ & F3 & _); rewrite E' in E3; injection E3 as <-; exact F3).
          apply (FD q sq0 dollar [] Hq X). reflexivity.
        + apply (d_dollar q e0). exists sq0, (e0 :: es0). split; auto. split; auto. left. auto.
      - right. assert (Aq : accepting D q) by (exists sq0; auto). apply (rd_acc _ _ Rd) in Aq. apply (merge_accepting al _ _ _ f rest T ET) in Aq as [Aq _]. auto. }
    (* the list before merging *)
    apply (cat_state L _) in H2 as [(s3 & H3 & ->)|(s3 & H3 & ->)].
    - cbn [left_state next] in Hc2. apply in_map_next in Hc2 as (es3 & Hc3 & ->).
      assert (Tg : forall e1, In e1 es3 -> exists q1, etgt e1 = Some q1 /\ In q1 (map fst (states L))).
      { intros e1 He1. assert (Ed : is_edge L p c e1) by (exists s3, es3; auto). destruct (ti_tgt _ _ _ _ TL _ _ _ Ed) as (q1 & Eq1). exists q1. split; auto.
        eapply edge_target; eauto. apply (ti_wf _ _ _ _ TL). }
      assert (Disj : forall x, In x (map fst (states L)) -> x <> al n1 /\ x <> al (S n1)).
      { intros x Hx. apply (ti_rng _ _ _ _ TL) in Hx as (k & Hk & ->). split; intros Y; apply Inj in Y; lia. }
      assert (Fq : forall e1, In e1 (cat_edges L (atomTA al dollar n1) es3) -> etgt (redirect (f :: rest) f e1) = Some q -> etgt e1 = Some (al n1)).
      { intros e1 He1 Eq1. destruct (cat_edge_in al n n1 L (atomTA al dollar n1) TL es3 e1) as [I1 _]; [intros; destruct (Tg _ H) as (x & Hx & _); eauto|].
        destruct (I1 He1) as [He3|(e2 & q2 & i & He3 & _ & _ & Hi & ->)].
        - exfalso. destruct (Tg e1 He3) as (q1 & Eq2 & Hq1). rewrite (redirect_some f rest e1 q1 Eq2) in Eq1. cbn [etgt] in Eq1. injection Eq1 as <-.
          destruct (Disj q1 Hq1) as [Y1 Y2]. unfold rho in Q. destruct (tb f rest q1) eqn:TB.
          + apply (tb_spec al _ _ _ f rest T ET) in TB. apply (cat_accepting L (atomTA al dollar n1)) in TB. apply (atom_accepting al n1 Inj dollar) in TB. auto.
          + destruct Q as [Q|Q]; [auto|]. apply (cat_accepting L (atomTA al dollar n1)) in Q. apply (atom_accepting al n1 Inj dollar) in Q. auto.
        - destruct Hi as [<-|[]]. reflexivity. }
      assert (LP : lastP (fun e1 => etgt (redirect (f :: rest) f e1) = Some q) (cat_edges L (atomTA al dollar n1) es3)).
      { apply (lastP_impl (fun e1 => etgt e1 = Some (al n1))); [intros; auto|]. unfold cat_edges. apply lastP_app.
        - intros x Hx Y. destruct (Tg x Hx) as (q1 & Eq1 & Hq1). rewrite Eq1 in Y. injection Y as ->. destruct (Disj _ Hq1). auto.
        - etransitivity; [|apply (ca_ones _ _ Ca p s3 c es3 H3 Hc3)]. unfold cnt. clear. induction es3 as [|x l IH]; cbn [flat_map filter]; auto.
          destruct (acc_tgt L x); cbn in *; lia. }
      apply (lastP_map (fun e1 => etgt e1 = Some q)) in LP. apply (lastP_filter _ h) in LP. rewrite <- Eh in LP. exact (LP pre e rst Ees Et).
    - exfalso. destruct (right_state_same L (atomTA al dollar n1) p s3) as (_ & En & _). rewrite En in Hc2. cbn in H3.
      destruct H3 as [H3|[H3|[]]]; injection H3 as X1 X2; subst s3; cbn [next] in Hc2; [|destruct Hc2]. destruct Hc2 as [Hc2|[]]. injection Hc2 as X _. congruence.
  Qed.
End Dollar.

(* ---------------- nothing undefined in the Sunday table ---------------- *)

Lemma dead_fine : forall f Z, za_wf Z -> all_alive Z -> removeDeadStates f Z = OutOfFuel \/ exists Z', removeDeadStates f Z = Ok Z'.
Proof.
  assert (X : forall f k Z st R, dead_loop f Z st R <> OutOfFuel -> dead_loop (f + k) Z st R = dead_loop f Z st R).
  { induction f as [|f IH]; intros k Z st R H; destruct st as [|[a P] st]; cbn [dead_loop Nat.add] in *; auto; [destruct k; auto|congruence|].
    destruct (zlock Z a) as [s|]; auto. }
  intros f Z W AA. destruct (C24_removeDeadStates Z W AA) as (f2 & Z' & H & _). specialize (H f). unfold removeDeadStates in *.
  destruct (dead_loop f Z (map (fun i => (i, [])) (rev (zinit Z))) []) as [R| | | |] eqn:E; [cbn [bind]; eauto| | | |auto];
    rewrite (Nat.add_comm f2 f), X, E in H; rewrite ?E; discriminate.
Qed.

Lemma sunday_fine : forall fuel A, wf_ta A -> clockSize A <= 255 -> labels_ok A -> 
  sunday_sets fuel A = OutOfFuel \/ sunday_sets fuel A = Exit 10 \/ exists sets, sunday_sets fuel A = Ok sets.
Proof.
  intros fuel A W K LB. unfold sunday_sets. destruct (ta2za_fine fuel A W K LB) as [E|(Z & E)]; rewrite E; cbn [bind]; auto.
  destruct (ta2za_fresh fuel A Z W K E) as (_ & _ & WZ & AA & _). destruct (dead_fine fuel Z WZ AA) as [R|(Z' & R)]; rewrite R; cbn [bind]; auto.
  destruct (removeDead_live Z WZ AA _ _ R) as (WZ' & _). pose proof (zwf_init Z' WZ') as HI. revert HI. generalize (zinit Z') (@nil (list nat)). clear -WZ'. 
  induction fuel as [|f IH]; intros cs sets HI; destruct cs as [|c cs]; cbn [sunday_build]; auto.
  destruct (succs_alive Z' (c :: cs) [] HI ltac:(intros ? ? [])) as (l & E & Hl). rewrite E. cbn [bind]. cbv zeta.
  destruct (existsb _ l); [eauto|]. apply IH. intros i Hi. apply in_map_iff in Hi as ([c' x'] & <- & Hx). eapply Hl; eauto.
Qed.

(* ---------------- the trees ---------------- *)

(* Every upper bound is at least 1. *)
Fixpoint roomy (r : restr) : Prop :=
  match r with RRange _ _ b _ => (1 <= b)%Z | RLt b | RLe b | REq b => (1 <= b)%Z | RGe _ | RGt _ => False | RPar r => roomy r end.
(* The restriction asks for no time to pass. *)
Fixpoint instant (r : restr) : Prop :=
  match r with RRange _ a _ _ => a = 0%Z | RLt _ | RLe _ => True | REq _ | RGe _ | RGt _ => False | RPar r => instant r end.
(* Every restriction has an upper bound, of at least 1; nothing that may be empty is
   repeated or restricted; no star directly below or behind &. *)
Fixpoint tame (x : sx) : Prop :=
  match x with
  | XAtom _ => True
  | XPar y => tame y
  | XPlus y | XStar y => tame y /\ bare y = false /\ nul y = false
  | XCat y z => tame y /\ tame z /\ (bare z = false \/ solid y = true)
  | XOr y z => tame y /\ tame z
  | XAnd y z => tame y /\ tame z /\ bare y = false /\ bare z = false
  | XIn y r => tame y /\ bare y = false /\ nul y = false /\ roomy r
  end.
(* No restriction asks for time to pass; none below a + does. *)
Fixpoint hasty (x : sx) : Prop :=
  match x with
  | XAtom _ => True
  | XPar y | XPlus y | XStar y => hasty y
  | XCat y z | XOr y z | XAnd y z => hasty y /\ hasty z
  | XIn y r => hasty y /\ instant r
  end.
Fixpoint hasty_loops (x : sx) : Prop :=
  match x with
  | XAtom _ => True
  | XPar y | XIn y _ => hasty_loops y
  | XPlus y | XStar y => hasty y
  | XCat y z | XOr y z | XAnd y z => hasty_loops y /\ hasty_loops z
  end.

Lemma tame_starsafe : forall x, tame x -> starsafe x.
Proof.
  assert (B : forall r, roomy r -> bounded r) by (induction r; cbn; auto). induction x; cbn; intros H; intuition auto; congruence.
Qed.
Lemma roomy_up : forall r, roomy r -> exists lo up, fst (lob (rden r)) = Fin (inject_Z lo) /\ fst (upb (rden r)) = Fin (inject_Z up) /\ (1 <= up)%Z.
Proof.
  induction r as [lc a b rc|z|z|z|z|z|r IH]; cbn; intros H; try contradiction; auto; eexists; eexists; (split; [reflexivity|split; [reflexivity|exact H]]).
Qed.
Lemma instant_lo : forall r, instant r -> forall lo, fst (lob (rden r)) = Fin (inject_Z lo) -> (lo <= 0)%Z.
Proof.
  induction r as [lc a b rc|z|z|z|z|z|r IH]; cbn; intros H lo E; try contradiction; auto; injection E as E; lia.
Qed.
Lemma tame_plain : forall x, tame x -> (forall c, In c (atoms x) -> ParseSpec.letter c) -> TreMild.plain (den x).
Proof.
  intros x T A. assert (SO : forall y, tame y -> incl (atoms y) (atoms x) -> bare y = false -> flag (den y) = NoFlag).
  { intros y Ty Iy By. destruct (starsafe_ok y (tame_starsafe y Ty)) as (_ & F & _); auto. rewrite By in F. exact F. }
  assert (SN : forall y, tame y -> incl (atoms y) (atoms x) -> nul y = false -> nullable (den y) = false).
  { intros y Ty Iy By. destruct (starsafe_ok y (tame_starsafe y Ty)) as (_ & _ & F & _); auto. congruence. }
  assert (I : incl (atoms x) (atoms x)) by apply incl_refl. revert I T. generalize x at 1 3 4 as z.
  induction z as [c|y IH|y IH|y IH|y IHy z IHz|y IHy z IHz|y IHy z IHz|y IH r]; cbn [tame atoms den]; intros I S; try (apply incl_app_inv in I as [I1 I2]).
  - cbn. specialize (A c (I c (or_introl eq_refl))). unfold ParseSpec.letter in A. lia.
  - auto.
  - destruct S as (S & B & Nl). specialize (IH I S). destruct (mkPlus_cases (den y)) as [->|(r1 & E & ->)]; auto. cbn. auto.
  - destruct S as (S & B & Nl). specialize (IH I S). unfold mkStar. split; [exact Logic.I|]. destruct (mkPlus_cases (den y)) as [->|(r1 & E & ->)]; auto. cbn. auto.
  - destruct S as (S1 & S2 & _). split; auto.
  - destruct S as [S1 S2]. split; auto.
  - destruct S as (S1 & S2 & B1 & B2). cbn. auto.
  - destruct S as (S1 & B & Nl & S2). destruct (roomy_up r S2) as (lo & up & H). cbn [TreMild.plain]. split; auto. split; auto. split; auto. exists lo, up. exact H.
Qed.
Lemma hasty_slow : forall x, hasty x -> slow (den x).
Proof.
  induction x as [c|y IH|y IH|y IH|y IHy z IHz|y IHy z IHz|y IHy z IHz|y IH r]; cbn [hasty den]; intros H; auto; try exact Logic.I; try (destruct H; split; auto).
  - specialize (IH H). destruct (mkPlus_cases (den y)) as [->|(r1 & E & ->)]; auto.
  - specialize (IH H). split; [exact Logic.I|]. destruct (mkPlus_cases (den y)) as [->|(r1 & E & ->)]; auto.
  - apply instant_lo. auto.
Qed.
Lemma hasty_gentle : forall x, hasty_loops x -> gentle (den x).
Proof.
  induction x as [c|y IH|y IH|y IH|y IHy z IHz|y IHy z IHz|y IHy z IHz|y IH r]; cbn [hasty_loops den]; intros H; auto; try exact Logic.I; try (destruct H; split; auto).
  - pose proof (hasty_slow y H) as SL. destruct (mkPlus_cases (den y)) as [->|(r1 & E & ->)]; auto. rewrite E in *. exact SL.
  - pose proof (hasty_slow y H) as SL. split; [exact Logic.I|]. destruct (mkPlus_cases (den y)) as [->|(r1 & E & ->)]; auto. rewrite E in *. exact SL.
Qed.
Lemma den_atoms : forall x c, In c (tatoms (den x)) -> In c (atoms x).
Proof.
  induction x as [c|y IH|y IH|y IH|y IHy z IHz|y IHy z IHz|y IHy z IHz|y IH r]; cbn [atoms den]; intros a I; auto;
    try (cbn [tatoms] in I; apply in_app_iff in I as [I|I]; apply in_app_iff; intuition auto; fail).
  - destruct (mkPlus_cases (den y)) as [E|(r1 & E & F)]; [rewrite E in I|rewrite F in I]; auto.
  - unfold mkStar in I. cbn [tatoms] in I. destruct (mkPlus_cases (den y)) as [E|(r1 & E & F)]; [rewrite E in I|rewrite F in I]; auto.
Qed.

(* ---------------- the automaton of a pattern that ends with $ ---------------- *)

Record ended (D Ap : ta) : Prop := mkEnd {
  en_wf : wf_ta D; en_ap : make_ap D = Ok Ap; en_eps : no_eps D = true; en_chars : chars_ok Ap; en_last : accepting_last Ap
}.

Section Ended.
  Variables (al0 : nat -> ptr) (x : sx).
  Let x' := XCat x (XAtom dollar).
  Hypothesis Inj : injective al0.
  Hypothesis T : tame x.
  Hypothesis L : forall c, In c (atoms x) -> ParseSpec.letter c.
  Hypothesis ND : ~ In dollar (atoms x).
  Hypothesis K : 2 * restrictions x <= 255.

  Lemma den_clocks : nclocks (den x) <= restrictions x.
  Proof. apply starsafe_ok; auto. apply tame_starsafe. auto. Qed.
  Lemma tame' : tame x'.
  Proof. cbn. auto. Qed.
  Lemma letters' : forall c, In c (atoms x') -> ParseSpec.letter c.
  Proof. intros c H. cbn [x' atoms] in H. apply in_app_iff in H as [H|[<-|[]]]; auto. unfold ParseSpec.letter, dollar. lia. Qed.

  Lemma ended_ok : exists D m Ap, toEventTA al0 (den x') 0 = Ok (D, m) /\ ended D Ap /\ clockSize Ap = nclocks (den x) /\
    (hasty_loops x -> exists rk, calm Ap rk) /\ (forall p s, In (p, s) (states Ap) -> zeroDur s = false).
  Proof.
    pose proof (tame_plain x' tame' letters') as Pl. pose proof (plain_ok _ Pl) as O. assert (Fl : flag (den x') = NoFlag) by reflexivity. pose proof den_clocks as DK.
    assert (K' : nclocks (den x') <= 256) by (cbn; lia).
    destruct (toEventTA_built al0 (den x') Inj O K' 0) as (D & m & E & B). exists D, m.
    pose proof (toEventTA_calmed al0 (den x') 0 D m Inj Pl K' E) as Ca. pose proof (bu_inv _ _ _ _ _ B) as TI.
    pose proof (ti_wf _ _ _ _ TI) as WD.
    assert (AP : exists Ap, make_ap D = Ok Ap).
    { unfold make_ap. replace (forallb _ _) with true; [eauto|]. symmetry. apply forallb_forall. intros [p s] Hp. cbn [snd]. unfold ap_targets_ok.
      apply forallb_forall. intros [c es] Hc. apply ap_next in Hc as [Hc _]. apply forallb_forall. intros e He.
      assert (Ed : is_edge D p c e) by (exists s, es; auto). destruct (ti_tgt _ _ _ _ TI _ _ _ Ed) as (q & Eq). cbn [snd] in He. rewrite Eq.
      pose proof (edge_target D p c e q WD Ed Eq) as Hq. apply mem_In. exact Hq. }
    destruct AP as (Ap & HA). exists Ap. destruct (make_ap_states _ _ HA) as (ES & EI & EM & _).
    split; [exact E|]. split; [|split; [|split]].
    - constructor; auto.
      + unfold no_eps. apply forallb_forall. intros [p s] Hp. cbn [snd]. destruct (assoc 0 (next s)) as [[|e es]|] eqn:Ea; auto; apply assoc_In in Ea.
        * destruct (ti_full _ _ _ _ TI p s 0 [] Hp Ea eq_refl).
        * exfalso. apply (ti_obs _ _ _ _ TI p 0 e); auto. exists s, (e :: es). split; auto. split; auto. left. auto.
      + intros p c e He. apply (ap_edge D Ap HA) in He as [He _]. apply (ca_char _ _ Ca) in He. apply (den_atoms x' c) in He.
        apply letters' in He. unfold ParseSpec.letter, char_max in *. lia.
      + unfold x' in E. cbn [den] in E. rewrite cat_built in E. apply bind_Ok in E as ([C n2] & E1 & E). apply bind_Ok in E1 as ([A1 n1] & E1 & E2). cbn [fst snd] in E2.
        rewrite atom_built in E2. cbn [bind fst snd] in E2. injection E2 as <- <-.
        cbn [fst snd] in E. apply bind_Ok in E as (D' & E2 & E). injection E as -> <-.
        apply (d_last al0 (den x) 0 n1 A1 D Ap Inj); auto; [apply tame_plain; auto|lia|].
        intros H. apply ND. apply den_atoms; auto.
    - rewrite (ap_clocks D Ap HA), (bu_clocks _ _ _ _ _ B). cbn. lia.
    - intros HL. destruct (ca_mild _ _ Ca) as (rk & M); [apply hasty_gentle; cbn; auto|]. exists rk. right. split.
      + destruct (ca_time _ _ Ca) as [Z|(k & Hk & K1)]; [left; rewrite (ap_clocks D Ap HA), (bu_clocks _ _ _ _ _ B); exact Z|right; exists k; rewrite EM; auto].
      + intros p c e q He Et. apply (ap_edge D Ap HA) in He as [He _]. eapply M; eauto.
    - apply (ap_zero D Ap HA). intros p s Hp. destruct (zeroDur s) eqn:Z; auto. exfalso.
      pose proof (ti_zero _ _ _ _ TI p s Hp Z) as N. pose proof (bu_free _ _ _ _ _ B p s Hp N) as Mt. pose proof (bu_flg _ _ _ _ _ B p s Hp Mt Z) as X. rewrite Fl in X. exact X.
  Qed.
End Ended.

(* ================= C47 and C72 from the text ================= *)

Section Text.
Context (sepA sepD : heap -> nat -> outcome heap) (dec : list nat -> Q) (al0 : nat -> ptr) (al : alloc) (W : world).
Notation run fuel o := (main sepA sepD dec fuel al0 al W o).

(* monaa with a pattern x$ where every restriction has an upper bound of at least 1
   and where neither what is repeated nor what is restricted may match nothing, and
   no star stands directly below or behind & (tame): no undefined behaviour and no exception, whatever the
   fuel.  Exit 10 is the message that the pattern matches nothing. *)
Theorem C47_event_defined_partial : forall x o s input w fuel, injective al0 -> (forall B m, wf_ta B -> alloc_ok al B m) ->
  event_run o s -> meant (XCat x (XAtom dollar)) s -> tame x -> ~ In dollar (atoms x) -> 2 * restrictions x <= 255 ->
  word_from W o input -> rendered w input -> nondecreasing 0 w -> (forall c t, In (c, t) w -> c < char_max) ->
  (exists p, run fuel o = Ok (Printed p)) \/ run fuel o = Exit 10 \/ run fuel o = OutOfFuel.
Proof.
  intros x o s input w fuel Inj AO ER M T ND K Wf R NW HC. pose proof (meant_parse _ _ M) as Ps.
  rewrite (event_run_main sepA sepD dec fuel al0 al W o s _ input ER Wf Ps).
  assert (L : forall c, In c (atoms x) -> ParseSpec.letter c) by (intros c Hc; apply (meant_atoms _ _ c M); cbn; apply in_app_iff; auto).
  destruct (ended_ok al0 x Inj T L ND K) as (D & m & Ap & E & En & EC & _). rewrite E. cbn [bind fst]. unfold main_event.
  rewrite (C39_wellformed w input R). cbn [bind]. rewrite C36_online_offline. pose proof (den_clocks x T L) as DK.
  destruct En as [WD HA NE CO AL]. pose proof (ap_wf D Ap WD HA) as WP. unfold monaaDollar. rewrite HA. cbn [bind].
  assert (TT : tables fuel al Ap = OutOfFuel \/ tables fuel al Ap = Exit 10 \/ exists T0, tables fuel al Ap = Ok T0).
  { unfold tables. destruct (sunday_fine fuel Ap WP ltac:(lia) CO) as [S|[S|(sets & S)]]; rewrite S; cbn [bind]; auto.
    destruct (kmp_no_ub fuel al Ap (List.length sets) WP (AO _ _ WP) ltac:(lia) CO AL) as [(beta & B)|B]; rewrite B; cbn [bind]; eauto. }
  destruct TT as [HT|[HT|(T0 & HT)]]; rewrite HT; cbn [bind]; auto. rewrite NE.
  destruct (tables_ok _ _ _ _ HT) as (T1 & T2 & T3 & T4).
  pose proof (outer_vec MDollar D WD w NW _ T1 T2 (fun _ => True) ltac:(intros; exact Logic.I) ltac:(intros; exact Logic.I) ltac:(intros; exact Logic.I) ltac:(intros; exact Logic.I) fuel 0 [] []) as O.
  specialize (O ltac:(auto) ltac:(intros ? [])).
  destruct (outer_loop vecC D T0 MDollar fuel w 0 [] []) as [zs| | | |]; cbn [bind]; eauto.
  - exfalso. destruct O as (k & K1 & K2). destruct (nth k w (0, 0%Q)) as [c t] eqn:X. apply (T3 c); [|exact K2]. apply (HC c t). rewrite <- X. apply nth_In. auto.
  - exfalso. destruct O as (p & P1 & P2). apply (T4 p); auto. rewrite (make_ap_keys _ _ HA). auto.
  - contradiction.
Qed.

(* If moreover no restriction below a + has a lower bound, monaa returns. *)
Theorem C72_event_returns_partial : forall x o s input w, injective al0 -> (forall B m, wf_ta B -> alloc_ok al B m) ->
  event_run o s -> meant (XCat x (XAtom dollar)) s -> tame x -> hasty_loops x -> ~ In dollar (atoms x) -> 2 * restrictions x <= 255 ->
  word_from W o input -> rendered w input -> nondecreasing 0 w -> (forall c t, In (c, t) w -> c < char_max) ->
  exists fuel, (forall k, run (fuel + k) o = Exit 10) \/ (forall k, exists p, run (fuel + k) o = Ok (Printed p)).
Proof.
  intros x o s input w Inj AO ER M T HL ND K Wf R NW HC. pose proof (meant_parse _ _ M) as Ps.
  assert (L : forall c, In c (atoms x) -> ParseSpec.letter c) by (intros c Hc; apply (meant_atoms _ _ c M); cbn; apply in_app_iff; auto).
  destruct (ended_ok al0 x Inj T L ND K) as (D & m & Ap & E & [WD HA NE CO AL] & EC & CM & _). destruct (CM HL) as (rk & Cm).
  pose proof (ap_wf D Ap WD HA) as WP. pose proof (den_clocks x T L) as DK.
  assert (X : forall f, run f o = do p <- (do zs <- monaaDollar f al vecC D w ; Ok (fold_left pr_op (Clear :: map Push zs) (mkPr (o_quiet o) 0 []))) ; Ok (Printed p)).
  { intros f. rewrite (event_run_main sepA sepD dec f al0 al W o s _ input ER Wf Ps), E. cbn [bind fst]. unfold main_event.
    rewrite (C39_wellformed w input R). cbn [bind]. rewrite C36_online_offline. reflexivity. }
  destruct (C72_returns_partial al D Ap rk w WD HA NE) as (fuel & H); auto; [constructor; auto; lia|]. exists fuel.
  destruct H as [H|H]; [left|right]; intros k; rewrite X.
  - rewrite H. reflexivity.
  - destruct (H k) as (zs & ->). cbn [bind]. eauto.
Qed.
End Text.

(* ---------------- cases ---------------- *)

Ltac spelled :=
  match goal with |- spells ?t ?s => let t' := eval vm_compute in t in let s' := eval vm_compute in s in change (spells t' s') end;
  repeat first [apply sp_end | apply sp_letter; [unfold ParseSpec.letter; lia|] |
    match goal with |- spells (?t :: _) (?c :: _) => apply (sp_punct t [c]); [reflexivity|intros [|]; discriminate|] end |
    match goal with |- spells (TInt ?z :: _) (?c :: 44 :: _) => apply (sp_int [c]) | |- spells (TInt ?z :: _) (?c :: 41 :: _) => apply (sp_int [c])
      | |- spells (TInt ?z :: _) (?c :: ?d :: 41 :: _) => apply (sp_int [c; d]) end;
    [discriminate|repeat constructor; unfold decimal; lia|cbn; lia|cbn; unfold decimal; lia|]].
Lemma event1 : forall s, s <> [] -> event_run (cmd [s]) s.
Proof.
  intros [|c s] NE; [congruence|]. constructor; try reflexivity; try discriminate.
  intros [(X & _)|[(X & _)|[(X & _)|(X & _)]]]; try discriminate; apply X; reflexivity.
Qed.
Lemma from1 : forall s input, word_from (world1 input) (cmd [s]) input.
Proof. intros s input. left. split; [|reflexivity]. split; [reflexivity|]. cbn. destruct s; [constructor|constructor]. Qed.

(* A and B, in less than a second, again and again; then C and D with a pause *)
Definition exG : sx := XPar (XCat (XPlus (XPar (XIn (XPar (XCat (XAtom 65) (XAtom 66))) (RRange false 0 1 false))))
  (XIn (XPar (XCat (XAtom 67) (XAtom 68))) (RRange false 1 20 false))).
Definition exGs : list nat := str "(((AB)%(0,1))+(CD)%(1,20))$".
Lemma exG_meant : meant (XCat exG (XAtom dollar)) exGs.
Proof. right. split; [cbn; lia|]. split; [cbn; auto 10|]. unfold exGs. spelled. Qed.
Example C72_case_text : event_run (cmd [exGs]) exGs /\ meant (XCat exG (XAtom dollar)) exGs /\ tame exG /\ hasty_loops exG /\ ~ In dollar (atoms exG) /\
  2 * restrictions exG <= 255 /\ word_from (world1 doc_word) (cmd [exGs]) doc_word /\ rendered doc_tword doc_word /\ nondecreasing 0 doc_tword /\
  (forall c t, In (c, t) doc_tword -> c < char_max).
Proof.
  split; [apply event1; discriminate|]. split; [exact exG_meant|]. split; [cbn; lia|]. split; [cbn; auto 10|]. split; [cbn; unfold dollar; lia|]. split; [cbn; lia|].
  split; [apply from1|]. split; [destruct doc_rendered as (w & R & <-); exact R|]. split; [cbn; repeat split; unfold Qle; cbn; lia|].
  assert (X : forallb (fun e => fst e <? char_max) doc_tword = true) by reflexivity. rewrite forallb_forall in X. intros c t H. apply X in H. apply Nat.ltb_lt. exact H.
Qed.

(* A and B in less than a second, zero or more times, then C's or none: x may be empty *)
Definition exO : sx := XPar (XCat (XStar (XPar (XIn (XPar (XCat (XAtom 65) (XAtom 66))) (RRange false 0 1 false)))) (XStar (XAtom 67))).
Definition exOs : list nat := str "(((AB)%(0,1))*C*)$".
Lemma exO_meant : meant (XCat exO (XAtom dollar)) exOs.
Proof. right. split; [cbn; lia|]. split; [cbn; auto 10|]. unfold exOs. spelled. Qed.
Example C72_case_star : event_run (cmd [exOs]) exOs /\ meant (XCat exO (XAtom dollar)) exOs /\ tame exO /\ hasty_loops exO /\ nul exO = true /\ ~ In dollar (atoms exO) /\
  2 * restrictions exO <= 255.
Proof.
  split; [apply event1; discriminate|]. split; [exact exO_meant|]. split; [cbn; intuition lia|]. split; [cbn; auto 10|]. split; [reflexivity|]. split; [cbn; unfold dollar; lia|]. cbn; lia.
Qed.

(* ---------------- nested repetition ---------------- *)

(* The pattern exNs below: one B is the end of the pattern in two ways, so that two
   transitions of one list lead to the state before $, and the vector is appended
   to while it is iterated over.  Undefined, whatever the word is. *)
Definition exN : sx := XCat (XPar (XCat (XAtom 65) (XPlus (XPar (XCat (XStar (XAtom 66)) (XStar (XAtom 67))))))) (XAtom dollar).
Definition exNs : list nat := str "(A(B*C*)+)$".
Lemma exN_meant : meant exN exNs.
Proof. right. split; [cbn; lia|]. split; [cbn; auto 10|]. unfold exNs. spelled. Qed.
Definition exNta : ta := Eval vm_compute in fst (PropMonaa.get (mkTA [] [] [], 0) (toEventTA (fun k => k) (den exN) 0)).
Definition exNap : ta := Eval vm_compute in PropMonaa.get exNta (make_ap exNta).
Theorem C47_nested_star_refuted : meant exN exNs /\
  forall sepA sepD dec input w k, text_word input = Ok w ->
  main sepA sepD dec (10 + k) (fun k => k) uAl (world1 input) (cmd [exNs]) = UB.
Proof.
  split; [exact exN_meant|]. intros sepA sepD dec input w k Tw.
  rewrite (event_run_main sepA sepD dec (10 + k) (fun k => k) uAl (world1 input) (cmd [exNs]) exNs (den exN) input);
    [|apply event1; discriminate|apply from1|apply meant_parse; exact exN_meant].
  assert (E : exists m, toEventTA (fun k => k) (den exN) 0 = Ok (exNta, m)) by (eexists; vm_compute; reflexivity). destruct E as (m & ->). cbn [bind fst].
  unfold main_event. rewrite Tw. cbn [bind]. unfold monaaDollar.
  assert (HA : make_ap exNta = Ok exNap) by (vm_compute; reflexivity). rewrite HA. cbn [bind]. unfold tables.
  assert (HS : sunday_sets (10 + k) exNap = Ok [[65; 65; 65]]) by (apply sunday_more; vm_compute; reflexivity). rewrite HS. cbn [bind].
  assert (H0 : kmp (10 + k) uAl exNap (List.length [[65; 65; 65]]) = UB) by reflexivity. rewrite H0. reflexivity.
Qed.

(* ---------------- repetition that waits ---------------- *)

(* monaa "(((AB)%(1,20))+C)$" never returns, whatever the word is. *)
Definition exW0 : sx := XPar (XCat (XPlus (XPar (XIn (XPar (XCat (XAtom 65) (XAtom 66))) (RRange false 1 20 false)))) (XAtom 67)).
Definition exWs : list nat := str "(((AB)%(1,20))+C)$".
Lemma exW_meant : meant (XCat exW0 (XAtom dollar)) exWs.
Proof. right. split; [cbn; lia|]. split; [cbn; auto 10|]. unfold exWs. spelled. Qed.
Definition exWta : ta := Eval vm_compute in fst (PropMonaa.get (mkTA [] [] [], 0) (toEventTA (fun k => k) (den (XCat exW0 (XAtom dollar))) 0)).
Definition exWap : ta := Eval vm_compute in PropMonaa.get exWta (make_ap exWta).
Definition exWa : edge := mkE (Some 2) [] [].
Definition exWb : edge := mkE (Some 0) [0] [mkC 0 Lt 20; mkC 0 Gt 1].
Lemma exW_turn : forall B, is_edge B 0 65 exWa -> is_edge B 2 66 exWb -> forall v, (v 0%nat == 0)%Q ->
  exists v', turn B 0 v [(65, exWa); (66, exWb)] 0 v' /\ (v' 0%nat == 0)%Q.
Proof.
  intros B Ea Eb v V. eexists. split.
  - apply (turn_cons B 0 v 65 exWa 2 1%Q); [exact Ea|reflexivity|lra|intros g []|].
    apply (turn_cons B 2 _ 66 exWb 0 1%Q); [exact Eb|reflexivity|lra| |constructor].
    intros g [<-|[<-|[]]]; unfold holds, delay, reset_set; cbn; rewrite V; unfold Qlt; cbn; lia.
  - reflexivity.
Qed.
Lemma exWap_loop : waiting_cycle exWap.
Proof.
  assert (Ea : is_edge exWap 0 65 exWa) by (eexists; eexists; split; [left; reflexivity|split; [left; reflexivity|left; reflexivity]]).
  assert (Eb : is_edge exWap 2 66 exWb) by (eexists; eexists; split; [right; left; reflexivity|split; [left; reflexivity|left; reflexivity]]).
  refine (mkWL exWap 0 0 0 [(65, exWa); (66, exWb)] [(65, 1%Q); (66, 2%Q)] _ _ _ _ _ _ _ _ _ _ _ _ _).
  - left. reflexivity.
  - econstructor; [exact Ea|reflexivity|intros g []|]. econstructor; [exact Eb|reflexivity| |constructor].
    intros g [<-|[<-|[]]]; cbn; unfold Qlt; cbn; lia.
  - discriminate.
  - cbn. repeat split; unfold Qlt; cbn; lia.
  - repeat constructor; cbn; lia.
  - cbn. lia.
  - cbn. reflexivity.
  - reflexivity.
  - intros c e [E|[E|[]]]; injection E as <- <-; lia.
  - apply exW_turn; auto.
  - exists 20%Z. split; [left; reflexivity|lia].
Qed.
Theorem C72_waiting_loop_refuted : meant (XCat exW0 (XAtom dollar)) exWs /\ tame exW0 /\
  forall sepA sepD dec input w fuel, text_word input = Ok w ->
  main sepA sepD dec fuel (fun k => k) uAl (world1 input) (cmd [exWs]) = OutOfFuel.
Proof.
  assert (T : tame exW0) by (cbn; lia). split; [exact exW_meant|]. split; [exact T|]. intros sepA sepD dec input w fuel R.
  assert (Inj : injective (fun k : nat => k)) by (intros a b; auto).
  rewrite (event_run_main sepA sepD dec fuel (fun k => k) uAl (world1 input) (cmd [exWs]) exWs (den (XCat exW0 (XAtom dollar))) input);
    [|apply event1; discriminate|apply from1|apply meant_parse; exact exW_meant].
  assert (E : exists m, toEventTA (fun k => k) (den (XCat exW0 (XAtom dollar))) 0 = Ok (exWta, m)) by (eexists; vm_compute; reflexivity). destruct E as (m & E).
  rewrite E. cbn [bind fst]. unfold main_event. rewrite R. cbn [bind].
  assert (HA : make_ap exWta = Ok exWap) by (vm_compute; reflexivity). assert (WP : wf_ta exWap) by (apply wf_tab_ok; reflexivity).
  assert (CO : chars_ok exWap) by (apply charsb_ok; reflexivity).
  assert (AL : accepting_last exWap).
  { destruct (ended_ok (fun k => k) exW0 Inj T) as (D' & m' & Ap' & E' & [_ HA' _ _ AL] & _); [intros c Hc; cbn in Hc; unfold ParseSpec.letter; lia|cbn; unfold dollar; lia|cbn; lia|].
    assert (D' = exWta) by congruence. subst D'. assert (Ap' = exWap) by congruence. subst Ap'. exact AL. }
  assert (N : forall T, tables fuel uAl exWap <> Ok T).
  { apply tables_hang; auto; [intros k; apply uAl_ok; exact WP|cbn; lia| |exact exWap_loop].
    intros p s H. assert (X : forallb (fun ps => negb (zeroDur (snd ps))) (states exWap) = true) by reflexivity. rewrite forallb_forall in X. apply X in H. cbn [snd] in H.
    destruct (zeroDur s); [discriminate|reflexivity]. }
  assert (S : sunday_sets fuel exWap = OutOfFuel \/ exists l, sunday_sets fuel exWap = Ok l).
  { destruct (Nat.lt_ge_cases fuel 5) as [L|L].
    - left. clear - L. do 5 (destruct fuel as [|fuel]; [vm_compute; reflexivity|]). lia.
    - right. replace fuel with (5 + (fuel - 5)) by lia. eexists. apply sunday_more. vm_compute. reflexivity. }
  assert (HT : tables fuel uAl exWap = OutOfFuel).
  { unfold tables in *. destruct S as [S|(l & S)]; rewrite S in *; cbn [bind] in *; [reflexivity|].
    destruct (kmp_no_ub fuel uAl exWap (List.length l) WP (uAl_ok _ _ WP) ltac:(cbn; lia) CO AL) as [(beta & B)|B]; rewrite B in *; cbn [bind] in *; [|reflexivity].
    destruct (N _ eq_refl). }
  unfold monaaDollar. rewrite HA. cbn [bind]. rewrite HT. reflexivity.
Qed.
