(* Timed regular expressions in event mode: C42 (language), C43 (one-sided
   restrictions), C44 (stuck states), C51 (useful states). *)
From Coq Require Import QArith Lqa Bool List ZArith Arith Lia Sorted.
From Verif Require Import Num NumFacts Outcome Interval IntervalFacts Constraint Zone TA Spec TAFacts WfDec Intersection Word Monaa MonaaFacts Skip
  PropMonaa PropSkip Tre TreRun TreFacts TreBuild TreLang.
Import ListNotations.
Open Scope nat_scope.

(* ---------------- C42: the language ---------------- *)

(* For the expressions of [ok] (TreLang.v: characters other than 0, at most 256
   clocks, integer bounds, and no operand of +, & or % whose automaton may carry
   the zeroDuration flag), whatever the addresses of the states, the translation
   does not fail and the automaton accepts exactly the words of the expression.
   Missing: the other expressions (refuted below). *)
Theorem C42_language_partial : forall al r n, injective al -> ok r -> nclocks r <= 256 ->
  exists A m, toEventTA al r n = Ok (A, m) /\ wf_ta A /\ forall w, accepts A w <-> tre_lang r (delays 0 w).
Proof.
  intros al r n Inj O K. destruct (toEventTA_built al r Inj O K n) as (A & m & E & B). exists A, m. split; auto.
  split; [apply (ti_wf _ _ _ _ (bu_inv _ _ _ _ _ B))|]. intros w. rewrite accepts_alang. apply (bu_lang _ _ _ _ _ B).
Qed.

Lemma toEventTA_inv : forall al r n A m, injective al -> ok r -> nclocks r <= 256 -> toEventTA al r n = Ok (A, m) -> built al r n m A.
Proof.
  intros al r n A m Inj O K E. destruct (toEventTA_built al r Inj O K n) as (A' & m' & E' & B). rewrite E in E'.
  injection E' as <- <-. auto.
Qed.

(* A restriction of an expression whose automaton may carry the flag, say
   (a...)*%(1,20): right for the words that are not empty. *)
Theorem C42_restriction_partial : forall al r Iv n, injective al -> ok r -> nclocks r < 256 -> int_bounds Iv ->
  exists A m, toEventTA al (Within r Iv) n = Ok (A, m) /\ wf_ta A /\
    forall w, w <> [] -> (accepts A w <-> tre_lang (Within r Iv) (delays 0 w)).
Proof.
  intros al r Iv n Inj O K (lo & up & Elo & Eup). destruct (toEventTA_built al r Inj O ltac:(lia) n) as (A & m & E & B).
  destruct B as [Le T SF F J C One L]. assert (Sm : clockSize A < 256) by lia.
  destruct (post_ok al n (S m) (wTA A Iv lo up)) as (D & ED & P); [eapply w_tinv; eauto|].
  exists D, (S m). split; [|split].
  - cbn [toEventTA]. rewrite E. cbn [bind fst snd]. rewrite (withinTA_ok al n m A Iv lo up T Elo Eup Sm). cbn [bind fst snd]. rewrite ED. reflexivity.
  - apply (ti_wf _ _ _ _ (po_inv _ _ _ _ _ P)).
  - intros w Nw. rewrite accepts_alang. change (lang_of D (delays 0 w) <-> tre_lang (Within r Iv) (delays 0 w)).
    rewrite (po_lang _ _ _ _ _ P).
    assert (X : lang_of (wTA A Iv lo up) (delays 0 w) <-> lang_of A (delays 0 w) /\ iin Iv (duration (delays 0 w))).
    { eapply w_lang_nonempty; eauto. destruct w as [|[c t] w]; [congruence|discriminate]. }
    rewrite X, L. reflexivity.
Qed.

(* The number of clocks of the automaton. *)
Theorem C42_clocks : forall al r n A m, injective al -> ok r -> nclocks r <= 256 -> toEventTA al r n = Ok (A, m) -> clockSize A = nclocks r.
Proof. intros al r n A m Inj O K E. apply (bu_clocks _ _ _ _ _ (toEventTA_inv _ _ _ _ _ Inj O K E)). Qed.

(* The expression ((AB)%(1,20)|C)+$ : the hypotheses hold, and the word
   A 1, B 3, C 4, $ 5 is accepted, A 0.5, B 0.75, C 4, $ 5 is not. *)
Definition ivl (a : Z) (ac : bool) (b : Z) (bc : bool) : interval := Interval.mkI (Fin (inject_Z a), ac) (Fin (inject_Z b), bc).
Definition exT : tre := Cat (Plus (Alt (Within (Cat (Atom 65) (Atom 66)) (ivl 1 false 20 false)) (Atom 67))) (Atom dollar).
Lemma exT_ok : ok exT.
Proof.
  cbn. repeat split; try discriminate; try lia. exists 1%Z, 20%Z. auto.
  left. reflexivity.
Qed.
Lemma id_inj : injective (fun n => n).
Proof. intros i j H. exact H. Qed.

Definition run_tre (al : nat -> ptr) (r : tre) (w : tword) : outcome bool :=
  do X <- toEventTA al r 0 ; Ok (isMember (fst X) w).
Example exT_yes : run_tre (fun n => n) exT [(65%nat, 1); (66%nat, 3); (67%nat, 4); (dollar, 5)]%Q = Ok true.
Proof. vm_compute. reflexivity. Qed.
Example exT_no : run_tre (fun n => n) exT [(65%nat, 1 # 2); (66%nat, 3 # 4); (67%nat, 4); (dollar, 5)]%Q = Ok false.
Proof. vm_compute. reflexivity. Qed.
Lemma run_tre_member : forall al r w A m, toEventTA al r 0 = Ok (A, m) -> wf_ta A -> run_tre al r w = Ok true -> accepts A w.
Proof.
  intros al r w A m E W R. unfold run_tre in R. rewrite E in R. cbn [bind fst] in R. injection R as R.
  apply (isMember_correct A w W). exact R.
Qed.
Example exT_spec : tre_lang exT (delays 0 [(65%nat, 1); (66%nat, 3); (67%nat, 4); (dollar, 5)]%Q).
Proof.
  destruct (C42_language_partial (fun n => n) exT 0 id_inj exT_ok ltac:(cbn; lia)) as (A & m & E & W & L).
  exact (proj1 (L _) (run_tre_member _ _ _ _ _ E W exT_yes)).
Qed.

(* The parser collapses nested pluses and turns a star into an alternative. *)
Theorem C42_plus_collapse : forall r u, tre_lang (mkPlus r) u <-> exists us, us <> [] /\ Forall (tre_lang r) us /\ u = concat us.
Proof.
  intros r u. destruct r as [c| |r|r1 r2|r1 r2|r1 r2|r Iv]; try reflexivity. cbn [mkPlus]. split.
  - intros H. exists [u]. split; [discriminate|]. split; [repeat constructor; exact H|]. cbn. rewrite app_nil_r. auto.
  - intros (us & N & F & ->). exact (plus_closed_lang (Plus r) us Logic.I N F).
Qed.
Theorem C42_star : forall r u, tre_lang (mkStar r) u <-> exists us, Forall (tre_lang r) us /\ u = concat us.
Proof.
  intros r u. unfold mkStar. change (u = [] \/ tre_lang (mkPlus r) u <-> exists us, Forall (tre_lang r) us /\ u = concat us).
  rewrite C42_plus_collapse. split.
  - intros [->|(us & _ & H)]; [exists []; auto|eauto].
  - intros ([|x us] & F & E); [auto|]. right. exists (x :: us). split; [discriminate|auto].
Qed.

(* Stars of stars and restrictions of stars. *)
Example star_star_ok : ok (mkStar (mkStar (Atom 97))).
Proof. cbn. repeat split; auto; try discriminate. Qed.
Example star_restricted : exists A m, toEventTA (fun n => n) (Within (mkStar (Atom 97)) (ivl 1 false 2 false)) 0 = Ok (A, m) /\
  accepts A [(97%nat, 1 # 2); (97%nat, 3 # 2)]%Q.
Proof.
  destruct (C42_restriction_partial (fun n => n) (mkStar (Atom 97)) (ivl 1 false 2 false) 0 id_inj) as (A & m & E & W & L).
  - cbn. repeat split; auto; discriminate.
  - cbn. lia.
  - exists 1%Z, 2%Z. auto.
  - exists A, m. split; auto. apply L; [discriminate|]. cbn [tre_lang mkStar mkPlus]. split.
    + right. exists [[(97%nat, (1 # 2) - 0)]; [(97%nat, (3 # 2) - (1 # 2))]]%Q. split; [discriminate|]. split; [|reflexivity].
      repeat constructor; eexists; reflexivity.
    + unfold iin, above, below, duration; cbn. split; reflexivity.
Qed.

(* (b*|a)+ : the loops of the plus are not added when the merged accepting state
   carries the flag of epsilon, so the word a a is lost. *)
Definition exP : tre := mkPlus (Alt (mkStar (Atom 98)) (Atom 97)).
Lemma run_tre_accepts : forall al r w b A m, toEventTA al r 0 = Ok (A, m) -> wf_tab A = true -> run_tre al r w = Ok b -> (accepts A w <-> b = true).
Proof.
  intros al r w b A m E W R. unfold run_tre in R. rewrite E in R. cbn [bind fst] in R. injection R as <-.
  rewrite <- (isMember_correct A w (wf_tab_ok _ W)). tauto.
Qed.

Theorem C42_plus_refuted : exists al r A m w, injective al /\ toEventTA al r 0 = Ok (A, m) /\ wf_ta A /\
  r = exP /\ tre_lang r (delays 0 w) /\ ~ accepts A w.
Proof.
  destruct (toEventTA (fun n => n) exP 0) as [[A m]| | | |] eqn:E; try (vm_compute in E; discriminate).
  exists (fun n => n), exP, A, m, [(97%nat, 1); (97%nat, 2)]%Q.
  assert (W : wf_tab A = true) by (vm_compute in E; injection E as <- <-; vm_compute; reflexivity).
  split; [apply id_inj|]. split; auto. split; [apply wf_tab_ok; auto|]. split; auto. split.
  - exists [[(97%nat, 1 - 0)]; [(97%nat, 2 - 1)]]%Q. split; [discriminate|]. split; [|reflexivity].
    apply Forall_cons; [right; eexists; reflexivity|apply Forall_cons; [right; eexists; reflexivity|apply Forall_nil]].
  - rewrite (run_tre_accepts _ _ _ false _ _ E W); [discriminate|]. vm_compute. reflexivity.
Qed.

(* a*&a : the accepting states differ in the flag, so nothing is accepted. *)
Theorem C42_conjunction_refuted : exists al r A m w, injective al /\ toEventTA al r 0 = Ok (A, m) /\ wf_ta A /\
  r = And (mkStar (Atom 97)) (Atom 97) /\ tre_lang r (delays 0 w) /\ ~ accepts A w.
Proof.
  destruct (toEventTA (fun n => n) (And (mkStar (Atom 97)) (Atom 97)) 0) as [[A m]| | | |] eqn:E; try (vm_compute in E; discriminate).
  exists (fun n => n), (And (mkStar (Atom 97)) (Atom 97)), A, m, [(97%nat, 1)]%Q.
  assert (W : wf_tab A = true) by (vm_compute in E; injection E as <- <-; vm_compute; reflexivity).
  split; [apply id_inj|]. split; auto. split; [apply wf_tab_ok; auto|]. split; auto. split.
  - split; [right; exists [[(97%nat, 1 - 0)]]%Q; split; [discriminate|]; split; [|reflexivity]; repeat constructor|]; eexists; reflexivity.
  - rewrite (run_tre_accepts _ _ _ false _ _ E W); [discriminate|]. vm_compute. reflexivity.
Qed.

(* ((a* )%(<5))b loses the word b when the state of epsilon has the lowest
   address; ((a* )%(1,2))b wrongly accepts it when it has not. *)
Definition exR (Iv : interval) : tre := Cat (Within (mkStar (Atom 97)) Iv) (Atom 98).
Theorem C42_restriction_refuted : exists al r A m w, injective al /\ toEventTA al r 0 = Ok (A, m) /\ wf_ta A /\
  r = exR (ivl 0 true 5 false) /\ tre_lang r (delays 0 w) /\ ~ accepts A w.
Proof.
  destruct (toEventTA (fun n => n) (exR (ivl 0 true 5 false)) 0) as [[A m]| | | |] eqn:E; try (vm_compute in E; discriminate).
  exists (fun n => n), (exR (ivl 0 true 5 false)), A, m, [(98%nat, 1)]%Q.
  assert (W : wf_tab A = true) by (vm_compute in E; injection E as <- <-; vm_compute; reflexivity).
  split; [apply id_inj|]. split; auto. split; [apply wf_tab_ok; auto|]. split; auto. split.
  - exists [], [(98%nat, 1 - 0)]%Q. split; [reflexivity|]. split; [|eexists; reflexivity]. split; [left; reflexivity|].
    unfold iin, above, below, duration; cbn. split; [discriminate|reflexivity].
  - rewrite (run_tre_accepts _ _ _ false _ _ E W); [discriminate|]. vm_compute. reflexivity.
Qed.

(* Addresses that go down, then up: injective. *)
Definition down (n : nat) : ptr := if n <=? 20 then 20 - n else n.
Lemma down_inj : injective down.
Proof. intros i j. unfold down. destruct (Nat.leb_spec i 20), (Nat.leb_spec j 20); lia. Qed.
Theorem C42_restriction_extra_refuted : exists al r A m w, injective al /\ toEventTA al r 0 = Ok (A, m) /\ wf_ta A /\
  r = exR (ivl 1 false 2 false) /\ accepts A w /\ ~ tre_lang r (delays 0 w).
Proof.
  destruct (toEventTA down (exR (ivl 1 false 2 false)) 0) as [[A m]| | | |] eqn:E; try (vm_compute in E; discriminate).
  exists down, (exR (ivl 1 false 2 false)), A, m, [(98%nat, 1)]%Q.
  assert (W : wf_tab A = true) by (vm_compute in E; injection E as <- <-; vm_compute; reflexivity).
  split; [apply down_inj|]. split; auto. split; [apply wf_tab_ok; auto|]. split; auto. split.
  - rewrite (run_tre_accepts _ _ _ true _ _ E W); [reflexivity|]. vm_compute. reflexivity.
  - intros (u1 & u2 & Eu & [_ H1] & (d & ->)). destruct u1 as [|x u1]; [|destruct u1; discriminate].
    destruct H1 as [H _]. unfold above, duration in H. cbn in H. discriminate.
Qed.

(* ---------------- from expressions to reported matches ---------------- *)

Lemma last_cons : forall {X} (l : list X) x d, last (x :: l) d = last l x.
Proof. induction l as [|y l IH]; intros x d; auto. change (last (x :: y :: l) d) with (last (y :: l) d). rewrite !IH. auto. Qed.
Lemma delays_app : forall w T w', delays T (w ++ w') = delays T w ++ delays (last (map snd w) T) w'.
Proof.
  induction w as [|[c t] w IH]; intros T w'; cbn [app delays map snd]; auto. rewrite IH, last_cons. auto.
Qed.

Lemma run_end : forall A p v T w q v' T', run A p v T w q v' T' -> T' = last (map snd w) T.
Proof.
  intros A p v T w q v' T' R. induction R; auto. rewrite IHR. cbn [map snd]. rewrite last_cons. auto.
Qed.

(* A match of the automaton is a segment of the word followed by '$' that is in
   the language of the expression. *)
Theorem C42_matches : forall al r n A m w t t', injective al -> ok r -> nclocks r <= 256 -> toEventTA al r n = Ok (A, m) ->
  (matches A w t t' <-> (0 <= t)%Q /\ (t <= t')%Q /\ tre_lang r (delays t (between w t t' ++ [(dollar, t')]))).
Proof.
  intros al r n A m w t t' Inj O K E. pose proof (toEventTA_inv _ _ _ _ _ Inj O K E) as B.
  rewrite <- (bu_lang _ _ _ _ _ B). unfold matches. split; intros (H1 & H2 & H3); (split; [auto|split; auto]).
  - destruct H3 as (p & q & v & T & e & acc & Hp & R & He & Et & Ha & Sg). rewrite delays_app.
    exists p, acc. eexists. split; auto. split; [|exact Ha]. eapply drun_app; [eapply run_drun, R|].
    rewrite <- (run_end _ _ _ _ _ _ _ _ R). cbn [delays]. econstructor; eauto. constructor.
  - destruct H3 as (p & acc & v & Hp & R & Ha). rewrite delays_app in R.
    destruct (drun_snoc _ _ _ _ _ _ R) as (u0 & c & d & q & v0 & e & Eu & R0 & He & Et & Sg & Ev); [cbn; destruct (delays t (between w t t')); discriminate|].
    cbn [delays] in Eu. apply app_inj_tail in Eu as [Eu Ec]. injection Ec as <- <-. subst u0.
    destruct (drun_run _ _ _ _ _ _ R0 t (between w t t') eq_refl) as (T & R1).
    exists p, q, v0, T, e, acc. rewrite (run_end _ _ _ _ _ _ _ _ R1). repeat split; auto. rewrite <- (run_end _ _ _ _ _ _ _ _ R1). auto.
Qed.

(* What monaa reports for an expression in event mode (monaa/main.cc). *)
Theorem C42_reported_sound : forall fuel al0 al r A m w zs z t t', injective al0 -> ok r -> nclocks r <= 256 -> nondecreasing 0 w ->
  toEventTA al0 r 0 = Ok (A, m) -> monaaDollar fuel al lazyC A (lopen w) = Ok zs -> In z zs -> zin 3 z (pairv t t') ->
  (0 <= t)%Q /\ (t <= t')%Q /\ tre_lang r (delays t (between w t t' ++ [(dollar, t')])).
Proof.
  intros fuel al0 al r A m w zs z t t' Inj O K ND E H Hz Z. apply (C42_matches al0 r 0 A m w t t' Inj O K E).
  eapply C29_sound_online; eauto. apply (ti_wf _ _ _ _ (bu_inv _ _ _ _ _ (toEventTA_inv _ _ _ _ _ Inj O K E))).
Qed.

Lemma built_no_eps : forall al r n0 n1 A, built al r n0 n1 A -> no_eps A = true.
Proof.
  intros al r n0 n1 A B. unfold no_eps. apply forallb_forall. intros [p s] H. cbn.
  destruct (assoc 0 (next s)) as [es|] eqn:E; auto. apply assoc_In in E. pose proof (bu_inv _ _ _ _ _ B) as T.
  destruct es as [|e es]; [exfalso; eapply (ti_full _ _ _ _ T); eauto|]. exfalso.
  apply (ti_obs _ _ _ _ T p 0 e); auto. exists s, (e :: es). repeat split; auto. left. auto.
Qed.

Lemma flag_end : forall r c, flag (Cat r (Atom c)) = NoFlag.
Proof. reflexivity. Qed.

(* Nothing is missed, under the conditions of C30 (PropSkip.v). Missing: initial
   states out of address order, words and patterns excluded there. *)
Theorem C42_reported_complete_partial : forall fuel al0 al r A m Ap T w zs, injective al0 -> ok r -> flag r = NoFlag -> 2 * nclocks r <= 255 -> word_ok w ->
  toEventTA al0 r 0 = Ok (A, m) -> StronglySorted le (inits A) -> tables_for fuel al A Ap T -> uppers_after_reset Ap ->
  monaaDollar fuel al vecC A w = Ok zs ->
  forall t t', between w t t' <> [] -> (0 <= t)%Q -> (t <= t')%Q -> tre_lang r (delays t (between w t t' ++ [(dollar, t')])) ->
  exists z, In z zs /\ zin 3 z (pairv t t').
Proof.
  intros fuel al0 al r A m Ap T w zs Inj O F K WO E SO TF UR H t t' NB H0 H1 L. assert (K2 : nclocks r <= 256) by lia.
  pose proof (toEventTA_inv _ _ _ _ _ Inj O K2 E) as B. pose proof (bu_inv _ _ _ _ _ B) as TI.
  eapply (C30_complete_partial fuel al A Ap T w zs); eauto.
  - constructor; [apply (ti_wf _ _ _ _ TI)|auto|]. eapply noflag_all; [exact TI| |apply (bu_free _ _ _ _ _ B)].
    rewrite <- F. apply (bu_flg _ _ _ _ _ B).
  - rewrite (bu_clocks _ _ _ _ _ B). auto.
  - eapply built_no_eps; eauto.
  - apply (C42_matches al0 r 0 A m w t t' Inj O K2 E). auto.
Qed.

(* ---------------- C43: one-sided restrictions ---------------- *)

(* expr%(>s) and expr%(>=s) convert an infinite upper bound to int: undefined
   for every expression whose translation gets that far. *)
Theorem C43_lower_only_refuted : forall al r n lo b, injective al -> ok r -> nclocks r <= 256 ->
  toEventTA al (Within r (Interval.mkI (Fin lo, b) (PInf, false))) n = UB.
Proof.
  intros al r n lo b Inj O K. destruct (toEventTA_built al r Inj O K n) as (A & m & E & _). cbn [toEventTA]. rewrite E. reflexivity.
Qed.

(* expr%(<t) and expr%(<=t) do restrict from above. *)
Theorem C43_upper_only_partial : forall al r n up b, injective al -> ok r -> nclocks r < 256 ->
  exists A m, toEventTA al (Within r (Interval.mkI (Fin (inject_Z 0), true) (Fin (inject_Z up), b))) n = Ok (A, m) /\
    forall w, w <> [] -> nondecreasing 0 w ->
      (accepts A w <-> tre_lang r (delays 0 w) /\ if b then (snd (last w (0%nat, 0)) <= inject_Z up)%Q else (snd (last w (0%nat, 0)) < inject_Z up)%Q).
Proof.
  intros al r n up b Inj O K.
  destruct (C42_restriction_partial al r (Interval.mkI (Fin (inject_Z 0), true) (Fin (inject_Z up), b)) n Inj O K) as (A & m & E & W & L); [exists 0%Z, up; auto|].
  exists A, m. split; auto. intros w Nw ND. rewrite L by auto. cbn [tre_lang].
  assert (D : forall w T, (duration (delays T w) == snd (last w (0%nat, T)) - T)%Q).
  { clear. induction w as [|[c t] w IH]; intros T; [unfold duration; cbn; ring|]. cbn [delays]. rewrite duration_cons, IH.
    destruct w as [|e w]; [cbn; ring|]. assert (X : forall d d' : nat * Q, last (e :: w) d = last (e :: w) d').
    { clear. revert e. induction w as [|x w IH]; intros e d d'; auto. cbn in *. apply IH. }
    change (last ((c, t) :: e :: w) (0, T)) with (last (e :: w) (0, T)). rewrite (X (0, T) (0, t)). ring. }
  assert (P : forall w T, (0 <= T)%Q -> nondecreasing T w -> (0 <= duration (delays T w))%Q).
  { clear. induction w as [|[c t] w IH]; intros T HT N; [unfold duration; cbn; lra|]. cbn [delays]. rewrite duration_cons. destruct N as [N1 N2].
    specialize (IH t ltac:(lra) N2). lra. }
  specialize (D w 0%Q). specialize (P w 0%Q ltac:(lra) ND). unfold iin, above, below; cbn [fst snd lob upb].
  split; intros [H1 H2]; (split; [auto|]).
  - destruct H2 as [_ H2]. destruct b; lra.
  - split; [unfold inject_Z; lra|]. destruct b; lra.
Qed.
Example C43_upper_case : ok (Cat (Atom 97) (Atom 98)) /\ nclocks (Cat (Atom 97) (Atom 98)) < 256.
Proof. cbn. repeat split; try discriminate. lia. Qed.

(* ---------------- C44: stuck states ---------------- *)

Theorem C44_language : forall A w, NoDup (map fst (states A)) -> (accepts (removeStuckStates A) w <-> accepts A w).
Proof. intros A w N. rewrite !accepts_alang. apply cut_lang. auto. Qed.

(* The loop ends, keeps the language, and no state without transitions is left
   that is not accepting. *)
Theorem C44_reduce : forall A, wf_ta A -> (forall p s c es, In (p, s) (states A) -> In (c, es) (next s) -> es <> []) ->
  exists B, reduceStates A = Ok B /\ wf_ta B /\ (forall w, accepts B w <-> accepts A w) /\
    forall p s, In (p, s) (states B) -> isMatch s = false -> exists c e, is_edge B p c e.
Proof.
  intros A W F. destruct (reduceStates_ok A W) as (B & E & R & FB & SB). exists B. split; auto. split; [apply (rd_wf _ _ R)|]. split.
  - intros w. rewrite !accepts_alang. apply (rd_lang _ _ R).
  - intros p s H M. destruct (next s) as [|[c es] nx] eqn:X; [rewrite (SB F p s H X) in M; discriminate|].
    destruct es as [|e es]; [exfalso; eapply FB; [exact H|rewrite X; left; reflexivity|auto]|].
    exists c, e, s, (e :: es). repeat split; auto; [rewrite X|]; left; auto.
Qed.

(* An automaton with a chain of stuck states. *)
Definition exS : ta := mkTA
  [ (0, mkS false false [(97, [mkE (Some 1) [] []; mkE (Some 3) [] []])]); (1, mkS false false [(98, [mkE (Some 2) [] []])]);
    (2, mkS false false []); (3, mkS true false []) ] [0] [].
Example exS_reduced : wf_ta exS /\ (forall p s c es, In (p, s) (states exS) -> In (c, es) (next s) -> es <> []) /\
  reduceStates exS = Ok (mkTA [(0, mkS false false [(97, [mkE (Some 3) [] []])]); (3, mkS true false [])] [0] []).
Proof.
  split; [apply wf_tab_ok; reflexivity|]. split; [|vm_compute; reflexivity].
  intros p s c es H Hc. cbn in H. repeat (destruct H as [H|H]; [injection H as <- <-; cbn in Hc;
    repeat (destruct Hc as [Hc|Hc]; [injection Hc as <- <-; discriminate|]); destruct Hc|]). destruct H.
Qed.

(* Without the second condition a state without transitions can stay. *)
Definition exK : ta := mkTA [ (0, mkS false false [(97, [])]); (1, mkS true false []) ] [0] [].
Theorem C44_reduce_empty_key_refuted : wf_ta exK /\ exists B, reduceStates exK = Ok B /\ In (0, mkS false false []) (states B).
Proof. split; [apply wf_tab_ok; reflexivity|]. eexists. split; [vm_compute; reflexivity|]. left. reflexivity. Qed.

(* ---------------- C51: useful states ---------------- *)

Inductive reach (A : ta) : ptr -> ptr -> Prop :=
| reach_refl : forall p, reach A p p
| reach_step : forall p c e q q', is_edge A p c e -> etgt e = Some q -> reach A q q' -> reach A p q'.
Definition useful (A : ta) (p : ptr) : Prop :=
  (exists i, In i (inits A) /\ reach A i p) /\ exists f, accepting A f /\ reach A p f.

(* monaa/tre.hh:62-64 promises only useful states.  What holds: one accepting
   state at most, and every other state has a transition. *)
Theorem C51_states_partial : forall al r n A m, injective al -> ok r -> nclocks r <= 256 -> toEventTA al r n = Ok (A, m) ->
  (forall p q, accepting A p -> accepting A q -> p = q) /\
  (forall p, In p (map fst (states A)) -> accepting A p \/ exists c e, is_edge A p c e).
Proof.
  intros al r n A m Inj O K E. pose proof (toEventTA_inv _ _ _ _ _ Inj O K E) as B. split; [apply (bu_one _ _ _ _ _ B)|].
  intros p H. apply in_fst_exists in H as (s & H). destruct (next s) as [|[c es] nx] eqn:X.
  - left. exists s. split; auto. apply (bu_free _ _ _ _ _ B p s H X).
  - right. destruct es as [|e es]; [exfalso; eapply (ti_full _ _ _ _ (bu_inv _ _ _ _ _ B)); [exact H|rewrite X; left; reflexivity|auto]|].
    exists c, e, s, (e :: es). repeat split; auto; [rewrite X|]; left; auto.
Qed.

(* (a&b)c: no initial state is left but the states of c are. *)
Definition exU : tre := Cat (And (Atom 97) (Atom 98)) (Atom 99).
Theorem C51_unreachable_refuted : exists A m p, toEventTA (fun n => n) exU 0 = Ok (A, m) /\ ok exU /\
  In p (map fst (states A)) /\ ~ exists i, In i (inits A) /\ reach A i p.
Proof.
  destruct (toEventTA (fun n => n) exU 0) as [[A m]| | | |] eqn:E; try (vm_compute in E; discriminate).
  assert (X : inits A = [] /\ In (hd 0 (map fst (states A))) (map fst (states A))).
  { vm_compute in E. injection E as <- <-. split; [reflexivity|]. left. reflexivity. }
  destruct X as [X1 X2]. exists A, m, (hd 0 (map fst (states A))). split; auto. split; [cbn; repeat split; discriminate|]. split; auto.
  intros (i & H & _). rewrite X1 in H. destruct H.
Qed.

(* ((a+)b)&((a+)c): no accepting state can be reached from the loop on a. *)
Definition exD : tre := And (Cat (Plus (Atom 97)) (Atom 98)) (Cat (Plus (Atom 97)) (Atom 99)).
Theorem C51_dead_refuted : exists A m p, toEventTA (fun n => n) exD 0 = Ok (A, m) /\ ok exD /\
  In p (inits A) /\ ~ exists f, accepting A f /\ reach A p f.
Proof.
  destruct (toEventTA (fun n => n) exD 0) as [[A m]| | | |] eqn:E; try (vm_compute in E; discriminate).
  destruct (inits A) as [|p l] eqn:EI; [vm_compute in E; injection E as <- <-; discriminate|].
  exists A, m, p. split; auto. split; [cbn; repeat split; auto; discriminate|]. split; [rewrite EI; left; auto|].
  intros (f & Hf & R).
  set (dead := fun q => negb (match_at A q) && mem q (map fst (states A))).
  assert (C : dead p = true /\ forallb (fun ps => negb (dead (fst ps)) || forallb (fun ce => forallb (fun e => match etgt e with Some q => dead q | None => true end) (snd ce)) (next (snd ps))) (states A) = true
     /\ nodupb (map fst (states A)) = true).
  { unfold dead. vm_compute in E. injection E as <- <-. cbn in EI. injection EI as <- _. vm_compute. auto. }
  destruct C as (C1 & C2 & C3). rewrite forallb_forall in C2.
  assert (D : forall p q, reach A p q -> dead p = true -> dead q = true).
  { intros p0 q0 R0. induction R0 as [|p0 c e q0 q' (s & es & H & Hc & He) Et R0 IH]; auto. intros Dp. apply IH.
    specialize (C2 _ H). cbn [fst snd] in C2. rewrite Dp in C2. cbn [negb orb] in C2. rewrite forallb_forall in C2. specialize (C2 _ Hc).
    cbn [snd] in C2. rewrite forallb_forall in C2. specialize (C2 _ He). rewrite Et in C2. auto. }
  specialize (D _ _ R C1). unfold dead in D. apply andb_true_iff in D as [D _]. apply negb_true_iff in D.
  apply (match_at_spec A f (nodupb_NoDup _ C3)) in Hf. congruence.
Qed.
