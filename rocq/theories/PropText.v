(* Properties of the text formats and of the containers of results: C39 (reading
   words), C40 (constraints), C41 (parsed automata), C46 (counting), C54
   (printing zones), C55 (printing automata), C56 (the whole event mode). *)
From Coq Require Import QArith Lqa Bool List ZArith Arith Lia Permutation.
From Verif Require Import Num NumFacts Outcome Constraint Zone ZoneFacts TA Spec TAFacts WfDec Word Monaa MonaaFacts Skip SkipFacts PropMonaa
  Text TextFacts BoostFacts Ans.
Import ListNotations.
Open Scope nat_scope.

(* ================= C39 reading words ================= *)

(* Every text of a word, with whatever white space and spelling of the numbers,
   is read as that word. *)
Theorem C39_wellformed : forall w s, rendered w s -> text_word s = Ok w.
Proof. intros w s R. apply read_word_ok; auto. Qed.

(* Reading ends for every input. *)
Theorem C39_terminates : forall s, text_word s <> OutOfFuel.
Proof. intros s. apply read_word_fuel. auto. Qed.

(* "a 1.5\nb +2e1\n". *)
Definition txt : list nat := [97; 32; 49; 46; 53; 10; 98; 32; 43; 50; 101; 49; 10].
Lemma C39_case : exists w, rendered w txt /\ text_word txt = Ok w /\ length w = 2.
Proof.
  assert (R : rendered [(97, lit_value (mkLit None (Decimal.D1 Decimal.Nil) (Some (Decimal.D5 Decimal.Nil)) None));
                        (98, lit_value (mkLit (Some false) (Decimal.D2 Decimal.Nil) None (Some (false, None, Decimal.D1 Decimal.Nil))))] txt).
  { change txt with ([] ++ 97 :: [32] ++ lit_chars (mkLit None (Decimal.D1 Decimal.Nil) (Some (Decimal.D5 Decimal.Nil)) None) ++ [10] ++
      ([] ++ 98 :: [32] ++ lit_chars (mkLit (Some false) (Decimal.D2 Decimal.Nil) None (Some (false, None, Decimal.D1 Decimal.Nil))) ++ [10] ++ [])).
    apply rend_cons; try (repeat constructor; fail); try discriminate; [split; [left; discriminate|exact Logic.I]|].
    apply rend_cons; try (repeat constructor; fail); try discriminate. split; [left|]; discriminate. }
  eexists. split; [exact R|]. split; [apply C39_wellformed, R|reflexivity].
Qed.
Example C39_value : text_word txt = Ok [(97, (15 # 10)%Q); (98, 20%Q)].
Proof. vm_compute. reflexivity. Qed.

(* Malformed lines become events at time 0: "a x\n" is read as (a,0) and (x,0),
   and a last line "a" without a time as (a,0). *)
Theorem C39_malformed_refuted :
  text_word [97; 32; 120; 10] = Ok [(97, 0%Q); (120, 0%Q)] /\ text_word [97] = Ok [(97, 0%Q)].
Proof. split; reflexivity. Qed.

(* Binary words: whole records are read, a truncated one is dropped. *)
Theorem C39_binary : forall dec (l : list (nat * list nat)) rest, Forall (fun e => length (snd e) = 8) l -> length rest < 9 ->
  binary_word dec (flat_map (fun e => fst e :: snd e) l ++ rest) = Ok (map (fun e => (fst e, dec (snd e))) l).
Proof.
  intros dec l rest H L. unfold binary_word.
  assert (X : forall l fuel, Forall (fun e => length (snd e) = 8) l -> length l < fuel ->
    read_binary dec fuel (flat_map (fun e => fst e :: snd e) l ++ rest) = Ok (map (fun e => (fst e, dec (snd e))) l)).
  { clear l H. induction l as [|[c b] l IH]; intros fuel H F; (destruct fuel as [|k]; [cbn in F; lia|]); cbn [read_binary flat_map map app].
    - destruct rest as [|c rest]; auto. cbn [getOneBinary]. cbn [length] in L. destruct (Nat.ltb_spec (length rest) 8); [auto|lia].
    - inversion H as [|? ? Hb Hl]; subst. cbn [fst snd] in *. cbn [Datatypes.app]. rewrite <- app_assoc.
      set (r := flat_map (fun e => fst e :: snd e) l ++ rest) in *.
      assert (G : getOneBinary dec (c :: b ++ r) = (Some (c, dec b), r)).
      { unfold getOneBinary. destruct (Nat.ltb_spec (length (b ++ r)) 8) as [Lt|_]; [rewrite app_length in Lt; lia|].
        rewrite firstn_app, skipn_app, Hb, Nat.sub_diag, firstn_all2, skipn_all2, app_nil_r by lia. reflexivity. }
      rewrite G, IH by (auto; cbn in F; lia). reflexivity. }
  apply X; auto. rewrite app_length. clear -H. induction H as [|[c b] l Hb H IH]; cbn [flat_map length fst snd app]; [lia|].
  rewrite app_length. cbn in Hb. rewrite Hb. lia.
Qed.
Example C39_binary_case : binary_word (fun b => inject_Z (Z.of_nat (nth 0 b 0))) ([97; 1; 0; 0; 0; 0; 0; 0; 0] ++ [98; 2; 0]) = Ok [(97, 1%Q)].
Proof. reflexivity. Qed.

(* ================= C40 constraints ================= *)

Theorem C40_constraint : forall g, printable g -> lexical_cast read_constr (constr_chars g) = Ok g.
Proof.
  intros g H. unfold lexical_cast. pose proof (read_constr_ok (constr_chars g) g [] (constr_chars_text g H) Logic.I) as E.
  rewrite app_nil_r in E. rewrite E. reflexivity.
Qed.
Theorem C40_guard : forall l, l <> [] -> Forall printable l -> guard_of (guard_chars l) = Ok l.
Proof. exact guard_round. Qed.
Theorem C40_resets : forall l, l <> [] -> Forall (fun x => x < 256) l -> resets_of (resets_chars l) = Ok l.
Proof. exact resets_round. Qed.
Example C40_case : guard_chars [mkC 0 Le 10; mkC 12 Gt (-3)] =
    [123; 120; 48; 32; 60; 61; 32; 49; 48; 44; 32; 120; 49; 50; 32; 62; 32; 45; 51; 125] /\
  guard_of (guard_chars [mkC 0 Le 10; mkC 12 Gt (-3)]) = Ok [mkC 0 Le 10; mkC 12 Gt (-3)] /\ printable (mkC 12 Gt (-3)).
Proof. split; [reflexivity|]. split; [reflexivity|]. split; [cbn; lia|]. unfold int_range, int_min, int_max. cbn. lia. Qed.

(* Only texts of that form are accepted; numbers may have a sign and leading
   zeros, and clocks are taken modulo 256. *)
Theorem C40_accepted : forall s l, guard_of s = Ok l ->
  l <> [] /\ exists ts, Forall2 constr_text ts l /\ s = [123] ++ sep (fun t => t) ts ++ [125].
Proof. intros s l H. eapply read_list_inv; [apply read_constr_inv|exact H]. Qed.
Theorem C40_terminates : forall s, guard_of s <> OutOfFuel /\ resets_of s <> OutOfFuel.
Proof.
  intros s. split; unfold guard_of, resets_of.
  - apply (lexical_fuel read_constr constr_text); [apply read_constr_fuel|apply constr_text_nonempty|].
    intros s0 x s' H. apply read_constr_inv in H as (_ & _ & H1 & _ & H2). auto.
  - apply (lexical_fuel read_clock clock_text); [apply read_clock_fuel|apply clock_text_nonempty|].
    intros s0 x s' H. apply read_clock_inv in H as (_ & _ & H1 & _ & H2). auto.
Qed.

(* The empty list is printed as {} but cannot be read. *)
Theorem C40_empty_refuted : guard_of (guard_chars []) = Throw /\ resets_of (resets_chars []) = Throw.
Proof. split; reflexivity. Qed.
(* ResetVars are printed as characters: between the braces is the character with
   the number of the clock, and no set of one clock is read back. *)
Theorem C40_resetVars_refuted : forall x, x < 256 -> resetVars_chars [x] = [123; x; 125] /\ resets_of (resetVars_chars [x]) <> Ok [x].
Proof.
  intros x H. split; [reflexivity|]. assert (F : forallb (fun x => match resets_of (resetVars_chars [x]) with Ok [y] => negb (y =? x) | _ => true end) (seq 0 256) = true)
    by (vm_compute; reflexivity).
  rewrite forallb_forall in F. specialize (F x ltac:(apply in_seq; lia)). intros E. rewrite E, Nat.eqb_refl in F. discriminate.
Qed.
(* "{x256 < 5}" constrains clock 0. *)
Theorem C40_wrap_refuted : guard_of [123; 120; 50; 53; 54; 32; 60; 32; 53; 125] = Ok [mkC 0 Lt 5].
Proof. reflexivity. Qed.
(* "{x0 < 5" and "{1" end in the read of an uninitialised variable. *)
Theorem C40_truncated_refuted : guard_of [123; 120; 48; 32; 60; 32; 53] = UB /\ resets_of [123; 49] = UB.
Proof. split; reflexivity. Qed.

(* ================= C41 parsed automata ================= *)

Theorem C41_language : forall al G w, wf_graph G -> inj_on al (map bv_id (bverts G)) ->
  (accepts (convBoostTA al G) w <-> gaccepts G w).
Proof. exact conv_language. Qed.

Theorem C41_guards : forall al G p c e g, wf_graph G -> is_edge (convBoostTA al G) p c e -> In g (eguard e) ->
  inj_on al (map bv_id (bverts G)) -> cx g < clockSize (convBoostTA al G).
Proof.
  intros al G p c e g W He Hg Inj. assert (Hv : exists v, In v (bverts G) /\ p = al (bv_id v)).
  { destruct He as (s & es & Hs & _). cbn [states convBoostTA] in Hs. apply in_map_iff in Hs as (v & E & Hv). injection E as <- _. eauto. }
  destruct Hv as (v & Hv & ->). apply conv_is_edge in He as (b & Hb & _ & _ & ->); auto; [|apply in_map; auto].
  unfold clockSize. cbn [maxC convBoostTA]. apply max_fold_length. right. exists g. split; auto. apply graph_guards; eauto.
Qed.

(* Each entry is the largest constant of its clock, and at least 0. *)
Theorem C41_max : forall al G x, wf_graph G -> x < clockSize (convBoostTA al G) ->
  (0 <= nth x (maxC (convBoostTA al G)) 0)%Z /\
  (forall e g, In e (bedges G) -> In g (be_guard e) -> cx g = x -> (cc g <= nth x (maxC (convBoostTA al G)) 0)%Z) /\
  (nth x (maxC (convBoostTA al G)) 0%Z = 0%Z \/
   exists e g, In e (bedges G) /\ In g (be_guard e) /\ cx g = x /\ cc g = nth x (maxC (convBoostTA al G)) 0%Z).
Proof.
  intros al G x W L. cbn [maxC convBoostTA] in *.
  set (gs := flat_map be_guard (flat_map (fun v => out_edges G (bv_id v)) (bverts G))) in *.
  destruct (proj1 (max_fold_nth gs [] x _) (Z.le_refl _)) as [H0 H1]. rewrite (nth_overflow [] 0%Z) in H0 by (cbn; lia).
  split; auto. split.
  - intros e g He Hg E. apply H1; auto. apply graph_guards; eauto.
  - set (m := nth x (fold_left max_push gs []) 0%Z) in *. destruct (Z.eq_dec m 0) as [->|N]; auto. right.
    assert (M : ~ (nth x (fold_left max_push gs []) 0 <= m - 1)%Z) by (fold m; lia).
    rewrite max_fold_nth in M. rewrite (nth_overflow [] 0%Z) in M by (cbn; lia).
    destruct (existsb (fun g => (cx g =? x) && (cc g =? m)%Z) gs) eqn:X.
    + apply existsb_exists in X as (g & Hg & E). apply andb_true_iff in E as [E1 E2]. apply Nat.eqb_eq in E1. apply Z.eqb_eq in E2.
      apply graph_guards in Hg as (e & He & Hg); auto. exists e, g. auto.
    + exfalso. apply M. split; [lia|]. intros g Hg E. specialize (H1 g Hg E).
      assert (cc g <> m); [|lia]. intros Em. assert (X2 : existsb (fun g => (cx g =? x) && (cc g =? m)%Z) gs = true); [|congruence].
      apply existsb_exists. exists g. split; auto. rewrite E, Em, Nat.eqb_refl, Z.eqb_refl. auto.
Qed.

Theorem C41_wf_partial : forall al G, wf_graph G -> inj_on al (map bv_id (bverts G)) ->
  (forall e x, In e (bedges G) -> In x (be_resets e) -> exists e' g, In e' (bedges G) /\ In g (be_guard e') /\ x <= cx g) ->
  wf_ta (convBoostTA al G).
Proof. exact conv_wf. Qed.

(* A clock that is reset but never compared has no entry: resetTime[x] = t in the
   matchers (libmonaa/monaa.hh:1017-1019) then writes outside of the vector. *)
Definition exG : bgraph := mkBG [mkBV 1 true false; mkBV 2 false false; mkBV 3 false true]
  [mkBE 1 2 97 [0] []; mkBE 2 3 36 [] []].
Theorem C41_resets_refuted : wf_graph exG /\ clockSize (convBoostTA (fun n => n) exG) = 0 /\
  (exists p c e, is_edge (convBoostTA (fun n => n) exG) p c e /\ In 0 (eresets e)) /\
  ~ wf_ta (convBoostTA (fun n => n) exG).
Proof.
  assert (E : is_edge (convBoostTA (fun n => n) exG) 1 97 (mkE (Some 2) [0] [])).
  { eexists. eexists. split; [left; reflexivity|]. split; [left; reflexivity|]. left. reflexivity. }
  split; [|split; [reflexivity|split]].
  - split.
    + repeat constructor; cbn; intuition discriminate.
    + intros e [<-|[<-|[]]]; cbn; auto.
  - exists 1, 97, (mkE (Some 2) [0] []). split; auto. left. auto.
  - intros W. destruct (wf_is_edge _ _ _ _ W E) as (_ & R & _). inversion R as [|? ? L _]; subst. cbn in L. lia.
Qed.

Definition exG2 : bgraph := mkBG [mkBV 1 true false; mkBV 2 false false; mkBV 3 false true]
  [mkBE 1 2 97 [0] [mkC 1 Lt 5]; mkBE 2 3 36 [] [mkC 1 Gt 2; mkC 0 Ge 7]].
Example C41_case : wf_graph exG2 /\ inj_on (fun n => n) (map bv_id (bverts exG2)) /\
  maxC (convBoostTA (fun n => n) exG2) = [7%Z; 5%Z] /\ wf_ta (convBoostTA (fun n => n) exG2).
Proof.
  assert (W : wf_graph exG2).
  { split.
    - repeat constructor; cbn; intuition discriminate.
    - intros e [<-|[<-|[]]]; cbn; auto. }
  split; auto. split; [intros x y _ _ H; exact H|]. split; [reflexivity|]. apply C41_wf_partial; auto.
  - intros x y _ _ H. exact H.
  - intros e x [<-|[<-|[]]] Hx; cbn in Hx; [|destruct Hx]. destruct Hx as [<-|[]].
    exists (mkBE 1 2 97 [0] [mkC 1 Lt 5]), (mkC 1 Lt 5). cbn. auto.
Qed.

(* ================= C55 printing and reading automata ================= *)

Definition printable_ta (A : ta) : Prop := forall p c e, is_edge A p c e ->
  Forall printable (eguard e) /\ Forall (fun x => x < 256) (eresets e) /\ exists q, etgt e = Some q.

(* Printing an automaton and reading it gives the same language, whatever order
   the reader gives to the vertices and wherever the states are allocated. *)
Theorem C55_round_trip : forall A, wf_ta A -> printable_ta A -> exists vs es, print_ta A = Ok (vs, es) /\
  forall vs', Permutation vs vs' -> exists G, parseBoostTA vs' es = Ok G /\ wf_graph G /\
    forall al, inj_on al (map bv_id (bverts G)) -> forall w, accepts (convBoostTA al G) w <-> accepts A w.
Proof.
  intros A W P. exists (text_verts A), (text_edges A).
  assert (Tg : targets_ok A).
  { intros p s c es e Hs Hc He. assert (E : is_edge A p c e) by (exists s, es; auto). destruct (P p c e E) as (_ & _ & q & Eq).
    exists q. split; auto. apply (proj1 (wf_is_edge _ _ _ _ W E)). auto. }
  split; [apply print_ta_ok; auto|]. intros vs' Pm.
  destruct (traverse_in parse_edge (text_edges A)) as (bs & Eb & Ib).
  { intros t Ht. apply text_edges_in in Ht as (p & c & e & He & ->). destruct (P p c e He) as (H1 & H2 & _).
    eexists. apply parse_text_edge; auto. }
  exists (mkBG (map (fun v => mkBV (tv_num v) (tv_init v) (tv_match v)) vs') bs). split; [unfold parseBoostTA; rewrite Eb; reflexivity|].
  assert (Vin : forall v, In v (map (fun v => mkBV (tv_num v) (tv_init v) (tv_match v)) vs') <->
    exists p s, In (p, s) (states A) /\ v = mkBV (num A p) (mem p (inits A)) (isMatch s)).
  { intros v. rewrite in_map_iff. split.
    - intros (t & <- & Ht). apply (Permutation_in _ (Permutation_sym Pm)) in Ht. apply in_map_iff in Ht as ([p s] & <- & Hs). exists p, s. auto.
    - intros (p & s & Hs & ->). exists (mkTV (num A p) (mem p (inits A)) (isMatch s) (zeroDur s)). split; auto.
      apply (Permutation_in _ Pm). apply in_map_iff. exists (p, s). auto. }
  assert (Bin : forall b, In b bs <-> exists p c e, is_edge A p c e /\ b = read_edge A (num A p) c e).
  { intros b. rewrite Ib. split.
    - intros (t & Ht & E). apply text_edges_in in Ht as (p & c & e & He & ->). destruct (P p c e He) as (H1 & H2 & _).
      rewrite parse_text_edge in E by auto. injection E as <-. eauto.
    - intros (p & c & e & He & ->). destruct (P p c e He) as (H1 & H2 & _). exists (text_edge A (num A p) c e).
      split; [apply text_edges_in; eauto|apply parse_text_edge; auto]. }
  assert (Src : forall p c e, is_edge A p c e -> In p (map fst (states A))).
  { intros p c e (s & es & Hs & _). apply (in_map fst _ _ Hs). }
  assert (Vid : forall p, In p (map fst (states A)) -> In (num A p) (map bv_id (map (fun v => mkBV (tv_num v) (tv_init v) (tv_match v)) vs'))).
  { intros p Hp. apply in_fst_exists in Hp as (s & Hs). apply in_map_iff. exists (mkBV (num A p) (mem p (inits A)) (isMatch s)).
    split; auto. apply Vin. eauto. }
  assert (WG : wf_graph (mkBG (map (fun v => mkBV (tv_num v) (tv_init v) (tv_match v)) vs') bs)).
  { constructor; cbn [bverts bedges].
    - rewrite map_map. cbn [bv_id]. eapply Permutation_NoDup; [apply Permutation_map; exact Pm|].
      unfold text_verts. rewrite map_map. cbn [tv_num]. rewrite <- (map_map fst (num A)).
      assert (X : forall l, (forall x, In x l -> In x (map fst (states A))) -> NoDup l -> NoDup (map (num A) l)).
      { induction l as [|x l IH]; intros Hl N; cbn; [constructor|]. inversion N; subst. constructor.
        - intros H. apply in_map_iff in H as (y & E & Hy). apply num_inj in E; [subst; auto|apply Hl; right; auto|apply Hl; left; auto].
        - apply IH; auto. intros y Hy. apply Hl. right. auto. }
      apply X; auto. apply (wf_nodup _ W).
    - intros b Hb. apply Bin in Hb as (p & c & e & He & ->). destruct (P p c e He) as (_ & _ & q & Eq). cbn [be_src be_tgt read_edge]. rewrite Eq.
      split; apply Vid; [eapply Src; eauto|]. apply (proj1 (wf_is_edge _ _ _ _ W He)). auto. }
  split; auto. intros al Inj w. rewrite conv_language by auto. split.
  - intros (v0 & v1 & H0 & I0 & H1 & M1 & R). cbn [bverts] in *.
    apply Vin in H0 as (p0 & s0 & S0 & ->). apply Vin in H1 as (p1 & s1 & S1 & ->). cbn [bv_init bv_match bv_id] in *.
    assert (X : forall n u T n1, grun (mkBG (map (fun v => mkBV (tv_num v) (tv_init v) (tv_match v)) vs') bs) n u T w n1 ->
      forall p, In p (map fst (states A)) -> n = num A p -> forall p1, In p1 (map fst (states A)) -> n1 = num A p1 -> exists u' T', run A p u T w p1 u' T').
    { clear -W P Bin Src. intros n u T n1 R. induction R as [v u T|v u T c t b w q Hb Es El Sg R IH]; intros p Hp Ep p1 Hp1 E1.
      - rewrite Ep in E1. apply num_inj in E1; auto. subst p1. exists u, T. constructor.
      - cbn [bedges] in Hb. apply Bin in Hb as (p' & c' & e & He & ->). cbn [be_src be_tgt be_label be_guard be_resets read_edge] in *.
        rewrite <- Es in Ep. apply num_inj in Ep; [|eapply Src; eauto|auto]. subst p'. subst c'.
        destruct (P p c e He) as (_ & _ & q' & Eq). rewrite Eq in *.
        destruct (IH q') with (p1 := p1) as (u' & T' & R'); auto; [apply (proj1 (wf_is_edge _ _ _ _ W He)); auto|].
        exists u', T'. econstructor; eauto. }
    destruct (X _ _ _ _ R p0 (in_map fst _ _ S0) eq_refl p1 (in_map fst _ _ S1) eq_refl) as (u' & T' & R').
    exists p0, p1, u', T'. split; [apply mem_In; auto|]. split; auto. exists s1. auto.
  - intros (p & q & u & T & Hp & R & (s & Hs & M)).
    assert (X : forall p u T w q u' T', run A p u T w q u' T' ->
      grun (mkBG (map (fun v => mkBV (tv_num v) (tv_init v) (tv_match v)) vs') bs) (num A p) u T w (num A q)).
    { clear -P Bin. intros p u T w q u' T' R. induction R as [|p u T c t e w q p' u' T' He Et Sg R IH]; [constructor|].
      eapply grun_cons with (e := read_edge A (num A p) c e); auto; [apply Bin; eauto|]. cbn [be_tgt be_resets read_edge]. rewrite Et. auto. }
    destruct (in_fst_exists _ _ (wf_inits _ W p Hp)) as (s0 & S0).
    exists (mkBV (num A p) (mem p (inits A)) (isMatch s0)), (mkBV (num A q) (mem q (inits A)) (isMatch s)).
    cbn [bverts bv_init bv_match bv_id]. repeat split; auto.
    + apply Vin. eauto.
    + apply mem_In. auto.
    + apply Vin. eauto.
    + eapply X; eauto.
Qed.

(* A null target, as left by deepCopy or the intersection of foreign states,
   makes printing throw. *)
Theorem C55_null_refuted : print_ta (mkTA [(1, mkS false false [(97, [mkE None [] []])])] [1] []) = Throw.
Proof. reflexivity. Qed.

Lemma C55_case : wf_ta exM /\ printable_ta exM.
Proof.
  split; [apply wf_tab_ok; vm_compute; reflexivity|]. intros p c e (s & es & Hs & Hc & He). cbn [states exM] in Hs.
  repeat (destruct Hs as [[= <- <-]|Hs]; [cbn [next] in Hc; repeat (destruct Hc as [[= <- <-]|Hc];
    [repeat (destruct He as [<-|He]; [cbn [eguard eresets etgt]; split; [repeat constructor; unfold int_range, int_min, int_max; cbn; lia|split; [repeat constructor|eexists; reflexivity]]|]); destruct He|]); destruct Hc|]).
  destruct Hs.
Qed.

(* ================= C46 counting ================= *)

(* What was pushed after the last clear. *)
Fixpoint since_clear {Z} (acc : list Z) (ops : list (ans_op Z)) : list Z :=
  match ops with
  | [] => rev acc
  | Push z :: t => since_clear (z :: acc) t
  | Clear :: t => since_clear [] t
  | Reserve _ :: t => since_clear acc t
  end.
Theorem C46_vec : forall {Z} (ops : list (ans_op Z)), fold_left vec_op ops [] = since_clear [] ops.
Proof.
  intros Z ops. assert (X : forall ops (acc : list Z), fold_left vec_op ops (rev acc) = since_clear acc ops).
  { clear. induction ops as [|[z| |n] ops IH]; intros acc; cbn [fold_left vec_op since_clear]; auto; rewrite <- IH; auto. }
  apply (X ops []).
Qed.
Theorem C46_count : forall {Z} (ops : list (ans_op Z)), fold_left int_op ops 0 = length (since_clear [] ops).
Proof.
  intros Z ops. assert (X : forall ops (acc : list Z), fold_left int_op ops (length acc) = length (since_clear acc ops)).
  { clear. induction ops as [|[z| |n] ops IH]; intros acc; cbn [fold_left int_op since_clear]; [rewrite rev_length; auto|rewrite <- IH; auto..]. }
  apply (X ops []).
Qed.
(* The printer counts the same way, quiet or not; what was printed stays. *)
Theorem C46_printer : forall ops quiet, let p := fold_left pr_op ops (mkPr quiet 0 []) in
  pr_count p = length (since_clear [] ops) /\
  pr_out p = if quiet then [] else flat_map (fun o => match o with Push z => [print_zone z] | _ => [] end) ops.
Proof.
  intros ops quiet. cbv zeta.
  assert (X : forall ops (acc : list mat) out, let p := fold_left pr_op ops (mkPr quiet (length acc) out) in
    pr_count p = length (since_clear acc ops) /\
    pr_out p = out ++ if quiet then [] else flat_map (fun o => match o with Push z => [print_zone z] | _ => [] end) ops).
  { clear. cbv zeta. induction ops as [|o ops IH]; intros acc out; cbn [fold_left].
    - cbn [since_clear pr_count pr_out flat_map]. rewrite rev_length. destruct quiet; rewrite app_nil_r; auto.
    - destruct o as [z| |n]; cbn [pr_op pr_quiet pr_count pr_out since_clear flat_map app].
      + destruct (IH (z :: acc) (if quiet then out else out ++ [print_zone z])) as [H1 H2]. cbn [length] in H1, H2.
        rewrite H1, H2. split; auto. destruct quiet; auto. rewrite <- app_assoc. auto.
      + apply (IH [] out).
      + apply (IH acc out). }
  apply (X ops [] []).
Qed.
Example C46_case : fold_left (@int_op nat) [Push 1; Push 2; Clear; Push 3; Reserve 9; Push 4] 0 = 2.
Proof. reflexivity. Qed.

(* ================= C54 the printed inequalities ================= *)

(* A number satisfies lo (<=|<) x (<=|<) up. *)
Definition sat_ineq (q : ineq) (t t' : Q) : Prop :=
  let x := match q_var q with 0 => t | 1 => t' | _ => (t' - t)%Q end in
  match q_lo q with Fin l => if q_lole q then (l <= x)%Q else (l < x)%Q | MInf => True | _ => False end /\
  match q_up q with Fin u => if q_uple q then (x <= u)%Q else (x < u)%Q | PInf => True | _ => False end.

Theorem C54_meaning : forall z t t', mgood 3 z -> (forall i, i < 3 -> ble bzero (mget z i i)) ->
  (Forall (fun q => sat_ineq q t t') (print_zone z) <-> zin 3 z (pairv t t')).
Proof.
  intros z t t' G D.
  assert (U : forall b x, good b -> (match fst b with Fin u => if snd b then (x <= u)%Q else (x < u)%Q | PInf => True | _ => False end <-> below b x)).
  { intros [[| |q|] []] x Gb; unfold good in Gb; cbn in *; tauto. }
  assert (L : forall b x y, good b -> (y == - x)%Q -> (match nopp (fst b) with Fin l => if snd b then (l <= x)%Q else (l < x)%Q | MInf => True | _ => False end <-> below b y)).
  { intros [[| |q|] []] x y Gb E; unfold good in Gb; cbn in *; try tauto; unfold below; cbn; split; intros; lra. }
  assert (E : forall i j, i < 3 -> j < 3 -> good (mget z i j)) by (intros; apply G; auto).
  unfold print_zone. rewrite !Forall_cons_iff. unfold sat_ineq. cbn [q_lo q_lole q_var q_uple q_up].
  rewrite !U by auto. rewrite (L (mget z 0 1) t (- t)%Q), (L (mget z 0 2) t' (- t')%Q), (L (mget z 1 2) (t' - t)%Q (t - t')%Q) by (auto; lra).
  split.
  - intros ((A1 & A2) & (B1 & B2) & (C1 & C2) & _) i j Hi Hj.
    destruct (lt3 i Hi) as [->|[->| ->]], (lt3 j Hj) as [->|[->| ->]]; cbn [ev pairv];
      try (apply below_eq with 0%Q; [lra|]; apply below_zero; auto; fail);
      (eapply below_eq; [|eassumption]); lra.
  - intros H.
    assert (Z : forall i j x, i < 3 -> j < 3 -> (ev (pairv t t') i - ev (pairv t t') j == x)%Q -> below (mget z i j) x).
    { intros i j x Hi Hj Ex. eapply below_eq; [exact Ex|]. apply H; auto. }
    repeat split; auto; apply Z; auto; cbn [ev pairv]; lra.
Qed.
Example C54_case : print_zone (ans_zone (mk6 (Fin 3, false) (Fin (-1), true) (PInf, false) (Fin (-4), true) (PInf, false) (Fin (-1), false)))
  = [mkIneq (Fin 1) true 0 false (Fin 3); mkIneq (Fin 4) true 1 false PInf; mkIneq (Fin 1) false 2 false PInf].
Proof. reflexivity. Qed.

(* ================= C56 from bytes to printed lines ================= *)

(* Every pair that satisfies a block of lines which event mode prints for an
   input text is a match in the word of that text; and every block is satisfied
   by some pair. *)
Theorem C56_sound : forall fuel al A input w p block, wf_ta A -> rendered w input -> nondecreasing 0 w ->
  main_event fuel al false A input = Ok p -> In block (pr_out p) ->
  (forall t t', Forall (fun q => sat_ineq q t t') block -> matches A w t t') /\
  (exists t t', Forall (fun q => sat_ineq q t t') block).
Proof.
  intros fuel al A input w p block W R ND H Hb. unfold main_event in H. rewrite (C39_wellformed w input R) in H. cbn [bind] in H.
  destruct (monaaDollar fuel al lazyC A (lopen w)) as [zs| | | |] eqn:M; try discriminate. cbn [bind] in H. apply Ok_inj in H. subst p.
  destruct (C46_printer (Clear :: map Push zs) false) as [_ E]. rewrite E in Hb. cbn [flat_map Datatypes.app] in Hb.
  apply in_flat_map in Hb as (o & Ho & Hb). apply in_map_iff in Ho as (z & <- & Hz). destruct Hb as [<-|[]].
  rewrite C36_online_offline in M. destruct (monaaDollar_ok _ _ _ _ _ W ND M z Hz) as (i & _ & _ & G & C & _). split.
  - intros t t' S. apply C54_meaning in S; auto; [|apply (proj1 C)]. eapply C29_sound; eauto.
  - destruct (C31_nonempty _ _ _ _ _ z W ND M Hz) as (t & t' & Z). exists t, t'. apply C54_meaning; auto. apply (proj1 C).
Qed.

(* The number of blocks is the count that is printed at the end. *)
Theorem C56_count : forall fuel al A input p q, main_event fuel al false A input = Ok p -> main_event fuel al true A input = Ok q ->
  pr_count p = length (pr_out p) /\ pr_count q = pr_count p /\ pr_out q = [].
Proof.
  intros fuel al A input p q H H'. unfold main_event in H, H'. destruct (text_word input) as [w| | | |]; try discriminate. cbn [bind] in H, H'.
  destruct (monaaDollar fuel al lazyC A (lopen w)) as [zs| | | |]; try discriminate. cbn [bind] in H, H'. apply Ok_inj in H. apply Ok_inj in H'.
  subst p q.
  destruct (C46_printer (Clear :: map Push zs) false) as [E1 E2]. destruct (C46_printer (Clear :: map Push zs) true) as [E3 E4].
  rewrite E1, E2, E3, E4. split; [|split; reflexivity]. cbn [since_clear flat_map Datatypes.app].
  assert (X : forall (zs acc : list mat), length (since_clear acc (map Push zs)) = length acc + length zs).
  { clear. induction zs as [|z zs IH]; intros acc; cbn [map since_clear length]; [rewrite rev_length; lia|]. rewrite IH. cbn [length]. lia. }
  rewrite X. clear. cbn [length]. induction zs as [|z zs IH]; cbn [map flat_map length Datatypes.app] in *; auto. rewrite <- IH. auto.

Qed.

(* "a 1\nb 2\na 4\nb 7\na 8\nb 9\n" and the pattern of C29. *)
Definition exTxt : list nat := flat_map (fun e => [fst e; 32; 48 + snd e; 10]) [(97, 1); (98, 2); (97, 4); (98, 7); (97, 8); (98, 9)].
Lemma C56_case : exists p, main_event 200 exAl false exM exTxt = Ok p /\ pr_count p = 2 /\ length (pr_out p) = 2 /\
  exists b, In b (pr_out p) /\ Forall (fun q => sat_ineq q (1 # 2) 3) b.
Proof.
  unfold main_event. assert (E : text_word exTxt = Ok exMw) by (vm_compute; reflexivity). rewrite E. cbn [bind].
  rewrite C36_online_offline, exM_run. unfold exMz. cbn [bind]. eexists. split; [reflexivity|]. split; [reflexivity|]. split; [reflexivity|].
  eexists. split; [left; reflexivity|]. unfold print_zone. repeat (apply Forall_cons; [vm_compute; split; auto; discriminate|]). constructor.
Qed.
