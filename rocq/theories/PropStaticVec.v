(* C60, positive part: a vector of initial reset times that is long enough does
   no harm. *)
From Coq Require Import QArith Bool List ZArith Arith Lia.
From Verif Require Import Num Outcome Constraint Zone TA TAFacts Word ZA Monaa Skip EpsZone EpsZoneFacts PropMonaa PropEpsEx.
Import ListNotations.
Open Scope nat_scope.

(* ---------------- outcomes in relation ---------------- *)

Definition orel {X Y} (R : X -> Y -> Prop) (o : outcome X) (o' : outcome Y) : Prop :=
  match o, o' with
  | Ok x, Ok y => R x y
  | UB, UB => True
  | Throw, Throw => True
  | Exit a, Exit b => a = b
  | OutOfFuel, OutOfFuel => True
  | _, _ => False
  end.
Lemma orel_bind : forall {X Y X' Y'} (R : X -> Y -> Prop) (S : X' -> Y' -> Prop) o o' f g,
  orel R o o' -> (forall x y, R x y -> orel S (f x) (g y)) -> orel S (bind o f) (bind o' g).
Proof. intros X Y X' Y' R S o o' f g H K. destruct o, o'; cbn in *; auto; try contradiction. Qed.
Lemma orel_eq : forall {X} (o o' : outcome X), orel eq o o' <-> o = o'.
Proof. intros X o o'. destruct o, o'; cbn; split; try congruence; try tauto; try (intros H; discriminate H). Qed.
Lemma orel_refl : forall {X} (R : X -> X -> Prop) o, (forall x, o = Ok x -> R x x) -> orel R o o.
Proof. intros X R o H. destruct o; cbn; auto. Qed.
Lemma orel_fold : forall {X Y S S'} (R : X -> Y -> Prop) (Q : S -> S' -> Prop) f g l l', Forall2 R l l' ->
  forall s s', Q s s' -> (forall x y s s', R x y -> Q s s' -> orel Q (f x s) (g y s')) -> orel Q (fold_out f l s) (fold_out g l' s').
Proof.
  intros X Y S S' R Q f g l l' H. induction H; intros s s' HQ K; cbn; auto. eapply orel_bind; [apply K; eauto|]. intros. apply IHForall2; auto.
Qed.

(* ---------------- the sizes of matrices ---------------- *)

Definition big (z : izone) : Prop := match z with MatZone m _ _ => 2 <= length m | _ => True end.

Lemma l_mset : forall m i j b, length (mset m i j b) = length m.
Proof. intros. unfold mset. apply len_set_nth. Qed.
Lemma l_fold : forall {X} (f : mat -> X -> mat) l m, (forall m x, length (f m x) = length m) -> length (fold_left f l m) = length m.
Proof. intros X f l. induction l as [|x l IH]; intros m H; cbn; auto. rewrite IH by auto. apply H. Qed.
Lemma l_alloc_close : forall k m, length (alloc_close k m) = length m.
Proof. intros. unfold alloc_close. rewrite !l_fold; auto; intros; apply l_mset. Qed.
Lemma l_close1 : forall m x, length (close1 m x) = length m.
Proof. intros. unfold close1. apply l_fold. intros. unfold close_row, setrow. apply len_set_nth. Qed.
Lemma l_tighten : forall m p x y c, length (mat_tighten m p x y c) = length m.
Proof. intros. unfold mat_tighten. destruct (_ && _); rewrite ?l_close1, l_mset; auto. Qed.
Lemma l_deallocate : forall m x, length (deallocate m x) = length m.
Proof. intros. unfold deallocate. rewrite l_mset, len_set_nth, map_length. auto. Qed.

Lemma big_tighten : forall x y c z z', iz_tighten x y c z = Ok z' -> big z -> big z'.
Proof.
  intros x y c [ivs p|m al p] z' E B; cbn in E.
  - destruct (iv_tighten x y c ivs); cbn in E; try discriminate. injection E as <-. exact Logic.I.
  - destruct (_ && _); [|discriminate]. injection E as <-. cbn in *. rewrite l_tighten. auto.
Qed.
Lemma big_guard1 : forall g r z z', iz_guard1 g r z = Ok z' -> big z -> big z'.
Proof. intros g r z z' E. unfold iz_guard1 in E. destruct r, (codr g); eapply big_tighten; eauto. Qed.
Lemma big_unsat : forall z, big z -> big (iz_unsat z).
Proof. intros [[|[l u] t] p|m al p] B; cbn in *; auto. unfold makeUnsat. rewrite l_mset. auto. Qed.
Lemma big_guard1_at : forall t g r z z', iz_guard1_at t g r z = Ok z' -> big z -> big z'.
Proof.
  intros t g r z z' E B. unfold iz_guard1_at in E. destruct r.
  - destruct (satisfy _ _); injection E as <-; auto using big_unsat.
  - destruct (codr g); eapply big_tighten; eauto.
Qed.
Lemma big_alloc : forall up lo z z', iz_alloc up lo z = Ok z' -> big z -> big z'.
Proof.
  intros up lo [ivs p|m al p] z' E B.
  - destruct ivs as [|i0 [|i1 [|i2 [|i3 ivs]]]]; cbn [iz_alloc] in E; try discriminate; injection E as <-; cbn [big]; auto.
    rewrite l_alloc_close. cbn. lia.
  - cbn [iz_alloc] in E. destruct (first_free al) as [k|]; injection E as <-; cbn in *; rewrite l_alloc_close, !l_mset; auto.
    unfold grow. rewrite app_length, map_length. lia.
Qed.
Lemma big_update : forall rst z z', iz_update rst z = Ok z' -> big z -> big z'.
Proof.
  intros rst [ivs p|m al p] z' E B; cbn [iz_update] in E; [injection E as <-; auto|]. destruct (forallb _ _); [|discriminate]. injection E as <-. cbn.
  rewrite l_fold; auto. intros m0 x. destruct (nth x _ _); auto. apply l_deallocate.
Qed.

(* ---------------- padded configurations ---------------- *)

Section Pad.
  Variable W : cont.
  Variable A : ta.
  Hypothesis WA : wf_ta A.
  Variable T : skips.
  Variable fx : bool.
  Variable k : nat.
  Notation n := (clockSize A).
  Definition padr (rst : list rtime) : list rtime := rst ++ repeat (RClock initialClock) k.

  Definition pd (a b : econf) : Prop := est b = est a /\ ez b = ez a /\ erst b = padr (erst a) /\ length (erst a) = n /\ big (ez a).

  Lemma pad_rget : forall rst x, x < length rst -> rget (padr rst) x = rget rst x.
  Proof. intros rst x H. unfold rget, padr. rewrite nth_error_app1; auto. Qed.

  Definition okz (z z' : izone) : Prop := z' = z /\ big z.
  Lemma pad_guard : forall gs rst z, Forall (fun g => cx g < length rst) gs -> big z -> orel okz (iz_guard gs rst z) (iz_guard gs (padr rst) z).
  Proof.
    intros gs rst z F B. unfold iz_guard. apply (orel_fold (fun g g' => g = g' /\ cx g < length rst)); [|split; auto|].
    - clear B. induction F; constructor; auto.
    - intros g g' y y' (<- & L) (-> & B'). rewrite pad_rget by auto. destruct (rget rst (cx g)); cbn; auto. apply orel_refl. intros z0 E. split; auto. eapply big_guard1; eauto.
  Qed.
  Lemma pad_guard_at : forall t gs rst z, Forall (fun g => cx g < length rst) gs -> big z -> orel okz (iz_guard_at t gs rst z) (iz_guard_at t gs (padr rst) z).
  Proof.
    intros t gs rst z F B. unfold iz_guard_at. apply (orel_fold (fun g g' => g = g' /\ cx g < length rst)); [|split; auto|].
    - clear B. induction F; constructor; auto.
    - intros g g' y y' (<- & L) (-> & B'). rewrite pad_rget by auto. destruct (rget rst (cx g)); cbn; auto. apply orel_refl. intros z0 E. split; auto. eapply big_guard1_at; eauto.
  Qed.
  Lemma set_nth_pad : forall {X} (l r : list X) i a, i < length l -> set_nth (l ++ r) i a = set_nth l i a ++ r.
  Proof. induction l as [|x l IH]; intros r i a H; cbn in *; [lia|]. destruct i; auto. cbn. rewrite IH by lia. auto. Qed.
  Lemma pad_rset : forall r xs rst, Forall (fun x => x < length rst) xs ->
    orel (fun a b => b = padr a /\ length a = length rst) (rset r xs rst) (rset r xs (padr rst)).
  Proof.
    intros r xs rst F. unfold rset. rewrite (proj2 (forallb_forall _ _)), (proj2 (forallb_forall _ _)).
    - cbn. revert rst F. induction xs as [|x xs IH]; intros rst F; cbn; auto. inversion F; subst. unfold padr at 1. rewrite set_nth_pad by auto. fold (padr (set_nth rst x r)).
      destruct (IH (set_nth rst x r)) as (E & L).
      { eapply Forall_impl; [|exact H2]. cbn. intros. rewrite len_set_nth. auto. }
      split; auto. rewrite L. apply len_set_nth.
    - rewrite Forall_forall in F. intros x H. apply Nat.ltb_lt. unfold padr. rewrite app_length. specialize (F x H). cbn in F. lia.
    - rewrite Forall_forall in F. intros x H. apply Nat.ltb_lt. apply F. auto.
  Qed.
  Lemma set_nth_same : forall (l : list bool) i, nth i l false = true -> set_nth l i true = l.
  Proof. induction l as [|b l IH]; intros [|i] H; cbn in *; try congruence. rewrite IH; auto. Qed.
  Lemma nth_set_mono : forall (l : list bool) i j, nth i l false = true -> nth i (set_nth l j true) false = true.
  Proof. induction l as [|b l IH]; intros [|i] [|j] H; cbn in *; auto; discriminate. Qed.
  Lemma kept_pad : forall m p rst, 2 <= m -> kept m p (padr rst) = kept m p rst.
  Proof.
    intros m p rst H. unfold kept, padr. rewrite fold_left_app.
    set (b := set_nth (set_nth (set_nth (repeat false m) 0 true) initialClock true) p true).
    assert (B : nth initialClock b false = true).
    { unfold b. apply nth_set_mono. destruct m as [|[|m]]; [lia|lia|]. reflexivity. }
    clearbody b. assert (B' : nth initialClock (fold_left (fun a r => match r with RClock k => set_nth a k true | RTime _ => a end) rst b) false = true).
    { revert b B. induction rst as [|r rst IH]; intros b B; cbn; auto. apply IH. destruct r; auto. apply nth_set_mono. auto. }
    clear B. revert B'. generalize (fold_left (fun a r => match r with RClock k => set_nth a k true | RTime _ => a end) rst b). intros c B.
    induction k as [|k' IH]; cbn; auto. rewrite set_nth_same by auto. exact IH.
  Qed.
  Lemma pad_update : forall rst z, big z -> orel okz (iz_update rst z) (iz_update (padr rst) z).
  Proof.
    intros rst z B. assert (E : iz_update (padr rst) z = iz_update rst z).
    { destruct z as [ivs p|m al p]; auto. cbn [iz_update big] in *. rewrite kept_pad by auto. unfold padr. rewrite forallb_app.
      replace (forallb _ (repeat (RClock initialClock) k)) with true; [rewrite andb_true_r; reflexivity|].
      symmetry. apply forallb_forall. intros r H. apply repeat_spec in H as ->. apply Nat.ltb_lt. unfold initialClock. lia. }
    rewrite E. apply orel_refl. intros z0 E0. split; auto. eapply big_update; eauto.
  Qed.

  Lemma edges_wf : forall p c e, In e (edges_at A p c) -> Forall (fun g => cx g < n) (eguard e) /\ Forall (fun x => x < n) (eresets e).
  Proof. intros p c e H. apply edges_at_spec in H; auto. apply wf_is_edge in H as (_ & H1 & H2); auto. Qed.
  Lemma same_list : forall {X} (l : list X), Forall2 (fun x y => x = y /\ In x l) l l.
  Proof.
    intros X l. assert (H : forall l', (forall x, In x l' -> In x l) -> Forall2 (fun x y => x = y /\ In x l) l' l').
    { induction l' as [|x l' IH]; intros H; constructor; [split; auto; apply H; left; auto|]. apply IH. intros. apply H. right. auto. }
    apply H. auto.
  Qed.
  Lemma f2_app : forall {X Y} (R : X -> Y -> Prop) a b c d, Forall2 R a b -> Forall2 R c d -> Forall2 R (a ++ c) (b ++ d).
  Proof. intros. apply Forall2_app; auto. Qed.

  Lemma pad_end_zone : forall c j a b e, pd a b -> Forall (fun g => cx g < n) (eguard e) -> orel okz (end_zone W c j a e) (end_zone W c j b e).
  Proof.
    intros c j a b e (E1 & E2 & E3 & L & B) G. unfold end_zone. rewrite E2, E3.
    apply (orel_bind eq); [apply orel_eq; auto|]. intros u u' <-.
    apply (orel_bind eq); [apply orel_eq; auto|]. intros lo lo' <-.
    apply (orel_bind okz); [apply orel_refl; intros; split; auto; eapply big_alloc; eauto|]. intros z z' (-> & B').
    apply pad_guard; auto. rewrite L. auto.
  Qed.
  Lemma pad_eps_edge : forall c j a b e, pd a b -> Forall (fun g => cx g < n) (eguard e) -> Forall (fun x => x < n) (eresets e) ->
    orel (Forall2 pd) (eps_edge W fx c j a e) (eps_edge W fx c j b e).
  Proof.
    intros c j a b e P G R. unfold eps_edge. destruct (etgt e) as [q|]; [|constructor].
    apply (orel_bind okz); [apply pad_end_zone; auto|]. intros z z' (-> & B). destruct (iz_sat z); [|constructor].
    destruct P as (E1 & E2 & E3 & L & B0). rewrite E3. rewrite <- L in R.
    eapply orel_bind; [apply pad_rset; exact R|]. intros r r' (-> & L'). eapply orel_bind; [apply pad_update; auto|]. intros z1 z1' (-> & B1).
    constructor; [|constructor]. repeat split; cbn; auto. congruence.
  Qed.
  Lemma pad_obs_edge : forall t a b e, pd a b -> Forall (fun g => cx g < n) (eguard e) -> Forall (fun x => x < n) (eresets e) ->
    orel (Forall2 pd) (obs_edge t a e) (obs_edge t b e).
  Proof.
    intros t a b e P G R. unfold obs_edge. destruct (etgt e) as [q|]; [|constructor]. destruct P as (E1 & E2 & E3 & L & B0). rewrite E2, E3. rewrite <- L in R, G.
    apply (orel_bind okz); [apply pad_guard_at; auto|]. intros z z' (-> & B). destruct (iz_sat z); [|constructor].
    eapply orel_bind; [apply pad_rset; exact R|]. intros r r' (-> & L'). eapply orel_bind; [apply pad_update; auto|]. intros z1 z1' (-> & B1).
    constructor; [|constructor]. repeat split; cbn; auto. congruence.
  Qed.
  Lemma pad_eps_step : forall c j cs cs', Forall2 pd cs cs' -> orel (Forall2 pd) (eps_step W A fx c j cs) (eps_step W A fx c j cs').
  Proof.
    intros c j cs cs' F. unfold eps_step. apply (orel_fold pd); [auto|constructor|]. intros a b s s' P F'. rewrite (proj1 P).
    apply (orel_fold (fun x y => x = y /\ In x (edges_at A (est a) 0))); [apply same_list|auto|]. intros e e' l l' (<- & I) F''. destruct (edges_wf _ _ _ I).
    apply (orel_bind (Forall2 pd)); [apply pad_eps_edge; auto|]. intros. cbn. apply f2_app; auto.
  Qed.
  Lemma pad_obs_step : forall c t cs cs', Forall2 pd cs cs' -> orel (Forall2 pd) (obs_step A c t cs) (obs_step A c t cs').
  Proof.
    intros c t cs cs' F. unfold obs_step. apply (orel_fold pd); [auto|constructor|]. intros a b s s' P F'. rewrite (proj1 P).
    apply (orel_fold (fun x y => x = y /\ In x (edges_at A (est a) c))); [apply same_list|auto|]. intros e e' l l' (<- & I) F''. destruct (edges_wf _ _ _ I).
    apply (orel_bind (Forall2 pd)); [apply pad_obs_edge; auto|]. intros. cbn. apply f2_app; auto.
  Qed.
  Lemma pad_rounds : forall fuel c j cur cur' cs cs', Forall2 pd cur cur' -> Forall2 pd cs cs' ->
    orel (Forall2 pd) (eps_rounds W A fx fuel c j cur cs) (eps_rounds W A fx fuel c j cur' cs').
  Proof.
    induction fuel as [|f IH]; intros c j cur cur' cs cs' F1 F2; destruct F1 as [|a b cur cur' P F1]; cbn [eps_rounds]; auto; [exact Logic.I|].
    apply (orel_bind (Forall2 pd)); [apply pad_eps_step; constructor; auto|]. intros x y F. apply IH; auto. apply f2_app; auto.
  Qed.
  Lemma pad_close : forall fuel c j cs cs', Forall2 pd cs cs' -> orel (Forall2 pd) (eps_close W A fx fuel c j cs) (eps_close W A fx fuel c j cs').
  Proof.
    intros fuel c j cs cs' F. unfold eps_close. apply pad_rounds; auto. induction F as [|a b cs cs' P F IH]; cbn; [constructor|]. rewrite (proj1 P).
    destruct (has_eps A (est a)); auto.
  Qed.
  Lemma pad_accept : forall c d j cs cs' ans, Forall2 pd cs cs' -> orel eq (eps_accept W A c d j cs ans) (eps_accept W A c d j cs' ans).
  Proof.
    intros c d j cs cs' ans F. unfold eps_accept. apply (orel_fold pd); [auto|reflexivity|]. intros a b s s' P <-. rewrite (proj1 P).
    apply (orel_fold (fun x y => x = y /\ In x (edges_at A (est a) c))); [apply same_list|auto|]. intros e e' l l' (<- & I) <-. destruct (edges_wf _ _ _ I).
    destruct (match etgt e with Some q => match_at A q | None => false end); [|reflexivity].
    apply (orel_bind okz); [apply pad_end_zone; auto|]. intros z z' (-> & _). reflexivity.
  Qed.

  Definition res_rel (x y : ctype W * nat * list econf * list econf * list mat) : Prop :=
    let '(c, j, cs, ls, ans) := x in let '(c', j', cs', ls', ans') := y in
    c' = c /\ j' = j /\ Forall2 pd cs cs' /\ Forall2 pd ls ls' /\ ans' = ans.
  Lemma pad_match : forall fuel c j cs cs' ls ls' ans, Forall2 pd cs cs' -> Forall2 pd ls ls' ->
    orel res_rel (eps_match W A fx fuel c j cs ls ans) (eps_match W A fx fuel c j cs' ls' ans).
  Proof.
    induction fuel as [|f IH]; intros c j cs cs' ls ls' ans F1 F2; pose proof F1 as F0; destruct F1 as [|a b cs cs' P F1]; cbn [eps_match].
    - repeat split; auto.
    - destruct (cfetch W c j) as [[|] c']; [exact Logic.I|]. repeat split; auto.
    - repeat split; auto.
    - destruct (cfetch W c j) as [[|] c']; [|repeat split; auto].
      apply (orel_bind (Forall2 pd)); [apply pad_close; auto|]. intros x y F. apply (orel_bind eq); [apply orel_eq; auto|]. intros e e' <-.
      apply (orel_bind eq); [apply pad_accept; auto|]. intros an an' <-. apply (orel_bind (Forall2 pd)); [apply pad_obs_step; auto|]. intros x' y' F'. apply IH; auto.
  Qed.
  Lemma pad_start : forall c i, orel (Forall2 pd) (eps_start W A n c i) (eps_start W A (n + k) c i).
  Proof.
    intros c i. unfold eps_start. apply (orel_bind eq); [apply orel_eq; auto|]. intros e e' <-. apply (orel_bind eq); [apply orel_eq; auto|]. intros lo lo' <-. cbn [orel].
    induction (inits A) as [|p l IH]; cbn; constructor; auto. repeat split; cbn; auto; [unfold padr; apply repeat_app|apply repeat_length].
  Qed.
  Lemma pad_greatest : forall ls ls', Forall2 pd ls ls' -> orel eq (eps_greatest T ls) (eps_greatest T ls').
  Proof.
    intros ls ls' F. unfold eps_greatest. apply (orel_fold pd); [auto|reflexivity|]. intros a b s s' P <-. rewrite (proj1 P). destruct (sk_beta T (est a)); reflexivity.
  Qed.
  Lemma pad_outer : forall fuel c i ls ls' ans, Forall2 pd ls ls' -> orel eq (eps_outer W A T fx n fuel c i ls ans) (eps_outer W A T fx (n + k) fuel c i ls' ans).
  Proof.
    induction fuel as [|f IH]; intros c i ls ls' ans F; cbn [eps_outer]; destruct (cfetch W c (i + sk_m T - 1)) as [[|] c']; try reflexivity; try exact Logic.I.
    apply (orel_bind eq); [apply orel_eq; auto|]. intros [c1 [i1|]] y <-; [|reflexivity]. cbn [fst snd].
    destruct (cfetch W c1 i1) as [[|] c2]; [|reflexivity].
    apply (orel_bind (Forall2 pd)); [apply pad_start|]. intros cs cs' F1. apply (orel_bind res_rel); [apply pad_match; auto|].
    intros [[[[c3 j] cs1] ls1] an] [[[[c3' j'] cs1'] ls1'] an'] (-> & -> & F2 & F3 & ->). destruct (cfetch W c3 j) as [b c4].
    apply (orel_bind eq); [apply pad_greatest; destruct b; auto|]. intros m m' <-. apply (orel_bind eq); [apply orel_eq; auto|]. intros c5 c5' <-. apply IH. destruct b; auto.
  Qed.
End Pad.

(* The vector of initial reset times is as long as the first pattern in the
   process had clocks.  A pattern with no more clocks gives what it gives in a
   process of its own. *)
Theorem C60_no_more_clocks_partial : forall fuel al W A0 A (c : ctype W), wf_ta A -> clockSize A <= clockSize A0 ->
  monaa fuel al (clockSize A0) W A c = monaa fuel al (clockSize A) W A c.
Proof.
  intros fuel al W A0 A c WA L. unfold monaa. destruct (tables fuel al A) as [T| | | |]; auto. cbn [bind]. destruct (no_eps A); auto.
  replace (clockSize A0) with (clockSize A + (clockSize A0 - clockSize A)) by lia. symmetry. apply orel_eq. apply pad_outer; auto.
Qed.

(* Patterns without unobservable transitions do not use the vector. *)
Theorem C60_observable_partial : forall fuel al W nz nz' A (c : ctype W), no_eps A = true -> monaa fuel al nz W A c = monaa fuel al nz' W A c.
Proof. intros fuel al W nz nz' A c E. unfold monaa. rewrite E. reflexivity. Qed.

(* exR (one clock, an unobservable transition) after a pattern with three clocks. *)
Definition exThree : ta := mkTA [(0, mkS true false [])] [0] [0%Z; 0%Z; 0%Z].
Example C60_case : wf_ta exR /\ clockSize exR = 1 /\ clockSize exThree = 3 /\ no_eps exR = false /\
  exists z, monaa 100 exAl (clockSize exThree) vecC exR exRw = Ok [z].
Proof.
  split; [exact exR_wf|]. split; [reflexivity|]. split; [reflexivity|]. split; [reflexivity|]. eexists.
  refine (eq_trans (eps_with _ _ _ _ _ _ _ _ exR_sets exR_kmp eq_refl) _). vm_compute. reflexivity.
Qed.
