(* C36 for monaa() on patterns with unobservable transitions. *)
From Coq Require Import QArith Bool List ZArith Arith Lia.
From Verif Require Import Num Outcome Constraint Zone TA Word WordFacts ZA Monaa MonaaSim Skip SkipFacts EpsZone PropMonaa PropModes.
Import ListNotations.
Open Scope nat_scope.

Section EpsSim.
  Variable W : cont.
  Variable R : ctype W -> nat -> nat -> tword -> Prop.
  Hypothesis SR : csim W R.
  Variable A : ta.
  Variable T : skips.
  Variable fx : bool.
  Variable nz : nat.
  Hypothesis Tm : 1 <= sk_m T.
  Hypothesis Td : forall c d, sk_delta T c = Some d -> 1 <= d.

  Section At.
    Variables (c : ctype W) (f a : nat) (w : tword) (j : nat).
    Hypothesis H : R c f a w.
    Hypothesis J1 : f <= j - 1.
    Hypothesis J2 : j < a.
    Lemma e_at : cat W c j = vec_at w j.
    Proof. eapply at_sim; eauto. lia. Qed.
    Lemma e_low : low_end W c j = low_end vecC w j.
    Proof.
      unfold low_end. destruct (0 <? j) eqn:E; auto. apply Nat.ltb_lt in E. cbn [vecC cat]. rewrite (at_sim W R SR c f a w) by (auto; lia). reflexivity.
    Qed.
    Lemma e_end_zone : forall cfg e, end_zone W c j cfg e = end_zone vecC w j cfg e.
    Proof. intros. unfold end_zone. rewrite e_low, e_at. reflexivity. Qed.
    Lemma e_edge : forall cfg e, eps_edge W fx c j cfg e = eps_edge vecC fx w j cfg e.
    Proof. intros. unfold eps_edge. rewrite e_end_zone. reflexivity. Qed.
    Lemma e_step : forall cs, eps_step W A fx c j cs = eps_step vecC A fx w j cs.
    Proof. intros. unfold eps_step. apply fold_out_ext. intros cfg s _. apply fold_out_ext. intros e s' _. rewrite e_edge. reflexivity. Qed.
    Lemma e_rounds : forall fuel cur cs, eps_rounds W A fx fuel c j cur cs = eps_rounds vecC A fx fuel w j cur cs.
    Proof.
      induction fuel as [|n IH]; intros [|x cur] cs; cbn [eps_rounds]; auto. rewrite e_step. destruct (eps_step vecC A fx w j (x :: cur)); cbn [bind]; auto.
    Qed.
    Lemma e_close : forall fuel cs, eps_close W A fx fuel c j cs = eps_close vecC A fx fuel w j cs.
    Proof. intros. apply e_rounds. Qed.
    Lemma e_accept : forall l cs ans, eps_accept W A l c j cs ans = eps_accept vecC A l w j cs ans.
    Proof.
      intros. unfold eps_accept. apply fold_out_ext. intros cfg s _. apply fold_out_ext. intros e s' _.
      destruct (match etgt e with Some q => match_at A q | None => false end); auto. rewrite e_end_zone. reflexivity.
    Qed.
    Lemma e_start : eps_start W A nz c j = eps_start vecC A nz w j.
    Proof.
      unfold eps_start. rewrite e_at. change (cat vecC w) with (vec_at w). destruct (0 <? j) eqn:E; auto. apply Nat.ltb_lt in E.
      rewrite (at_sim W R SR c f a w (j - 1)) by (auto; lia). reflexivity.
    Qed.
  End At.

  Lemma eps_match_sim : forall fuel c f a w j cs ls ans, R c f a w -> f <= j - 1 -> j <= a ->
    orel (fun x y => let '(c', j', cs', ls', ans') := x in let '(w', j'', cs'', ls'', ans'') := y in
            w' = w /\ j' = j'' /\ cs' = cs'' /\ ls' = ls'' /\ ans' = ans'' /\
            exists a', R c' f a' w /\ j <= j' /\ j' <= a')
         (eps_match W A fx fuel c j cs ls ans) (eps_match vecC A fx fuel w j cs ls ans).
  Proof.
    induction fuel as [|fuel IH]; intros c f a w j cs ls ans H H0 H1; cbn [eps_match]; (destruct cs as [|cf cs]; [cbn; repeat split; eauto|]);
      (destruct (fetch_sim W R SR c f a w j H) as (c' & E & R'); [lia|]); rewrite E; cbn [vecC cfetch]; (destruct (j <? length w); [|cbn; repeat split; eauto]).
    - exact Logic.I.
    - assert (J2 : j < Nat.max a (S j)) by lia.
      pose proof (e_close c' f _ w j R' H0 J2 (S fuel) (cf :: cs)) as EC. pose proof (e_at c' f _ w j R' H0 J2) as EA. pose proof (e_accept c' f _ w j R' H0 J2) as EX.
      change (cat vecC w j) with (vec_at w j). rewrite EC. match type of EC with _ = ?x => destruct x as [cs1| | | |] end; cbn [bind orel]; auto.
      rewrite EA. destruct (vec_at w j) as [e| | | |]; cbn [bind orel]; auto. specialize (EX (fst e) cs1 ans). rewrite EX.
      match type of EX with _ = ?x => destruct x as [an| | | |] end; cbn [bind orel]; auto. destruct (obs_step A (fst e) (snd e) cs1) as [cs2| | | |]; cbn [bind orel]; auto.
      pose proof (IH c' f (Nat.max a (S j)) w (S j) cs2 cs1 an R' ltac:(lia) ltac:(lia)) as I1.
      match type of I1 with orel _ ?x ?y => destruct x as [[[[[? ?] ?] ?] ?]| | | |], y as [[[[[? ?] ?] ?] ?]| | | |] end; cbn [orel] in I1 |- *; cbv beta iota in I1 |- *; auto.
      destruct I1 as (I1 & I2 & I3 & I4 & I5 & a' & I6 & I7 & I8). do 5 (split; [assumption|]). exists a'. split; [assumption|]. lia.
  Qed.

  Theorem eps_outer_sim : forall fuel c f a w i ls ans, R c f a w -> f <= i - 1 ->
    eps_outer W A T fx nz fuel c i ls ans = eps_outer vecC A T fx nz fuel w i ls ans.
  Proof.
    induction fuel as [|fuel IH]; intros c f a w i ls ans H H0; cbn [eps_outer]; (destruct (fetch_sim W R SR c f a w (i + sk_m T - 1) H) as (c' & E & R'); [lia|]); rewrite E;
      cbn [vecC cfetch]; destruct (i + sk_m T - 1 <? length w) eqn:Ef; auto.
    pose proof (shift_sim W R SR T Tm Td (S fuel) c' f (Nat.max a (S (i + sk_m T - 1))) w i R' H0) as S1.
    destruct (sunday_shift W T (S fuel) c' i) as [[c1 oi]| | | |], (sunday_shift vecC T (S fuel) w i) as [[w1 oi']| | | |]; cbn [orel] in S1;
      try (exfalso; apply S1; lia); cbn [bind]; auto; [|f_equal; apply S1; lia].
    destruct S1 as (Ew & Eo & f1 & a1 & R1 & S1); [lia|]. cbn [fst snd] in *. subst oi' w1.
    destruct oi as [i1|]; auto. destruct S1 as [S1 S2].
    destruct (fetch_sim W R SR _ _ _ _ i1 R1) as (c2 & E2 & R2); [lia|]. rewrite E2. destruct (i1 <? length w) eqn:Ei; auto.
    pose proof (e_start c2 f1 _ w i1 R2 S1 ltac:(lia)) as ES.  rewrite ES. match type of ES with _ = ?x => destruct x as [cs| | | |] end; cbn [bind]; auto.
    pose proof (eps_match_sim (S fuel) c2 f1 _ w i1 cs ls ans R2) as MS. 
    match type of MS with _ -> _ -> orel _ ?x ?y => destruct x as [[[[[c3 j] cs'] ls'] ans']| | | |], y as [[[[[w3 j'] cs''] ls''] ans'']| | | |] end; cbn [orel] in MS;
      try (exfalso; apply MS; lia); cbn [bind]; auto; [|f_equal; apply MS; lia].
    destruct MS as (-> & <- & <- & <- & <- & a3 & R3 & J1 & J2); [lia|lia|].
    destruct (fetch_sim W R SR _ _ _ _ j R3) as (c4 & E4 & R4); [lia|]. rewrite E4.
    destruct (eps_greatest T (if j <? length w then ls' else cs')) as [n| | | |] eqn:Eg; cbn [bind]; auto.
    destruct (cs_front _ _ SR _ _ _ _ (i1 + n - 1) R4) as (c5 & E5 & R5).
    { assert (1 <= n); [|lia]. revert Eg. unfold eps_greatest.
      assert (X : forall ls k, 1 <= k -> fold_out (fun cfg n => match sk_beta T (est cfg) with
                         | Some k => Ok (if k <? n then n else k) | None => Throw end) ls k = Ok n -> 1 <= n).
      { clear. induction ls as [|x ls IH]; cbn [fold_out]; intros k K E; [congruence|].
        destruct (sk_beta T (est x)) as [b|]; cbn [bind] in E; [|discriminate]. revert E. destruct (Nat.ltb_spec b k); intros E; apply IH in E; lia. }
      apply X. lia. }
    rewrite E5. cbn [csetFront bind]. eapply IH; eauto.
  Qed.
End EpsSim.

Theorem C36_monaa : forall fuel al nz A w, monaa fuel al nz lazyC A (lopen w) = monaa fuel al nz vecC A w.
Proof.
  intros. unfold monaa. destruct (tables fuel al A) as [T| | | |] eqn:E; cbn [bind]; auto. destruct (tables_ok _ _ _ _ E) as (T1 & T2 & _). destruct (no_eps A).
  - apply (outer_sim lazyC lazyR lazy_sim A T MSignal T1 T2 fuel (lopen w) 0 0 w 0 [] []); [apply lazy_open|lia].
  - apply (eps_outer_sim lazyC lazyR lazy_sim A T false nz T1 T2 fuel (lopen w) 0 0 w 0 [] []); [apply lazy_open|lia].
Qed.
