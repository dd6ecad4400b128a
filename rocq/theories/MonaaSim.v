(* The matcher does the same on every faithful container. *)
From Coq Require Import QArith Bool List ZArith Arith Lia.
From Verif Require Import Num Outcome Constraint Zone TA Word ZA Monaa WordFacts.
Import ListNotations.
Open Scope nat_scope.

Definition orel {X Y} (P : X -> Y -> Prop) (o : outcome X) (o' : outcome Y) : Prop :=
  match o, o' with
  | Ok x, Ok y => P x y
  | UB, UB => True
  | Throw, Throw => True
  | OutOfFuel, OutOfFuel => True
  | Exit n, Exit m => n = m
  | _, _ => False
  end.

Lemma orel_bind : forall {X Y X' Y'} (P : X -> Y -> Prop) (Q : X' -> Y' -> Prop) o o' f f',
  orel P o o' -> (forall x y, P x y -> orel Q (f x) (f' y)) -> orel Q (bind o f) (bind o' f').
Proof. intros. destruct o, o'; cbn in *; try contradiction; auto. Qed.

Lemma orel_eq : forall {X} (o : outcome X), orel eq o o.
Proof. destruct o; cbn; auto. Qed.

Lemma orel_eq_inv : forall {X} (o o' : outcome X), orel eq o o' -> o = o'.
Proof. destruct o, o'; cbn; intros; try contradiction; congruence. Qed.

Lemma fold_out_ext : forall {S X} (f g : X -> S -> outcome S) l s,
  (forall x s, In x l -> f x s = g x s) -> fold_out f l s = fold_out g l s.
Proof.
  induction l; intros; cbn; auto. rewrite H by now left. destruct (g a s); cbn; auto.
  apply IHl. intros. apply H. now right.
Qed.

Section Sim.
  Variable W : cont.
  Variable R : ctype W -> nat -> nat -> tword -> Prop.
  Hypothesis SR : csim W R.
  Variable A : ta.
  Variable T : skips.
  Variable M : mode.
  Hypothesis Tm : 1 <= sk_m T.
  Hypothesis Td : forall c d, sk_delta T c = Some d -> 1 <= d.

  Lemma at_sim : forall c f a w n, R c f a w -> f <= n -> n < a -> cat W c n = vec_at w n.
  Proof.
    intros. destruct (cs_at _ _ SR _ _ _ _ _ H H0 H1) as (e & E1 & E2). unfold vec_at. now rewrite E1.
  Qed.

  Lemma fetch_sim : forall c f a w n, R c f a w -> f <= n ->
    exists c', cfetch W c n = (n <? length w, c') /\ R c' f (if n <? length w then Nat.max a (S n) else a) w.
  Proof.
    intros. destruct (n <? length w) eqn:E.
    - apply Nat.ltb_lt in E. eapply cs_fetch_in; eauto.
    - apply Nat.ltb_ge in E. eapply cs_fetch_out; eauto.
  Qed.

  Lemma acc_sim : forall fin l c f a w j cs ans, R c f a w ->
    (fin = false -> f <= j /\ j < a) -> (0 < j -> f <= j - 1 /\ j - 1 < a) ->
    acc_confs W A fin l c j cs ans = acc_confs vecC A fin l w j cs ans.
  Proof.
    intros. unfold acc_confs. apply fold_out_ext. intros cfg s _. apply fold_out_ext. intros e s' _.
    destruct (match etgt e with Some q => match_at A q | None => false end); auto.
    assert (low_end W c j = low_end vecC w j) as ->.
    { unfold low_end. destruct (0 <? j) eqn:E; auto. apply Nat.ltb_lt in E. destruct (H1 E).
      cbn [vecC cat]. now rewrite (at_sim c f a w). }
    destruct fin; auto. destruct (H0 eq_refl). cbn [vecC cat]. now rewrite (at_sim c f a w).
  Qed.

  Lemma match_sim : forall fuel c f a w j cs ls ans, R c f a w -> f <= j - 1 -> j <= a ->
    orel (fun x y => let '(c', j', cs', ls', ans') := x in let '(w', j'', cs'', ls'', ans'') := y in
            w' = w /\ j' = j'' /\ cs' = cs'' /\ ls' = ls'' /\ ans' = ans'' /\
            exists a', R c' f a' w /\ j <= j' /\ j' <= a')
         (match_loop W A M fuel c j cs ls ans) (match_loop vecC A M fuel w j cs ls ans).
  Proof.
    induction fuel; intros.
    - cbn [match_loop]. destruct cs as [|cf cs].
      + cbn. repeat split. eauto.
      + destruct (fetch_sim c f a w j H) as (c' & E & R'); [lia|]. rewrite E. cbn [vecC cfetch].
        destruct (j <? length w); cbn; auto. repeat split. eauto.
    - cbn [match_loop]. destruct cs as [|cf cs].
      + cbn. repeat split. eauto.
      + destruct (fetch_sim c f a w j H) as (c' & E & R'); [lia|]. rewrite E. cbn [vecC cfetch].
        destruct (j <? length w); [|cbn; repeat split; eauto].
        change (cat vecC w j) with (vec_at w j). rewrite (at_sim c' f (Nat.max a (S j)) w j) by (auto; lia).
        destruct (vec_at w j) as [e| | | |] eqn:Ev; cbn [bind]; cbn [orel]; auto.
        rewrite (acc_sim false (acc_letter M (fst e)) c' f (Nat.max a (S j)) w) by (auto; lia).
        destruct (acc_confs vecC A false (acc_letter M (fst e)) w j (cf :: cs) ans); cbn [bind orel]; auto.
        pose proof (IHfuel c' f (Nat.max a (S j)) w (S j) (event_confs M A (fst e) (snd e) (cf :: cs)) (cf :: cs) (l ++ event_zones M A (fst e) (snd e) (cf :: cs)) R') as IH.
        destruct (match_loop W A M fuel c' (S j) (event_confs M A (fst e) (snd e) (cf :: cs)) (cf :: cs) (l ++ event_zones M A (fst e) (snd e) (cf :: cs))) as [[[[[? ?] ?] ?] ?]| | | |],
                 (match_loop vecC A M fuel w (S j) (event_confs M A (fst e) (snd e) (cf :: cs)) (cf :: cs) (l ++ event_zones M A (fst e) (snd e) (cf :: cs))) as [[[[[? ?] ?] ?] ?]| | | |];
          cbn [orel] in *; try (apply IH; lia).
        destruct IH as (? & ? & ? & ? & ? & a' & ? & ? & ?); [lia|lia|].
        repeat split; auto. exists a'. repeat split; auto. lia.
  Qed.

  Lemma sunday_sim : forall fuel c f a w i, R c f a w -> f <= i - 1 -> i + sk_m T <= a ->
    orel (fun x y => fst y = w /\ snd x = snd y /\
            exists f' a', R (fst x) f' a' w /\
               match snd x with Some i' => f' <= i' - 1 /\ i' + sk_m T <= a' | None => True end)
         (sunday_loop W T fuel c i) (sunday_loop vecC T fuel w i).
  Proof.
    induction fuel; intros.
    - cbn [sunday_loop]. change (cat vecC w) with (vec_at w).
      rewrite (at_sim c f a w) by (auto; lia). destruct (vec_at w (i + sk_m T - 1)); cbn [bind orel]; auto.
      destruct (mem (fst e) (sk_end T)).
      + cbn. repeat split. exists f, a. auto.
      + destruct (fetch_sim c f a w (i + sk_m T) H) as (c' & E & R'); [lia|]. rewrite E. cbn [vecC cfetch].
        destruct (i + sk_m T <? length w); [|cbn; repeat split; exists f, a; auto].
        change (cat vecC w) with (vec_at w).
        rewrite (at_sim c' f _ w (i + sk_m T) R') by lia. destruct (vec_at w (i + sk_m T)); cbn [bind orel]; auto.
        destruct (sk_delta T (fst e0)); cbn; auto.
    - cbn [sunday_loop]. change (cat vecC w) with (vec_at w).
      rewrite (at_sim c f a w) by (auto; lia). destruct (vec_at w (i + sk_m T - 1)); cbn [bind orel]; auto.
      destruct (mem (fst e) (sk_end T)).
      + cbn. repeat split. exists f, a. auto.
      + destruct (fetch_sim c f a w (i + sk_m T) H) as (c' & E & R'); [lia|]. rewrite E. cbn [vecC cfetch].
        destruct (i + sk_m T <? length w); [|cbn; repeat split; exists f, a; auto].
        change (cat vecC w) with (vec_at w).
        rewrite (at_sim c' f _ w (i + sk_m T) R') by lia. destruct (vec_at w (i + sk_m T)); cbn [bind orel]; auto.
        destruct (sk_delta T (fst e0)) as [d|] eqn:Ed; [|cbn; auto]. apply Td in Ed.
        destruct (cs_front _ _ SR _ _ _ _ (i + d - 1) R') as (c2 & E2 & R2); [lia|].
        rewrite E2. cbn [vecC csetFront bind].
        destruct (fetch_sim _ _ _ _ (i + d + sk_m T - 1) R2) as (c3 & E3 & R3); [lia|]. rewrite E3.
        cbn [cfetch].
        destruct (i + d + sk_m T - 1 <? length w).
        * apply (IHfuel c3 (i + d - 1) _ w (i + d) R3); lia.
        * cbn. repeat split. exists (i + d - 1). eauto.
  Qed.

  Lemma shift_sim : forall fuel c f a w i, R c f a w -> f <= i - 1 -> i + sk_m T <= a ->
    orel (fun x y => fst y = w /\ snd x = snd y /\
            exists f' a', R (fst x) f' a' w /\
               match snd x with Some i' => f' <= i' - 1 /\ i' + sk_m T <= a' | None => True end)
         (sunday_shift W T fuel c i) (sunday_shift vecC T fuel w i).
  Proof.
    intros. unfold sunday_shift. destruct (1 <? sk_m T).
    - destruct (fetch_sim c f a w (i + sk_m T - 1) H) as (c' & E & R'); [lia|]. rewrite E. cbn [vecC cfetch].
      destruct (i + sk_m T - 1 <? length w).
      + eapply sunday_sim; eauto. lia.
      + cbn. repeat split. exists f, a. auto.
    - cbn. repeat split. exists f, a. auto.
  Qed.

  Lemma start_sim : forall c f a w i, R c f a w -> f <= i - 1 -> i < a ->
    start_confs W A c i = start_confs vecC A w i.
  Proof.
    intros. unfold start_confs. change (cat vecC w) with (vec_at w).
    rewrite (at_sim c f a w) by (auto; lia). destruct (vec_at w i); cbn [bind]; auto.
    destruct (0 <? i) eqn:E; auto. apply Nat.ltb_lt in E.
    rewrite (at_sim c f a w) by (auto; lia). reflexivity.
  Qed.

  Theorem outer_sim : forall fuel c f a w i ls ans, R c f a w -> f <= i - 1 ->
    outer_loop W A T M fuel c i ls ans = outer_loop vecC A T M fuel w i ls ans.
  Proof.
    induction fuel; intros.
    - cbn [outer_loop]. destruct (fetch_sim c f a w (i + sk_m T - 1) H) as (c' & E & R'); [lia|]. rewrite E.
      cbn [vecC cfetch]. destruct (i + sk_m T - 1 <? length w); auto.
    - cbn [outer_loop]. destruct (fetch_sim c f a w (i + sk_m T - 1) H) as (c' & E & R'); [lia|]. rewrite E.
      cbn [vecC cfetch]. destruct (i + sk_m T - 1 <? length w) eqn:Ef; auto.
      pose proof (shift_sim (S fuel) c' f (Nat.max a (S (i + sk_m T - 1))) w i R' H0) as S1.
      destruct (sunday_shift W T (S fuel) c' i) as [[c1 oi]| | | |],
               (sunday_shift vecC T (S fuel) w i) as [[w1 oi']| | | |]; cbn [orel] in S1;
        try (exfalso; apply S1; lia); cbn [bind]; auto.
      2: { f_equal. apply S1. lia. }
      destruct S1 as (Ew & Eo & f1 & a1 & R1 & S1); [lia|]. cbn [fst snd] in *. subst oi' w1.
      destruct oi as [i1|]; auto. destruct S1 as [S1 S2].
      destruct (fetch_sim _ _ _ _ i1 R1) as (c2 & E2 & R2); [lia|]. rewrite E2.
      destruct (i1 <? length w) eqn:Ei; auto.
      rewrite (start_sim _ _ _ _ i1 R2) by lia.
      destruct (start_confs vecC A w i1) as [cs| | | |]; cbn [bind]; auto.
      pose proof (match_sim (S fuel) c2 f1 _ w i1 cs ls ans R2) as MS.
      destruct (match_loop W A M (S fuel) c2 i1 cs ls ans) as [[[[[c3 j] cs'] ls'] ans']| | | |],
               (match_loop vecC A M (S fuel) w i1 cs ls ans) as [[[[[w3 j'] cs''] ls''] ans'']| | | |]; cbn [orel] in MS;
        try (exfalso; apply MS; lia); cbn [bind]; auto.
      2: { f_equal. apply MS; lia. }
      destruct MS as (-> & <- & <- & <- & <- & a3 & R3 & J1 & J2); [lia|lia|].
      destruct (fetch_sim _ _ _ _ j R3) as (c4 & E4 & R4); [lia|]. rewrite E4. cbn [vecC cfetch].
      assert (Ela : (if j <? length w then Ok (ls', ans') else match M with MSignal => Ok (cs', ans') | _ => do ans' <- acc_confs W A true dollar c4 j cs' ans'; Ok (cs', ans') end)
                  = (if j <? length w then Ok (ls', ans') else match M with MSignal => Ok (cs', ans') | _ => do ans' <- acc_confs vecC A true dollar w j cs' ans'; Ok (cs', ans') end)).
      { destruct (j <? length w) eqn:Ej; auto. rewrite (acc_sim true _ _ _ _ _ j cs' ans' R4); auto; try discriminate.
        intros. lia. }
      unfold vecC in Ela. rewrite Ela. unfold vecC.
      match goal with |- bind ?o _ = _ => destruct o as [la| | | |]; cbn [bind]; auto end.
      destruct (greatest T (fst la)) as [n| | | |] eqn:Eg; cbn [bind]; auto.
      destruct (cs_front _ _ SR _ _ _ _ (i1 + n - 1) R4) as (c5 & E5 & R5).
      { assert (1 <= n); [|lia]. unfold greatest in Eg. clear - Eg. revert Eg.
        assert (forall ls k, 1 <= k -> fold_out (fun cfg n => match sk_beta T (ist cfg) with
                           | Some k => Ok (if k <? n then n else k) | None => Throw end) ls k = Ok n -> 1 <= n).
        { induction ls; cbn [fold_out]; intros k K E. - congruence.
          - destruct (sk_beta T (ist a)) as [b|]; cbn [bind] in E; [|discriminate]. revert E. destruct (Nat.ltb_spec b k); intros E; apply IHls in E; lia. }
        apply H. lia. }
      rewrite E5. cbn [csetFront bind]. eapply IHfuel; eauto.
  Qed.
End Sim.
