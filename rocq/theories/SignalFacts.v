(* Facts about the heap of signal-mode expressions: the separation code is never
   run, and when the normal form is reached. *)
From Coq Require Import QArith Bool List ZArith Arith Lia.
From Verif Require Import Num Outcome Interval Constraint Zone TA Tre Signal.
Import ListNotations.
Open Scope nat_scope.

Lemma bind_Ok : forall {T U} (o : outcome T) (f : T -> outcome U) y, bind o f = Ok y -> exists x, o = Ok x /\ f x = Ok y.
Proof. intros T U [x| | | |] f y H; cbn in H; try discriminate. eauto. Qed.

Ltac unbind H :=
  let x := fresh "x" in let E := fresh "E" in
  apply bind_Ok in H; destruct H as (x & E & H).

Lemma nth_set_nth : forall {X} (l : list X) i x j,
  nth_error (set_nth l i x) j = if (j =? i) && (i <? length l) then Some x else nth_error l j.
Proof.
  induction l as [|y l IH]; intros i x j.
  - destruct i; cbn; destruct j; cbn; auto; try rewrite andb_false_r; auto. 
  - destruct i as [|i]; destruct j as [|j]; cbn [set_nth nth_error length]; auto. rewrite IH.
    replace (S j =? S i) with (j =? i) by reflexivity. replace (S i <? S (length l)) with (i <? length l) by reflexivity. auto.
Qed.

Lemma set_nth_length : forall {X} (l : list X) i x, length (set_nth l i x) = length l.
Proof. induction l as [|y l IH]; intros [|i] x; cbn; auto. Qed.

(* Unfolding. *)
Lemma nfA_S : forall sepA sepD f H a, nfA sepA sepD (S f) H a = (
        do x <- getA H a ;
        match at_cell x with
        | ASing s => do cl <- getS H s ; setDec H a (mkDec DConst [fst cl])
        | AMoved => UB
        | AEps => setDec H a (mkDec DConst [0])
        | ACat l =>
            do r <- cat_decs (nfA sepA sepD f) H (mkDec DConst [0]) l ;
            do H1 <- setDec (snd r) a (fst r) ;
            do m <- merge_loop (S (length l)) H1 0 l ;
            do H2 <- (match fst m with
                      | [b] => do y <- getA (snd m) b ;
                               match at_cell y with AMoved => UB | c => setCell (snd m) a c end
                      | l' => setCell (snd m) a (ACat l')
                      end) ;
            do x2 <- getA H2 a ;
            match at_cell x2 with
            | ACat l' => do mx <- cat_mixed H2 l' ; if mx then sepA H2 a else Ok H2
            | _ => Ok H2
            end
        | APlus d =>
            do H1 <- nfD sepA sepD f H d ;
            do e <- getD H1 d ;
            match dn_dec e with
            | None => UB
            | Some de =>
                let da := plus_dec de in
                do H2 <- setDec H1 a da ;
                do H3 <- (if isMixed da then sepA H2 a else Ok H2) ;
                match isConstant da with
                | Some c => do r <- snfA f c H3 a ; Ok (snd r)
                | None => Ok H3
                end
            end
        | AWithin b Iv =>
            do H1 <- nfA sepA sepD f H b ;
            do d <- dec_of H1 b ;
            do H2 <- setDec H1 a d ;
            do y <- getA H2 b ;
            match at_cell y with
            | ASing s =>
                do cl <- getS H2 s ;
                let H3 := setS H2 s (fst cl, land1 (snd cl) Iv) in
                do H4 <- setCell H3 b AMoved ;
                setCell H4 a (ASing s)
            | AMoved => UB
            | AEps => setCell H2 a AEps
            | APlus _ => if isMixed d then sepA H2 a else Ok H2
            | _ => Ok H2
            end
        end).
Proof. reflexivity. Qed.
Lemma nfD_S : forall sepA sepD f H d, nfD sepA sepD (S f) H d = (
        do e <- getD H d ;
        do H1 <- hfold (fun H l => hfold (nfA sepA sepD f) H l) H (dn_list e) ;
        do ms <- oseq (conj_mixed H1) (dn_list e) ;
        do H2 <- (if existsb (fun b => b) ms then sepD H1 d else Ok H1) ;
        do e2 <- getD H2 d ;
        do ds <- oseq (conj_dec f H2) (dn_list e2) ;
        do dec <- dnf_dec ds ;
        Ok (setD H2 d (mkDn (dn_list e2) (Some dec)))).
Proof. reflexivity. Qed.

Lemma snfA_S : forall f c H a, snfA (S f) c H a = (
      do x <- getA H a ;
      match at_cell x with
      | ASing s => do cl <- getS H s ; Ok (c =? fst cl, H)
      | AMoved => UB
      | AEps => Ok (false, H)
      | ACat l =>
          do r <- hall (snfA f c) H l ;
          if fst r then
            do ls <- sings_of (snd r) l ;
            let (s, H1) := newS (snd r) c (fold_left isum ls [mkI bzero bzero]) in
            do H2 <- setCell H1 a (ASing s) ; Ok (true, H2)
          else Ok (false, snd r)
      | APlus d =>
          do H1 <- snfD f c H d ;
          do e <- getD H1 d ;
          match dn_list e with
          | (b :: _) :: _ =>
              do s <- sing_of H1 b ; do cl <- getS H1 s ;
              do H2 <- setCell H1 a (ASing s) ;
              do p <- plus_set (snd cl) ;
              Ok (true, setS H2 s (fst cl, p))
          | _ => UB
          end
      | AWithin b Iv =>
          do r <- snfA f c H b ;
          if fst r then
            do s <- sing_of (snd r) b ; do cl <- getS (snd r) s ;
            do H2 <- setCell (snd r) a (ASing s) ;
            Ok (true, setS H2 s (fst cl, land1 (snd cl) Iv))
          else Ok (false, snd r)
      end).
Proof. reflexivity. Qed.
Lemma snfD_S : forall f c H d, snfD (S f) c H d = (
      do e <- getD H d ;
      do r <- snf_keep (snfA f c) H (dn_list e) ;
      do ls <- oseq (fun l => do is <- sings_of (snd r) l ; Ok (fold_left land is [interval_default])) (fst r) ;
      let (a, H1) := newSingle (snd r) c (concat ls) in
      do e1 <- getD H1 d ;
      Ok (setD H1 d (mkDn [[a]] (dn_dec e1)))).
Proof. reflexivity. Qed.

(* ---------------- decisions ---------------- *)

(* At most one character, and none when Mixed. *)
Definition gooddec (d : decision) : Prop :=
  match dec_tag d with DConst => length (dec_chars d) <= 1 | DMixed => dec_chars d = [] end.

Lemma good_not_mixed : forall d, gooddec d -> isMixed d = false.
Proof. intros [[|] cs] G; unfold isMixed; cbn in *; auto. rewrite G. reflexivity. Qed.

Lemma set_inter_nil : forall l, set_inter l [] = [].
Proof. destruct l; reflexivity. Qed.

Lemma set_inter_nil_l : forall l, set_inter [] l = [].
Proof. destruct l; reflexivity. Qed.

Lemma short_chars : forall d, gooddec d -> dec_chars d = [] \/ exists c, dec_chars d = [c] /\ dec_tag d = DConst.
Proof.
  intros [[|] cs] G; cbn in *; auto. destruct cs as [|c [|c' cs]]; auto; [right; eauto|cbn in G; lia].
Qed.

Lemma set_inter_short : forall a b, length a <= 1 -> length b <= 1 -> length (set_inter a b) <= 1.
Proof.
  intros [|x [|x' a]] [|y [|y' b]] Ha Hb; cbn [length] in Ha, Hb; try lia; try (cbn; lia).
  cbn [set_inter]. destruct (x <? y); [cbn; lia|]. destruct (y <? x); cbn; lia.
Qed.

Lemma good_concat : forall d e, gooddec d -> gooddec e -> gooddec (dec_concat d e).
Proof.
  intros d e G1 G2. destruct (short_chars d G1) as [E1|(c1 & E1 & T1)]; destruct (short_chars e G2) as [E2|(c2 & E2 & T2)];
    unfold dec_concat; rewrite E1, E2; cbn [has0].
  - cbn. destruct (dec_tag d), (dec_tag e); reflexivity.
  - cbn. destruct c2; destruct (dec_tag d), (dec_tag e); cbn; reflexivity.
  - cbn. destruct c1; destruct (dec_tag d), (dec_tag e); cbn; reflexivity.
  - rewrite T1, T2. cbn [uniqChar]. destruct c1 as [|c1], c2 as [|c2]; cbn; auto.
    assert (L : length (set_inter [S c1] [S c2]) <= 1) by (apply set_inter_short; cbn; lia).
    assert (M : c1 <> c2 -> set_inter [S c1] [S c2] = []).
    { intros N. cbn [set_inter]. destruct (Nat.ltb_spec (S c1) (S c2)); auto. destruct (Nat.ltb_spec (S c2) (S c1)); auto. lia. }
    destruct (Nat.eqb_spec c1 c2) as [->|N]; unfold gooddec; cbn [dec_tag dec_chars]; auto.
Qed.

Lemma good_or : forall d e, gooddec d -> gooddec e -> gooddec (dec_or d e).
Proof.
  intros [[|] c1] [[|] c2] G1 G2; unfold gooddec, dec_or in *; cbn [dec_tag dec_chars] in *.
  - apply set_inter_short; auto.
  - subst. apply set_inter_nil.
  - subst. apply set_inter_nil_l.
  - subst. reflexivity.
Qed.

Lemma good_conj : forall d e, gooddec d -> gooddec e ->
  gooddec (mkDec (match dec_tag d, dec_tag e with DMixed, DMixed => DMixed | _, _ => DConst end) (set_inter (dec_chars d) (dec_chars e))).
Proof.
  intros [[|] c1] [[|] c2] G1 G2; unfold gooddec in *; cbn [dec_tag dec_chars] in *.
  - apply set_inter_short; auto.
  - subst. rewrite set_inter_nil. cbn. lia.
  - subst. rewrite set_inter_nil_l. cbn. lia.
  - subst. reflexivity.
Qed.

Lemma good_plus : forall d, gooddec d -> gooddec (plus_dec d).
Proof.
  intros d G. unfold plus_dec. destruct (short_chars d G) as [E|(c & E & T)].
  - rewrite E. destruct (dec_tag d); cbn; auto.
  - rewrite E, T. destruct c; cbn; lia.
Qed.

Definition optgood (o : option decision) : Prop := match o with Some d => gooddec d | None => True end.
Definition goodH (H : heap) : Prop :=
  (forall a x, nth_error (hA H) a = Some x -> optgood (at_dec x)) /\
  (forall d x, nth_error (hD H) d = Some x -> optgood (dn_dec x)).

Lemma getA_Ok : forall H a x, getA H a = Ok x <-> nth_error (hA H) a = Some x.
Proof. intros H a x. unfold getA. destruct (nth_error (hA H) a); split; intros E; inversion E; auto. Qed.
Lemma getS_Ok : forall H a x, getS H a = Ok x <-> nth_error (hS H) a = Some x.
Proof. intros H a x. unfold getS. destruct (nth_error (hS H) a); split; intros E; inversion E; auto. Qed.
Lemma getD_Ok : forall H a x, getD H a = Ok x <-> nth_error (hD H) a = Some x.
Proof. intros H a x. unfold getD. destruct (nth_error (hD H) a); split; intros E; inversion E; auto. Qed.

Lemma good_setA : forall H a x, goodH H -> optgood (at_dec x) -> goodH (setA H a x).
Proof.
  intros H a x [G1 G2] O. split; cbn; auto. intros b y E. rewrite nth_set_nth in E.
  destruct ((b =? a) && (a <? length (hA H))); [injection E as <-; auto|eauto].
Qed.
Lemma good_setS : forall H a x, goodH H -> goodH (setS H a x).
Proof. intros H a x [G1 G2]. split; auto. Qed.
Lemma good_setD : forall H a x, goodH H -> optgood (dn_dec x) -> goodH (setD H a x).
Proof.
  intros H a x [G1 G2] O. split; cbn; auto. intros b y E. rewrite nth_set_nth in E.
  destruct ((b =? a) && (a <? length (hD H))); [injection E as <-; auto|eauto].
Qed.
Lemma good_setCell : forall H a c H', goodH H -> setCell H a c = Ok H' -> goodH H'.
Proof.
  intros H a c H' G E. unfold setCell in E. unbind E. injection E as <-. apply good_setA; auto. cbn.
  apply getA_Ok in E0. apply (proj1 G a x). auto.
Qed.
Lemma good_setDec : forall H a d H', goodH H -> gooddec d -> setDec H a d = Ok H' -> goodH H'.
Proof. intros H a d H' G O E. unfold setDec in E. unbind E. injection E as <-. apply good_setA; auto. Qed.
Lemma good_newA : forall H c, goodH H -> goodH (snd (newA H c)).
Proof.
  intros H c [G1 G2]. split; cbn; auto. intros a x E. destruct (lt_dec a (length (hA H))) as [L|L].
  - rewrite nth_error_app1 in E by auto. eauto.
  - rewrite nth_error_app2 in E by lia. destruct (a - length (hA H)) as [|k]; cbn in E; [injection E as <-; cbn; auto|destruct k; discriminate].
Qed.
Lemma good_newS : forall H c l, goodH H -> goodH (snd (newS H c l)).
Proof. intros H c l [G1 G2]. split; auto. Qed.
Lemma good_newD : forall H l, goodH H -> goodH (snd (newD H l)).
Proof.
  intros H l [G1 G2]. split; cbn; auto. intros a x E. destruct (lt_dec a (length (hD H))) as [L|L].
  - rewrite nth_error_app1 in E by auto. eauto.
  - rewrite nth_error_app2 in E by lia. destruct (a - length (hD H)) as [|k]; cbn in E; [injection E as <-; cbn; auto|destruct k; discriminate].
Qed.
Lemma good_newSingle : forall H c l, goodH H -> goodH (snd (newSingle H c l)).
Proof. intros H c l G. unfold newSingle. cbn. apply (good_newA (snd (newS H c l)) (ASing (length (hS H)))), good_newS, G. Qed.

(* ---------------- makeSNF keeps the decisions good ---------------- *)

Lemma hall_good : forall f H l r, (forall H a r, goodH H -> f H a = Ok r -> goodH (snd r)) ->
  goodH H -> hall f H l = Ok r -> goodH (snd r).
Proof.
  intros f H l r Hf. revert H. induction l as [|a l IH]; intros H G E; cbn in E.
  - injection E as <-. auto.
  - unbind E. assert (G1 := Hf _ _ _ G E0). destruct (fst x); [eauto|injection E as <-; auto].
Qed.

Lemma snf_keep_good : forall f H l r, (forall H a r, goodH H -> f H a = Ok r -> goodH (snd r)) ->
  goodH H -> snf_keep f H l = Ok r -> goodH (snd r).
Proof.
  intros f H l r Hf. revert H r. induction l as [|a l IH]; intros H r G E; cbn in E.
  - injection E as <-. auto.
  - unbind E. assert (G1 := hall_good _ _ _ _ Hf G E0). unbind E. specialize (IH _ _ G1 E1). injection E as <-. auto.
Qed.

Lemma snf_good : forall fuel c,
  (forall H a r, goodH H -> snfA fuel c H a = Ok r -> goodH (snd r)) /\
  (forall H d r, goodH H -> snfD fuel c H d = Ok r -> goodH r).
Proof.
  induction fuel as [|f IH]; intros c; [split; intros; discriminate|]. destruct (IH c) as [IA ID]. split.
  - intros H a r G E. rewrite snfA_S in E. unbind E. destruct (at_cell x) as [s| | |l|d|b Iv].
    + unbind E. injection E as <-. auto.
    + discriminate.
    + injection E as <-. auto.
    + unbind E. assert (G1 := hall_good _ _ _ _ IA G E1). destruct (fst x0); [|injection E as <-; auto].
      unbind E. cbn in E. unbind E. injection E as <-. cbn. eapply good_setCell; [|exact E3]. apply good_newS. auto.
    + unbind E. assert (G1 := ID _ _ _ G E1). unbind E. destruct (dn_list x1) as [|[|b t] q]; try discriminate.
      unbind E. unbind E. unbind E. unbind E. injection E as <-. cbn. apply good_setS. eapply good_setCell; eauto.
    + unbind E. assert (G1 := IA _ _ _ G E1). destruct (fst x0); [|injection E as <-; auto].
      unbind E. unbind E. unbind E. injection E as <-. cbn. apply good_setS. eapply good_setCell; eauto.
  - intros H d r G E. rewrite snfD_S in E. unbind E. unbind E. assert (G1 := snf_keep_good _ _ _ _ IA G E1). unbind E.
    unfold newSingle in E. cbn in E. unbind E. injection E as <-.
    assert (G2 := good_newSingle _ c (concat x1) G1). apply good_setD; auto. cbn. apply getD_Ok in E3. apply (proj2 G2 d). cbn. auto.
Qed.

Lemma merge_good : forall fuel H k l r, goodH H -> merge_loop fuel H k l = Ok r -> goodH (snd r).
Proof.
  induction fuel as [|f IH]; intros H k l r G E; [discriminate|]. cbn [merge_loop] in E.
  destruct l as [|a t]; [injection E as <-; auto|]. unbind E.
  assert (K : forall t' r, bind (merge_loop f H (S k) t') (fun q => Ok (a :: fst q, snd q)) = Ok r -> goodH (snd r)).
  { intros t' r' E'. unbind E'. injection E' as <-. cbn. eauto. }
  destruct (at_cell x); try (eapply K; eassumption).
  - destruct t as [|b t]; [injection E as <-; auto|]. unbind E. destruct (at_cell x0); try (eapply K; eassumption); try discriminate.
    unbind E. unbind E. destruct (fst x1 =? fst x2); [|eapply K; eassumption]. eapply IH; [|exact E]. apply good_setS. auto.
  - destruct (1 <? k + length (a :: t)); [eauto|eapply K; eassumption].
Qed.

Lemma dec_of_good : forall H a d, goodH H -> dec_of H a = Ok d -> gooddec d.
Proof.
  intros H a d G E. unfold dec_of in E. unbind E. apply getA_Ok in E0. pose proof (proj1 G _ _ E0) as O.
  destruct (at_dec x); [injection E as <-; auto|discriminate].
Qed.

Lemma cat_mixed_false : forall H l m, goodH H -> cat_mixed H l = Ok m -> m = false.
Proof.
  intros H l m G. induction l as [|a l IH]; intros E; cbn in E; [injection E as <-; auto|]. unbind E.
  destruct (at_cell x); auto. unbind E. apply getD_Ok in E1. pose proof (proj2 G _ _ E1) as O.
  destruct (dn_dec x0); [|discriminate]. rewrite (good_not_mixed _ O) in E. auto.
Qed.

Lemma conj_mixed_false : forall H l m, goodH H -> conj_mixed H l = Ok m -> m = false.
Proof.
  intros H l m G. induction l as [|a l IH]; intros E; cbn in E; [injection E as <-; auto|]. unbind E.
  destruct (at_cell x); auto. unbind E. rewrite (good_not_mixed _ (dec_of_good _ _ _ G E1)) in E. auto.
Qed.

Lemma oseq_Forall : forall {X Y} (f : X -> outcome Y) (P : Y -> Prop) l r,
  (forall x y, In x l -> f x = Ok y -> P y) -> oseq f l = Ok r -> Forall P r.
Proof.
  intros X Y f P. induction l as [|x l IH]; intros r Hf E; cbn in E; [injection E as <-; constructor|].
  unbind E. unbind E. injection E as <-. constructor; [eapply Hf; [left; reflexivity|eauto]|]. apply IH; auto.
  intros y z Hy Ez. apply (Hf y z); auto. right. auto.
Qed.

Lemma conj_loop_good : forall fuel H d l r, goodH H -> gooddec d -> conj_loop fuel H d l = Ok r -> gooddec r.
Proof.
  induction fuel as [|f IH]; intros H d l r G Gd E; [discriminate|]. cbn in E. destruct l as [|a l]; [injection E as <-; auto|].
  unbind E. eapply IH; [exact G| |exact E]. apply good_conj; auto. eapply dec_of_good; eauto.
Qed.

Lemma conj_dec_good : forall fuel H l r, goodH H -> conj_dec fuel H l = Ok r -> gooddec r.
Proof.
  intros fuel H [|a l] r G E; cbn in E; [discriminate|]. unbind E. eapply conj_loop_good; eauto. eapply dec_of_good; eauto.
Qed.

Lemma dnf_dec_good : forall ds d, Forall gooddec ds -> dnf_dec ds = Ok d -> gooddec d.
Proof.
  intros [|d ds] e F E; cbn in E; [discriminate|]. injection E as <-. inversion F as [|x y Gd Gs]; subst. clear F. revert d Gd.
  induction Gs; intros d' Gd; cbn; auto. apply IHGs. apply good_or; auto.
Qed.

(* ---------------- the separation code is never run ---------------- *)

Definition agree_on {X} (s s' : heap -> X -> outcome heap) : Prop :=
  forall H x, goodH H -> s H x = s' H x /\ forall H', s H x = Ok H' -> goodH H'.

Lemma hfold_agree : forall {X} (s s' : heap -> X -> outcome heap), agree_on s s' -> forall l, agree_on (fun H (_ : unit) => hfold s H l) (fun H _ => hfold s' H l).
Proof.
  intros X s s' A. induction l as [|x l IH]; intros H t G; cbn; [split; auto; intros H' E; injection E as <-; auto|].
  destruct (A H x G) as [E K]. rewrite <- E. destruct (s H x) as [H1| | | |]; cbn; try (split; auto; discriminate).
  apply (IH H1 t). auto.
Qed.

Lemma cat_decs_agree : forall s s', agree_on s s' -> forall l H acc, goodH H -> gooddec acc ->
  cat_decs s H acc l = cat_decs s' H acc l /\ forall r, cat_decs s H acc l = Ok r -> goodH (snd r) /\ gooddec (fst r).
Proof.
  intros s s' A. induction l as [|a l IH]; intros H acc G Ga; cbn; [split; auto; intros r E; injection E as <-; auto|].
  destruct (A H a G) as [E K]. rewrite <- E. destruct (s H a) as [H1| | | |]; cbn; try (split; auto; discriminate).
  specialize (K H1 eq_refl). destruct (dec_of H1 a) as [d| | | |] eqn:Ed; cbn; try (split; auto; discriminate).
  apply IH; auto. apply good_concat; auto. eapply dec_of_good; eauto.
Qed.

Lemma nf_no_separation : forall s1 s2 s1' s2' fuel,
  agree_on (nfA s1 s2 fuel) (nfA s1' s2' fuel) /\ agree_on (nfD s1 s2 fuel) (nfD s1' s2' fuel).
Proof.
  intros s1 s2 s1' s2'. induction fuel as [|f [IA ID]]; [split; intros H x G; cbn; split; auto; discriminate|]. split.
  - intros H a G. rewrite !nfA_S. destruct (getA H a) as [x| | | |] eqn:EA; cbn [bind]; try (split; auto; discriminate).
    destruct (at_cell x) as [s| | |l|d|b Iv] eqn:EC.
    + split; auto. intros H' E. unbind E. eapply good_setDec; [exact G| |exact E]. cbn. lia.
    + split; auto. discriminate.
    + split; auto. intros H' E. eapply good_setDec; [exact G| |exact E]. cbn. lia.
    + destruct (cat_decs_agree _ _ IA l H (mkDec DConst [0]) G) as [E K]; [cbn; lia|]. rewrite <- E.
      destruct (cat_decs (nfA s1 s2 f) H (mkDec DConst [0]) l) as [r| | | |]; cbn [bind]; try (split; auto; discriminate).
      destruct (K r eq_refl) as [G1 Gd]. destruct (setDec (snd r) a (fst r)) as [H1| | | |] eqn:E1; cbn [bind]; try (split; auto; discriminate).
      assert (G2 := good_setDec _ _ _ _ G1 Gd E1).
      destruct (merge_loop (S (length l)) H1 0 l) as [m| | | |] eqn:E2; cbn [bind]; try (split; auto; discriminate).
      assert (G3 := merge_good _ _ _ _ _ G2 E2).
      match goal with |- bind ?o _ = _ /\ _ => assert (G4 : forall H2, o = Ok H2 -> goodH H2); [|destruct o as [H2| | | |] eqn:E3; cbn [bind]; try (split; auto; discriminate)] end.
      { intros H2 E3. destruct (fst m) as [|b [|b' t]]; [eapply good_setCell; eauto| |eapply good_setCell; eauto].
        unbind E3. destruct (at_cell x0); try discriminate; eapply good_setCell; eauto. }
      specialize (G4 _ eq_refl). destruct (getA H2 a) as [x2| | | |]; cbn [bind]; try (split; auto; discriminate).
      destruct (at_cell x2); try (split; [reflexivity|intros H' E'; injection E' as <-; auto]).
      destruct (cat_mixed H2 l0) as [mx| | | |] eqn:EM; cbn [bind]; try (split; auto; discriminate).
      rewrite (cat_mixed_false _ _ _ G4 EM). split; auto. intros H' E'. injection E' as <-. auto.
    + destruct (ID H d G) as [E K]. rewrite <- E. destruct (nfD s1 s2 f H d) as [H1| | | |]; cbn [bind]; try (split; auto; discriminate).
      specialize (K _ eq_refl). destruct (getD H1 d) as [e| | | |] eqn:ED; cbn [bind]; try (split; auto; discriminate).
      apply getD_Ok in ED. pose proof (proj2 K _ _ ED) as O. destruct (dn_dec e) as [de|]; [|split; auto; discriminate].
      cbn in O. apply good_plus in O. destruct (setDec H1 a (plus_dec de)) as [H2| | | |] eqn:E2; cbn [bind]; try (split; auto; discriminate).
      assert (G2 := good_setDec _ _ _ _ K O E2). rewrite (good_not_mixed _ O). cbn [bind].
      destruct (isConstant (plus_dec de)); [|split; auto; intros H' E'; injection E' as <-; auto].
      split; auto. intros H' E'. unbind E'. injection E' as <-. exact (proj1 (snf_good _ _) _ _ _ G2 E0).
    + destruct (IA H b G) as [E K]. rewrite <- E. destruct (nfA s1 s2 f H b) as [H1| | | |]; cbn [bind]; try (split; auto; discriminate).
      specialize (K _ eq_refl). destruct (dec_of H1 b) as [d| | | |] eqn:ED; cbn [bind]; try (split; auto; discriminate).
      assert (Gd := dec_of_good _ _ _ K ED). destruct (setDec H1 a d) as [H2| | | |] eqn:E2; cbn [bind]; try (split; auto; discriminate).
      assert (G2 := good_setDec _ _ _ _ K Gd E2). destruct (getA H2 b) as [y| | | |]; cbn [bind]; try (split; auto; discriminate).
      rewrite (good_not_mixed _ Gd). split; auto. intros H' E'.
      destruct (at_cell y); try (injection E' as <-; auto; fail); try discriminate.
      * unbind E'. unbind E'. eapply good_setCell; [|exact E']. eapply good_setCell; [|exact E1]. apply good_setS. auto.
      * eapply good_setCell; eauto.
  - intros H d G. rewrite !nfD_S. destruct (getD H d) as [e| | | |]; cbn [bind]; try (split; auto; discriminate).
    assert (A1 := hfold_agree (fun H l => hfold (nfA s1 s2 f) H l) (fun H l => hfold (nfA s1' s2' f) H l)).
    destruct (A1 (fun H l G => hfold_agree _ _ IA l H tt G) (dn_list e) H tt G) as [E K]. rewrite <- E. clear A1.
    destruct (hfold (fun H l => hfold (nfA s1 s2 f) H l) H (dn_list e)) as [H1| | | |]; cbn [bind]; try (split; auto; discriminate).
    specialize (K _ eq_refl). destruct (oseq (conj_mixed H1) (dn_list e)) as [ms| | | |] eqn:EM; cbn [bind]; try (split; auto; discriminate).
    assert (F : Forall (fun b => b = false) ms) by (eapply oseq_Forall; [|exact EM]; intros l m _; apply conj_mixed_false; auto).
    replace (existsb (fun b => b) ms) with false by (symmetry; clear - F; induction F as [|m ms Em F IH]; cbn; auto; rewrite Em; auto).
    cbn [bind]. split; auto. intros H' E'. unbind E'. unbind E'. unbind E'. injection E' as <-. apply good_setD; auto. cbn.
    eapply dnf_dec_good; [|eassumption]. eapply oseq_Forall; [|eassumption]. intros l dd _. apply conj_dec_good. auto.
Qed.

(* ---------------- the heap a DNFTRE is built on ---------------- *)

Lemma hmap_good : forall {X Y} (f : heap -> X -> outcome (Y * heap)) l H r,
  (forall H x r, goodH H -> f H x = Ok r -> goodH (snd r)) -> goodH H -> hmap f H l = Ok r -> goodH (snd r).
Proof.
  intros X Y f. induction l as [|x l IH]; intros H r Hf G E; cbn in E; [injection E as <-; auto|].
  unbind E. unbind E. injection E as <-. cbn. eapply IH; [exact Hf| |exact E1]. eauto.
Qed.

Lemma newCat_good : forall H l r x, goodH H -> newCat H l r = Ok x -> goodH (snd x).
Proof.
  intros H l r x G E. unfold newCat in E. unbind E. unbind E. destruct (x0 ++ x1) as [|y [|z t]]; try discriminate.
  - injection E as <-. apply (good_newA H AEps). auto.
  - injection E as <-. apply (good_newA H (ACat (y :: z :: t))). auto.
Qed.

Lemma newWithin_good : forall H a Iv x, goodH H -> newWithin H a Iv = Ok x -> goodH (snd x).
Proof.
  intros H a Iv x G E. unfold newWithin in E. unbind E. destruct (at_cell x0); try discriminate.
  - unbind E. injection E as <-. apply good_newSingle. auto.
  - injection E as <-. apply (good_newA H (AWithin a Iv)). auto.
  - injection E as <-. apply (good_newA H (AWithin a Iv)). auto.
  - injection E as <-. apply (good_newA H (AWithin a Iv)). auto.
  - injection E as <-. apply (good_newA H (AWithin a Iv)). auto.
Qed.

Lemma dnf_of_good : forall r H X, goodH H -> dnf_of r H = Ok X -> goodH (snd X).
Proof.
  induction r as [c| |r IH|r1 IH1 r2 IH2|r1 IH1 r2 IH2|r1 IH1 r2 IH2|r IH Iv]; intros H X G E; cbn [dnf_of] in E.
  - injection E as <-. apply (good_newSingle H c [interval_default]). auto.
  - injection E as <-. apply (good_newA H AEps). auto.
  - unbind E. cbn in E. injection E as <-. cbn. specialize (IH _ _ G E0).
    apply (good_newA (snd (newD (snd x) (fst x))) (APlus (length (hD (snd x))))), good_newD, IH.
  - unbind E. unbind E. unbind E. injection E as <-. cbn. eapply hmap_good; [| |exact E2]; [|eauto].
    intros H0 x2 r0 G0 E0'. eapply hmap_good; [|exact G0|exact E0']. intros H1 x3 r' G1 E3. exact (newCat_good _ _ _ _ G1 E3).
  - unbind E. unbind E. injection E as <-. cbn. eauto.
  - unbind E. unbind E. injection E as <-. cbn. eauto.
  - unbind E. eapply hmap_good; [| |exact E]; [|eauto].
    intros H0 x2 r0 G0 E0'. eapply hmap_good; [|exact G0|exact E0']. intros H1 x3 r' G1 E3. exact (newWithin_good _ _ _ _ G1 E3).
Qed.

Lemma good_empty : goodH (mkH [] [] []).
Proof. split; intros [|a] x E; discriminate. Qed.

Lemma signal_no_separation : forall s1 s2 s1' s2' fuel al r n,
  toSignalTA s1 s2 fuel al r n = toSignalTA s1' s2' fuel al r n.
Proof.
  intros. unfold toSignalTA. destruct (dnf_of r (mkH [] [] [])) as [X| | | |] eqn:E; cbn [bind]; auto.
  assert (G := dnf_of_good _ _ _ good_empty E). cbn [newD].
  destruct (proj2 (nf_no_separation s1 s2 s1' s2' fuel) (snd (newD (snd X) (fst X))) (length (hD (snd X))) (good_newD _ _ G)) as [E2 _].
  cbn [newD snd] in E2. rewrite E2. reflexivity.
Qed.
