(* Property C81: reading and reporting are interleaved; what is reported
   depends only on what was read. *)
From Coq Require Import QArith Bool List ZArith Arith Lia Lqa.
From Verif Require Import Num Outcome Constraint Zone TA Spec Word WordFacts ZA Skip Monaa MonaaSim MonaaFacts WfDec PropTerm Online PropMonaa.
Import ListNotations.
Open Scope nat_scope.

(* ---------- the traced model reports what the model reports ---------- *)

Definition erase {X} (ans : list mat) (m : traced X) : outcome (X * list mat) :=
  match snd m with
  | Ok x => Ok (x, ans ++ emitted (fst m))
  | UB => UB
  | Throw => Throw
  | Exit n => Exit n
  | OutOfFuel => OutOfFuel
  end.

Lemma emitted_app : forall a b, emitted (a ++ b) = emitted a ++ emitted b.
Proof. intros. apply flat_map_app. Qed.
Lemma emitted_map : forall zs, emitted (map Emits zs) = zs.
Proof. unfold emitted. induction zs; cbn; congruence. Qed.

Lemma erase_tbind : forall {X Y} ans (m : traced X) (f : X -> traced Y),
  erase ans (tbind m f) = do p <- erase ans m ; erase (snd p) (f (fst p)).
Proof.
  intros X Y ans [tr o] f. unfold tbind, erase; cbn [fst snd]. destruct o; cbn [bind fst snd]; auto.
  rewrite emitted_app, app_assoc. reflexivity.
Qed.

Lemma erase_tlift : forall {X} ans (o : outcome X), erase ans (tlift o) = do x <- o ; Ok (x, ans).
Proof. intros X ans []; unfold erase; cbn; auto. now rewrite app_nil_r. Qed.

Lemma erase_fetch : forall W ans c n, erase ans (tfetch W c n) = Ok (cfetch W c n, ans).
Proof. intros. unfold erase, tfetch; cbn. now rewrite app_nil_r. Qed.

Lemma erase_front : forall W ans c n, erase ans (tfront W c n) = do c' <- csetFront W c n ; Ok (c', ans).
Proof. intros. unfold erase, tfront; cbn. destruct (csetFront W c n); cbn; auto. now rewrite app_nil_r. Qed.

Lemma erase_zones : forall ans zs, erase ans (map Emits zs, Ok tt) = Ok (tt, ans ++ zs).
Proof. intros. unfold erase; cbn. now rewrite emitted_map. Qed.

Lemma acc_confs_app : forall W A fin l c j cs ans,
  acc_confs W A fin l c j cs ans = do zs <- acc_confs W A fin l c j cs [] ; Ok (ans ++ zs).
Proof.
  intros W A fin l c j.
  assert (E : forall cfg es ans,
    fold_out (fun e ans => if match etgt e with Some q => match_at A q | None => false end then
          do up <- (if fin then Ok (PInf, true) else do e <- cat W c j ; Ok (bnd (snd e) true)) ;
          do lo <- low_end W c j ; Ok (ans ++ opt_list (acc_edge cfg up lo e)) else Ok ans) es ans =
    do zs <- fold_out (fun e ans => if match etgt e with Some q => match_at A q | None => false end then
          do up <- (if fin then Ok (PInf, true) else do e <- cat W c j ; Ok (bnd (snd e) true)) ;
          do lo <- low_end W c j ; Ok (ans ++ opt_list (acc_edge cfg up lo e)) else Ok ans) es [] ; Ok (ans ++ zs)).
  { intros cfg es. induction es as [|e es IH]; intros ans; cbn [fold_out bind]; [now rewrite app_nil_r|].
    destruct (match etgt e with Some q => match_at A q | None => false end); [|apply IH].
    destruct (if fin then Ok (PInf, true) else do e0 <- cat W c j; Ok (bnd (snd e0) true)) as [up| | | |]; cbn [bind]; auto.
    destruct (low_end W c j) as [lo| | | |]; cbn [bind]; auto. rewrite IH. rewrite (IH ([] ++ _)). cbn [app].
    match goal with |- context[fold_out ?f es []] => destruct (fold_out f es []) end; cbn [bind]; auto. now rewrite app_assoc. }
  unfold acc_confs. induction cs as [|cfg cs IH]; intros ans; cbn [fold_out bind]; [now rewrite app_nil_r|].
  rewrite E. match goal with |- context[fold_out ?f (edges_at A (ist cfg) l) []] => destruct (fold_out f (edges_at A (ist cfg) l) []) as [zs| | | |] end; cbn [bind]; auto.
  rewrite IH. rewrite (IH zs). match goal with |- context[fold_out ?f cs []] => destruct (fold_out f cs []) end; cbn [bind]; auto. now rewrite app_assoc.
Qed.

Lemma erase_acc : forall W A fin l c j cs ans,
  erase ans (t_acc W A fin l c j cs) = do zs <- acc_confs W A fin l c j cs ans ; Ok (tt, zs).
Proof.
  intros. unfold t_acc. rewrite (acc_confs_app W A fin l c j cs ans). destruct (acc_confs W A fin l c j cs []); cbn [bind]; auto. apply erase_zones.
Qed.

Lemma erase_match : forall W A M fuel c j cs ls ans,
  match_loop W A M fuel c j cs ls ans =
  do p <- erase ans (t_match W A M fuel c j cs ls) ; let '(c, j, cs, ls) := fst p in Ok (c, j, cs, ls, snd p).
Proof.
  intros W A M. induction fuel as [|f IH]; intros c j cs ls ans; destruct cs as [|cf cs]; cbn [match_loop t_match].
  - rewrite erase_tlift. reflexivity.
  - rewrite erase_tbind, erase_fetch. cbn [bind fst snd]. destruct (cfetch W c j) as [[] c']; cbn [fst snd]; rewrite erase_tlift; reflexivity.
  - rewrite erase_tlift. reflexivity.
  - rewrite erase_tbind, erase_fetch. cbn [bind fst snd]. destruct (cfetch W c j) as [[] c']; cbn [fst snd]; [|rewrite erase_tlift; reflexivity].
    rewrite erase_tbind, erase_tlift. destruct (cat W c' j) as [e| | | |]; cbn [bind fst snd]; auto.
    rewrite erase_tbind, erase_acc. destruct (acc_confs W A false (acc_letter M (fst e)) c' j (cf :: cs) ans) as [zs| | | |]; cbn [bind fst snd]; auto.
    rewrite erase_tbind, erase_zones. cbn [bind fst snd]. apply IH.
Qed.

Lemma erase_sunday_loop : forall W T fuel c i ans,
  erase ans (t_sunday_loop W T fuel c i) = do x <- sunday_loop W T fuel c i ; Ok (x, ans).
Proof.
  intros W T. induction fuel as [|f IH]; intros c i ans; cbn [sunday_loop t_sunday_loop]; rewrite erase_tbind, erase_tlift;
    destruct (cat W c (i + sk_m T - 1)) as [e| | | |]; cbn [bind fst snd]; auto;
    (destruct (mem (fst e) (sk_end T)); [apply erase_tlift|]); rewrite erase_tbind, erase_fetch; cbn [bind fst snd];
    destruct (cfetch W c (i + sk_m T)) as [[] c1]; cbn [fst snd]; try apply erase_tlift;
    rewrite erase_tbind, erase_tlift; destruct (cat W c1 (i + sk_m T)) as [e'| | | |]; cbn [bind fst snd]; auto;
    destruct (sk_delta T (fst e')) as [d|]; auto.
  rewrite erase_tbind, erase_front. destruct (csetFront W c1 (i + d - 1)) as [c2| | | |]; cbn [bind fst snd]; auto.
  rewrite erase_tbind, erase_fetch. cbn [bind fst snd]. destruct (cfetch W c2 (i + d + sk_m T - 1)) as [[] c3]; cbn [fst snd]; [apply IH|apply erase_tlift].
Qed.

Lemma erase_sunday : forall W T fuel c i ans,
  erase ans (t_sunday_shift W T fuel c i) = do x <- sunday_shift W T fuel c i ; Ok (x, ans).
Proof.
  intros. unfold t_sunday_shift, sunday_shift. destruct (1 <? sk_m T); [|apply erase_tlift].
  rewrite erase_tbind, erase_fetch. cbn [bind fst snd]. destruct (cfetch W c (i + sk_m T - 1)) as [[] c1]; cbn [fst snd]; [apply erase_sunday_loop|apply erase_tlift].
Qed.

Lemma erase_outer : forall W A T M fuel c i ls ans,
  outer_loop W A T M fuel c i ls ans = do p <- erase ans (t_outer W A T M fuel c i ls) ; Ok (snd p).
Proof.
  intros W A T M. induction fuel as [|f IH]; intros c i ls ans; cbn [outer_loop t_outer]; rewrite erase_tbind, erase_fetch; cbn [bind fst snd];
    destruct (cfetch W c (i + sk_m T - 1)) as [[] c1]; cbn [fst snd]; try (rewrite erase_tlift; reflexivity).
  rewrite erase_tbind, erase_sunday. destruct (sunday_shift W T (S f) c1 i) as [[c2 oi]| | | |]; cbn [bind fst snd]; auto.
  destruct oi as [i'|]; [|rewrite erase_tlift; reflexivity].
  rewrite erase_tbind, erase_fetch. cbn [bind fst snd]. destruct (cfetch W c2 i') as [[] c3]; cbn [fst snd]; [|rewrite erase_tlift; reflexivity].
  rewrite erase_tbind, erase_tlift. destruct (start_confs W A c3 i') as [cs| | | |]; cbn [bind fst snd]; auto.
  rewrite erase_tbind, erase_match. destruct (erase ans (t_match W A M (S f) c3 i' cs ls)) as [[[[[c4 j] cs4] ls4] ans4]| | | |]; cbn [bind fst snd]; auto.
  rewrite erase_tbind, erase_fetch. cbn [bind fst snd]. destruct (cfetch W c4 j) as [b c5]. cbn [fst snd].
  rewrite erase_tbind.
  assert (E : erase ans4 (if b then tlift (Ok ls4) else match M with MSignal => tlift (Ok cs4) | _ => tbind (t_acc W A true dollar c5 j cs4) (fun _ => tlift (Ok cs4)) end) =
    if b then Ok (ls4, ans4) else match M with MSignal => Ok (cs4, ans4) | _ => do ans' <- acc_confs W A true dollar c5 j cs4 ans4 ; Ok (cs4, ans') end).
  { destruct b; [rewrite erase_tlift; reflexivity|]. destruct M; try (rewrite erase_tlift; reflexivity); rewrite erase_tbind, erase_acc; destruct (acc_confs W A true dollar c5 j cs4 ans4); cbn [bind fst snd]; auto; rewrite erase_tlift; reflexivity. }
  rewrite E. match goal with |- bind ?o _ = _ => destruct o as [la| | | |] end; cbn [bind fst snd]; auto.
  rewrite erase_tbind, erase_tlift. destruct (greatest T (fst la)) as [n| | | |]; cbn [bind fst snd]; auto.
  rewrite erase_tbind, erase_front. destruct (csetFront W c5 (i' + n - 1)) as [c6| | | |]; cbn [bind fst snd]; auto.
Qed.

(* How a traced run ends, with the zones that were reported. *)
Definition reported (m : traced unit) : outcome (list mat) :=
  match snd m with
  | Ok _ => Ok (emitted (fst m))
  | UB => UB
  | Throw => Throw
  | Exit n => Exit n
  | OutOfFuel => OutOfFuel
  end.

Lemma erase_reported : forall m, reported m = do p <- erase [] m ; Ok (snd p).
Proof. intros [tr []]; reflexivity. Qed.

(* The zones reported along the way are the result of the model of Monaa.v, and
   the two end in the same way. *)
Theorem C81_same : forall fuel al W A c, monaaDollar fuel al W A c = reported (t_monaaDollar fuel al W A c).
Proof.
  intros. rewrite erase_reported. unfold monaaDollar, t_monaaDollar. rewrite erase_tbind, erase_tlift. destruct (make_ap A) as [Ap| | | |]; cbn [bind fst snd]; auto.
  rewrite erase_tbind, erase_tlift. destruct (tables fuel al Ap) as [T| | | |]; cbn [bind fst snd]; auto.
  destruct (no_eps A); [apply erase_outer|rewrite erase_tlift; reflexivity].
Qed.

Theorem C81_same_signal : forall fuel al W A c, monaa_plain fuel al W A c = reported (t_monaa_plain fuel al W A c).
Proof.
  intros. rewrite erase_reported. unfold monaa_plain, t_monaa_plain. rewrite erase_tbind, erase_tlift. destruct (tables fuel al A) as [T| | | |]; cbn [bind fst snd]; auto.
  apply erase_outer.
Qed.

Theorem C81_same_optional : forall fuel al W A c, monaaNotNecessaryDollar fuel al W A c = reported (t_monaaNotNecessaryDollar fuel al W A c).
Proof.
  intros. rewrite erase_reported. unfold monaaNotNecessaryDollar, t_monaaNotNecessaryDollar. rewrite erase_tbind, erase_tlift. destruct (tables fuel al (make_ap_lax A)) as [T| | | |]; cbn [bind fst snd]; auto.
  destruct (no_eps A); [apply erase_outer|rewrite erase_tlift; reflexivity].
Qed.

(* ---------- two logs with a common beginning ---------- *)

Lemma before_app : forall n a b, before n a = a -> before n (a ++ b) = a ++ before n b.
Proof.
  intros n. induction a as [|[k|z] a IH]; intros b H; cbn [before app] in *; auto.
  - destruct (k <=? n); [|discriminate]. injection H as H. now rewrite IH.
  - injection H as H. now rewrite IH.
Qed.

Section Agree.
  Variable n : nat.

  Definition agree {X Y} (R : X -> Y -> Prop) (m1 : traced X) (m2 : traced Y) : Prop :=
    (fst m1 = fst m2 /\ before n (fst m1) = fst m1 /\ orel R (snd m1) (snd m2)) \/
    (exists a k b1 b2, n < k /\ before n a = a /\ fst m1 = a ++ Reads k :: b1 /\ fst m2 = a ++ Reads k :: b2).

  Lemma tbind_more : forall {X Y} (m : traced X) (f : X -> traced Y), exists b, fst (tbind m f) = fst m ++ b.
  Proof. intros X Y [tr o] f. unfold tbind; cbn [fst snd]. destruct o; cbn [fst]; eauto; exists []; now rewrite app_nil_r. Qed.

  Lemma agree_bind : forall {X Y X' Y'} (R : X -> Y -> Prop) (S : X' -> Y' -> Prop) m1 m2 f g,
    agree R m1 m2 -> (forall x y, R x y -> agree S (f x) (g y)) -> agree S (tbind m1 f) (tbind m2 g).
  Proof.
    intros X Y X' Y' R S m1 m2 f g [(E & B & O)|(a & k & b1 & b2 & K & B & E1 & E2)] H.
    - destruct m1 as [tr o1], m2 as [tr2 o2]. cbn [fst snd] in *. subst tr2. unfold tbind; cbn [fst snd].
      destruct o1 as [x| | | |], o2 as [y| | | |]; cbn [orel] in O; try contradiction; try (left; cbn; auto; fail).
      destruct (H x y O) as [(E & B' & O')|(a & k & b1 & b2 & K & B' & E1 & E2)].
      + left. cbn [fst snd]. rewrite E. repeat split; auto. rewrite before_app by auto. now rewrite <- E, B'.
      + right. exists (tr ++ a), k, b1, b2. cbn [fst snd]. rewrite E1, E2, <- !app_assoc. repeat split; auto. rewrite before_app, B'; auto.
    - right. destruct (tbind_more m1 f) as [c1 F1], (tbind_more m2 g) as [c2 F2]. exists a, k, (b1 ++ c1), (b2 ++ c2).
      rewrite F1, F2, E1, E2, <- !app_assoc. auto.
  Qed.

  Lemma agree_lift : forall {X Y} (R : X -> Y -> Prop) o1 o2, orel R o1 o2 -> agree R (tlift o1) (tlift o2).
  Proof. intros. left. cbn. auto. Qed.

  Lemma agree_before : forall {X Y} (R : X -> Y -> Prop) (m1 : traced X) (m2 : traced Y), agree R m1 m2 -> before n (fst m1) = before n (fst m2).
  Proof.
    intros X Y R m1 m2 [(E & _)|(a & k & b1 & b2 & K & B & E1 & E2)]; [congruence|].
    rewrite E1, E2, !before_app by auto. cbn [before]. destruct (Nat.leb_spec k n); [lia|reflexivity].
  Qed.

  (* Two deques over words with the same first n events, before more than n
     events were read. *)
  Variables x y : tword.
  Definition same_so_far (c d : lazy) : Prop :=
    lfront c = lfront d /\ lbuf c = lbuf d /\ lN c = None /\ lN d = None /\
    exists s, lrest c = s ++ x /\ lrest d = s ++ y /\ lfront c + length (lbuf c) + length s = n.

  Lemma same_cat : forall c d k, same_so_far c d -> lazy_at c k = lazy_at d k.
  Proof. intros c d k (F & B & N1 & N2 & _). unfold lazy_at, beyondN. now rewrite F, B, N1, N2. Qed.

  Lemma agree_fetch : forall c d k, same_so_far c d ->
    agree (fun p q => fst p = fst q /\ same_so_far (snd p) (snd q)) (tfetch lazyC c k) (tfetch lazyC d k).
  Proof.
    intros c d k SF. unfold tfetch. destruct (le_lt_dec n k) as [L|L].
    - right. exists [], (S k), [], []. repeat split; auto. lia.
    - left. cbn [fst snd]. split; [reflexivity|]. split; [cbn [before]; destruct (Nat.leb_spec (S k) n); [reflexivity|lia]|].
      cbn [orel]. destruct SF as (F & B & N1 & N2 & s & R1 & R2 & L'). cbn [cfetch lazyC]. unfold lazy_fetch, beyondN. rewrite N1, N2, <- F, orb_false_r.
      destruct (Nat.ltb_spec k (lfront c)) as [H|H]; [cbn [fst snd]; split; auto; repeat split; auto; exists s; auto|].
      rewrite <- B. rewrite !lazy_read_in by (rewrite ?R1, ?R2, app_length; lia). cbn [fst snd]. split; [reflexivity|].
      unfold same_so_far. cbn [lfront lbuf lN lrest]. rewrite <- F, <- B, N1, N2, R1, R2.
      set (q := S (k - lfront c) - length (lbuf c)). assert (Q : q <= length s) by (unfold q; lia).
      rewrite !firstn_app, !skipn_app. replace (q - length s) with 0 by lia. rewrite !firstn_O, !app_nil_r. cbn [skipn].
      repeat split; auto. exists (skipn q s). repeat split; auto. rewrite app_length, firstn_length, skipn_length. lia.
  Qed.

  Lemma agree_front : forall c d k, same_so_far c d -> agree same_so_far (tfront lazyC c k) (tfront lazyC d k).
  Proof.
    intros c d k SF. unfold tfront. destruct (le_lt_dec k n) as [L|L].
    2:{ right. exists [], k, [], []. repeat split; auto. }
    left. cbn [fst snd]. split; [reflexivity|]. split; [cbn [before]; destruct (Nat.leb_spec k n); [reflexivity|lia]|].
    destruct SF as (F & B & N1 & N2 & s & R1 & R2 & L'). cbn [csetFront lazyC]. unfold lazy_setFront. rewrite <- F.
    destruct (Nat.ltb_spec k (lfront c)) as [H|H]; cbn [orel]; auto.
    unfold same_so_far. cbn [lfront lbuf lN lrest]. rewrite <- B, N1, N2, R1, R2. set (e := Nat.min (k - lfront c) (length (lbuf c))).
    set (r := k - lfront c - e). assert (Q : r <= length s) by (unfold r, e; lia).
    rewrite !skipn_app. replace (r - length s) with 0 by lia. cbn [skipn]. repeat split; auto.
    exists (skipn r s). repeat split; auto. rewrite !skipn_length. unfold r, e. lia.
  Qed.

  Variable A : ta.
  Variable T : skips.
  Variable M : mode.

  Lemma same_low : forall c d j, same_so_far c d -> low_end lazyC c j = low_end lazyC d j.
  Proof. intros c d j SF. unfold low_end. destruct (0 <? j); auto. cbn [cat lazyC]. now rewrite (same_cat c d _ SF). Qed.

  Lemma fold_out_ext : forall {S X} (f g : X -> S -> outcome S) l s, (forall x s, f x s = g x s) -> fold_out f l s = fold_out g l s.
  Proof. intros S0 X f g. induction l as [|a l IH]; intros s H; cbn [fold_out]; auto. rewrite H. destruct (g a s); cbn [bind]; auto. Qed.

  Lemma same_acc : forall fin l c d j cs, same_so_far c d -> t_acc lazyC A fin l c j cs = t_acc lazyC A fin l d j cs.
  Proof.
    intros fin l c d j cs SF. unfold t_acc.
    assert (E : acc_confs lazyC A fin l c j cs [] = acc_confs lazyC A fin l d j cs []); [|now rewrite E].
    unfold acc_confs. apply fold_out_ext. intros cfg zs. apply fold_out_ext. intros e zs'. rewrite (same_low c d j SF). cbn [cat lazyC]. now rewrite (same_cat c d j SF).
  Qed.

  Lemma agree_same : forall {X} (m : traced X), (forall k, ~ In (Reads k) (fst m)) -> agree eq m m.
  Proof.
    intros X [tr o] H. left. cbn [fst snd] in *. split; auto. split.
    - induction tr as [|[k|z] tr IH]; cbn [before]; auto; [exfalso; apply (H k); left; auto|]. f_equal. apply IH. intros k I. apply (H k). right. auto.
    - destruct o; cbn; auto.
  Qed.

  Lemma no_reads_emits : forall zs k, ~ In (Reads k) (map Emits zs).
  Proof. intros zs k H. apply in_map_iff in H as (z & E & _). discriminate. Qed.

  Lemma agree_acc : forall fin l c d j cs, same_so_far c d -> agree eq (t_acc lazyC A fin l c j cs) (t_acc lazyC A fin l d j cs).
  Proof.
    intros. rewrite (same_acc fin l c d j cs H). apply agree_same. intros k. unfold t_acc.
    destruct (acc_confs lazyC A fin l d j cs []); cbn [fst]; try (intros []). apply no_reads_emits.
  Qed.

  Definition samec {X} (p q : lazy * X) : Prop := same_so_far (fst p) (fst q) /\ snd p = snd q.

  Lemma agree_cat : forall c d k, same_so_far c d -> agree eq (tlift (cat lazyC c k)) (tlift (cat lazyC d k)).
  Proof.
    intros c d k SF. apply agree_lift. cbn [cat lazyC]. rewrite (same_cat c d k SF). destruct (lazy_at d k); cbn; auto.
  Qed.

  Ltac fetch_step SF :=
    eapply agree_bind; [apply agree_fetch; exact SF|];
    let b := fresh "b" in let b' := fresh "b'" in let E := fresh "E" in intros [b ?c'] [b' ?d'] [E ?SF']; cbn [fst snd] in *; subst b'; destruct b.

  Lemma agree_match : forall fuel c d j cs ls, same_so_far c d ->
    agree (fun p q => let '(c, j, cs, ls) := p in let '(d, j', cs', ls') := q in same_so_far c d /\ j = j' /\ cs = cs' /\ ls = ls')
          (t_match lazyC A M fuel c j cs ls) (t_match lazyC A M fuel d j cs ls).
  Proof.
    induction fuel as [|f IH]; intros c d j cs ls SF; destruct cs as [|cf cs]; cbn [t_match]; try (apply agree_lift; cbn; auto; fail).
    - fetch_step SF; apply agree_lift; cbn; auto.
    - fetch_step SF; [|apply agree_lift; cbn; auto].
      eapply agree_bind; [apply agree_cat; eauto|]. intros e ? <-.
      eapply agree_bind; [apply agree_acc; eauto|]. intros u ? <-.
      eapply agree_bind; [apply agree_same; apply no_reads_emits|]. intros u' ? <-. apply IH; auto.
  Qed.

  Lemma agree_sunday_loop : forall fuel c d i, same_so_far c d -> agree samec (t_sunday_loop lazyC T fuel c i) (t_sunday_loop lazyC T fuel d i).
  Proof.
    induction fuel as [|f IH]; intros c d i SF; cbn [t_sunday_loop]; (eapply agree_bind; [apply agree_cat; eauto|]); intros e ? <-;
      (destruct (mem (fst e) (sk_end T)); [apply agree_lift; split; auto|]);
      (fetch_step SF; [|apply agree_lift; split; auto]);
      (eapply agree_bind; [apply agree_cat; eauto|]); intros e' ? <-;
      (destruct (sk_delta T (fst e')) as [dl|]; [|apply agree_lift; exact I]); [apply agree_lift; exact I|].
    eapply agree_bind; [apply agree_front; eauto|]. intros c2 d2 SF2.
    fetch_step SF2; [apply IH; auto|apply agree_lift; split; auto].
  Qed.

  Lemma agree_sunday : forall fuel c d i, same_so_far c d -> agree samec (t_sunday_shift lazyC T fuel c i) (t_sunday_shift lazyC T fuel d i).
  Proof.
    intros fuel c d i SF. unfold t_sunday_shift. destruct (1 <? sk_m T); [|apply agree_lift; split; auto].
    fetch_step SF; [apply agree_sunday_loop; auto|apply agree_lift; split; auto].
  Qed.

  Lemma agree_outer : forall fuel c d i ls, same_so_far c d -> agree eq (t_outer lazyC A T M fuel c i ls) (t_outer lazyC A T M fuel d i ls).
  Proof.
    induction fuel as [|f IH]; intros c d i ls SF; cbn [t_outer]; (fetch_step SF; [|apply agree_lift; reflexivity]); [apply agree_lift; exact I|].
    eapply agree_bind; [apply agree_sunday; eauto|]. intros [c2 oi] [d2 oi'] [SF2 E]. cbn [fst snd] in *. subst oi'.
    destruct oi as [i'|]; [|apply agree_lift; reflexivity].
    fetch_step SF2; [|apply agree_lift; reflexivity].
    eapply agree_bind with (R := eq).
    { apply agree_lift. unfold start_confs. cbn [cat lazyC]. rewrite !(same_cat _ _ _ SF'0). match goal with |- orel _ ?o _ => destruct o end; cbn; auto. }
    intros cs ? <-. eapply agree_bind; [apply agree_match; eauto|]. intros [[[c4 j] cs4] ls4] [[[d4 j'] cs4'] ls4'] (SF4 & <- & <- & <-).
    eapply agree_bind; [apply agree_fetch; exact SF4|]. intros [b c5] [b' d5] [E SF5]. cbn [fst snd] in *. subst b'.
    eapply agree_bind with (R := eq).
    { destruct b; [apply agree_lift; reflexivity|]. destruct M; try (apply agree_lift; reflexivity);
      (eapply agree_bind; [apply agree_acc; eauto|]; intros u ? <-; apply agree_lift; reflexivity). }
    intros ls5 ? <-. eapply agree_bind with (R := eq); [apply agree_same; intros k []|]. intros g ? <-.
    eapply agree_bind; [apply agree_front; eauto|]. intros c6 d6 SF6. apply IH; auto.
  Qed.
End Agree.

Lemma same_open : forall p x y, same_so_far (length p) x y (lopen (p ++ x)) (lopen (p ++ y)).
Proof. intros. repeat split. exists p. repeat split. Qed.

(* Whatever follows the events p, the reads and reports are the same until an
   event behind p is asked for. *)
Theorem C81_causal : forall fuel al A p x y,
  before (length p) (fst (t_monaaDollar fuel al lazyC A (lopen (p ++ x)))) =
  before (length p) (fst (t_monaaDollar fuel al lazyC A (lopen (p ++ y)))).
Proof.
  intros. apply (agree_before (length p) (@eq unit)). unfold t_monaaDollar.
  eapply agree_bind with (R := eq); [apply agree_same; intros k []|]. intros Ap ? <-.
  eapply agree_bind with (R := eq); [apply agree_same; intros k []|]. intros T ? <-.
  destruct (no_eps A); [|apply agree_lift; reflexivity]. apply (agree_outer _ x y). apply same_open.
Qed.

Theorem C81_causal_signal : forall fuel al A p x y,
  before (length p) (fst (t_monaa_plain fuel al lazyC A (lopen (p ++ x)))) =
  before (length p) (fst (t_monaa_plain fuel al lazyC A (lopen (p ++ y)))).
Proof.
  intros. apply (agree_before (length p) (@eq unit)). unfold t_monaa_plain.
  eapply agree_bind with (R := eq); [apply agree_same; intros k []|]. intros T ? <-. apply (agree_outer _ x y). apply same_open.
Qed.

Theorem C81_causal_optional : forall fuel al A p x y,
  before (length p) (fst (t_monaaNotNecessaryDollar fuel al lazyC A (lopen (p ++ x)))) =
  before (length p) (fst (t_monaaNotNecessaryDollar fuel al lazyC A (lopen (p ++ y)))).
Proof.
  intros. apply (agree_before (length p) (@eq unit)). unfold t_monaaNotNecessaryDollar.
  eapply agree_bind with (R := eq); [apply agree_same; intros k []|]. intros T ? <-.
  destruct (no_eps A); [|apply agree_lift; reflexivity]. apply (agree_outer _ x y). apply same_open.
Qed.

(* What the runs on p ++ x and p ++ y report begins with what was reported when
   the events p had been read. *)
Lemma before_prefix : forall n tr, exists r, tr = before n tr ++ r.
Proof.
  intros n. induction tr as [|[k|z] tr [r E]]; [exists []; reflexivity| |].
  - cbn [before]. destruct (k <=? n); [exists r; cbn; congruence|eexists; reflexivity].
  - exists r. cbn. congruence.
Qed.

Theorem C81_kept : forall fuel al A p x y zs,
  monaaDollar fuel al lazyC A (lopen (p ++ y)) = Ok zs ->
  exists later, zs = emitted (before (length p) (fst (t_monaaDollar fuel al lazyC A (lopen (p ++ x))))) ++ later.
Proof.
  intros fuel al A p x y zs H. rewrite C81_same in H. rewrite (C81_causal fuel al A p x y). unfold reported in H.
  destruct (t_monaaDollar fuel al lazyC A (lopen (p ++ y))) as [tr []]; try discriminate. cbn [fst snd] in *. injection H as <-.
  destruct (before_prefix (length p) tr) as [r E]. exists (emitted r). rewrite E at 1. apply emitted_app.
Qed.

(* What was reported is a match whatever comes next. *)
Theorem C81_final : forall fuel al A Ap T p x z t t', wf_ta A -> make_ap A = Ok Ap -> tables fuel al Ap = Ok T ->
  In z (emitted (before (length p) (fst (t_monaaDollar fuel al lazyC A (lopen (p ++ x)))))) -> zin 3 z (pairv t t') ->
  forall y, nondecreasing 0 (p ++ y) -> (forall c t, In (c, t) (p ++ y) -> c < char_max) -> length (p ++ y) <= fuel -> matches A (p ++ y) t t'.
Proof.
  intros fuel al A Ap T p x z t t' WA HA HT Hz Z y ND HC HF.
  destruct (C32_terminates fuel al A (p ++ y) Ap T WA ND HC HA HT HF) as [zs E]. rewrite <- C36_online_offline in E.
  destruct (C81_kept fuel al A p x y zs E) as [r ->]. eapply C29_sound_online; eauto. apply in_or_app. left. exact Hz.
Qed.

(* ---------- how late a match can be reported ---------- *)

(* ((A B* C)%(<5) | B)$ as an automaton: no match lasts 5 or longer. *)
Definition late : ta := mkTA [(0, mkS false false [(97, [mkE (Some 1) [] []]); (98, [mkE (Some 4) [] []])]);
  (1, mkS false false [(98, [mkE (Some 1) [] []]); (99, [mkE (Some 2) [] [mkC 0 Lt 5]])]);
  (2, mkS false false [(dollar, [mkE (Some 3) [] [mkC 0 Lt 5]])]); (3, mkS true false []);
  (4, mkS false false [(dollar, [mkE (Some 3) [] [mkC 0 Lt 5]])])] [0] [5%Z].

(* A at 1, then n times B, one every second. *)
Definition busy (n : nat) : tword := (97, 1%Q) :: map (fun k => (98, inject_Z (Z.of_nat k))) (seq 2 n).

Definition late_ap : ta := Eval vm_compute in match make_ap late with Ok a => a | _ => late end.
Lemma late_ap_ok : make_ap late = Ok late_ap.
Proof. vm_compute. reflexivity. Qed.
Lemma late_sets : forall f, sunday_sets (20 + f) late_ap = Ok [[97; 98]].
Proof. intros f. vm_compute. reflexivity. Qed.

(* Nothing is reported before more than n events are asked for, and nothing
   happens after the run without asking for them. *)
Definition blocked (n : nat) {X} (m : traced X) : Prop :=
  emitted (before n (fst m)) = [] /\ ((forall x, snd m <> Ok x) \/ exists a k b, fst m = a ++ Reads k :: b /\ n < k).

Lemma before_cut : forall n k a b, n < k -> before n (a ++ Reads k :: b) = before n a.
Proof.
  intros n k a b L. induction a as [|[j|z] a IH]; cbn [app before].
  - destruct (Nat.leb_spec k n); [lia|reflexivity].
  - destruct (j <=? n); congruence.
  - congruence.
Qed.

Lemma blocked_now : forall n {X Y} (m : traced X) (f : X -> traced Y), blocked n m -> blocked n (tbind m f).
Proof.
  intros n X Y [tr o] f [E D]. unfold blocked, tbind in *; cbn [fst snd] in *. destruct o as [x| | | |]; cbn [fst snd].
  - destruct D as [D|(a & k & b & -> & L)]; [exfalso; apply (D x); reflexivity|]. rewrite <- app_assoc. cbn [app].
    rewrite before_cut in * by auto. split; auto. right. eauto.
  - split; auto. left. discriminate.
  - split; auto. left. discriminate.
  - split; auto. left. discriminate.
  - split; auto. left. discriminate.
Qed.

Lemma blocked_after : forall n {X Y} (m : traced X) (f : X -> traced Y) x, snd m = Ok x -> emitted (fst m) = [] -> blocked n (f x) -> blocked n (tbind m f).
Proof.
  intros n X Y [tr o] f x E Em [B D]. cbn [fst snd] in *. subst o. unfold blocked, tbind; cbn [fst snd]. split.
  - clear D. induction tr as [|[k|z] tr IH]; cbn [app before emitted flat_map] in *; auto; [|discriminate].
    destruct (k <=? n); [cbn; apply IH; auto|reflexivity].
  - destruct D as [D|(a & k & b & -> & L)]; [left; auto|right]. exists (tr ++ a), k, b. rewrite <- app_assoc. auto.
Qed.

Section Busy.
  Variable n : nat.
  Variable x : tword.
  Let w := busy n ++ x.

  Lemma busy_length : length (busy n) = S n.
  Proof. unfold busy. cbn. now rewrite map_length, seq_length. Qed.

  Lemma busy_at : forall j, 1 <= j -> j <= n -> nth_error w j = Some (98, inject_Z (Z.of_nat (S j))).
  Proof.
    intros j L1 L2. unfold w. rewrite nth_error_app1 by (rewrite busy_length; lia). destruct j as [|j]; [lia|]. cbn [busy nth_error].
    rewrite nth_error_map, (nth_error_nth' _ 0) by (rewrite seq_length; lia). cbn [option_map]. rewrite seq_nth by lia. reflexivity.
  Qed.

  Definition waiting : iconf := mkI 1 [0%Q] (bnd 1 false) bzero.

  Lemma busy_loop : forall fuel c a j ls, lazyR c 0 a w -> 1 <= j -> j <= S n -> blocked (S n) (t_match lazyC late MDollar fuel c j [waiting] ls).
  Proof.
    induction fuel as [|f IH]; intros c a j ls R L1 L2; cbn [t_match].
    - destruct (le_lt_dec j n) as [J|J].
      + assert (Lw : j < length w) by (unfold w; rewrite app_length, busy_length; lia).
        destruct (cs_fetch_in _ _ lazy_sim c 0 a w j R ltac:(lia) Lw) as (c' & E & R').
        eapply blocked_after; [unfold tfetch; cbn [snd]; rewrite E; reflexivity|reflexivity|]. cbn [fst snd].
        split; [reflexivity|left; discriminate].
      + apply blocked_now. split; [cbn [tfetch fst before]; destruct (Nat.leb_spec (S j) (S n)); [lia|reflexivity]|].
        right. exists [], (S j), []. split; [reflexivity|lia].
    - destruct (le_lt_dec j n) as [J|J].
      + assert (Lw : j < length w) by (unfold w; rewrite app_length, busy_length; lia).
        destruct (cs_fetch_in _ _ lazy_sim c 0 a w j R ltac:(lia) Lw) as (c' & E & R').
        eapply blocked_after; [unfold tfetch; cbn [snd]; rewrite E; reflexivity|reflexivity|]. cbn [fst snd].
        destruct (cs_at _ _ lazy_sim c' 0 _ w j R' ltac:(lia) ltac:(lia)) as (e & E1 & E2). rewrite busy_at in E1 by lia. injection E1 as <-.
        eapply blocked_after; [unfold tlift; cbn [snd]; rewrite E2; reflexivity|reflexivity|]. cbn [fst snd].
        eapply blocked_after; [reflexivity|reflexivity|]. eapply blocked_after; [reflexivity|reflexivity|].
        apply (IH c' _ (S j) _ R'); lia.
      + apply blocked_now. split; [cbn [tfetch fst before]; destruct (Nat.leb_spec (S j) (S n)); [lia|reflexivity]|].
        right. exists [], (S j), []. split; [reflexivity|lia].
  Qed.

  Lemma busy_start : forall fuel c a ls, lazyR c 0 a w -> blocked (S n) (t_match lazyC late MDollar (S fuel) c 0 [mkI 0 [0%Q] (bnd 1 false) bzero] ls).
  Proof.
    intros fuel c a ls R. assert (Lw : 0 < length w) by (unfold w; rewrite app_length, busy_length; lia).
    destruct (cs_fetch_in _ _ lazy_sim c 0 _ w 0 R ltac:(lia) Lw) as (c3 & E3 & R3).
    cbn [t_match].
    eapply blocked_after; [unfold tfetch; cbn [snd]; rewrite E3; reflexivity|reflexivity|]. cbn [fst snd].
    destruct (cs_at _ _ lazy_sim c3 0 _ w 0 R3 ltac:(lia) ltac:(lia)) as (e & A3 & A4). injection A3 as <-.
    eapply blocked_after; [unfold tlift; cbn [snd]; rewrite A4; reflexivity|reflexivity|]. cbn [fst snd].
    eapply blocked_after; [reflexivity|reflexivity|]. eapply blocked_after; [reflexivity|reflexivity|].
    apply (busy_loop _ c3 _ 1 _ R3); lia.
  Qed.

  Lemma late_blocked : forall f al, blocked (S n) (t_monaaDollar (20 + f) al lazyC late (lopen w)).
  Proof.
    intros f al. unfold t_monaaDollar. rewrite late_ap_ok. eapply blocked_after; [reflexivity|reflexivity|].
    unfold tables. rewrite late_sets. cbn [bind]. destruct (kmp (20 + f) al late_ap (length [[97; 98]])) as [beta| | | |] eqn:K; cbn [bind];
      try (apply blocked_now; split; [reflexivity|left; discriminate]).
    eapply blocked_after; [reflexivity|reflexivity|]. change (no_eps late) with true. cbv iota.
    set (T := mkSk _ _ _ _). clear K. cbn [Nat.add].
    assert (Lw : 0 < length w) by (unfold w; rewrite app_length, busy_length; lia).
    cbn [t_outer]. change (0 + sk_m T - 1) with 0.
    destruct (cs_fetch_in _ _ lazy_sim (lopen w) 0 0 w 0 (lazy_open w) ltac:(lia) Lw) as (c1 & E1 & R1).
    eapply blocked_after; [unfold tfetch; cbn [snd]; rewrite E1; reflexivity|reflexivity|]. cbn [fst snd].
    eapply blocked_after; [reflexivity|reflexivity|]. cbn [fst snd].
    destruct (cs_fetch_in _ _ lazy_sim c1 0 _ w 0 R1 ltac:(lia) Lw) as (c2 & E2 & R2).
    eapply blocked_after; [unfold tfetch; cbn [snd]; rewrite E2; reflexivity|reflexivity|]. cbn [fst snd].
    destruct (cs_at _ _ lazy_sim c2 0 _ w 0 R2 ltac:(lia) ltac:(lia)) as (e & A1 & A2). injection A1 as <-.
    eapply blocked_after; [unfold tlift, start_confs; cbn [snd]; rewrite A2; reflexivity|reflexivity|].
    apply blocked_now. apply (busy_start _ c2 _ _ R2).
  Qed.
End Busy.

Lemma late_edge : forall p c e, is_edge late p c e -> eresets e = [] /\ (c = dollar -> eguard e = [mkC 0 Lt 5]).
Proof.
  intros p c e (s & es & Hs & Hn & He). cbn in Hs. repeat destruct Hs as [Hs|Hs]; try contradiction; injection Hs as <- <-; cbn in Hn;
    repeat destruct Hn as [Hn|Hn]; try contradiction; injection Hn as <- <-; cbn in He; destruct He as [<-|[]]; cbn; split; auto; discriminate.
Qed.

Lemma late_clock : forall p v T w q v' T', run late p v T w q v' T' -> (v' 0%nat - T' == v 0%nat - T)%Q.
Proof.
  intros p v T w q v' T' R. induction R; [reflexivity|]. rewrite IHR. destruct (late_edge _ _ _ H) as [-> _]. unfold reset_set, delay. cbn. ring.
Qed.

Lemma between_late : forall w t t' u, nondecreasing u w -> (t' <= u)%Q -> between w t t' = [].
Proof.
  induction w as [|[c s] w IH]; intros t t' u ND L; cbn; auto. destruct ND as [N1 N2].
  assert (E : Qle_bool t' s = true) by (apply Qle_bool_iff; lra). rewrite E, andb_false_r. apply (IH t t' s); auto. lra.
Qed.

Lemma busy_nondecreasing : forall n, nondecreasing 0 (busy n).
Proof.
  intros n. cbn. split; [lra|]. assert (X : forall m a u, (u <= inject_Z (Z.of_nat a))%Q -> nondecreasing u (map (fun k => (98, inject_Z (Z.of_nat k))) (seq a m))).
  { induction m; intros a u L; cbn; auto. split; auto. apply IHm. rewrite <- Zle_Qle. lia. }
  apply X. unfold Qle; cbn; lia.
Qed.

(* No match of the pattern lasts 5, yet one that ends at the third event is not
   reported however many events follow. *)
Theorem C81_prompt_refuted : exists A, wf_ta A /\ (forall w t t', matches A w t t' -> (t' - t < 5)%Q) /\
  forall n, 2 <= n -> nondecreasing 0 (busy n) /\ length (busy n) = S n /\
    forall x, nondecreasing 0 (busy n ++ x) -> matches A (busy n ++ x) (3#2)%Q (5#2)%Q /\
      forall f al, emitted (before (S n) (fst (t_monaaDollar (20 + f) al lazyC A (lopen (busy n ++ x))))) = [].
Proof.
  exists late. split; [apply wf_tab_ok; vm_compute; reflexivity|]. split.
  - intros w t t' (_ & _ & p & q & v & T & e & acc & _ & R & He & _ & _ & G). destruct (late_edge _ _ _ He) as [_ Eg].
    rewrite (Eg eq_refl) in G. specialize (G (mkC 0 Lt 5) ltac:(left; reflexivity)). unfold holds, delay in G. cbn in G. 
    pose proof (late_clock _ _ _ _ _ _ _ R) as C. unfold zeroval in C. change (inject_Z 5) with 5%Q in G. lra.
  - intros n Hn. split; [apply busy_nondecreasing|]. split; [apply busy_length|]. intros x ND. split; [|intros f al; apply late_blocked].
    destruct n as [|[|n]]; try lia. split; [lra|]. split; [lra|].
    assert (B : between (busy (S (S n)) ++ x) (3#2) (5#2) = [(98, 2%Q)]).
    { change (busy (S (S n)) ++ x) with ((97, 1%Q) :: (98, 2%Q) :: (98, 3%Q) :: map (fun k => (98, inject_Z (Z.of_nat k))) (seq 4 n) ++ x) in *.
      destruct ND as (_ & _ & _ & ND). cbn [between filter snd]. change (filter _ ?l) with (between l (3#2) (5#2)).
      cbn -[between]. f_equal. apply (between_late _ _ _ 3%Q ND). lra. }
    rewrite B. exists 0, 4, (delay zeroval (2 - (3#2))), 2%Q, (mkE (Some 3) [] [mkC 0 Lt 5]), 3.
    assert (E1 : is_edge late 0 98 (mkE (Some 4) [] [])) by (do 2 eexists; split; [left; reflexivity|split; [right; left; reflexivity|left; reflexivity]]).
    assert (E2 : is_edge late 4 dollar (mkE (Some 3) [] [mkC 0 Lt 5])) by (exists (mkS false false [(dollar, [mkE (Some 3) [] [mkC 0 Lt 5]])]), [mkE (Some 3) [] [mkC 0 Lt 5]]; split; [cbn; tauto|split; [cbn; tauto|left; reflexivity]]).
    split; [left; reflexivity|]. split.
    { econstructor; [exact E1|reflexivity|intros g []|]. constructor. }
    split; [exact E2|]. split; [reflexivity|]. split; [exists (mkS true false []); split; [cbn; tauto|reflexivity]|].
    intros g [<-|[]]. unfold holds, delay, zeroval. cbn. change (inject_Z 5) with 5%Q. lra.
Qed.

Lemma late_kmp : kmp 40 uAl late_ap 1 = Ok [(0, 1); (1, 1); (2, 1); (3, 1); (4, 1)].
Proof. vm_compute. reflexivity. Qed.

Lemma late_tables : tables 40 uAl late_ap = Ok (mkSk 1 (sunday_delta [[97; 98]]) [97; 98] (fun p => assoc p [(0, 1); (1, 1); (2, 1); (3, 1); (4, 1)])).
Proof. unfold tables. rewrite (late_sets 20 : sunday_sets 40 late_ap = _). cbn [bind length]. rewrite late_kmp. reflexivity. Qed.

Lemma late_run : forall c, t_monaaDollar 40 uAl lazyC late c =
  t_outer lazyC late (mkSk 1 (sunday_delta [[97; 98]]) [97; 98] (fun p => assoc p [(0, 1); (1, 1); (2, 1); (3, 1); (4, 1)])) MDollar 40 c 0 [].
Proof.
  intros c. unfold t_monaaDollar. rewrite late_ap_ok. unfold tbind at 1. unfold tlift at 1. cbn [fst snd app]. rewrite late_tables.
  unfold tbind, tlift; cbn [fst snd app]. change (no_eps late) with true. cbv iota. symmetry. apply surjective_pairing.
Qed.

(* The same log, closed: the matches come after the end was read. *)
Example C81_case_late : let m := t_monaaDollar 40 uAl lazyC late (lopen (busy 3)) in
  snd m = Ok tt /\ emitted (before 4 (fst m)) = [] /\ length (emitted (fst m)) = 3.
Proof. cbv zeta. rewrite late_run. vm_compute. auto. Qed.

(* A log that begins with B: the match is reported when the second event is
   read, before a third one is asked for, whatever it may be. *)
Example C81_case : let p := [(98, 1%Q); (98, 2%Q)] in
  forall x, exists z, emitted (before 2 (fst (t_monaaDollar 40 uAl lazyC late (lopen (p ++ x))))) = [z] /\
    zin 3 z (pairv (1#2) (3#2)) /\ tables 40 uAl late_ap <> OutOfFuel.
Proof.
  cbv zeta. intros x. eexists. split; [|split].
  - refine (eq_trans (f_equal emitted (C81_causal 40 uAl late [(98, 1%Q); (98, 2%Q)] x [])) _). rewrite late_run. vm_compute. reflexivity.
  - intros [|[|[|i]]] [|[|[|j]]] Hi Hj; try lia; unfold below, mget, pairv; cbn; lra.
  - rewrite late_tables. discriminate.
Qed.
