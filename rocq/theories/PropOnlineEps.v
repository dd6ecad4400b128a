(* C81 for monaa() with unobservable transitions. *)
From Coq Require Import QArith Bool List ZArith Arith Lia.
From Verif Require Import Num Outcome Constraint Zone TA Spec Word WordFacts ZA Skip Monaa MonaaSim MonaaFacts EpsZone EpsSpec Online OnlineEps PropMonaa PropOnline Tables SkipFacts PropModesEx PropModesEx PropEps PropEpsSim PropEpsEx.
Import ListNotations.
Open Scope nat_scope.

Lemma erase_tfold : forall {X} (f : X -> traced unit) (g : X -> list mat -> outcome (list mat)) l ans,
  (forall x ans, erase ans (f x) = do a <- g x ans ; Ok (tt, a)) -> erase ans (tfold f l) = do a <- fold_out g l ans ; Ok (tt, a).
Proof.
  intros X f g l. induction l as [|x l IH]; intros ans H; cbn [tfold fold_out bind].
  - rewrite erase_tlift. reflexivity.
  - rewrite erase_tbind, H. destruct (g x ans) as [a| | | |]; cbn [bind fst snd]; auto.
Qed.

Lemma erase_eps_accept : forall W A l c j cs ans,
  erase ans (t_eps_accept W A l c j cs) = do a <- eps_accept W A l c j cs ans ; Ok (tt, a).
Proof.
  intros W A l c j cs ans. unfold t_eps_accept, eps_accept. apply erase_tfold. intros cfg a1. apply erase_tfold. intros e a2.
  destruct (match etgt e with Some q => match_at A q | None => false end); [|rewrite erase_tlift; reflexivity].
  rewrite erase_tbind, erase_tlift. destruct (end_zone W c j cfg e) as [z| | | |]; cbn [bind fst snd]; auto.
  destruct (iz_sat z); [unfold erase; cbn; reflexivity|rewrite erase_tlift; reflexivity].
Qed.

Lemma erase_eps_match : forall W A fuel c j cs ls ans,
  eps_match W A false fuel c j cs ls ans =
  do p <- erase ans (t_eps_match W A fuel c j cs ls) ; let '(c, j, cs, ls) := fst p in Ok (c, j, cs, ls, snd p).
Proof.
  intros W A. induction fuel as [|f IH]; intros c j cs ls ans; destruct cs as [|cf cs]; cbn [eps_match t_eps_match].
  - rewrite erase_tlift. reflexivity.
  - rewrite erase_tbind, erase_fetch. cbn [bind fst snd]. destruct (cfetch W c j) as [[] c']; cbn [fst snd]; rewrite erase_tlift; reflexivity.
  - rewrite erase_tlift. reflexivity.
  - rewrite erase_tbind, erase_fetch. cbn [bind fst snd]. destruct (cfetch W c j) as [[] c']; cbn [fst snd]; [|rewrite erase_tlift; reflexivity].
    rewrite erase_tbind, erase_tlift. destruct (eps_close W A false (S f) c' j (cf :: cs)) as [cs1| | | |]; cbn [bind fst snd]; auto.
    rewrite erase_tbind, erase_tlift. destruct (cat W c' j) as [e| | | |]; cbn [bind fst snd]; auto.
    rewrite erase_tbind, erase_eps_accept. destruct (eps_accept W A (fst e) c' j cs1 ans) as [zs| | | |]; cbn [bind fst snd]; auto.
    rewrite erase_tbind, erase_tlift. destruct (obs_step A (fst e) (snd e) cs1) as [cs2| | | |]; cbn [bind fst snd]; auto.
Qed.

Lemma erase_eps_outer : forall W A T nz fuel c i ls ans,
  eps_outer W A T false nz fuel c i ls ans = do p <- erase ans (t_eps_outer W A T nz fuel c i ls) ; Ok (snd p).
Proof.
  intros W A T nz. induction fuel as [|f IH]; intros c i ls ans; cbn [eps_outer t_eps_outer]; rewrite erase_tbind, erase_fetch; cbn [bind fst snd];
    destruct (cfetch W c (i + sk_m T - 1)) as [[] c1]; cbn [fst snd]; try (rewrite erase_tlift; reflexivity).
  rewrite erase_tbind, erase_sunday. destruct (sunday_shift W T (S f) c1 i) as [[c2 oi]| | | |]; cbn [bind fst snd]; auto.
  destruct oi as [i'|]; [|rewrite erase_tlift; reflexivity].
  rewrite erase_tbind, erase_fetch. cbn [bind fst snd]. destruct (cfetch W c2 i') as [[] c3]; cbn [fst snd]; [|rewrite erase_tlift; reflexivity].
  rewrite erase_tbind, erase_tlift. destruct (eps_start W A nz c3 i') as [cs| | | |]; cbn [bind fst snd]; auto.
  rewrite erase_tbind, erase_eps_match. destruct (erase ans (t_eps_match W A (S f) c3 i' cs ls)) as [[[[[c4 j] cs4] ls4] ans4]| | | |]; cbn [bind fst snd]; auto.
  rewrite erase_tbind, erase_fetch. cbn [bind fst snd]. destruct (cfetch W c4 j) as [b c5]. cbn [fst snd].
  rewrite erase_tbind, erase_tlift. destruct (eps_greatest T (if b then ls4 else cs4)) as [n| | | |]; cbn [bind fst snd]; auto.
  rewrite erase_tbind, erase_front. destruct (csetFront W c5 (i' + n - 1)) as [c6| | | |]; cbn [bind fst snd]; auto.
Qed.

(* The traced model reports what monaa() reports. *)
Theorem C81_same_eps : forall fuel al nz W A c, monaa fuel al nz W A c = reported (t_monaa fuel al nz W A c).
Proof.
  intros. rewrite erase_reported. unfold monaa, t_monaa. rewrite erase_tbind, erase_tlift. destruct (tables fuel al A) as [T| | | |]; cbn [bind fst snd]; auto.
  destruct (no_eps A); [apply erase_outer|apply erase_eps_outer].
Qed.

(* ---------- two logs with a common beginning ---------- *)

Section Agree.
  Variables (n : nat) (x y : tword) (A : ta) (T : skips) (nz : nat).
  Notation sf := (same_so_far n x y).

  Lemma same_end_zone : forall c d j cfg e, sf c d -> end_zone lazyC c j cfg e = end_zone lazyC d j cfg e.
  Proof. intros c d j cfg e SF. unfold end_zone. rewrite (same_low n x y c d j SF). cbn [cat lazyC]. rewrite (same_cat n x y c d j SF). reflexivity. Qed.
  Lemma same_close : forall fuel c d j cs, sf c d -> eps_close lazyC A false fuel c j cs = eps_close lazyC A false fuel d j cs.
  Proof.
    intros fuel c d j cs SF. unfold eps_close. generalize (filter (fun cfg => has_eps A (est cfg)) cs). revert cs.
    induction fuel as [|f IH]; intros cs [|a cur]; cbn [eps_rounds]; auto.
    assert (E : eps_step lazyC A false c j (a :: cur) = eps_step lazyC A false d j (a :: cur)).
    { unfold eps_step. apply PropOnline.fold_out_ext. intros cfg s. apply PropOnline.fold_out_ext. intros e s'. unfold eps_edge. rewrite (same_end_zone c d j cfg e SF). reflexivity. }
    rewrite E. destruct (eps_step lazyC A false d j (a :: cur)) as [nx| | | |]; cbn [bind]; auto.
  Qed.
  Lemma tfold_ext : forall {X} (f g : X -> traced unit) l, (forall a, f a = g a) -> tfold f l = tfold g l.
  Proof. intros X f g l H. induction l as [|a l IH]; cbn [tfold]; auto. rewrite H, IH. reflexivity. Qed.
  Lemma tfold_reads : forall {X} (f : X -> traced unit) l, (forall a k, ~ In (Reads k) (fst (f a))) -> forall k, ~ In (Reads k) (fst (tfold f l)).
  Proof.
    intros X f l H. induction l as [|a l IH]; intros k I; cbn [tfold] in I; [destruct I|]. unfold tbind in I.
    destruct (snd (f a)); cbn [fst] in I; try (apply (H a k I)). apply in_app_or in I as [I|I]; [apply (H a k I)|apply (IH k I)].
  Qed.
  Lemma same_accept : forall l c d j cs, sf c d -> t_eps_accept lazyC A l c j cs = t_eps_accept lazyC A l d j cs.
  Proof.
    intros l c d j cs SF. unfold t_eps_accept. apply tfold_ext. intros cfg. apply tfold_ext. intros e. rewrite (same_end_zone c d j cfg e SF). reflexivity.
  Qed.
  Lemma agree_accept : forall l c d j cs, sf c d -> agree n eq (t_eps_accept lazyC A l c j cs) (t_eps_accept lazyC A l d j cs).
  Proof.
    intros l c d j cs SF. rewrite (same_accept l c d j cs SF). apply agree_same. unfold t_eps_accept. apply tfold_reads. intros cfg. apply tfold_reads. intros e k I.
    destruct (match etgt e with Some q => match_at A q | None => false end); [|destruct I]. unfold tbind, tlift in I. cbn [fst snd] in I.
    destruct (end_zone lazyC d j cfg e) as [z| | | |]; cbn [fst snd app] in I; try (destruct I; fail). destruct (iz_sat z); cbn in I; [destruct I as [I|[]]; discriminate|destruct I].
  Qed.

  Ltac fetch_step SF :=
    eapply agree_bind; [apply (agree_fetch n x y); exact SF|];
    let b := fresh "b" in let b' := fresh "b'" in let E := fresh "E" in intros [b ?c'] [b' ?d'] [E ?SF']; cbn [fst snd] in *; subst b'; destruct b.

  Lemma agree_eps_match : forall fuel c d j cs ls, sf c d ->
    agree n (fun p q => let '(c, j, cs, ls) := p in let '(d, j', cs', ls') := q in sf c d /\ j = j' /\ cs = cs' /\ ls = ls')
          (t_eps_match lazyC A fuel c j cs ls) (t_eps_match lazyC A fuel d j cs ls).
  Proof.
    induction fuel as [|f IH]; intros c d j cs ls SF; destruct cs as [|cf cs]; cbn [t_eps_match]; try (apply agree_lift; cbn; auto; fail).
    - fetch_step SF; apply agree_lift; cbn; auto.
    - fetch_step SF; [|apply agree_lift; cbn; auto].
      eapply agree_bind with (R := eq); [rewrite (same_close (S f) c' d' j (cf :: cs) SF'); apply agree_same; intros k []|]. intros cs1 ? <-.
      eapply agree_bind; [apply (agree_cat n x y); eauto|]. intros e ? <-.
      eapply agree_bind; [apply agree_accept; eauto|]. intros u ? <-.
      eapply agree_bind with (R := eq); [apply agree_same; intros k []|]. intros cs2 ? <-. apply IH; auto.
  Qed.

  Lemma agree_eps_outer : forall fuel c d i ls, sf c d -> agree n eq (t_eps_outer lazyC A T nz fuel c i ls) (t_eps_outer lazyC A T nz fuel d i ls).
  Proof.
    induction fuel as [|f IH]; intros c d i ls SF; cbn [t_eps_outer]; (fetch_step SF; [|apply agree_lift; reflexivity]); [apply agree_lift; exact I|].
    eapply agree_bind; [apply (agree_sunday n x y); eauto|]. intros [c2 oi] [d2 oi'] [SF2 E]. cbn [fst snd] in *. subst oi'.
    destruct oi as [i'|]; [|apply agree_lift; reflexivity].
    fetch_step SF2; [|apply agree_lift; reflexivity].
    eapply agree_bind with (R := eq).
    { apply agree_lift. unfold eps_start. cbn [cat lazyC]. rewrite !(same_cat n x y _ _ _ SF'0). match goal with |- orel _ ?o _ => destruct o end; cbn; auto. }
    intros cs ? <-. eapply agree_bind; [apply agree_eps_match; eauto|]. intros [[[c4 j] cs4] ls4] [[[d4 j'] cs4'] ls4'] (SF4 & <- & <- & <-).
    eapply agree_bind; [apply (agree_fetch n x y); exact SF4|]. intros [b c5] [b' d5] [E SF5]. cbn [fst snd] in *. subst b'.
    eapply agree_bind with (R := eq); [apply agree_same; intros k []|]. intros g ? <-.
    eapply agree_bind; [apply (agree_front n x y); eauto|]. intros c6 d6 SF6. apply IH; auto.
  Qed.
End Agree.

Theorem C81_causal_eps : forall fuel al nz A p x y,
  before (length p) (fst (t_monaa fuel al nz lazyC A (lopen (p ++ x)))) =
  before (length p) (fst (t_monaa fuel al nz lazyC A (lopen (p ++ y)))).
Proof.
  intros. apply (agree_before (length p) (@eq unit)). unfold t_monaa.
  eapply agree_bind with (R := eq); [apply agree_same; intros k []|]. intros T ? <-.
  destruct (no_eps A); [apply (agree_outer _ x y)|apply (agree_eps_outer _ x y)]; apply same_open.
Qed.

Theorem C81_kept_eps : forall fuel al nz A p x y zs,
  monaa fuel al nz lazyC A (lopen (p ++ y)) = Ok zs ->
  exists later, zs = emitted (before (length p) (fst (t_monaa fuel al nz lazyC A (lopen (p ++ x))))) ++ later.
Proof.
  intros fuel al nz A p x y zs H. rewrite C81_same_eps in H. rewrite (C81_causal_eps fuel al nz A p x y). unfold reported in H.
  destruct (t_monaa fuel al nz lazyC A (lopen (p ++ y))) as [tr []]; try discriminate. cbn [fst snd] in *. injection H as <-.
  destruct (before_prefix (length p) tr) as [r E]. exists (emitted r). rewrite E at 1. apply emitted_app.
Qed.

(* What monaa() has reported is a match in every continuation on which it
   returns, if no unobservable transition resets a clock (C45, C57). *)
Theorem C81_final_eps : forall fuel al A p x z t t', wf_ta A -> no_eps_reset A ->
  In z (emitted (before (length p) (fst (t_monaa fuel al (clockSize A) lazyC A (lopen (p ++ x)))))) -> zin 3 z (pairv t t') ->
  forall y zs, nondecreasing 0 (p ++ y) -> observable (p ++ y) -> monaa fuel al (clockSize A) lazyC A (lopen (p ++ y)) = Ok zs -> eps_matches A (p ++ y) t t'.
Proof.
  intros fuel al A p x z t t' WA NR Hz Z y zs ND OB E.
  destruct (C81_kept_eps fuel al (clockSize A) A p x y zs E) as [r ->]. rewrite C36_monaa in E.
  eapply (C57_sound fuel al A (p ++ y)); eauto. apply in_or_app. left. exact Hz.
Qed.

(* The pattern of C57_case: the match is reported when the second event is read,
   before a third is asked for. *)
Example C81_case_eps : wf_ta exE /\ no_eps_reset exE /\ no_eps exE = false /\
  forall x, exists z, In z (emitted (before 2 (fst (t_monaa 100 exAl 1 lazyC exE (lopen (exEw ++ x)))))) /\ zin 3 z (pairv 9 12).
Proof.
  split; [exact exE_wf|]. split; [exact exE_nr|]. split; [reflexivity|]. intros x. exists (nth 0 exEz []). split; [|apply zin3_dec; reflexivity].
  pose proof (C81_causal_eps 100 exAl 1 exE exEw x []) as E. cbn [length exEw] in E. rewrite E. clear E. unfold t_monaa. rewrite (tables_with _ _ _ _ _ exE_sets exE_kmp).
  vm_compute. left. reflexivity.
Qed.
