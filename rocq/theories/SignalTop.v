(* Signal mode: normalising the disjuncts of an expression, and the automaton
   that is made of them. *)
From Coq Require Import QArith Bool List ZArith Arith Lia.
From Verif Require Import Num Outcome Interval Constraint Zone TA Tre Signal SignalFacts SignalTerm SignalRep SignalBuild.
Import ListNotations.
Open Scope nat_scope.

Lemma adjd_dec : forall l, adjd l \/ ~ adjd l.
Proof.
  induction l as [|a l IH]; [left; exact Logic.I|]. destruct l as [|b l]; [left; cbn; auto|]. destruct (Nat.eq_dec a b) as [E|N]; [right; cbn; intros [X _]; auto|].
  destruct IH as [IH|IH]; [left; split; auto|right; intros [_ X]; auto].
Qed.

Inductive rootw (H : heap) (T : list ent) (a : nat) (js : list nat) : Prop :=
| w_one : forall k x, js = [k] -> nth_error T k = Some x -> en_a x = a -> rootw H T a js
| w_many : forall l, 2 <= length js -> NoDup js -> atp T js l -> cellA H a = Some (ACat l) -> ~ In (RA a) (fp T) -> rootw H T a js.
Lemma root_rootw : forall H T a js, root H T a js -> rootw H T a js.
Proof. intros H T a js [k x E1 E2 E3 _ _|l L D A C N]; [eapply w_one|eapply w_many]; eauto. Qed.
Lemma rootw_step : forall P G H T H' T' a js, step P G H T H' T' -> ~ In (RA a) G -> rootw H T a js -> rootw H' T' a js.
Proof.
  intros P G H T H' T' a js S N [k x E1 E2 E3|l L D A C NI].
  - destruct (step_at _ _ _ _ _ _ _ _ S E2) as (y & E & Ea & _). eapply w_one; eauto. congruence.
  - destruct (step_out _ _ _ _ _ _ (RA a) S (cellA_in _ _ _ C) N NI) as (X1 & X2 & _). eapply w_many; eauto; [eapply atp_step; eauto|].
    rewrite (same_cell H H'); auto.
Qed.

(* A disjunct that is normalised. *)
Inductive donep (H : heap) (T : list ent) (p : nat * list nat) (ch : chain) : Prop :=
| mkDone : forall ks, incl ks (snd p) -> fin H T (fst p) ks -> (forall k, In k ks -> norm_at H T k) -> vals T ks ch ->
    (exists d, decA H (fst p) = Some d) ->
    ((~ In (RA (fst p)) (fp T) /\ inH H (RA (fst p))) \/ (exists k x, ks = [k] /\ nth_error T k = Some x /\ en_a x = fst p)) ->
    donep H T p ch.

Lemma done_step : forall P G H T H' T' p ch, step P G H T H' T' -> donep H T p ch -> (forall k, In k (snd p) -> ~ In k P) -> ~ In (RA (fst p)) G ->
  donep H' T' p ch.
Proof.
  intros P G H T H' T' p ch S [ks IC FI NO VS (d & SD) PL] NP NG.
  assert (VS' : vals T' ks ch) by (eapply vals_step; eauto).
  assert (NO' : forall k, In k ks -> norm_at H' T' k) by (intros k Hk; eapply step_norm; eauto).
  assert (Sing : forall k x s, nth_error T k = Some x -> In k ks -> cellA H (en_a x) = Some (ASing s) ->
    exists y, nth_error T' k = Some y /\ en_a y = en_a x /\ cellA H' (en_a y) = Some (ASing s) /\ exists c, decA H' (en_a y) = Some c).
  { intros k x s E Hk C. destruct (NO k Hk) as (x' & E' & Nx). assert (x' = x) as -> by congruence.
    destruct (st_normal _ _ _ _ _ _ S k x E Nx) as (y & Ey & (s2 & v2 & C2 & _ & _ & F2 & D2) & Fy).
    destruct Nx as (s1 & v1 & C1 & _ & _ & F1 & _). destruct (step_at _ _ _ _ _ _ _ _ S E) as (y' & Ey' & Ea & _). assert (y' = y) as -> by congruence.
    exists y. split; auto. split; auto. split; [|eauto]. rewrite C2. do 2 f_equal. congruence. }
  destruct PL as [(NI & IA)|(k & x & Ek & Ex & Ea)].
  - destruct (step_out _ _ _ _ _ _ _ S IA NG NI) as (Sa & NI' & IA').
    apply mkDone with ks; auto.
    + unfold fin in *. assert (Many : (exists l, atp T ks l /\ cellA H (fst p) = Some (ACat l)) -> exists l, atp T' ks l /\ cellA H' (fst p) = Some (ACat l)).
      { intros (l & A & C). exists l. split; [eapply atp_step; eauto|]. rewrite (same_cell H H'); auto. }
      destruct ks as [|k [|k2 ks]]; auto. destruct FI as (x & s & Ex & Cx & Ca).
      destruct (Sing k x s Ex (or_introl eq_refl) Cx) as (y & Ey & _ & Cy & _). exists y, s. split; auto. split; auto. rewrite (same_cell H H'); auto.
    + exists d. unfold decA in *. cbn in Sa. rewrite Sa. auto.
  - subst ks. destruct FI as (x' & s & Ex' & Cx & Ca). assert (x' = x) as -> by congruence.
    destruct (Sing k x s Ex (or_introl eq_refl) Cx) as (y & Ey & Eay & Cy & Dy). apply mkDone with [k]; auto.
    + exists y, s. split; auto. split; auto. rewrite <- Ea, <- Eay. auto.
    + rewrite <- Ea, <- Eay. auto.
    + right. exists k, y. split; auto. split; auto. congruence.
Qed.

Fixpoint allok2 (l : list (list durs)) : outcome (list (list (list interval))) :=
  match l with
  | [] => Ok []
  | x :: t => do v <- allok x ; do vs <- allok2 t ; Ok (v :: vs)
  end.

Definition chain_of (cs : list nat) (vs : list (list interval)) : chain := mvs (combine cs vs).
Fixpoint chains_of (css : list (list nat)) (vss : list (list (list interval))) : list chain :=
  match css, vss with
  | cs :: t, vs :: u => chain_of cs vs :: chains_of t u
  | _, _ => []
  end.

Lemma one_root : forall f H T p, inv H T -> rootw H T (fst p) (snd p) ->
  goodr (allok (Vat T (snd p))) (nfA stop stop f H (fst p))
    (fun vs H' => exists P T', step P [RA (fst p)] H T H' T' /\ donep H' T' p (chain_of (cat_ T (snd p)) vs) /\
       forall k, In k P -> In k (snd p) /\ ~ adjd (cat_ T (snd p))).
Proof.
  intros f H T [a js] I R. cbn [fst snd] in *. destruct R as [k x -> E Ea|l L D A C NI].
  - cbn [Vat map cat_]. rewrite E. subst a. eapply goodr_post; [apply (nf_at f (nf_all f) [] H T k x I E)| |].
    + cbn [allok]. intros N v. destruct (en_V x) as [w| | | |]; cbn; try discriminate. destruct (N w eq_refl).
    + cbn beta. intros v H' Ev (T' & S & Nk). exists [v]. cbn [allok]. rewrite Ev. cbn [bind]. split; auto. exists [], T'. split; [eapply step_more; [| |exact S]; intros ? []|].
      split; [|intros ? []]. destruct (step_at _ _ _ _ _ _ _ _ S E) as (y & Ey & Eay & Ecy & EVy).
      destruct Nk as (y' & Ey' & Ny). assert (y' = y) as -> by congruence. pose proof Ny as (s & w & Cs & _ & _ & _ & Ds).
      apply mkDone with [k]; cbn [fst snd].
      * apply incl_refl.
      * exists y, s. split; auto. split; auto. rewrite <- Eay. auto.
      * intros j [<-|[]]. exists y. auto.
      * cbn. constructor; [|constructor]. exists y. split; auto. cbn. split; auto. rewrite EVy; auto.
      * rewrite <- Eay. eauto.
      * right. exists k, y. auto.
  - destruct f as [|f]; [exact Logic.I|]. assert (NE : js <> []) by (destruct js; [cbn in L; lia|discriminate]).
    assert (MODE : exists P, ((P = js /\ NoDup js) \/ (P = [] /\ adjd (cat_ T js))) /\ forall k, In k P -> In k js /\ ~ adjd (cat_ T js)).
    { destruct (adjd_dec (cat_ T js)) as [X|X]; [exists []; split; [auto|intros k []]|exists js; split; auto]. }
    destruct MODE as (P & MD & HP). eapply goodr_weaken; [apply (cat_root f (nf_all f) P H T a js l); auto|]. cbn beta.
    intros vs H' Ev (T' & ks & S & NI' & FI & NK & VS & DE). exists P, T'. split; auto. split; auto. apply mkDone with ks; cbn [fst snd]; auto.
    + intros k Hk. apply NK. auto.
    + intros k Hk. apply NK. auto.
    + eauto.
    + left. split; auto. apply (st_ext _ _ _ _ _ _ S). eapply cellA_in; eauto.
Qed.

Lemma rsep_step : forall P G H T H' T' p q, step P G H T H' T' -> rsep T p q -> rsep T' p q.
Proof.
  intros P G H T H' T' p q S (N & D). split; auto. destruct D as [D|[(L1 & B1) (L2 & B2)]]; [left; auto|right].
  unfold big. rewrite !(cat_step _ _ _ _ _ _ _ S). auto.
Qed.

Lemma all_roots : forall f rs H T, inv H T -> Forall (fun p => rootw H T (fst p) (snd p)) rs -> ForallOrdPairs (rsep T) rs ->
  goodr (allok2 (map (fun p => Vat T (snd p)) rs)) (hfold (fun H l => hfold (nfA stop stop f) H l) H (map (fun p => [fst p]) rs))
    (fun vss H' => exists P G T', step P G H T H' T' /\ Forall2 (donep H' T') rs (chains_of (map (fun p => cat_ T (snd p)) rs) vss) /\
       (forall k, In k P -> exists p, In p rs /\ In k (snd p) /\ ~ adjd (cat_ T (snd p))) /\ (forall r, In r G -> exists p, In p rs /\ r = RA (fst p))).
Proof.
  intros f. induction rs as [|p rs IH]; intros H T I R S.
  - cbn. exists []. split; auto. exists [], [], T. split; [apply step_refl; auto|]. split; [constructor|]. split; intros ? [].
  - inversion R as [|? ? Rp R']; subst. inversion S as [|? ? Sp S']; subst. rewrite Forall_forall in Sp, R'. cbn [map hfold allok2].
    pose proof (one_root f H T p I Rp) as G1. destruct (nfA stop stop f H (fst p)) as [H1| | | |]; cbn [bind]; cbn [goodr] in G1.
    2-4: cbn [goodr]; intros v; destruct (allok (Vat T (snd p))) as [w| | | |]; cbn; try discriminate; destruct (G1 w eq_refl).
    2: exact Logic.I.
    destruct G1 as (vs & Ev & P1 & T1 & S1 & D1 & HP1). rewrite Ev. cbn [bind].
    assert (Q1 : forall q k, In q rs -> In k (snd q) -> ~ In k P1).
    { intros q k Hq Hk X. destruct (HP1 k X) as (X1 & X2). destruct (Sp q Hq) as (_ & [Y|[(_ & Y) _]]); [apply (Y k); auto|contradiction]. }
    assert (NG : forall q, In q rs -> ~ In (RA (fst q)) [RA (fst p)]) by (intros q Hq [E|[]]; injection E as E; destruct (Sp q Hq); congruence).
    specialize (IH H1 T1 (st_inv _ _ _ _ _ _ S1)).
    assert (EVr : map (fun q => Vat T1 (snd q)) rs = map (fun q => Vat T (snd q)) rs) by (apply map_ext_in; intros q Hq; eapply Vat_step; eauto).
    assert (ECr : map (fun q => cat_ T1 (snd q)) rs = map (fun q => cat_ T (snd q)) rs) by (apply map_ext_in; intros q Hq; eapply cat_step; eauto).
    rewrite EVr, ECr in IH. 
    assert (R1 : Forall (fun q => rootw H1 T1 (fst q) (snd q)) rs) by (apply Forall_forall; intros q Hq; eapply rootw_step; eauto).
    assert (F1 : ForallOrdPairs (rsep T1) rs) by (rewrite <- (map_id rs); eapply fop_map; [exact S'|]; intros; eapply rsep_step; eauto).
    specialize (IH R1 F1). destruct (hfold _ _ (map _ rs)) as [H2| | | |]; cbn [goodr] in IH |- *; auto.
    2-4: intros v; destruct (allok2 _) as [w| | | |]; cbn; try discriminate; destruct (IH w eq_refl).
    destruct IH as (vss & Evs & P2 & G2 & T2 & S2 & D2 & HP2 & HG2). exists (vs :: vss). rewrite Evs. cbn [bind]. split; auto.
    exists (P1 ++ P2), (RA (fst p) :: G2), T2. split; [|split; [|split]].
    + eapply step_trans; [eapply step_more; [| |exact S1]; [apply incl_appl, incl_refl|intros x [<-|[]]; left; auto]|].
      eapply step_more; [| |exact S2]; [apply incl_appr, incl_refl|apply incl_tl, incl_refl].
    + cbn [chains_of]. constructor; auto. eapply done_step; eauto.
      * intros k Hk X. destruct (HP2 k X) as (q & Hq & Hk' & NA). destruct (Sp q Hq) as (_ & [Y|[_ (_ & Y)]]); [apply (Y k); auto|].
        apply NA. rewrite (cat_step _ _ _ _ _ _ _ S1). auto.
      * intros X. destruct (HG2 _ X) as (q & Hq & E). injection E as E. destruct (Sp q Hq). congruence.
    + intros k Hk. apply in_app_or in Hk as [Hk|Hk]; [exists p; split; [left; auto|auto]|]. destruct (HP2 k Hk) as (q & Hq & X1 & X2).
      exists q. split; [right; auto|]. split; auto. rewrite (cat_step _ _ _ _ _ _ _ S1) in X2. auto.
    + intros r [<-|Hr]; [exists p; split; [left; auto|auto]|]. destruct (HG2 r Hr) as (q & Hq & E). exists q. split; [right; auto|auto].
Qed.

(* ---------------- the whole disjunction ---------------- *)

Lemma done_mixed : forall H T p ch, donep H T p ch -> conj_mixed H [fst p] = Ok false.
Proof.
  intros H T p ch [ks _ FI _ _ _ _]. cbn [conj_mixed].
  assert (C : exists c, cellA H (fst p) = Some c /\ ((exists s, c = ASing s) \/ exists l, c = ACat l)).
  { unfold fin in FI. destruct ks as [|k [|k2 ks]]; [destruct FI as (l & _ & C)|destruct FI as (x & s & _ & _ & C)|destruct FI as (l & _ & C)]; eauto 6. }
  destruct C as (c & C & K). destruct (cellA_get _ _ _ C) as (z & Z1 & Z2). rewrite Z1. cbn [bind]. rewrite Z2. destruct K as [(s & ->)|(l & ->)]; reflexivity.
Qed.
Lemma done_dec : forall H T p ch, donep H T p ch -> exists d, dec_of H (fst p) = Ok d.
Proof.
  intros H T p ch [ks _ _ _ _ (d & D) _]. exists d. unfold decA in D. unfold dec_of, getA. destruct (nth_error (hA H) (fst p)) as [z|]; [|discriminate].
  cbn [bind]. rewrite D. reflexivity.
Qed.

Lemma all_mixed : forall H T rs chs, Forall2 (donep H T) rs chs ->
  oseq (conj_mixed H) (map (fun p => [fst p]) rs) = Ok (map (fun _ => false) rs).
Proof. intros H T rs chs F. induction F as [|p ch rs chs D F IH]; auto. cbn [map oseq]. rewrite (done_mixed _ _ _ _ D). cbn [bind]. rewrite IH. reflexivity. Qed.
Lemma all_dec : forall f H T rs chs, Forall2 (donep H T) rs chs ->
  exists ds, oseq (conj_dec (S f) H) (map (fun p => [fst p]) rs) = Ok ds /\ length ds = length rs.
Proof.
  intros f H T rs chs F. induction F as [|p ch rs chs D F (ds & IH & L)]; [exists []; auto|]. cbn [map oseq]. destruct (done_dec _ _ _ _ D) as (d & E).
  exists (d :: ds). unfold conj_dec at 1. rewrite E. cbn [bind conj_loop]. rewrite IH. cbn. auto.
Qed.

Lemma done_setD : forall H T d e p ch, donep H T p ch -> donep (setD H d e) T p ch.
Proof. intros H T d e p ch [ks A B C D E F]. apply mkDone with ks; auto. Qed.

Lemma chains_len : forall css vss, length css = length vss -> length (chains_of css vss) = length css.
Proof. induction css as [|c css IH]; intros [|v vss] L; cbn in *; try discriminate; auto. Qed.
Lemma allok2_len : forall l vss, allok2 l = Ok vss -> length vss = length l.
Proof.
  induction l as [|x l IH]; intros vss E; cbn in E; [injection E as <-; auto|]. destruct (allok x) as [v| | | |]; cbn in E; try discriminate.
  destruct (allok2 l) as [vs| | | |]; cbn in E; try discriminate. injection E as <-. cbn. rewrite IH; auto.
Qed.

Lemma norm_all : forall f H T rs d, inv H T -> Forall (fun p => root H T (fst p) (snd p)) rs -> ForallOrdPairs (rsep T) rs -> rs <> [] ->
  listD H d = Some (map (fun p => [fst p]) rs) -> ~ In (RD d) (fp T) ->
  goodr (allok2 (map (fun p => Vat T (snd p)) rs)) (nfD stop stop f H d)
    (fun vss H' => exists T', Forall2 (donep H' T') rs (chains_of (map (fun p => cat_ T (snd p)) rs) vss) /\ listD H' d = Some (map (fun p => [fst p]) rs)).
Proof.
  intros f H T rs d I R S NE D ND. destruct f as [|f]; [exact Logic.I|]. cbn [nfD]. pose proof (listD_in _ _ _ D) as Id.
  destruct (listD_get _ _ _ D) as (dn & D1 & D2 & D3). rewrite D1. cbn [bind]. rewrite D2.
  assert (R' : Forall (fun p => rootw H T (fst p) (snd p)) rs) by (eapply Forall_impl; [|exact R]; intros p; apply root_rootw).
  pose proof (all_roots f rs H T I R' S) as G. destruct (hfold _ _ _) as [H1| | | |]; cbn [goodr bind] in G |- *; auto.
  destruct G as (vss & Ev & P & G & T1 & S1 & DN & _ & HG). rewrite (all_mixed _ _ _ _ DN). cbn [bind].
  assert (NB : existsb (fun b : bool => b) (map (fun _ => false) rs) = false) by (clear; induction rs; auto). rewrite NB. cbn [bind].
  destruct (step_out _ _ _ _ _ _ (RD d) S1 Id) as (Sd & ND1 & Id1); auto.
  { intros X. destruct (HG _ X) as (p & _ & E). discriminate. }
  assert (D1' : getD H1 d = Ok dn) by (unfold getD in *; cbn in Sd; rewrite Sd; exact D1).
  rewrite D1'. cbn [bind]. rewrite D2. destruct f as [|f].
  { destruct rs as [|p rs]; [congruence|]. cbn [map oseq conj_dec]. inversion DN as [|? ch ? chs Dp Dr]; subst. destruct (done_dec _ _ _ _ Dp) as (x & E). rewrite E. exact Logic.I. }
  destruct (all_dec f _ _ _ _ DN) as (ds & E & L). rewrite E. cbn [bind]. destruct ds as [|d0 ds]; [destruct rs; [congruence|discriminate]|]. cbn [dnf_dec bind goodr].
  exists vss. split; auto. exists T1. split; [|unfold listD; cbn; rewrite nth_set_nth, Nat.eqb_refl; cbn in Id1; rewrite (proj2 (Nat.ltb_lt _ _) Id1); reflexivity].
  eapply f2_impl; [|exact DN]. intros p ch. apply done_setD.
Qed.

(* ---------------- the automaton of the disjunction ---------------- *)

Fixpoint chain_go (al : nat -> ptr) (t : chain) (X : ta * nat) : outcome (ta * nat) :=
  match t with
  | [] => Ok X
  | cv :: t => do Y <- singTA al (fst cv) (snd cv) (snd X) ; chain_go al t (concat2 (fst X) (fst Y), snd Y)
  end.
Definition chainTA (al : nat -> ptr) (ch : chain) (n : nat) : outcome (ta * nat) :=
  match ch with
  | [] => UB
  | cv :: t => do X <- singTA al (fst cv) (snd cv) n ; chain_go al t X
  end.
Fixpoint dnf_go (al : nat -> ptr) (chs : list chain) (X : ta * nat) : outcome (ta * nat) :=
  match chs with
  | [] => Ok X
  | ch :: t => do Y <- chainTA al ch (snd X) ; dnf_go al t (altTA (fst X) (fst Y), snd Y)
  end.

Definition orfuel {X} (o o' : outcome X) : Prop := o = OutOfFuel \/ o = o'.

Lemma taA_norm : forall f al H T k a x c v n, nth_error T k = Some x -> norm_at H T k -> en_c x = c -> en_V x = Ok v -> 
  (exists s, cellA H (en_a x) = Some (ASing s) /\ cellA H a = Some (ASing s)) ->
  taA (S f) al H a n = singTA al c v n.
Proof.
  intros f al H T k a x c v n E (y & Ey & (s & w & C & Hs & EV & _ & _)) Ec Ev (s' & C1 & C2). assert (y = x) as -> by congruence.
  assert (s' = s) as -> by congruence. assert (w = v) as -> by congruence. cbn [taA]. destruct (cellA_get _ _ _ C2) as (z & Z1 & Z2). rewrite Z1. cbn [bind]. rewrite Z2.
  unfold getS. rewrite Hs. cbn [bind fst snd]. rewrite Ec. auto.
Qed.

Lemma taA_done : forall f al H T p ch n, donep H T p ch -> ch <> [] -> orfuel (taA f al H (fst p) n) (chainTA al ch n).
Proof.
  intros f al H T p ch n [ks IC FI NO VS _ _] NE. destruct f as [|f]; [left; auto|]. unfold fin in FI. destruct ks as [|k [|k2 ks]].
  - inversion VS. congruence.
  - inversion VS as [|? cv ? ch' (y & Ey & Ec & Ev) VS' E1 E2]; subst. inversion VS'; subst. destruct FI as (x & s & Ex & C1 & C2). assert (y = x) as -> by congruence.
    right. rewrite (taA_norm f al H T k (fst p) x (fst cv) (snd cv) n); eauto; [|apply NO; left; auto].
    cbn [chainTA]. destruct (singTA _ _ _ _); auto.
  - destruct FI as (l & A & C). cbn [taA]. destruct (cellA_get _ _ _ C) as (z & Z1 & Z2). rewrite Z1. cbn [bind]. rewrite Z2. destruct f as [|f].
    { left. inversion A; subst. reflexivity. }
    right. inversion VS as [|? cv ? ch' (y & Ey & Ec & Ev) VS' E1 E2]; subst. inversion A as [|? a ? l' (x & Ex & Ea) A' E1 E2]; subst.
    assert (y = x) as -> by congruence. assert (Nk : norm_at H T k) by (apply NO; left; auto). cbn [chainTA].
    rewrite (taA_norm f al H T k (en_a x) x (fst cv) (snd cv) n); auto.
    2:{ destruct Nk as (y & Ey' & (s & w & C1 & _)). assert (y = x) as -> by congruence. eauto. }
    destruct (singTA al (fst cv) (snd cv) n) as [X| | | |]; cbn [bind]; auto. 
    assert (NO' : forall j, In j (k2 :: ks) -> norm_at H T j) by (intros; apply NO; right; auto). clear - A' VS' NO'.
    revert l' ch' A' VS' X. induction (k2 :: ks) as [|j js IH]; intros l ch A VS X; inversion A as [|? a ? l' (x & Ex & Ea) A' E1 E2]; subst; inversion VS as [|? cv ? ch' (y & Ey & Ec & Ev) VS' E1 E2]; subst; [reflexivity|].
    assert (y = x) as -> by congruence. assert (Nk : norm_at H T j) by (apply NO'; left; auto). cbn [chain_go].
    rewrite (taA_norm f al H T j (en_a x) x (fst cv) (snd cv) (snd X)); auto.
    2:{ destruct Nk as (y & Ey' & (s & w & C1 & _)). assert (y = x) as -> by congruence. eauto. }
    destruct (singTA al (fst cv) (snd cv) (snd X)) as [Y| | | |]; cbn [bind]; auto. apply IH; auto. intros; apply NO'; right; auto.
Qed.

Lemma taD_done : forall f al H T rs chs d n, Forall2 (donep H T) rs chs -> Forall (fun ch => ch <> []) chs -> listD H d = Some (map (fun p => [fst p]) rs) ->
  orfuel (taD f al H d n) (dnf_go al chs (mkTA [] [] [], n)).
Proof.
  intros f al H T rs chs d n F NE D. destruct f as [|f]; [left; auto|]. cbn [taD]. destruct (listD_get _ _ _ D) as (dn & D1 & D2 & _). rewrite D1. cbn [bind]. rewrite D2.
  generalize (mkTA [] [] [], n) as X. clear D D1 D2. induction F as [|p ch rs chs Dp F IH]; intros X; [right; reflexivity|].
  inversion NE as [|? ? N1 N2]; subst. cbn [map dnf_go]. destruct (taA_done f al H T p ch (snd X) Dp N1) as [E|E]; rewrite E; [left; reflexivity|].
  destruct (chainTA al ch (snd X)) as [Y| | | |]; cbn [bind]; try (right; reflexivity). apply IH. auto.
Qed.

(* ---------------- from the expression to the automaton ---------------- *)

(* The durations of every letter of every run. *)
Definition vchs (r : tre) : outcome (list (list (list interval))) := allok2 (map (map snd) (pch r)).
Definition sig_chains (r : tre) (vss : list (list (list interval))) : list chain := chains_of (runs r) vss.

Lemma runs_chains_ne : forall r vss, sigfrag r -> vchs r = Ok vss -> Forall (fun ch => ch <> []) (sig_chains r vss).
Proof.
  intros r vss F E. unfold sig_chains. rewrite <- pch_runs. destruct (pch_ne r F) as (_ & N). unfold vchs in E. revert vss E.
  induction (pch r) as [|ch chs IH]; intros vss E; cbn in E; [injection E as <-; constructor|].
  destruct (allok (map snd ch)) as [v| | | |] eqn:E1; cbn in E; try discriminate.
  destruct (allok2 (map (map snd) chs)) as [vs| | | |]; cbn in E; try discriminate. injection E as <-. cbn [map chains_of]. constructor.
  - pose proof (N ch (or_introl eq_refl)) as X. destruct ch as [|o ch]; [congruence|]. pose proof (allok_len _ _ E1) as L. destruct v; [discriminate|]. unfold chain_of.
    intros Y. apply mvs_nil in Y. discriminate.
  - apply IH; auto. intros c Hc. apply N. right. auto.
Qed.

Definition finish (al : nat -> ptr) (chs : list chain) (n : nat) : outcome (ta * nat) :=
  do Y <- dnf_go al chs (mkTA [] [] [], n) ; Ok (renameTA al (fst Y) (snd Y)).

Lemma toSignal_spec : forall r, sigfrag r -> forall fuel al n,
  match toSignalTA stop stop fuel al r n with
  | OutOfFuel => True
  | Ok X => exists vss, vchs r = Ok vss /\ finish al (sig_chains r vss) n = Ok X
  | o => forall vss, vchs r = Ok vss -> finish al (sig_chains r vss) n = o
  end.
Proof.
  intros r F fuel al n. unfold toSignalTA. destruct (build r F (mkH [] [] [])) as (T & rs & H' & -> & _ & (I & R & S & C) & FR). cbn [bind fst snd].
  unfold newD. cbn [fst snd]. set (d := length (hD H')). set (H2 := mkH _ _ _). assert (P2 : pre H' H2) by (apply (pre_newD H' (map (fun p => [fst p]) rs))).
  assert (NE : rs <> []) by (intros ->; destruct (pch_ne r F) as (N & _); apply N; rewrite <- C; reflexivity).
  assert (EV : map (fun p => Vat T (snd p)) rs = map (map snd) (pch r)) by (rewrite <- C, map_map; apply map_ext; intros p; rewrite ch_at_snd; auto).
  assert (EC : map (fun p => cat_ T (snd p)) rs = runs r) by (rewrite <- pch_runs, <- C, map_map; apply map_ext; intros p; rewrite ch_at_fst; auto).
  assert (G : goodr (vchs r) (nfD stop stop fuel H2 d) (fun vss H1 => exists T1, Forall2 (donep H1 T1) rs (sig_chains r vss) /\ listD H1 d = Some (map (fun p => [fst p]) rs))).
  { unfold vchs, sig_chains. rewrite <- EV, <- EC. apply norm_all; auto.
    - eapply pre_inv; eauto.
    - rewrite Forall_forall in *. intros p Hp. eapply pre_root; eauto.
    - unfold listD, H2, d. cbn. rewrite nth_error_app2, Nat.sub_diag by lia. reflexivity.
    - intros X. apply in_flat_map in X as (x & Hx & X). destruct I as (O & _). pose proof (own_in _ _ (O x Hx) _ X) as Y. cbn in Y. unfold d in Y. lia. }
  destruct (nfD stop stop fuel H2 d) as [H1| | | |]; cbn [goodr bind] in G |- *; auto.
  2-4: intros vss E; destruct (G vss E).
  destruct G as (vss & E & T1 & DN & LD). pose proof (runs_chains_ne r vss F E) as NC.
  destruct (taD_done fuel al H1 T1 rs _ d n DN NC LD) as [X|X]; rewrite X; cbn [bind]; auto. unfold finish.
  destruct (dnf_go al (sig_chains r vss) (mkTA [] [] [], n)) as [Y| | | |] eqn:EY; cbn [bind]; auto.
  { exists vss. split; auto. rewrite EY. reflexivity. }
  all: intros vss' E'; assert (vss' = vss) as -> by congruence; rewrite EY; reflexivity.
Qed.
