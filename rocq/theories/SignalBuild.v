(* Signal mode: the objects that are built for an expression whose disjuncts do
   not share what is changed later. *)
From Coq Require Import QArith Bool List ZArith Arith Lia FinFun.
From Verif Require Import Num Outcome Interval Constraint Zone TA Tre Signal SignalFacts SignalTerm SignalRep.
Import ListNotations.
Open Scope nat_scope.

(* ---------------- the fragment ---------------- *)

(* The letters of the disjuncts, a restriction or a plus counting as one letter. *)
Fixpoint runs (r : tre) : list (list nat) :=
  match r with
  | Atom c => [[c]]
  | Cat r1 r2 => flat_map (fun x => map (fun y => x ++ y) (runs r2)) (runs r1)
  | Alt r1 r2 => runs r1 ++ runs r2
  | Within r1 _ => map (fun l => [hd 0 l]) (runs r1)
  | Plus r1 => [[hd 0 (hd [] (runs r1))]]
  | _ => []
  end.
Definition konst (c : nat) (l : list nat) : Prop := forall x, In x l -> x = c.

(* No conjunction and no empty expression; what is restricted or iterated has
   one letter; no disjunct shares a letter that is merged with its neighbour. *)
Fixpoint sigfrag (r : tre) : Prop :=
  match r with
  | Atom c => c <> 0
  | Cat r1 r2 => sigfrag r1 /\ sigfrag r2 /\
      ((length (runs r1) = 1 /\ length (runs r2) = 1) \/ forall l, In l (runs (Cat r1 r2)) -> adjd l)
  | Alt r1 r2 => sigfrag r1 /\ sigfrag r2
  | Within r1 _ => sigfrag r1 /\ forall l, In l (runs r1) -> exists c, konst c l
  | Plus r1 => sigfrag r1 /\ exists c, forall l, In l (runs r1) -> konst c l
  | _ => False
  end.

Definition ochain : Type := list (nat * durs).
Definition och_c (ch : ochain) : nat := match ch with p :: _ => fst p | [] => 0 end.
Definition och_V (ch : ochain) : durs := sumV (map snd ch).

(* The disjuncts: letters with the durations they may have. *)
Fixpoint pch (r : tre) : list ochain :=
  match r with
  | Atom c => [[(c, Ok [interval_default])]]
  | Cat r1 r2 => flat_map (fun x => map (fun y => x ++ y) (pch r2)) (pch r1)
  | Alt r1 r2 => pch r1 ++ pch r2
  | Within r1 Iv => map (fun ch => [(och_c ch, withinV Iv (och_V ch))]) (pch r1)
  | Plus r1 => [[(och_c (hd [] (pch r1)), plusV (map och_V (pch r1)))]]
  | _ => []
  end.

Lemma pch_runs : forall r, map (map fst) (pch r) = runs r.
Proof.
  induction r as [c| |r IH|r1 IH1 r2 IH2|r1 IH1 r2 IH2|r1 IH1 r2 IH2|r IH Iv]; cbn [pch runs]; auto.
  - cbn. rewrite <- IH. destruct (pch r) as [|[|p ch] t]; reflexivity.
  - rewrite <- IH1, <- IH2. generalize (pch r1) as X, (pch r2) as Y. clear. induction X as [|x X IH]; intros Y; cbn [flat_map map]; auto.
    rewrite map_app, IH. f_equal. rewrite !map_map. apply map_ext. intros y. apply map_app.
  - rewrite <- IH1, <- IH2. apply map_app.
  - rewrite <- IH, !map_map. apply map_ext. intros [|p ch]; reflexivity.
Qed.
Lemma runs_ne : forall r, sigfrag r -> runs r <> [] /\ forall l, In l (runs r) -> l <> [].
Proof.
  induction r as [c| |r IH|r1 IH1 r2 IH2|r1 IH1 r2 IH2|r1 IH1 r2 IH2|r IH Iv]; cbn [sigfrag runs]; intros F; try contradiction.
  - split; [discriminate|]. intros l [<-|[]]. discriminate.
  - split; [discriminate|]. intros l [<-|[]]. discriminate.
  - destruct F as (F1 & F2 & _). destruct (IH1 F1) as (N1 & E1). destruct (IH2 F2) as (N2 & E2). split.
    + destruct (runs r1) as [|x X]; [congruence|]. destruct (runs r2) as [|y Y]; [congruence|]. discriminate.
    + intros l Hl. apply in_flat_map in Hl as (x & Hx & Hl). apply in_map_iff in Hl as (y & <- & Hy). specialize (E1 x Hx). destruct x; [congruence|discriminate].
  - destruct F as (F1 & F2). destruct (IH1 F1) as (N1 & E1). destruct (IH2 F2) as (N2 & E2). split.
    + destruct (runs r1); [congruence|discriminate].
    + intros l Hl. apply in_app_or in Hl as [Hl|Hl]; auto.
  - destruct F as (F1 & _). destruct (IH F1) as (N1 & E1). split; [destruct (runs r); [congruence|discriminate]|].
    intros l Hl. apply in_map_iff in Hl as (x & <- & _). discriminate.
Qed.

(* ---------------- roots ---------------- *)

Definition ch_at (T : list ent) (js : list nat) : ochain :=
  map (fun k => match nth_error T k with Some x => (en_c x, en_V x) | None => (0, UB) end) js.
Lemma ch_at_fst : forall T js, map fst (ch_at T js) = cat_ T js.
Proof. intros T js. unfold ch_at, cat_. rewrite map_map. apply map_ext. intros k. destruct (nth_error T k); reflexivity. Qed.
Lemma ch_at_snd : forall T js, map snd (ch_at T js) = Vat T js.
Proof. intros T js. unfold ch_at, Vat. rewrite map_map. apply map_ext. intros k. destruct (nth_error T k); reflexivity. Qed.

Inductive root (H : heap) (T : list ent) (a : nat) (js : list nat) : Prop :=
| r_one : forall k x, js = [k] -> nth_error T k = Some x -> en_a x = a -> (forall l, cellA H a <> Some (ACat l)) -> cellA H a <> Some AEps -> root H T a js
| r_many : forall l, 2 <= length js -> NoDup js -> atp T js l -> cellA H a = Some (ACat l) -> ~ In (RA a) (fp T) -> root H T a js.

Definition big (T : list ent) (js : list nat) : Prop := 2 <= length js /\ adjd (cat_ T js).
Definition rsep (T : list ent) (p q : nat * list nat) : Prop :=
  fst p <> fst q /\ ((forall k, In k (snd p) -> ~ In k (snd q)) \/ (big T (snd p) /\ big T (snd q))).

Definition built (H : heap) (T : list ent) (rs : list (nat * list nat)) (chs : list ochain) : Prop :=
  inv H T /\ Forall (fun p => root H T (fst p) (snd p)) rs /\ ForallOrdPairs (rsep T) rs /\ map (fun p => ch_at T (snd p)) rs = chs.
Definition fresh (H : heap) (T : list ent) (rs : list (nat * list nat)) : Prop :=
  (forall r, In r (fp T) -> ~ inH H r) /\ forall p, In p rs -> ~ inH H (RA (fst p)).

(* Allocation keeps all that is there. *)
Lemma pre_same : forall H H' r, pre H H' -> inH H r -> same H H' r.
Proof.
  intros H H' [a|s|d] [PA PS PD] I; cbn in *.
  - destruct (nth_error (hA H) a) eqn:E; [auto|]. apply nth_error_None in E. lia.
  - destruct (nth_error (hS H) s) eqn:E; [auto|]. apply nth_error_None in E. lia.
  - destruct (nth_error (hD H) d) eqn:E; [auto|]. apply nth_error_None in E. lia.
Qed.
Lemma pre_in : forall H H' r, pre H H' -> inH H r -> inH H' r.
Proof.
  intros H H' r P I. pose proof (pre_same H H' r P I) as E. destruct r as [a|s|d]; cbn in *; apply nth_error_Some; rewrite E; apply nth_error_Some; auto.
Qed.
Lemma pre_own : forall H H' e, pre H H' -> own H e -> own H' e.
Proof. intros H H' e P O. apply own_frame with H; auto. intros r Hr. apply pre_same; auto. eapply own_in; eauto. Qed.
Lemma pre_inv : forall H H' T, pre H H' -> inv H T -> inv H' T.
Proof. intros H H' T P [O A]. split; auto. intros x Hx. eapply pre_own; eauto. Qed.
Lemma root_in : forall H T a js, inv H T -> root H T a js -> inH H (RA a).
Proof.
  intros H T a js [O _] R. destruct R as [k x E1 E2 E3 _ _|l _ _ _ C _]; [|eapply cellA_in; eauto].
  subst a. eapply own_in; [|eapply own_self]; apply O; eapply nth_error_In; eauto.
Qed.
Lemma pre_root : forall H H' T a js, pre H H' -> inv H T -> root H T a js -> root H' T a js.
Proof.
  intros H H' T a js P I R. pose proof (root_in H T a js I R) as IA. pose proof (same_cell H H' a (pre_same _ _ _ P IA)) as E.
  destruct R as [k x E1 E2 E3 E4 E5|l L D A C N]; [eapply r_one; eauto; rewrite E; auto|eapply r_many; eauto; rewrite E; auto].
Qed.

(* Two collections. *)
Definition shift (n : nat) (rs : list (nat * list nat)) : list (nat * list nat) := map (fun p => (fst p, map (Nat.add n) (snd p))) rs.

Lemma nth_shift : forall (T1 T2 : list ent) k, nth_error (T1 ++ T2) (length T1 + k) = nth_error T2 k.
Proof. intros. rewrite nth_error_app2 by lia. f_equal. lia. Qed.
Lemma nth_left : forall (T1 T2 : list ent) k x, nth_error T1 k = Some x -> nth_error (T1 ++ T2) k = Some x.
Proof. intros T1 T2 k x E. rewrite nth_error_app1; auto. apply nth_error_Some. congruence. Qed.
Lemma atp_left : forall T1 T2 js l, atp T1 js l -> atp (T1 ++ T2) js l.
Proof. intros T1 T2 js l A. eapply f2_impl; [|exact A]. cbn. intros k a (x & E & Ea). exists x. split; auto. apply nth_left; auto. Qed.
Lemma atp_right : forall T1 T2 js l, atp T2 js l -> atp (T1 ++ T2) (map (Nat.add (length T1)) js) l.
Proof.
  intros T1 T2 js l A. induction A as [|k a js l (x & E & Ea) A IH]; constructor; auto. exists x. rewrite nth_shift. auto.
Qed.
Lemma root_js : forall H T a js k, root H T a js -> In k js -> k < length T.
Proof.
  intros H T a js k R Hk. destruct R as [k' x -> E _ _ _|l _ _ A _ _].
  - destruct Hk as [<-|[]]. apply nth_error_Some. congruence.
  - clear -A Hk. induction A as [|j b js l (x & E & _) A IH]; [destruct Hk|]. destruct Hk as [<-|Hk]; auto. apply nth_error_Some. congruence.
Qed.
Lemma ch_left : forall T1 T2 js, (forall k, In k js -> k < length T1) -> ch_at (T1 ++ T2) js = ch_at T1 js.
Proof. intros T1 T2 js L. apply map_ext_in. intros k Hk. rewrite nth_error_app1; auto. Qed.
Lemma ch_right : forall T1 T2 js, ch_at (T1 ++ T2) (map (Nat.add (length T1)) js) = ch_at T2 js.
Proof. intros T1 T2 js. unfold ch_at. rewrite map_map. apply map_ext. intros k. rewrite nth_shift. reflexivity. Qed.
Lemma cat_left : forall T1 T2 js, (forall k, In k js -> k < length T1) -> cat_ (T1 ++ T2) js = cat_ T1 js.
Proof. intros. rewrite <- !ch_at_fst, ch_left; auto. Qed.
Lemma cat_right : forall T1 T2 js, cat_ (T1 ++ T2) (map (Nat.add (length T1)) js) = cat_ T2 js.
Proof. intros. rewrite <- !ch_at_fst, ch_right; auto. Qed.
Lemma fp_app : forall T1 T2, fp (T1 ++ T2) = fp T1 ++ fp T2.
Proof. intros. unfold fp. apply flat_map_app. Qed.
Lemma inv_in : forall H T r, inv H T -> In r (fp T) -> inH H r.
Proof. intros H T r [O _] Hr. apply in_flat_map in Hr as (x & Hx & Hr). eapply own_in; eauto. Qed.

Lemma inv_app : forall H1 H2 T1 T2, inv H1 T1 -> pre H1 H2 -> inv H2 T2 -> (forall r, In r (fp T2) -> ~ inH H1 r) -> inv H2 (T1 ++ T2).
Proof.
  intros H1 H2 T1 T2 I1 P [O2 A2] F. pose proof (pre_inv _ _ _ P I1) as [O1 A1]. split.
  - intros x Hx. apply in_app_or in Hx as [Hx|Hx]; auto.
  - apply nth_apart. intros i j x y Hi Hj N r R1 R2.
    destruct (Nat.lt_ge_cases i (length T1)) as [Li|Li]; destruct (Nat.lt_ge_cases j (length T1)) as [Lj|Lj].
    + rewrite nth_error_app1 in Hi, Hj by auto. apply (apart_nth T1 A1 i j x y Hi Hj N r R1 R2).
    + rewrite nth_error_app1 in Hi by auto. rewrite nth_error_app2 in Hj by auto. apply (F r); [eapply in_fp; [eapply nth_error_In; eauto|auto]|].
      eapply inv_in; [exact I1|]. eapply in_fp; [eapply nth_error_In; eauto|auto].
    + rewrite nth_error_app2 in Hi by auto. rewrite nth_error_app1 in Hj by auto. apply (F r); [eapply in_fp; [eapply nth_error_In; eauto|auto]|].
      eapply inv_in; [exact I1|]. eapply in_fp; [eapply nth_error_In; eauto|auto].
    + rewrite nth_error_app2 in Hi, Hj by auto. apply (apart_nth T2 A2 (i - length T1) (j - length T1) x y Hi Hj ltac:(lia) r R1 R2).
Qed.
Lemma root_left : forall H T1 T2 a js, inv H T1 -> root H T1 a js -> ~ In (RA a) (fp T2) -> root H (T1 ++ T2) a js.
Proof.
  intros H T1 T2 a js I R N. destruct R as [k x E1 E2 E3 E4 E5|l L D A C N'].
  - eapply r_one; eauto. apply nth_left. auto.
  - eapply r_many; eauto; [apply atp_left; auto|]. rewrite fp_app. intros X. apply in_app_or in X as [X|X]; auto.
Qed.
Lemma root_right : forall H T1 T2 a js, root H T2 a js -> ~ In (RA a) (fp T1) -> root H (T1 ++ T2) a (map (Nat.add (length T1)) js).
Proof.
  intros H T1 T2 a js R N. destruct R as [k x E1 E2 E3 E4 E5|l L D A C N'].
  - subst js. eapply r_one; eauto; [reflexivity|]. rewrite nth_shift. auto.
  - eapply r_many; [rewrite map_length; auto| |apply atp_right; eauto|exact C|].
    + apply Injective_map_NoDup; auto. intros x y E. lia.
    + rewrite fp_app. intros X. apply in_app_or in X as [X|X]; auto.
Qed.

Lemma fop_app : forall {X} (R : X -> X -> Prop) l r, ForallOrdPairs R l -> ForallOrdPairs R r -> (forall x y, In x l -> In y r -> R x y) -> ForallOrdPairs R (l ++ r).
Proof.
  intros X R l r A B C. induction A as [|x l F A IH]; cbn; auto. constructor.
  - apply Forall_app. split; auto. apply Forall_forall. intros y Hy. apply C; auto. left; auto.
  - apply IH. intros. apply C; auto. right; auto.
Qed.
Lemma fop_map : forall {X Y} (R : X -> X -> Prop) (Q : Y -> Y -> Prop) (f : X -> Y) l, ForallOrdPairs R l ->
  (forall x y, In x l -> In y l -> R x y -> Q (f x) (f y)) -> ForallOrdPairs Q (map f l).
Proof.
  intros X Y R Q f l A. induction A as [|x l F A IH]; intros C; cbn; constructor.
  - apply Forall_forall. intros y Hy. apply in_map_iff in Hy as (z & <- & Hz). apply C; [left; auto|right; auto|]. rewrite Forall_forall in F. auto.
  - apply IH. intros u v Hu Hv. apply C; right; auto.
Qed.

Lemma built_app : forall H1 H2 T1 T2 rs1 rs2 c1 c2, built H1 T1 rs1 c1 -> pre H1 H2 -> built H2 T2 rs2 c2 -> fresh H1 T2 rs2 ->
  built H2 (T1 ++ T2) (rs1 ++ shift (length T1) rs2) (c1 ++ c2).
Proof.
  intros H1 H2 T1 T2 rs1 rs2 c1 c2 (I1 & R1 & S1 & C1) P (I2 & R2 & S2 & C2) (F1 & F2).
  rewrite Forall_forall in R1, R2. unfold built. split; [eapply inv_app; eauto|]. split; [|split].
  - apply Forall_forall. intros p Hp. apply in_app_or in Hp as [Hp|Hp].
    + apply root_left; [eapply pre_inv; eauto|eapply pre_root; eauto|]. intros X. apply (F1 _ X). eapply root_in; eauto.
    + apply in_map_iff in Hp as (q & <- & Hq). cbn [fst snd]. apply root_right; auto. intros X. apply (F2 q Hq). eapply inv_in; eauto.
  - apply fop_app.
    + rewrite <- (map_id rs1). eapply fop_map; [exact S1|]. intros p q Hp Hq (N & S). split; auto. destruct S as [S|[(L1 & B1) (L2 & B2)]]; [left; auto|right].
      unfold big. rewrite !cat_left; auto; intros k Hk; eapply root_js; [|exact Hk| |exact Hk]; eauto.
    + eapply fop_map; [exact S2|]. intros p q Hp Hq (N & S). split; auto. cbn [fst snd]. destruct S as [S|[(L1 & B1) (L2 & B2)]]; [left|right].
      * intros k Hk Hk'. apply in_map_iff in Hk as (i & <- & Hi). apply in_map_iff in Hk' as (j & Ej & Hj). assert (i = j) as -> by lia. apply (S j); auto.
      * unfold big. rewrite !cat_right, !map_length. auto.
    + intros p q Hp Hq. apply in_map_iff in Hq as (q' & <- & Hq). split.
      * cbn [fst]. intros E. apply (F2 q' Hq). rewrite <- E. eapply root_in; eauto.
      * left. cbn [snd]. intros k Hk Hk'. apply in_map_iff in Hk' as (j & Ej & _). pose proof (root_js _ _ _ _ k (R1 p Hp) Hk). lia.
  - rewrite map_app, <- C1, <- C2. f_equal.
    + apply map_ext_in. intros p Hp. apply ch_left. intros k Hk. eapply root_js; eauto.
    + unfold shift. rewrite map_map. apply map_ext. intros p. cbn [snd]. apply ch_right.
Qed.

(* ---------------- concatenation ---------------- *)

Lemma root_nodup : forall H T a js, root H T a js -> NoDup js.
Proof. intros H T a js [k x -> _ _ _ _|l _ D _ _ _]; auto. constructor; [intros []|constructor]. Qed.
Lemma own_cell : forall H e, own H e -> exists c, cellA H (en_a e) = Some c /\ c <> AEps /\ c <> AMoved.
Proof. intros H e O. destruct O; eexists; (split; [eassumption|split; discriminate]). Qed.
Lemma f2_len : forall {X Y} (R : X -> Y -> Prop) l r, Forall2 R l r -> length l = length r.
Proof. intros X Y R l r F. induction F; cbn; auto. Qed.
Lemma root_items : forall H T a js, inv H T -> root H T a js -> exists xs, cat_items H a = Ok xs /\ atp T js xs /\ 1 <= length js.
Proof.
  intros H T a js [O _] R. unfold cat_items. destruct R as [k x -> E Ea N1 N2|l L D A C N].
  - destruct (own_cell H x) as (c & C & _ & NM); [apply O; eapply nth_error_In; eauto|]. rewrite Ea in C. destruct (cellA_get _ _ _ C) as (z & Z1 & Z2).
    rewrite Z1. cbn [bind]. rewrite Z2. exists [a]. split; [|split; [|cbn; lia]].
    + destruct c; auto; [rewrite C in N2; congruence|]. destruct (N1 l). auto.
    + constructor; [|constructor]. eauto.
  - destruct (cellA_get _ _ _ C) as (z & Z1 & Z2). rewrite Z1. cbn [bind]. rewrite Z2. exists l. split; auto. split; auto. lia.
Qed.
Lemma newA_in : forall H c, inH (snd (newA H c)) (RA (fst (newA H c))).
Proof. intros. cbn. rewrite app_length. cbn. lia. Qed.
Lemma newA_cell : forall H c, cellA (snd (newA H c)) (fst (newA H c)) = Some c.
Proof. intros. unfold cellA. cbn. rewrite nth_last. reflexivity. Qed.

Lemma newCat_root : forall H T a js b js', inv H T -> root H T a js -> root H T b js' -> (forall k, In k js -> ~ In k js') ->
  exists l, newCat H a b = Ok (newA H (ACat l)) /\ root (snd (newA H (ACat l))) T (length (hA H)) (js ++ js').
Proof.
  intros H T a js b js' I R R' D. destruct (root_items _ _ _ _ I R) as (xs & X1 & X2 & X3). destruct (root_items _ _ _ _ I R') as (ys & Y1 & Y2 & Y3).
  unfold newCat. rewrite X1, Y1. cbn [bind]. exists (xs ++ ys).
  pose proof (f2_len _ _ _ X2) as LX. pose proof (f2_len _ _ _ Y2) as LY. split.
  - destruct xs as [|x xs]; [cbn in *; lia|]. cbn [app]. destruct ys as [|y ys]; [cbn in *; lia|]. destruct xs; reflexivity.
  - apply r_many with (xs ++ ys).
    + rewrite app_length. lia.
    + pose proof (root_nodup _ _ _ _ R) as N1. pose proof (root_nodup _ _ _ _ R') as N2. clear -N1 N2 D.
      induction N1 as [|k js Nk N1 IH]; auto. cbn. constructor; [|apply IH; intros; apply D; right; auto].
      intros X. apply in_app_or in X as [X|X]; [contradiction|]. apply (D k); auto. left. auto.
    + apply Forall2_app; auto.
    + exact (newA_cell H (ACat (xs ++ ys))).
    + intros X. pose proof (inv_in _ _ _ I X) as Y. cbn in Y. lia.
Qed.

Definition pq_ok (H : heap) (T : list ent) (pq : (nat * list nat) * (nat * list nat)) : Prop :=
  root H T (fst (fst pq)) (snd (fst pq)) /\ root H T (fst (snd pq)) (snd (snd pq)) /\ (forall k, In k (snd (fst pq)) -> ~ In k (snd (snd pq))).

Lemma hmap_cat : forall T pqs H, inv H T -> (forall pq, In pq pqs -> pq_ok H T pq) ->
  exists rs H', hmap (fun H lr => hmap (fun H ab => newCat H (fst ab) (snd ab)) H (pairs (fst lr) (snd lr))) H
                  (map (fun pq => ([fst (fst pq)], [fst (snd pq)])) pqs) = Ok (map (fun p => [fst p]) rs, H') /\ pre H H' /\
    (forall p, In p rs -> root H' T (fst p) (snd p)) /\ map snd rs = map (fun pq => snd (fst pq) ++ snd (snd pq)) pqs /\
    NoDup (map fst rs) /\ (forall p, In p rs -> ~ inH H (RA (fst p))).
Proof.
  intros T. induction pqs as [|pq pqs IH]; intros H I A.
  - exists [], H. split; auto. split; [apply pre_refl|]. split; [intros p []|]. split; auto. split; [constructor|intros p []].
  - destruct (A pq (or_introl eq_refl)) as (R1 & R2 & D). destruct (newCat_root H T _ _ _ _ I R1 R2 D) as (l & E & R).
    cbn [map hmap fst snd pairs flat_map app]. rewrite E. cbn [bind fst snd]. set (H1 := snd (newA H (ACat l))) in *.
    assert (P : pre H H1) by apply pre_newA.
    destruct (IH H1) as (rs & H' & E' & P' & R' & S' & N' & F').
    + eapply pre_inv; eauto.
    + intros z Hz. destruct (A z (or_intror Hz)) as (A1 & A2 & A3). split; [|split]; auto; eapply pre_root; eauto.
    + cbn [snd newA] in H1. fold H1. rewrite E'. cbn [bind fst snd]. exists ((length (hA H), snd (fst pq) ++ snd (snd pq)) :: rs), H'. split; auto.
      split; [eapply pre_trans; eauto|]. split.
      { intros p [<-|Hp]; auto. cbn [fst snd]. eapply pre_root; eauto. eapply pre_inv; eauto. }
      split; [cbn [map snd]; congruence|]. assert (IN : inH H1 (RA (length (hA H)))) by apply (newA_in H (ACat l)). split.
      * cbn [map fst]. constructor; auto. intros X. apply in_map_iff in X as (p & Ep & Hp). apply (F' p Hp). rewrite Ep. auto.
      * intros p [<-|Hp]; [cbn; lia|]. intros X. apply (F' p Hp). eapply pre_in; eauto.
Qed.

Lemma pairs_map : forall {X Y X' Y'} (f : X -> X') (g : Y -> Y') l r, pairs (map f l) (map g r) = map (fun p => (f (fst p), g (snd p))) (pairs l r).
Proof.
  intros X Y X' Y' f g l r. unfold pairs. induction l as [|x l IH]; cbn [map flat_map]; auto. rewrite map_app, IH. f_equal. rewrite !map_map. reflexivity.
Qed.
Lemma flat_pairs : forall {X Y Z} (f : X -> Y -> Z) l r, flat_map (fun x => map (fun y => f x y) r) l = map (fun p => f (fst p) (snd p)) (pairs l r).
Proof.
  intros X Y Z f l r. unfold pairs. induction l as [|x l IH]; cbn [flat_map map]; auto. rewrite map_app, IH. f_equal. rewrite map_map. reflexivity.
Qed.

(* ---------------- one entity per root ---------------- *)

Definition noent : ent := mkEnt 0 0 UB [].
Definition sel (T : list ent) (js : list nat) : list ent := map (fun k => nth k T noent) js.
Definition pack (T : list ent) (p : nat * list nat) : ent :=
  match snd p with
  | [k] => nth k T noent
  | js => mkEnt (fst p) (och_c (ch_at T js)) (och_V (ch_at T js)) (RA (fst p) :: fp (sel T js))
  end.

Lemma sumV_one : forall V, sumV [V] = V.
Proof. intros [v| | | |]; reflexivity. Qed.
Lemma nth_nth : forall (T : list ent) k x, nth_error T k = Some x -> nth k T noent = x.
Proof. intros. apply nth_error_nth. auto. Qed.
Lemma atp_sel : forall T js l, atp T js l -> map en_a (sel T js) = l /\ map (fun e => (en_c e, en_V e)) (sel T js) = ch_at T js.
Proof.
  intros T js l A. induction A as [|k a js l (x & E & Ea) A [IH1 IH2]]; [auto|]. cbn [sel map ch_at]. fold (sel T js). fold (ch_at T js).
  rewrite E, (nth_nth _ _ _ E), IH1, IH2, Ea. auto.
Qed.
Lemma sel_in : forall T js x, (forall k, In k js -> k < length T) -> In x (sel T js) -> exists k, In k js /\ nth_error T k = Some x.
Proof.
  intros T js x L Hx. apply in_map_iff in Hx as (k & <- & Hk). exists k. split; auto. apply nth_error_nth'. auto.
Qed.
Lemma sel_fp : forall T js r, (forall k, In k js -> k < length T) -> In r (fp (sel T js)) -> exists k x, In k js /\ nth_error T k = Some x /\ In r (en_F x).
Proof.
  intros T js r L Hr. apply in_flat_map in Hr as (x & Hx & Hr). destruct (sel_in T js x L Hx) as (k & Hk & E). eauto.
Qed.
Lemma sel_apart : forall T js, apart T -> NoDup js -> (forall k, In k js -> k < length T) -> apart (sel T js).
Proof.
  intros T js A N. induction N as [|k js Nk N IH]; intros L; cbn; constructor.
  - apply Forall_forall. intros y Hy. destruct (sel_in T js y) as (j & Hj & Ej); auto; [intros; apply L; right; auto|].
    apply (apart_nth T A k j); auto; [apply nth_error_nth'; apply L; left; auto|]. intros ->. contradiction.
  - apply IH. intros; apply L; right; auto.
Qed.

Lemma pack_own : forall H T p, inv H T -> root H T (fst p) (snd p) -> (exists c, konst c (cat_ T (snd p))) ->
  own H (pack T p) /\ en_a (pack T p) = fst p /\ en_c (pack T p) = och_c (ch_at T (snd p)) /\ en_V (pack T p) = och_V (ch_at T (snd p)) /\
  (forall r, In r (en_F (pack T p)) -> r = RA (fst p) /\ ~ In r (fp T) \/ exists k x, In k (snd p) /\ nth_error T k = Some x /\ In r (en_F x)).
Proof.
  intros H T [a js] [O A] R (c & K). cbn [fst snd] in *. pose proof (fun k => root_js H T a js k) as RJ.
  destruct R as [k x -> E Ea N1 N2|l L D AT C N].
  - cbn [pack snd]. rewrite (nth_nth _ _ _ E). split; [apply O; eapply nth_error_In; eauto|]. split; auto. cbn [ch_at map]. rewrite E. cbn [och_c fst].
    split; auto. split; [unfold och_V; cbn [map snd]; rewrite sumV_one; auto|]. intros r Hr. right. exists k, x. split; [left; auto|auto].
  - assert (LT : forall k, In k js -> k < length T) by (intros k Hk; apply RJ with (k := k); auto; eapply r_many; eauto).
    destruct (atp_sel T js l AT) as (S1 & S2).
    assert (Ep : pack T (a, js) = mkEnt a (och_c (ch_at T js)) (och_V (ch_at T js)) (RA a :: fp (sel T js))).
    { unfold pack. cbn [snd fst]. destruct js as [|k [|k2 js]]; auto. cbn in L. lia. }
    rewrite Ep. cbn [en_a en_c en_V en_F]. split; [|split; [auto|split; [auto|split; [auto|]]]].
    + assert (Hc : och_c (ch_at T js) = c).
      { apply K. rewrite <- ch_at_fst. destruct js as [|k js]; [cbn in L; lia|]. cbn [ch_at map och_c]. left. auto. }
      apply o_cat with (sel T js); cbn [en_a en_c en_V en_F].
      * rewrite S1. auto.
      * unfold sel. rewrite map_length. auto.
      * intros x Hx. rewrite Hc. apply K. rewrite <- ch_at_fst, <- S2, map_map. cbn [fst]. apply in_map_iff. exists x. auto.
      * intros x Hx. destruct (sel_in T js x LT Hx) as (k & _ & E). apply O. eapply nth_error_In; eauto.
      * apply sel_apart; auto.
      * intros X. apply N. destruct (sel_fp T js _ LT X) as (k & x & _ & E & Hr). apply fp_nth. eauto.
      * unfold och_V. rewrite <- S2, map_map. reflexivity.
      * reflexivity.
    + intros r [<-|Hr]; [left; auto|right]. destruct (sel_fp T js _ LT Hr) as (k & x & Hk & E & Hr'). eauto.
Qed.

Lemma konst_adjd : forall c l, konst c l -> adjd l -> length l < 2.
Proof.
  intros c [|x [|y l]] K A; cbn; try lia. destruct A as (A & _). destruct A. rewrite (K x), (K y); auto; [right; left; auto|left; auto].
Qed.

Lemma pack_all : forall H T rs chs, built H T rs chs -> (forall ch, In ch chs -> exists c, konst c (map fst ch)) ->
  inv H (map (pack T) rs) /\ map en_a (map (pack T) rs) = map fst rs /\
  map (fun e => (en_c e, en_V e)) (map (pack T) rs) = map (fun ch => (och_c ch, och_V ch)) chs /\
  (forall r, In r (fp (map (pack T) rs)) -> In r (fp T) \/ exists p, In p rs /\ r = RA (fst p)).
Proof.
  intros H T rs chs (I & R & S & C) K. rewrite Forall_forall in R.
  assert (K' : forall p, In p rs -> exists c, konst c (cat_ T (snd p))).
  { intros p Hp. destruct (K (ch_at T (snd p))) as (c & Kc); [rewrite <- C; apply in_map_iff; eauto|]. exists c. rewrite <- ch_at_fst. auto. }
  assert (PO := fun p Hp => pack_own H T p I (R p Hp) (K' p Hp)). split; [split|].
  - intros x Hx. apply in_map_iff in Hx as (p & <- & Hp). apply (PO p Hp).
  - eapply fop_map; [exact S|]. intros p q Hp Hq (N & D) r R1 R2.
    destruct (PO p Hp) as (_ & _ & _ & _ & F1). destruct (PO q Hq) as (_ & _ & _ & _ & F2).
    assert (DJ : forall k, In k (snd p) -> ~ In k (snd q)).
    { destruct D as [D|[(L & B) _]]; auto. destruct (K' p Hp) as (c & Kc). pose proof (konst_adjd c _ Kc B) as X. unfold cat_ in X. rewrite map_length in X. lia. }
    destruct (F1 r R1) as [(E1 & N1)|(k1 & x1 & K1 & E1 & I1)]; destruct (F2 r R2) as [(E2 & N2)|(k2 & x2 & K2 & E2 & I2)].
    + congruence.
    + apply N1. apply fp_nth. eauto.
    + apply N2. apply fp_nth. eauto.
    + assert (k1 <> k2) by (intros ->; apply (DJ k2); auto). destruct I as [_ A]. exact (apart_nth T A k1 k2 x1 x2 E1 E2 H0 r I1 I2).
  - split; [|split].
    + rewrite map_map. apply map_ext_in. intros p Hp. apply (PO p Hp).
    + rewrite <- C, !map_map. apply map_ext_in. intros p Hp. destruct (PO p Hp) as (_ & _ & -> & -> & _). reflexivity.
    + intros r Hr. apply in_flat_map in Hr as (x & Hx & Hr). apply in_map_iff in Hx as (p & <- & Hp). destruct (PO p Hp) as (_ & _ & _ & _ & F).
      destruct (F r Hr) as [(-> & _)|(k & x & Hk & E & Hr')]; [right; eauto|left; apply fp_nth; eauto].
Qed.

(* ---------------- restriction ---------------- *)

Lemma inv_set : forall H T H' k x y, inv H T -> nth_error T k = Some x -> own H' y -> ext H H' (en_F x) (en_F y) -> inv H' (set_nth T k y).
Proof.
  intros H T H' k x y [O A] E Oy X.
  assert (L : k < length T) by (apply nth_error_Some; congruence).
  assert (Nth : forall j z, nth_error (set_nth T k y) j = Some z -> (j = k /\ z = y) \/ (j <> k /\ nth_error T j = Some z)).
  { intros j z. rewrite nth_set_nth. destruct (Nat.eqb_spec j k) as [->|Nj]; cbn [andb]; [|auto]. apply Nat.ltb_lt in L. rewrite L. intros [= <-]. auto. }
  assert (Keep : forall j z, nth_error T j = Some z -> j <> k -> forall r, In r (en_F z) -> same H H' r).
  { intros j z Ej Nj r Hr. destruct X as (_ & B & _). apply B; [eapply own_in; eauto; apply O; eapply nth_error_In; eauto|].
    intros Y. apply (apart_nth T A j k z x Ej E Nj r Hr Y). }
  split.
  - intros z Hz. apply In_nth_error in Hz as (j & Ej). apply Nth in Ej as [[-> ->]|[Nj Ej]]; auto.
    apply own_frame with H; [apply O; eapply nth_error_In; eauto|]. eapply Keep; eauto.
  - apply nth_apart. intros i j u v Hi Hj Nij. apply Nth in Hi as [[-> ->]|[Ni Hi]]; apply Nth in Hj as [[-> ->]|[Nj Hj]].
    + congruence.
    + intros r R1 R2. destruct X as (_ & _ & C). destruct (C r R1) as [Y|Y]; [apply (apart_nth T A k j x v E Hj Nij r Y R2)|].
      apply Y. eapply own_in; [apply O; eapply nth_error_In; apply Hj|auto].
    + intros r R1 R2. destruct X as (_ & _ & C). destruct (C r R2) as [Y|Y]; [apply (apart_nth T A i k u x Hi E Nij r R1 Y)|].
      apply Y. eapply own_in; [apply O; eapply nth_error_In; apply Hi|auto].
    + apply (apart_nth T A i j); auto.
Qed.
Lemma set_middle : forall {X} (U W : list X) x y, set_nth (U ++ x :: W) (length U) y = U ++ y :: W.
Proof. intros X U W x y. induction U as [|u U IH]; cbn; auto. f_equal. auto. Qed.
Lemma inv_mid : forall H H' U W x y, inv H (U ++ x :: W) -> own H' y -> ext H H' (en_F x) (en_F y) -> inv H' (U ++ y :: W).
Proof.
  intros H H' U W x y I O X. rewrite <- (set_middle U W x y). eapply inv_set; eauto. rewrite nth_error_app2, Nat.sub_diag by lia. reflexivity.
Qed.

Definition plain (H : heap) (a : nat) : Prop := (forall l, cellA H a <> Some (ACat l)) /\ cellA H a <> Some AEps.

Lemma newSingle_spec : forall H c v, c <> 0 -> exists a s H', newSingle H c v = (a, H') /\ pre H H' /\ own H' (mkEnt a c (Ok v) [RA a; RS s]) /\
  plain H' a /\ ~ inH H (RA a) /\ ~ inH H (RS s).
Proof.
  intros H c v N. exists (length (hA H)), (length (hS H)), (snd (newSingle H c v)). split; [reflexivity|]. split; [apply pre_newSingle|].
  assert (C : cellA (snd (newSingle H c v)) (length (hA H)) = Some (ASing (length (hS H)))) by (unfold cellA; cbn; rewrite nth_last; reflexivity).
  split; [|split; [split; rewrite C; discriminate|split; cbn; lia]].
  apply o_sing with (length (hS H)) v; auto. cbn. apply nth_last.
Qed.

Lemma pre_ext : forall H H' F F', pre H H' -> (forall r, In r F' -> In r F \/ ~ inH H r) -> ext H H' F F'.
Proof. intros H H' F F' P C. split; [intros; eapply pre_in; eauto|]. split; [intros; apply pre_same; auto|auto]. Qed.

Lemma newWithin_spec : forall H e Iv, own H e -> exists e' H', newWithin H (en_a e) Iv = Ok (en_a e', H') /\ pre H H' /\ own H' e' /\
  (forall r, In r (en_F e') -> In r (en_F e) \/ ~ inH H r) /\ en_c e' = en_c e /\ en_V e' = withinV Iv (en_V e) /\ plain H' (en_a e') /\ ~ inH H (RA (en_a e')).
Proof.
  intros H e Iv O.
  assert (Other : forall z, getA H (en_a e) = Ok z -> (forall s, at_cell z <> ASing s) -> at_cell z <> AMoved ->
    newWithin H (en_a e) Iv = Ok (newA H (AWithin (en_a e) Iv))).
  { intros z Z N1 N2. unfold newWithin. rewrite Z. cbn [bind]. destruct (at_cell z); try reflexivity; [destruct (N1 n); auto|congruence]. }
  assert (Gen : (exists z, getA H (en_a e) = Ok z /\ (forall s, at_cell z <> ASing s) /\ at_cell z <> AMoved) ->
    exists e' H', newWithin H (en_a e) Iv = Ok (en_a e', H') /\ pre H H' /\ own H' e' /\
      (forall r, In r (en_F e') -> In r (en_F e) \/ ~ inH H r) /\ en_c e' = en_c e /\ en_V e' = withinV Iv (en_V e) /\ plain H' (en_a e') /\ ~ inH H (RA (en_a e'))).
  { intros (z & Z & N1 & N2). set (H' := snd (newA H (AWithin (en_a e) Iv))).
    exists (mkEnt (length (hA H)) (en_c e) (withinV Iv (en_V e)) (RA (length (hA H)) :: en_F e)), H'. cbn [en_a en_c en_V en_F].
    assert (P : pre H H') by apply pre_newA. assert (C : cellA H' (length (hA H)) = Some (AWithin (en_a e) Iv)) by apply (newA_cell H (AWithin (en_a e) Iv)).
    split; [rewrite (Other z); auto|]. split; auto. split.
    - apply o_within with e Iv; auto; [eapply pre_own; eauto|]. cbn [en_a]. intros X. pose proof (own_in _ _ O _ X) as Y. cbn in Y. lia.
    - split; [intros r [<-|Hr]; [right; cbn; lia|auto]|]. split; auto. split; auto. split; [split; rewrite C; discriminate|cbn; lia]. }
  assert (Nc := own_letter H e O).
  destruct O as [e s v C S N EV EF|e its C L Ec Sub A NA EV EF|e d its C D NE Ec Sub A NA ND EV EF|e x Iv' C Ec O NA EV EF].
  - destruct (cellA_get _ _ _ C) as (z & Z1 & Z2). destruct (newSingle_spec H (en_c e) (land1 v Iv) Nc) as (a & s' & H' & E & P & O' & PL & F1 & F2).
    exists (mkEnt a (en_c e) (Ok (land1 v Iv)) [RA a; RS s']), H'. cbn [en_a en_c en_V en_F]. split.
    + unfold newWithin. rewrite Z1. cbn [bind]. rewrite Z2. unfold getS. rewrite S. cbn [bind fst snd]. rewrite E. reflexivity.
    + split; auto. split; auto. split; [intros r [<-|[<-|[]]]; auto|]. split; auto. split; [rewrite EV; reflexivity|auto].
  - apply Gen. destruct (cellA_get _ _ _ C) as (z & Z1 & Z2). exists z. rewrite Z2. split; auto. split; discriminate.
  - apply Gen. destruct (cellA_get _ _ _ C) as (z & Z1 & Z2). exists z. rewrite Z2. split; auto. split; discriminate.
  - apply Gen. destruct (cellA_get _ _ _ C) as (z & Z1 & Z2). exists z. rewrite Z2. split; auto. split; discriminate.
Qed.

Lemma hmap_within : forall Iv W U H, inv H (U ++ W) -> exists W' H',
  hmap (fun H l => hmap (fun H a => newWithin H a Iv) H l) H (map (fun e => [en_a e]) W) = Ok (map (fun e => [en_a e]) W', H') /\ pre H H' /\ inv H' (U ++ W') /\
  map (fun e => (en_c e, en_V e)) W' = map (fun e => (en_c e, withinV Iv (en_V e))) W /\ (forall e, In e W' -> plain H' (en_a e)) /\
  (forall r, In r (fp W') -> In r (fp W) \/ ~ inH H r) /\ (forall e, In e W' -> ~ inH H (RA (en_a e))).
Proof.
  intros Iv. induction W as [|e W IH]; intros U H I.
  - exists [], H. split; auto. split; [apply pre_refl|]. split; auto. split; auto. split; [intros e []|]. split; [intros r []|intros e []].
  - destruct (newWithin_spec H e Iv) as (e' & H1 & E & P & O & F & Ec & EV & PL & NI); [apply I; apply in_or_app; right; left; auto|].
    assert (I1 : inv H1 ((U ++ [e']) ++ W)) by (rewrite <- app_assoc; cbn; eapply inv_mid; eauto; apply pre_ext; auto).
    destruct (IH _ _ I1) as (W' & H' & E' & P' & I' & M' & PL' & F' & N'). exists (e' :: W'), H'. rewrite <- app_assoc in I'. cbn [app] in I'.
    cbn [map hmap]. rewrite E. cbn [bind fst snd]. rewrite E'. cbn [bind fst snd]. split; auto. split; [eapply pre_trans; eauto|]. split; auto. split; [cbn; congruence|]. split; [|split].
    + intros x [<-|Hx]; auto. destruct PL as (PL1 & PL2). assert (IA : inH H1 (RA (en_a e'))) by (eapply own_in; [exact O|]; eapply own_self; eauto).
      pose proof (same_cell H1 H' _ (pre_same _ _ _ P' IA)) as EC. split; rewrite EC; auto.
    + intros r Hr. cbn in Hr. apply in_app_or in Hr as [Hr|Hr].
      * destruct (F r Hr); auto. left. apply in_or_app. auto.
      * destruct (F' r Hr) as [X|X]; [left; apply in_or_app; auto|]. right. intros Y. apply X. eapply pre_in; eauto.
    + intros x [<-|Hx]; auto. intros Y. apply (N' x Hx). eapply pre_in; eauto.
Qed.

(* Roots that are entities. *)
Lemma built_ones : forall H T, inv H T -> (forall e, In e T -> plain H (en_a e)) ->
  built H T (combine (map en_a T) (map (fun k => [k]) (seq 0 (length T)))) (map (fun e => [(en_c e, en_V e)]) T).
Proof.
  intros H T I PL. unfold built. split; auto.
  assert (In1 : forall p, In p (combine (map en_a T) (map (fun k => [k]) (seq 0 (length T)))) ->
    exists k x, snd p = [k] /\ nth_error T k = Some x /\ en_a x = fst p).
  { intros [a js] Hp. apply In_nth_error in Hp as (k & Hk). exists k.
    assert (G : forall (X : list ent) n k a js, nth_error (combine (map en_a X) (map (fun k => [k]) (seq n (length X)))) k = Some (a, js) ->
      exists x, js = [n + k] /\ nth_error X k = Some x /\ en_a x = a).
    { clear. induction X as [|y X IH]; intros n k a js E; [destruct k; discriminate|]. destruct k as [|k]; cbn in E.
      - injection E as <- <-. exists y. rewrite Nat.add_0_r. auto.
      - destruct (IH (S n) k a js E) as (x & -> & E1 & E2). exists x. rewrite Nat.add_succ_r. auto. }
    destruct (G T 0 k a js Hk) as (x & E1 & E2 & E3). exists x. auto. }
  split; [|split].
  - apply Forall_forall. intros p Hp. destruct (In1 p Hp) as (k & x & E1 & E2 & E3). destruct (PL x (nth_error_In _ _ E2)) as (P1 & P2).
    rewrite E3 in P1, P2. eapply r_one; eauto.
  - assert (G : forall (X : list ent) n, (forall x, In x X -> own H x) -> apart X ->
      ForallOrdPairs (rsep T) (combine (map en_a X) (map (fun k => [k]) (seq n (length X))))).
    { clear. induction X as [|y X IH]; intros n O A; cbn; constructor.
      - inversion A as [|? ? F A' ]; subst. rewrite Forall_forall in F. apply Forall_forall. intros [a js] Hp.
        assert (Ha : In a (map en_a X)) by (eapply in_combine_l; eauto). assert (Hj : In js (map (fun k => [k]) (seq (S n) (length X)))) by (eapply in_combine_r; eauto).
        apply in_map_iff in Ha as (x & <- & Hx). apply in_map_iff in Hj as (j & <- & Hj). apply in_seq in Hj. split; cbn [fst snd].
        + intros E. apply (F x Hx (RA (en_a y))); [eapply own_self; apply O; left; auto|]. rewrite E. eapply own_self. apply O. right. auto.
        + left. intros k [<-|[]] [E|[]]. lia.
      - inversion A; subst. apply IH; auto. intros; apply O; right; auto. }
    apply G; apply I.
  - assert (G : forall (X U : list ent) n, n = length U ->
      map (fun p => ch_at (U ++ X) (snd p)) (combine (map en_a X) (map (fun k => [k]) (seq n (length X)))) = map (fun e => [(en_c e, en_V e)]) X).
    { clear. induction X as [|y X IH]; intros U n E; cbn [map combine seq length]; auto. f_equal.
      - cbn [snd ch_at map]. subst n. rewrite nth_error_app2, Nat.sub_diag by lia. reflexivity.
      - replace (U ++ y :: X) with ((U ++ [y]) ++ X) by (rewrite <- app_assoc; auto). apply IH. rewrite app_length. cbn. lia. }
    apply (G T [] 0 eq_refl).
Qed.
Lemma ones_fst : forall (T : list ent) n, map (fun p => [fst p]) (combine (map en_a T) (map (fun k => [k]) (seq n (length T)))) = map (fun e => [en_a e]) T.
Proof. induction T as [|x T IH]; intros n; cbn; auto. f_equal. apply IH. Qed.

(* ---------------- all of an expression ---------------- *)

Lemma pch_ne : forall r, sigfrag r -> pch r <> [] /\ forall ch, In ch (pch r) -> ch <> [].
Proof.
  intros r F. destruct (runs_ne r F) as (N & E). rewrite <- pch_runs in N, E. split.
  - intros X. rewrite X in N. auto.
  - intros ch Hc X. apply (E (map fst ch)); [apply in_map; auto|]. rewrite X. auto.
Qed.
Lemma konst_pch : forall r ch c, konst c (map fst ch) -> In ch (pch r) -> sigfrag r -> och_c ch = c.
Proof.
  intros r ch c K I F. destruct (pch_ne r F) as (_ & N). specialize (N ch I). destruct ch as [|p ch]; [congruence|]. apply K. left. auto.
Qed.
Lemma nodup_fop : forall {X} (f : X -> nat) l, NoDup (map f l) -> ForallOrdPairs (fun x y => f x <> f y) l.
Proof.
  intros X f l. induction l as [|x l IH]; cbn; intros N; constructor; inversion N as [|? ? Nx N']; subst; auto.
  apply Forall_forall. intros y Hy E. apply Nx. rewrite E. apply in_map. auto.
Qed.
Lemma filter_all : forall {X} (f : X -> bool) l, (forall x, In x l -> f x = true) -> filter f l = l.
Proof. intros X f l. induction l as [|x l IH]; cbn; intros A; auto. rewrite A by auto. f_equal. auto. Qed.

Theorem build : forall r, sigfrag r -> forall H, exists T rs H',
  dnf_of r H = Ok (map (fun p => [fst p]) rs, H') /\ pre H H' /\ built H' T rs (pch r) /\ fresh H T rs.
Proof.
  induction r as [c| |r IH|r1 IH1 r2 IH2|r1 IH1 r2 IH2|r1 IH1 r2 IH2|r IH Iv]; cbn [sigfrag]; intros F H; try contradiction.
  - (* Atom *)
    destruct (newSingle_spec H c [interval_default] F) as (a & s & H' & E & P & O & PL & F1 & F2).
    set (e := mkEnt a c (Ok [interval_default]) [RA a; RS s]) in *.
    assert (I : inv H' [e]) by (split; [intros x [<-|[]]; auto|repeat constructor]).
    exists [e], (combine (map en_a [e]) (map (fun k => [k]) (seq 0 (length [e])))), H'. split; [cbn [dnf_of]; rewrite E; reflexivity|].
    split; auto. split; [apply built_ones; auto; intros x [<-|[]]; auto|]. split.
    + intros r [<-|[<-|[]]]; auto.
    + intros p [<-|[]]; auto.
  - (* Plus *)
    destruct F as (F & c & K). destruct (IH F H) as (T & rs & H1 & E & P & B & FR).
    assert (K' : forall ch, In ch (pch r) -> konst c (map fst ch)) by (intros ch Hc; apply K; rewrite <- pch_runs; apply in_map; auto).
    destruct (pack_all _ _ _ _ B) as (I & EA & EV & FP); [eauto|]. set (its := map (pack T) rs) in *.
    assert (Lits : its <> []).
    { intros X. apply (f_equal (@length _)) in EV. rewrite X in EV. cbn in EV. rewrite map_length in EV. symmetry in EV. apply length_zero_iff_nil in EV. destruct (pch_ne r F). auto. }
    set (d := length (hD H1)). set (H2 := snd (newD H1 (map (fun p => [fst p]) rs))). set (a := length (hA H2)). set (H3 := snd (newA H2 (APlus d))).
    assert (P2 : pre H1 H2) by apply pre_newD. assert (P3 : pre H2 H3) by apply pre_newA.
    set (V := plusV (map en_V its)). set (e := mkEnt a c V (RA a :: RD d :: fp its)).
    assert (I3 : inv H3 its) by (eapply pre_inv; [|eapply pre_inv]; eauto).
    assert (Ia : ~ inH H2 (RA a)) by (cbn; lia). assert (Id : ~ inH H1 (RD d)) by (cbn; lia).
    assert (Ca : cellA H3 a = Some (APlus d)) by apply (newA_cell H2 (APlus d)).
    assert (Lc : forall x, In x its -> en_c x = c).
    { intros x Hx. assert (X : In (en_c x, en_V x) (map (fun ch => (och_c ch, och_V ch)) (pch r))) by (rewrite <- EV; apply in_map_iff; eauto).
      apply in_map_iff in X as (ch & [= <- _] & Hc). apply (konst_pch r ch c); auto. }
    assert (O : own H3 e).
    { apply o_plus with d its; cbn [e en_a en_c en_V en_F]; auto.
      - unfold listD. cbn. unfold d. rewrite nth_last. cbn. f_equal. rewrite <- (map_map en_a (fun a => [a]) its), EA, map_map. reflexivity.
      - apply I3.
      - apply I3.
      - intros X. apply Ia. eapply pre_in; [exact P2|]. eapply inv_in; eauto.
      - intros X. apply Id. eapply inv_in; eauto. }
    assert (I4 : inv H3 [e]) by (split; [intros x [<-|[]]; auto|repeat constructor]).
    exists [e], (combine (map en_a [e]) (map (fun k => [k]) (seq 0 (length [e])))), H3. split.
    { cbn [dnf_of]. rewrite E. reflexivity. }
    split; [eapply pre_trans; [|eapply pre_trans]; eauto|]. split.
    + replace (pch (Plus r)) with (map (fun e => [(en_c e, en_V e)]) [e]); [apply built_ones; auto; intros x [<-|[]]; split; cbn [e en_a]; rewrite Ca; discriminate|].
      cbn [map e en_c en_V pch]. destruct (pch r) as [|ch0 chs] eqn:EP; [destruct (pch_ne r F); congruence|]. cbn [hd].
      rewrite (konst_pch r ch0 c); [|apply K'; left; auto|rewrite EP; left; auto|auto]. do 3 f_equal. unfold V. f_equal.
      apply (f_equal (map snd)) in EV. rewrite !map_map in EV. exact EV.
    + destruct FR as (FR1 & FR2). split.
      * intros r0 Hr. cbn in Hr. rewrite app_nil_r in Hr. destruct Hr as [<-|[<-|Hr]].
        -- intros X. apply Ia. eapply pre_in; [exact P2|]. eapply pre_in; eauto.
        -- intros X. apply Id. eapply pre_in; eauto.
        -- destruct (FP r0 Hr) as [X|(p & Hp & ->)]; auto.
      * intros p [<-|[]]. cbn [fst e en_a]. intros X. apply Ia. eapply pre_in; [exact P2|]. eapply pre_in; eauto.
  - (* Cat *)
    destruct F as (F1 & F2 & SH). destruct (IH1 F1 H) as (T1 & rs1 & H1 & E1 & P1 & B1 & FR1). destruct (IH2 F2 H1) as (T2 & rs2 & H2 & E2 & P2 & B2 & FR2).
    pose proof (built_app _ _ _ _ _ _ _ _ B1 P2 B2 FR2) as (I & R & _ & C). set (rs2' := shift (length T1) rs2) in *. set (T := T1 ++ T2) in *. rewrite Forall_forall in R.
    assert (L1 : forall p k, In p rs1 -> In k (snd p) -> k < length T1).
    { intros p k Hp Hk. destruct B1 as (_ & R1 & _). rewrite Forall_forall in R1. eapply root_js; [apply (R1 p Hp)|auto]. }
    destruct (hmap_cat T (pairs rs1 rs2') H2 I) as (rs & H3 & E3 & P3 & R3 & S3 & N3 & F3).
    { intros [p q] Hpq. apply in_pairs in Hpq as (Hp & Hq). unfold pq_ok. cbn [fst snd]. split; [apply R; apply in_or_app; auto|]. split; [apply R; apply in_or_app; auto|].
      intros k Hk Hk'. apply in_map_iff in Hq as (q' & <- & Hq). cbn [snd] in Hk'. apply in_map_iff in Hk' as (j & Ej & _). pose proof (L1 p k Hp Hk). lia. }
    exists T, rs, H3. split.
    { cbn [dnf_of]. rewrite E1. cbn [bind fst snd]. rewrite E2. cbn [bind fst snd].
      assert (X : pairs (map (fun p => [fst p]) rs1) (map (fun p => [fst p]) rs2) = map (fun pq => ([fst (fst pq)], [fst (snd pq)])) (pairs rs1 rs2')).
      { rewrite pairs_map. unfold rs2', shift. rewrite <- (map_id rs1) at 2. rewrite pairs_map, map_map. reflexivity. }
      rewrite X, E3. cbn [bind fst snd]. rewrite filter_all; auto. intros x Hx. apply in_map_iff in Hx as (p & <- & _). reflexivity. }
    assert (P13 : pre H1 H3) by (eapply pre_trans; eauto). split; [eapply pre_trans; eauto|].
    assert (CH : map (fun p => ch_at T (snd p)) rs = pch (Cat r1 r2)).
    { rewrite <- (map_map snd (ch_at T) rs), S3, map_map. cbn [pch]. rewrite flat_pairs.
      destruct B1 as (_ & _ & _ & C1). destruct B2 as (_ & _ & _ & C2). rewrite <- C1, <- C2, pairs_map, map_map. unfold rs2', shift.
      replace (pairs rs1 (map (fun p => (fst p, map (Nat.add (length T1)) (snd p))) rs2)) with
        (map (fun pq => (fst pq, (fst (snd pq), map (Nat.add (length T1)) (snd (snd pq))))) (pairs rs1 rs2)) by (rewrite <- (map_id rs1) at 2; rewrite pairs_map; reflexivity).
      rewrite map_map. apply map_ext_in. intros [p q] Hpq. apply in_pairs in Hpq as (Hp & Hq). cbn [fst snd]. unfold ch_at at 1. rewrite map_app. f_equal.
      - apply ch_left. intros k Hk. eapply L1; eauto.
      - apply ch_right. }
    split; [split; [exact (pre_inv _ _ _ P3 I)|]|].
    + split; [apply Forall_forall; auto|]. split; [|exact CH].
      assert (LEN : length rs = length (runs r1) * length (runs r2)).
      { apply (f_equal (@length _)) in CH. rewrite map_length in CH. rewrite CH. cbn [pch]. rewrite flat_pairs, map_length, pairs_len, <- !pch_runs, !map_length. auto. }
      destruct SH as [(W1 & W2)|ADJ].
      * rewrite W1, W2 in LEN. destruct rs as [|p [|q rs]]; cbn in LEN; try lia. repeat constructor.
      * rewrite <- (map_id rs). eapply fop_map; [apply (nodup_fop fst rs N3)|]. intros p q Hp Hq N. split; auto. right.
        assert (BG : forall p, In p rs -> big T (snd p)).
        { clear p q Hp Hq N. intros p Hp. split.
          - assert (X : In (snd p) (map snd rs)) by (apply in_map; auto). rewrite S3 in X. apply in_map_iff in X as ([u v] & E & Hu). cbn [fst snd] in E. rewrite <- E, app_length.
            apply in_pairs in Hu as (Hu & Hv). destruct (root_items H2 T (fst u) (snd u) I) as (? & _ & _ & X1); [apply R; apply in_or_app; auto|].
            destruct (root_items H2 T (fst v) (snd v) I) as (? & _ & _ & X2); [apply R; apply in_or_app; auto|]. lia.
          - apply ADJ. rewrite <- (pch_runs (Cat r1 r2)), <- CH, map_map, <- ch_at_fst. apply in_map_iff. exists p. auto. }
        split; auto.
    + destruct FR1 as (FA & FB). destruct FR2 as (FC & FD). split.
      * intros r Hr. unfold T in Hr. rewrite fp_app in Hr. apply in_app_or in Hr as [Hr|Hr]; auto. intros X. apply (FC r Hr). eapply pre_in; eauto.
      * intros p Hp X. apply (F3 p Hp). eapply pre_in; [|eapply pre_in; [|exact X]]; eauto.
  - (* Alt *)
    destruct F as (F1 & F2). destruct (IH1 F1 H) as (T1 & rs1 & H1 & E1 & P1 & B1 & FR1). destruct (IH2 F2 H1) as (T2 & rs2 & H2 & E2 & P2 & B2 & FR2).
    exists (T1 ++ T2), (rs1 ++ shift (length T1) rs2), H2. split.
    { cbn [dnf_of]. rewrite E1. cbn [bind fst snd]. rewrite E2. cbn [bind fst snd]. rewrite map_app. unfold shift. rewrite map_map. reflexivity. }
    split; [eapply pre_trans; eauto|]. split; [eapply built_app; eauto|]. destruct FR1 as (FA & FB). destruct FR2 as (FC & FD). split.
    + intros r Hr. rewrite fp_app in Hr. apply in_app_or in Hr as [Hr|Hr]; auto. intros X. apply (FC r Hr). eapply pre_in; eauto.
    + intros p Hp. apply in_app_or in Hp as [Hp|Hp]; auto. apply in_map_iff in Hp as (q & <- & Hq). cbn [fst]. intros X. apply (FD q Hq). eapply pre_in; eauto.
  - (* Within *)
    destruct F as (F & K). destruct (IH F H) as (T & rs & H1 & E & P & B & FR).
    assert (K' : forall ch, In ch (pch r) -> exists c, konst c (map fst ch)) by (intros ch Hc; apply K; rewrite <- pch_runs; apply in_map; auto).
    destruct (pack_all _ _ _ _ B K') as (I & EA & EV & FP). set (its := map (pack T) rs) in *.
    destruct (hmap_within Iv its [] H1 I) as (W & H2 & E2 & P2 & I2 & M2 & PL & FW & NW). cbn [app] in I2.
    exists W, (combine (map en_a W) (map (fun k => [k]) (seq 0 (length W)))), H2. rewrite ones_fst. split.
    { cbn [dnf_of]. rewrite E. cbn [bind fst snd]. rewrite <- E2. f_equal. rewrite <- (map_map en_a (fun a => [a]) its), EA, map_map. reflexivity. }
    split; [eapply pre_trans; eauto|]. split.
    + replace (pch (Within r Iv)) with (map (fun e => [(en_c e, en_V e)]) W); [apply built_ones; auto|].
      cbn [pch]. rewrite <- (map_map (fun e => (en_c e, en_V e)) (fun p => [p]) W), M2, map_map.
      transitivity (map (fun cV => [(fst cV, withinV Iv (snd cV))]) (map (fun ch => (och_c ch, och_V ch)) (pch r))); [|rewrite map_map; reflexivity].
      rewrite <- EV, map_map. reflexivity.
    + destruct FR as (FR1 & FR2). split.
      * intros r0 Hr X. destruct (FW r0 Hr) as [Y|Y]; [|apply Y; eapply pre_in; eauto]. destruct (FP r0 Y) as [Z|(p & Hp & ->)]; [apply (FR1 r0 Z X)|apply (FR2 p Hp X)].
      * intros [a js] Hp. apply in_combine_l in Hp. apply in_map_iff in Hp as (e & <- & He). cbn [fst]. intros X. apply (NW e He). eapply pre_in; eauto.
Qed.
