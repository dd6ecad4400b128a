(* Signal mode: which lists of intervals the objects of a heap stand for, and
   that normalisation computes them. *)
From Coq Require Import QArith Bool List ZArith Arith Lia.
From Verif Require Import Num Outcome Interval Constraint Zone TA Tre Signal SignalFacts SignalTerm.
Import ListNotations.
Open Scope nat_scope.

(* ---------------- parts of the heap ---------------- *)

Inductive ref : Type := RA (a : nat) | RS (s : nat) | RD (d : nat).

Definition inH (H : heap) (r : ref) : Prop :=
  match r with RA a => a < length (hA H) | RS s => s < length (hS H) | RD d => d < length (hD H) end.
Definition same (H H' : heap) (r : ref) : Prop :=
  match r with
  | RA a => nth_error (hA H') a = nth_error (hA H) a
  | RS s => nth_error (hS H') s = nth_error (hS H) s
  | RD d => nth_error (hD H') d = nth_error (hD H) d
  end.
Definition disj (F G : list ref) : Prop := forall r, In r F -> ~ In r G.

(* H' is H after work on the objects F, whose new places are F'. *)
Definition ext (H H' : heap) (F F' : list ref) : Prop :=
  (forall r, inH H r -> inH H' r) /\ (forall r, inH H r -> ~ In r F -> same H H' r) /\
  (forall r, In r F' -> In r F \/ ~ inH H r).

Lemma same_refl : forall H r, same H H r.
Proof. intros H [a|s|d]; reflexivity. Qed.
Lemma same_trans : forall H1 H2 H3 r, same H1 H2 r -> same H2 H3 r -> same H1 H3 r.
Proof. intros H1 H2 H3 [a|s|d]; cbn; congruence. Qed.

Lemma ext_refl : forall H F, ext H H F F.
Proof. intros. repeat split; auto. intros. apply same_refl. Qed.
Lemma ext_trans : forall H1 H2 H3 F1 F2 F3, ext H1 H2 F1 F2 -> ext H2 H3 F2 F3 -> ext H1 H3 F1 F3.
Proof.
  intros H1 H2 H3 F1 F2 F3 (A1 & B1 & C1) (A2 & B2 & C2). split; [auto|]. split.
  - intros r I N. eapply same_trans; [apply B1; auto|]. apply B2; auto. intros X. destruct (C1 r X); contradiction.
  - intros r X. destruct (C2 r X) as [Y|Y]; [apply C1; auto|right; auto].
Qed.
Lemma ext_more : forall H H' F F' G G', incl F G -> incl G' F' -> ext H H' F F' -> ext H H' G G'.
Proof.
  intros H H' F F' G G' I I' (A & B & C). split; [auto|]. split.
  - intros r X N. apply B; auto.
  - intros r X. destruct (C r (I' r X)); auto.
Qed.
(* The objects G are not concerned. *)
Lemma ext_frame : forall H H' F F' G, ext H H' F F' -> (forall r, In r G -> inH H r) -> disj G F -> disj G F'.
Proof. intros H H' F F' G (A & B & C) IG D r X Y. destruct (C r Y) as [Z|Z]; [apply (D r X Z)|auto]. Qed.
Lemma ext_plus : forall H H' F F' G, ext H H' F F' -> ext H H' (F ++ G) (F' ++ G).
Proof.
  intros H H' F F' G (A & B & C). split; [auto|]. split.
  - intros r X N. apply B; auto. intros Y. apply N. apply in_or_app. auto.
  - intros r X. apply in_app_or in X as [X|X]; [destruct (C r X); auto; left; apply in_or_app; auto|left; apply in_or_app; auto].
Qed.

(* Writing. *)
Lemma setA_ext : forall H a x F, In (RA a) F -> ext H (setA H a x) F F.
Proof.
  intros H a x F I. split; [|split]; auto.
  - intros [b|s|d] Y; cbn in *; auto. rewrite set_nth_length. auto.
  - intros [b|s|d] Y N; cbn in *; auto. rewrite nth_set_nth. destruct (Nat.eqb_spec b a) as [->|]; [contradiction|]. reflexivity.
Qed.
Lemma setS_ext : forall H a x F, In (RS a) F -> ext H (setS H a x) F F.
Proof.
  intros H a x F I. split; [|split]; auto.
  - intros [b|s|d] Y; cbn in *; auto. rewrite set_nth_length. auto.
  - intros [b|s|d] Y N; cbn in *; auto. rewrite nth_set_nth. destruct (Nat.eqb_spec s a) as [->|]; [contradiction|]. reflexivity.
Qed.
Lemma setD_ext : forall H a x F, In (RD a) F -> ext H (setD H a x) F F.
Proof.
  intros H a x F I. split; [|split]; auto.
  - intros [b|s|d] Y; cbn in *; auto. rewrite set_nth_length. auto.
  - intros [b|s|d] Y N; cbn in *; auto. rewrite nth_set_nth. destruct (Nat.eqb_spec d a) as [->|]; [contradiction|]. reflexivity.
Qed.
Lemma nth_snoc_old : forall {X} (l : list X) x i, i < length l -> nth_error (l ++ [x]) i = nth_error l i.
Proof. intros. apply nth_error_app1. auto. Qed.
Lemma newA_ext : forall H c F, ext H (snd (newA H c)) F (RA (fst (newA H c)) :: F).
Proof.
  intros H c F. split; [|split].
  - intros [b|s|d] Y; cbn in *; auto. rewrite app_length. lia.
  - intros [b|s|d] Y N; cbn in *; auto. apply nth_snoc_old. auto.
  - intros r [<-|X]; [right; cbn; lia|auto].
Qed.
Lemma newS_ext : forall H c l F, ext H (snd (newS H c l)) F (RS (fst (newS H c l)) :: F).
Proof.
  intros H c l F. split; [|split].
  - intros [b|s|d] Y; cbn in *; auto. rewrite app_length. lia.
  - intros [b|s|d] Y N; cbn in *; auto. apply nth_snoc_old. auto.
  - intros r [<-|X]; [right; cbn; lia|auto].
Qed.
Lemma newD_ext : forall H l F, ext H (snd (newD H l)) F (RD (fst (newD H l)) :: F).
Proof.
  intros H l F. split; [|split].
  - intros [b|s|d] Y; cbn in *; auto. rewrite app_length. lia.
  - intros [b|s|d] Y N; cbn in *; auto. apply nth_snoc_old. auto.
  - intros r [<-|X]; [right; cbn; lia|auto].
Qed.

(* ---------------- single letters ---------------- *)

Definition durs : Type := outcome (list interval).

(* An object for a signal with one letter: atom, letter, durations, parts. *)
Record ent : Type := mkEnt { en_a : nat; en_c : nat; en_V : durs; en_F : list ref }.
Definition fp (l : list ent) : list ref := flat_map en_F l.
Definition apart (l : list ent) : Prop := ForallOrdPairs (fun x y => disj (en_F x) (en_F y)) l.

Fixpoint allok (l : list durs) : outcome (list (list interval)) :=
  match l with
  | [] => Ok []
  | V :: t => do v <- V ; do vs <- allok t ; Ok (v :: vs)
  end.
Definition sum_vs (vs : list (list interval)) : list interval :=
  match vs with [] => [] | v :: t => fold_left isum t v end.
Definition sumV (l : list durs) : durs := do vs <- allok l ; Ok (sum_vs vs).
Definition plusV (l : list durs) : durs :=
  do vs <- allok l ; plus_set (concat (map (fun v => land [interval_default] v) vs)).
Definition withinV (Iv : interval) (V : durs) : durs := do v <- V ; Ok (land1 v Iv).

Inductive own (H : heap) : ent -> Prop :=
| o_sing : forall e s v, cellA H (en_a e) = Some (ASing s) -> nth_error (hS H) s = Some (en_c e, v) -> en_c e <> 0 ->
    en_V e = Ok v -> en_F e = [RA (en_a e); RS s] -> own H e
| o_cat : forall e its, cellA H (en_a e) = Some (ACat (map en_a its)) -> 2 <= length its ->
    (forall x, In x its -> en_c x = en_c e) -> (forall x, In x its -> own H x) -> apart its -> ~ In (RA (en_a e)) (fp its) ->
    en_V e = sumV (map en_V its) -> en_F e = RA (en_a e) :: fp its -> own H e
| o_plus : forall e d its, cellA H (en_a e) = Some (APlus d) -> listD H d = Some (map (fun x => [en_a x]) its) -> its <> [] ->
    (forall x, In x its -> en_c x = en_c e) -> (forall x, In x its -> own H x) -> apart its -> ~ In (RA (en_a e)) (fp its) -> ~ In (RD d) (fp its) ->
    en_V e = plusV (map en_V its) -> en_F e = RA (en_a e) :: RD d :: fp its -> own H e
| o_within : forall e x Iv, cellA H (en_a e) = Some (AWithin (en_a x) Iv) -> en_c x = en_c e -> own H x ->
    ~ In (RA (en_a e)) (en_F x) -> en_V e = withinV Iv (en_V x) -> en_F e = RA (en_a e) :: en_F x -> own H e.

Lemma in_fp : forall l x r, In x l -> In r (en_F x) -> In r (fp l).
Proof. intros l x r I J. apply in_flat_map. eauto. Qed.

Lemma same_cell : forall H H' a, same H H' (RA a) -> cellA H' a = cellA H a.
Proof. intros H H' a E. unfold cellA. cbn in E. rewrite E. reflexivity. Qed.
Lemma same_list : forall H H' a, same H H' (RD a) -> listD H' a = listD H a.
Proof. intros H H' a E. unfold listD. cbn in E. rewrite E. reflexivity. Qed.

Lemma own_frame : forall H e, own H e -> forall H', (forall r, In r (en_F e) -> same H H' r) -> own H' e.
Proof.
  intros H e O. induction O as [e s v C S N EV EF|e its C L Ec Sub IH A NA EV EF|e d its C D NE Ec Sub IH A NA ND EV EF|e x Iv C Ec O IH NA EV EF]; intros H' S'; rewrite EF in S'.
  - eapply o_sing; eauto.
    + rewrite (same_cell H H'); auto. apply S'. left; auto.
    + specialize (S' (RS s)). cbn in S'. rewrite S'; auto.
  - eapply o_cat; eauto.
    + rewrite (same_cell H H'); auto. apply S'. left; auto.
    + intros x Hx. apply IH; auto. intros r Hr. apply S'. right. eapply in_fp; eauto.
  - eapply o_plus; eauto.
    + rewrite (same_cell H H'); auto. apply S'. left; auto.
    + rewrite (same_list H H'); auto. apply S'. right; left; auto.
    + intros x Hx. apply IH; auto. intros r Hr. apply S'. right. right. eapply in_fp; eauto.
  - eapply o_within; eauto.
    + rewrite (same_cell H H'); auto. apply S'. left; auto.
    + apply IH. intros r Hr. apply S'. right. auto.
Qed.

Lemma cellA_in : forall H a c, cellA H a = Some c -> inH H (RA a).
Proof. intros H a c E. unfold cellA in E. cbn. apply nth_error_Some. intros X. rewrite X in E. discriminate. Qed.
Lemma listD_in : forall H a c, listD H a = Some c -> inH H (RD a).
Proof. intros H a c E. unfold listD in E. cbn. apply nth_error_Some. intros X. rewrite X in E. discriminate. Qed.

Lemma own_in : forall H e, own H e -> forall r, In r (en_F e) -> inH H r.
Proof.
  intros H e O. induction O as [e s v C S N EV EF|e its C L Ec Sub IH A NA EV EF|e d its C D NE Ec Sub IH A NA ND EV EF|e x Iv C Ec O IH NA EV EF]; intros r Hr; rewrite EF in Hr.
  - destruct Hr as [<-|[<-|[]]]; [eapply cellA_in; eauto|]. cbn. apply nth_error_Some. congruence.
  - destruct Hr as [<-|Hr]; [eapply cellA_in; eauto|]. apply in_flat_map in Hr as (x & Hx & Hr). eauto.
  - destruct Hr as [<-|[<-|Hr]]; [eapply cellA_in; eauto|eapply listD_in; eauto|]. apply in_flat_map in Hr as (x & Hx & Hr). eauto.
  - destruct Hr as [<-|Hr]; [eapply cellA_in; eauto|]. auto.
Qed.
Lemma own_self : forall H e, own H e -> In (RA (en_a e)) (en_F e).
Proof. intros H e O. destruct O as [e s v C S N EV EF|e its C L Ec Sub A NA EV EF|e d its C D NE Ec Sub A NA ND EV EF|e x Iv C Ec O NA EV EF]; rewrite EF; left; auto. Qed.
Lemma own_letter : forall H e, own H e -> en_c e <> 0.
Proof.
  intros H e O. induction O as [e s v C S N EV EF|e its C L Ec Sub IH A NA EV EF|e d its C D NE Ec Sub IH A NA ND EV EF|e x Iv C Ec O IH NA EV EF]; auto; try congruence.
  - destruct its as [|x its]; [cbn in L; lia|]. rewrite <- (Ec x); [apply IH|]; left; auto.
  - destruct its as [|x its]; [congruence|]. rewrite <- (Ec x); [apply IH|]; left; auto.
Qed.

(* ---------------- outcomes ---------------- *)

(* The computation [o] ends well exactly if the durations V exist. *)
Definition goodr {X Y} (V : outcome X) (o : outcome Y) (Q : X -> Y -> Prop) : Prop :=
  match o with
  | Ok y => exists v, V = Ok v /\ Q v y
  | OutOfFuel => True
  | _ => forall v, V <> Ok v
  end.
Lemma goodr_bind : forall {X X' Y Z} (V1 : outcome X) (V2 : outcome X') (o : outcome Y) (g : Y -> outcome Z) Q R,
  goodr V1 o Q -> ((forall v, V1 <> Ok v) -> forall v, V2 <> Ok v) ->
  (forall v y, V1 = Ok v -> Q v y -> goodr V2 (g y) R) -> goodr V2 (bind o g) R.
Proof. intros X X' Y Z V1 V2 o g Q R G N K. destruct o as [y| | | |]; cbn in *; auto. destruct G as (v & E & q). eauto. Qed.
Lemma goodr_weaken : forall {X Y} (V : outcome X) (o : outcome Y) (Q R : X -> Y -> Prop),
  goodr V o Q -> (forall v y, V = Ok v -> Q v y -> R v y) -> goodr V o R.
Proof. intros X Y V o Q R G K. destruct o as [y| | | |]; cbn in *; auto. destruct G as (v & E & q). eauto. Qed.
Lemma goodr_total : forall {X Y} (v : X) (y : Y) (Q : X -> Y -> Prop), Q v y -> goodr (Ok v) (Ok y) Q.
Proof. intros. cbn. eauto. Qed.

(* ---------------- collections ---------------- *)

Definition decA (H : heap) (a : nat) : option decision :=
  match nth_error (hA H) a with Some x => at_dec x | None => None end.

(* A normalised object. *)
Definition normal (H : heap) (e : ent) : Prop :=
  exists s v, cellA H (en_a e) = Some (ASing s) /\ nth_error (hS H) s = Some (en_c e, v) /\ en_V e = Ok v /\
    en_F e = [RA (en_a e); RS s] /\ decA H (en_a e) = Some (mkDec DConst [en_c e]).
Lemma normal_own : forall H e, en_c e <> 0 -> normal H e -> own H e.
Proof. intros H e N (s & v & C & S & V & F & _). eapply o_sing; eauto. Qed.
Lemma normal_frame : forall H H' e, (forall r, In r (en_F e) -> same H H' r) -> normal H e -> normal H' e.
Proof.
  intros H H' e S (s & v & C & Sv & V & F & D). rewrite F in S. exists s, v. split; [rewrite (same_cell H H'); auto; apply S; left; auto|].
  split; [specialize (S (RS s)); cbn in S; rewrite S; auto|]. split; auto. split; auto. unfold decA in *.
  pose proof (S (RA (en_a e)) (or_introl eq_refl)) as E. cbn in E. rewrite E. auto.
Qed.

Definition inv (H : heap) (T : list ent) : Prop := (forall x, In x T -> own H x) /\ apart T.

Lemma apart_nth : forall T, apart T -> forall i j x y, nth_error T i = Some x -> nth_error T j = Some y -> i <> j -> disj (en_F x) (en_F y).
Proof.
  intros T A. induction A as [|x T F A IH]; intros i j u v Hi Hj N; [destruct i; discriminate|].
  rewrite Forall_forall in F. destruct i as [|i], j as [|j]; cbn in Hi, Hj.
  - congruence.
  - injection Hi as <-. apply F. eapply nth_error_In; eauto.
  - injection Hj as <-. intros r R1 R2. apply (F u (nth_error_In _ _ Hi) r R2 R1).
  - eapply IH; eauto.
Qed.
Lemma nth_apart : forall T, (forall i j x y, nth_error T i = Some x -> nth_error T j = Some y -> i <> j -> disj (en_F x) (en_F y)) -> apart T.
Proof.
  induction T as [|x T IH]; intros A; [constructor|]. constructor.
  - apply Forall_forall. intros y Hy. apply In_nth_error in Hy as (j & Hj). apply (A 0 (S j) x y); auto.
  - apply IH. intros i j u v Hi Hj N. apply (A (S i) (S j) u v); auto.
Qed.
Lemma fp_nth : forall T r, In r (fp T) <-> exists k x, nth_error T k = Some x /\ In r (en_F x).
Proof.
  intros T r. unfold fp. rewrite in_flat_map. split.
  - intros (x & Hx & Hr). apply In_nth_error in Hx as (k & Hk). eauto.
  - intros (k & x & Hk & Hr). exists x. split; auto. eapply nth_error_In; eauto.
Qed.

(* From H with the collection T to H' with T'; durations change only at the
   positions P; G are other objects in use. *)
Record step (P : list nat) (G : list ref) (H : heap) (T : list ent) (H' : heap) (T' : list ent) : Prop := mkStep {
  st_a : map en_a T' = map en_a T;
  st_c : map en_c T' = map en_c T;
  st_V : forall j, ~ In j P -> nth_error (map en_V T') j = nth_error (map en_V T) j;
  st_inv : inv H' T';
  st_ext : ext H H' (G ++ fp T) (G ++ fp T');
  st_normal : forall j y, nth_error T j = Some y -> normal H y -> exists y', nth_error T' j = Some y' /\ normal H' y' /\ en_F y' = en_F y }.

Lemma step_refl : forall P G H T, inv H T -> step P G H T H T.
Proof. intros. constructor; auto; [apply ext_refl|eauto]. Qed.
Lemma step_trans : forall P G H1 T1 H2 T2 H3 T3, step P G H1 T1 H2 T2 -> step P G H2 T2 H3 T3 -> step P G H1 T1 H3 T3.
Proof.
  intros P G H1 T1 H2 T2 H3 T3 [] []. constructor; try congruence; auto.
  - intros j N. rewrite st_V1, st_V0; auto.
  - eapply ext_trans; eauto.
  - intros j y E N. destruct (st_normal0 j y E N) as (y' & E' & N' & F'). destruct (st_normal1 j y' E' N') as (y2 & E2 & N2 & F2). exists y2. rewrite F2. auto.
Qed.
Lemma step_more : forall P P' G G' H T H' T', incl P P' -> incl G G' -> step P G H T H' T' -> step P' G' H T H' T'.
Proof.
  intros P P' G G' H T H' T' I J []. constructor; auto.
  destruct st_ext0 as (A & B & C). split; [auto|]. split.
  - intros r X N. apply B; auto. intros Y. apply N. apply in_app_or in Y as [Y|Y]; apply in_or_app; auto.
  - intros r X. apply in_app_or in X as [X|X]; [left; apply in_or_app; auto|]. destruct (C r) as [Y|Y]; [apply in_or_app; auto| |auto].
    left. apply in_app_or in Y as [Y|Y]; apply in_or_app; auto.
Qed.
Lemma step_len : forall P G H T H' T', step P G H T H' T' -> length T' = length T.
Proof. intros P G H T H' T' S. rewrite <- (map_length en_a T'), (st_a _ _ _ _ _ _ S), map_length. reflexivity. Qed.
Lemma step_at : forall P G H T H' T' k x, step P G H T H' T' -> nth_error T k = Some x ->
  exists y, nth_error T' k = Some y /\ en_a y = en_a x /\ en_c y = en_c x /\ (~ In k P -> en_V y = en_V x).
Proof.
  intros P G H T H' T' k x S E. pose proof (step_len _ _ _ _ _ _ S) as L. destruct (nth_error T' k) as [y|] eqn:E'.
  - exists y. split; auto.
    assert (A : nth_error (map en_a T') k = nth_error (map en_a T) k) by (rewrite (st_a _ _ _ _ _ _ S); auto).
    assert (C : nth_error (map en_c T') k = nth_error (map en_c T) k) by (rewrite (st_c _ _ _ _ _ _ S); auto).
    rewrite !nth_error_map, E, E' in A, C. cbn in A, C. split; [congruence|]. split; [congruence|]. intros N.
    pose proof (st_V _ _ _ _ _ _ S k N) as V. rewrite !nth_error_map, E, E' in V. cbn in V. congruence.
  - apply nth_error_None in E'. assert (k < length T) by (apply nth_error_Some; congruence). lia.
Qed.

(* Replacing one element. *)
Lemma set_step : forall P G H T H' k x y, inv H T -> nth_error T k = Some x -> en_a y = en_a x -> en_c y = en_c x ->
  (In k P \/ en_V y = en_V x) -> normal H' y -> (normal H x -> en_F y = en_F x) -> ext H H' (en_F x) (en_F y) -> step P G H T H' (set_nth T k y).
Proof.
  intros P G H T H' k x y [O A] E Ea Ec EV N KF X.
  assert (L : k < length T) by (apply nth_error_Some; congruence).
  assert (Nth : forall j z, nth_error (set_nth T k y) j = Some z -> (j = k /\ z = y) \/ (j <> k /\ nth_error T j = Some z)).
  { intros j z. rewrite nth_set_nth. destruct (Nat.eqb_spec j k) as [->|Nj]; cbn [andb]; [|auto]. apply Nat.ltb_lt in L. rewrite L. intros [= <-]. auto. }
  assert (Map : forall {U} (f : ent -> U), f y = f x -> map f (set_nth T k y) = map f T).
  { intros U f Ef. clear -E Ef. revert k E. induction T as [|z T IH]; intros [|k] E; cbn in *; auto; try discriminate.
    - injection E as <-. congruence.
    - f_equal. eauto. }
  assert (Keep : forall j z, nth_error T j = Some z -> j <> k -> forall r, In r (en_F z) -> same H H' r).
  { intros j z Ej Nj r Hr. destruct X as (_ & B & _). apply B; [eapply own_in; eauto; apply O; eapply nth_error_In; eauto|].
    intros Y. apply (apart_nth T A j k z x Ej E Nj r Hr Y). }
  constructor.
  - apply Map. auto.
  - apply Map. auto.
  - intros j Nj. destruct EV as [I|EV]; [|rewrite (Map _ en_V); auto]. rewrite !nth_error_map, nth_set_nth.
    destruct (Nat.eqb_spec j k) as [->|]; [contradiction|]. reflexivity.
  - split.
    + intros z Hz. apply In_nth_error in Hz as (j & Ej). apply Nth in Ej as [[-> ->]|[Nj Ej]].
      * apply normal_own; auto. rewrite Ec. apply own_letter with H. apply O. eapply nth_error_In; eauto.
      * apply own_frame with H; [apply O; eapply nth_error_In; eauto|]. eapply Keep; eauto.
    + apply nth_apart. intros i j u v Hi Hj Nij. apply Nth in Hi as [[-> ->]|[Ni Hi]]; apply Nth in Hj as [[-> ->]|[Nj Hj]].
      * congruence.
      * intros r R1 R2. destruct X as (_ & _ & C). destruct (C r R1) as [Y|Y]; [apply (apart_nth T A k j x v E Hj Nij r Y R2)|].
        apply Y. eapply own_in; [apply O; eapply nth_error_In; apply Hj|auto].
      * intros r R1 R2. destruct X as (_ & _ & C). destruct (C r R2) as [Y|Y]; [apply (apart_nth T A i k u x Hi E Nij r R1 Y)|].
        apply Y. eapply own_in; [apply O; eapply nth_error_In; apply Hi|auto].
      * apply (apart_nth T A i j); auto.
  - destruct X as (A1 & B1 & C1). split; [auto|]. split.
    + intros r I NI. apply B1; auto. intros Y. apply NI. apply in_or_app. right. apply fp_nth. eauto.
    + intros r I. apply in_app_or in I as [I|I]; [left; apply in_or_app; auto|]. apply fp_nth in I as (j & z & Ej & Hr).
      apply Nth in Ej as [[-> ->]|[Nj Ej]].
      * destruct (C1 r Hr) as [Y|Y]; [|auto]. left. apply in_or_app. right. apply fp_nth. eauto.
      * left. apply in_or_app. right. apply fp_nth. eauto.
  - intros j z Ej Nz. destruct (Nat.eq_dec j k) as [->|Nj].
    + exists y. split; [rewrite nth_set_nth, Nat.eqb_refl; apply Nat.ltb_lt in L; rewrite L; reflexivity|]. split; auto. assert (z = x) as -> by congruence. auto.
    + exists z. split; [rewrite nth_set_nth; apply Nat.eqb_neq in Nj; rewrite Nj; auto|]. split; [|auto]. eapply normal_frame; [|exact Nz]. eapply Keep; eauto.
Qed.

(* ---------------- one object in a collection ---------------- *)

Definition nf_spec (f : nat) : Prop := forall H e, own H e ->
  goodr (en_V e) (nfA stop stop f H (en_a e))
    (fun v H' => exists F', normal H' (mkEnt (en_a e) (en_c e) (en_V e) F') /\ (normal H e -> F' = en_F e) /\ ext H H' (en_F e) F').

Definition norm_at (H : heap) (T : list ent) (k : nat) : Prop := exists y, nth_error T k = Some y /\ normal H y.

Lemma nf_at : forall f, nf_spec f -> forall G H T k x, inv H T -> nth_error T k = Some x ->
  goodr (en_V x) (nfA stop stop f H (en_a x)) (fun _ H' => exists T', step [] G H T H' T' /\ norm_at H' T' k).
Proof.
  intros f NF G H T k x I E. assert (O : own H x) by (apply I; eapply nth_error_In; eauto).
  eapply goodr_weaken; [apply NF; auto|]. cbn beta. intros v H' Ev (F' & N & KF & X). exists (set_nth T k (mkEnt (en_a x) (en_c x) (en_V x) F')).
  split; [eapply set_step; eauto|]. eexists. split; [|exact N]. rewrite nth_set_nth, Nat.eqb_refl.
  assert (L : k < length T) by (apply nth_error_Some; congruence). apply Nat.ltb_lt in L. rewrite L. reflexivity.
Qed.

Lemma step_norm : forall P G H T H' T' k, step P G H T H' T' -> norm_at H T k -> norm_at H' T' k.
Proof. intros P G H T H' T' k S (y & E & N). destruct (st_normal _ _ _ _ _ _ S k y E N) as (y' & E' & N' & _). exists y'. auto. Qed.

Lemma f2_impl : forall {X Y} (P Q : X -> Y -> Prop) l r, (forall x y, P x y -> Q x y) -> Forall2 P l r -> Forall2 Q l r.
Proof. intros X Y P Q l r H F. induction F; constructor; auto. Qed.

(* Lists of atoms given by positions. *)
Definition atp (T : list ent) (js l : list nat) : Prop := Forall2 (fun k a => exists x, nth_error T k = Some x /\ en_a x = a) js l.
Lemma atp_step : forall P G H T H' T' js l, step P G H T H' T' -> atp T js l -> atp T' js l.
Proof.
  intros P G H T H' T' js l S A. eapply f2_impl; [|exact A]. cbn. intros k a (x & E & Ea).
  destruct (step_at _ _ _ _ _ _ _ _ S E) as (y & E' & Ea' & _). exists y. split; auto. congruence.
Qed.
Definition Vat (T : list ent) (js : list nat) : list durs :=
  map (fun k => match nth_error T k with Some x => en_V x | None => UB end) js.
Definition cat_ (T : list ent) (js : list nat) : list nat :=
  map (fun k => match nth_error T k with Some x => en_c x | None => 0 end) js.
Lemma nth_map_eq : forall {U} (f : ent -> U) T T' k u, nth_error (map f T') k = nth_error (map f T) k ->
  match nth_error T' k with Some x => f x | None => u end = match nth_error T k with Some x => f x | None => u end.
Proof. intros U f T T' k u E. rewrite !nth_error_map in E. destruct (nth_error T' k), (nth_error T k); cbn in E; congruence. Qed.
Lemma Vat_step : forall P G H T H' T' js, step P G H T H' T' -> (forall k, In k js -> ~ In k P) -> Vat T' js = Vat T js.
Proof. intros P G H T H' T' js S N. apply map_ext_in. intros k Hk. apply nth_map_eq. apply (st_V _ _ _ _ _ _ S). auto. Qed.
Lemma cat_step : forall P G H T H' T' js, step P G H T H' T' -> cat_ T' js = cat_ T js.
Proof. intros P G H T H' T' js S. apply map_ext_in. intros k Hk. apply nth_map_eq. rewrite (st_c _ _ _ _ _ _ S). auto. Qed.

Definition dconst (c : nat) : decision := mkDec DConst [c].
Lemma norm_dec : forall H T k x, norm_at H T k -> nth_error T k = Some x -> dec_of H (en_a x) = Ok (dconst (en_c x)).
Proof.
  intros H T k x (y & E & (s & v & C & _ & _ & _ & D)) E'. assert (y = x) as -> by congruence. unfold dec_of, getA, decA in *.
  destruct (nth_error (hA H) (en_a x)); [|discriminate]. cbn. rewrite D. reflexivity.
Qed.

Lemma cat_decs_at : forall f, nf_spec f -> forall G js l H T acc, inv H T -> atp T js l ->
  goodr (allok (Vat T js)) (cat_decs (nfA stop stop f) H acc l)
    (fun _ r => fst r = fold_left dec_concat (map dconst (cat_ T js)) acc /\
       exists T', step [] G H T (snd r) T' /\ forall k, In k js -> norm_at (snd r) T' k).
Proof.
  intros f NF G. induction js as [|k js IH]; intros l H T acc I A; inversion A as [|? a ? l' (x & E & Ea) A']; subst.
  - cbn. exists []. split; auto. split; auto. exists T. split; [apply step_refl; auto|intros k []].
  - cbn [cat_decs Vat map cat_]. fold (Vat T js). fold (cat_ T js). rewrite E. eapply goodr_bind; [apply (nf_at f NF G H T k x I E)| |].
    + intros N v. cbn [allok]. destruct (en_V x) as [w| | | |]; cbn; try discriminate. destruct (N w eq_refl).
    + cbn beta. intros v H' Ev (T' & S & Nk). destruct (step_at _ _ _ _ _ _ _ _ S E) as (y & E' & Ea' & Ec' & EV').
      rewrite <- Ea'. rewrite (norm_dec H' T' k y Nk E'). cbn [bind]. rewrite Ec'.
      specialize (IH l' H' T' (dec_concat acc (dconst (en_c x))) (st_inv _ _ _ _ _ _ S) (atp_step _ _ _ _ _ _ _ _ S A')).
      rewrite (Vat_step _ _ _ _ _ _ js S), (cat_step _ _ _ _ _ _ js S) in IH by (intros ? ? []).
      destruct (cat_decs _ _ _ _) as [r| | | |]; cbn in IH |- *; auto.
      * destruct IH as (vs & EVs & Er & T2 & S2 & N2). exists (v :: vs). rewrite Ev. cbn. rewrite EVs. split; auto. split; auto.
        exists T2. split; [eapply step_trans; eauto|]. intros j [<-|Hj]; [eapply step_norm; eauto|auto].
      * intros w. rewrite Ev. cbn. destruct (allok (Vat T js)) as [us| | | |]; cbn; try discriminate. intros _. apply (IH us eq_refl).
      * intros w. rewrite Ev. cbn. destruct (allok (Vat T js)) as [us| | | |]; cbn; try discriminate. intros _. apply (IH us eq_refl).
      * intros w. rewrite Ev. cbn. destruct (allok (Vat T js)) as [us| | | |]; cbn; try discriminate. intros _. apply (IH us eq_refl).
Qed.

(* ---------------- merging ---------------- *)

Definition chain : Type := list (nat * list interval).
Definition vals (T : list ent) (js : list nat) (ch : chain) : Prop :=
  Forall2 (fun k cv => exists y, nth_error T k = Some y /\ en_c y = fst cv /\ en_V y = Ok (snd cv)) js ch.

Fixpoint mv (p : nat * list interval) (t : chain) : chain :=
  match t with
  | [] => [p]
  | q :: t' => if fst p =? fst q then mv (fst p, isum (snd p) (snd q)) t' else p :: mv q t'
  end.
Definition mvs (l : chain) : chain := match l with [] => [] | p :: t => mv p t end.

Fixpoint adjd (l : list nat) : Prop :=
  match l with
  | a :: t => match t with b :: _ => a <> b | [] => True end /\ adjd t
  | [] => True
  end.

Lemma mv_adjd : forall t p, adjd (map fst (p :: t)) -> mv p t = p :: t.
Proof.
  induction t as [|q t IH]; intros p A; auto. cbn [mv]. destruct A as (N & A). cbn in N. apply Nat.eqb_neq in N. rewrite N. f_equal. apply IH. auto.
Qed.
Lemma mvs_adjd : forall l, adjd (map fst l) -> mvs l = l.
Proof. intros [|p t] A; auto. apply mv_adjd. auto. Qed.
Lemma mv_head : forall t p, exists v r, mv p t = (fst p, v) :: r.
Proof.
  induction t as [|q t IH]; intros [c v]; cbn [mv fst]; [eauto|]. destruct (c =? fst q); [|eauto].
  destruct (IH (c, isum (snd (c, v)) (snd q))) as (w & r & E). cbn [fst] in E. eauto.
Qed.
Lemma mvs_nil : forall l, mvs l = [] -> l = [].
Proof. intros [|p t] E; auto. cbn in E. destruct (mv_head t p) as (v & r & X). congruence. Qed.
Lemma adjd_mv : forall t p, adjd (map fst (mv p t)).
Proof.
  induction t as [|q t IH]; intros p; cbn [mv]; [cbn; auto|]. destruct (Nat.eqb_spec (fst p) (fst q)) as [E|N]; [apply IH|].
  specialize (IH q). destruct (mv_head t q) as (v & r & E). rewrite E in *. cbn in *. auto.
Qed.
Lemma mv_const : forall t p, (forall q, In q t -> fst q = fst p) -> mv p t = [(fst p, fold_left isum (map snd t) (snd p))].
Proof.
  induction t as [|q t IH]; intros [c v] A; cbn [mv]; auto. rewrite (A q) by (left; auto). cbn [fst snd]. rewrite Nat.eqb_refl.
  rewrite IH; [reflexivity|]. intros q0 Hq. cbn. apply (A q0). right. auto.
Qed.

Lemma normal_get : forall H y s v, cellA H (en_a y) = Some (ASing s) -> nth_error (hS H) s = Some (en_c y, v) ->
  (exists x, getA H (en_a y) = Ok x /\ at_cell x = ASing s) /\ getS H s = Ok (en_c y, v).
Proof.
  intros H y s v C S. unfold cellA in C. destruct (nth_error (hA H) (en_a y)) as [x|] eqn:E; [|discriminate]. cbn in C. injection C as C.
  split; [exists x; split; auto; apply getA_Ok; auto|apply getS_Ok; auto].
Qed.
Lemma norm_get : forall H T k x, nth_error T k = Some x -> norm_at H T k -> exists s v z, getA H (en_a x) = Ok z /\ at_cell z = ASing s /\
  getS H s = Ok (en_c x, v) /\ en_V x = Ok v /\ en_F x = [RA (en_a x); RS s].
Proof.
  intros H T k x E (y & E' & (s & v & C & S & V & F & D)). assert (y = x) as -> by congruence.
  destruct (normal_get H x s v C S) as ((z & Z1 & Z2) & S'). exists s, v, z. auto.
Qed.

Lemma merge_adj : forall fuel js l H T kept, atp T js l -> (forall k, In k js -> norm_at H T k) -> adjd (cat_ T js) ->
  length l < fuel -> merge_loop fuel H kept l = Ok (l, H).
Proof.
  induction fuel as [|f IH]; intros js l H T kept A N D L; [lia|]. destruct A as [|k a js l (x & E & Ea) A]; [reflexivity|].
  cbn [merge_loop]. destruct (norm_get H T k x E) as (s & v & z & Z1 & Z2 & Z3 & _); [apply N; left; auto|].
  rewrite <- Ea, Z1. cbn [bind]. rewrite Z2. destruct A as [|k2 b js l (x2 & E2 & Eb) A]; [reflexivity|].
  destruct (norm_get H T k2 x2 E2) as (s2 & v2 & z2 & Y1 & Y2 & Y3 & _); [apply N; right; left; auto|].
  rewrite <- Eb, Y1. cbn [bind]. rewrite Y2, Z3. cbn [bind]. rewrite Y3. cbn [bind fst].
  cbn [cat_ map] in D. rewrite E, E2 in D. destruct D as (D1 & D2). cbn in D1. apply Nat.eqb_neq in D1. rewrite D1.
  rewrite (IH (k2 :: js) (en_a x2 :: l) H T (S kept)); [reflexivity| | | |].
  - constructor; eauto.
  - intros k' Hk'. apply N. right. auto.
  - cbn [cat_ map]. rewrite E2. apply D2.
  - cbn in *. lia.
Qed.

Lemma vals_step : forall P G H T H' T' js ch, step P G H T H' T' -> (forall k, In k js -> ~ In k P) -> vals T js ch -> vals T' js ch.
Proof.
  intros P G H T H' T' js ch S N A. induction A as [|k cv js ch (y & E & Ec & EV) A IH]; constructor.
  - destruct (step_at _ _ _ _ _ _ _ _ S E) as (y' & E' & _ & Ec' & EV'). exists y'. split; auto. split; [congruence|]. rewrite EV'; auto. apply N. left; auto.
  - apply IH. intros; apply N; right; auto.
Qed.

Lemma merge_nodup : forall fuel js l H T kept ch, inv H T -> atp T js l -> (forall k, In k js -> norm_at H T k) -> NoDup js -> vals T js ch ->
  length l < fuel -> exists ks l' H' T', merge_loop fuel H kept l = Ok (l', H') /\ atp T' ks l' /\ step js [] H T H' T' /\
    (forall k, In k ks -> norm_at H' T' k /\ In k js) /\ vals T' ks (mvs ch).
Proof.
  induction fuel as [|f IH]; intros js l H T kept ch I A N D VS L; [lia|]. destruct A as [|k a js l (x & E & Ea) A].
  { inversion VS; subst. exists [], [], H, T. cbn. split; auto. split; [constructor|]. split; [apply step_refl; auto|]. split; [intros k []|constructor]. }
  cbn [merge_loop]. destruct (norm_get H T k x E) as (s & v & z & Z1 & Z2 & Z3 & Z4 & Z5); [apply N; left; auto|].
  rewrite <- Ea, Z1. cbn [bind]. rewrite Z2. destruct A as [|k2 b js l (x2 & E2 & Eb) A].
  { inversion VS as [|? cv ? ch' Hcv VS']; subst. inversion VS'; subst. exists [k], [en_a x], H, T. split; auto. split; [constructor; eauto; constructor|].
    split; [apply step_refl; auto|]. split; [|cbn; constructor; auto]. intros j [<-|[]]. split; [apply N|]; left; auto. }
  destruct (norm_get H T k2 x2 E2) as (s2 & v2 & z2 & Y1 & Y2 & Y3 & Y4 & Y5); [apply N; right; left; auto|].
  rewrite <- Eb, Y1. cbn [bind]. rewrite Y2, Z3. cbn [bind]. rewrite Y3. cbn [bind fst snd].
  inversion VS as [|? [c1 w1] ? ch' (y1 & Ey1 & Ec1 & Ev1) VS']; subst. inversion VS' as [|? [c2 w2] ? ch'' (y2 & Ey2 & Ec2 & Ev2) VS'']; subst.
  cbn [fst snd] in *. assert (y1 = x) as -> by congruence. assert (y2 = x2) as -> by congruence. assert (w1 = v) as -> by congruence. assert (w2 = v2) as -> by congruence.
  subst c1 c2. inversion D as [|? ? Nk D']; subst. inversion D' as [|? ? Nk2 D'']; subst. cbn [mvs mv fst snd].
  destruct (Nat.eqb_spec (en_c x) (en_c x2)) as [Ec|Nc].
  - set (v' := isum v v2). set (H1 := setS H s (en_c x, v')). set (y := mkEnt (en_a x) (en_c x) (Ok v') (en_F x)).
    assert (S1 : step [k] [] H T H1 (set_nth T k y)).
    { apply (set_step [k] [] H T H1 k x y); auto; [left; left; auto| |].
      - destruct (N k (or_introl eq_refl)) as (x0 & E0 & (s0 & v0 & C0 & Sv0 & V0 & F0 & D0)). assert (x0 = x) as -> by congruence.
        assert (s0 = s) as -> by congruence. exists s, v'. unfold H1, y. cbn [en_a en_c en_V en_F]. split; [exact C0|]. split.
        + cbn. rewrite nth_set_nth, Nat.eqb_refl. assert (Ls : s < length (hS H)) by (apply nth_error_Some; congruence). apply Nat.ltb_lt in Ls. rewrite Ls. reflexivity.
        + split; auto.
      - cbn [y en_F]. apply setS_ext. rewrite Z5. right. left. auto. }
    destruct (IH (k :: js) (en_a x :: l) H1 (set_nth T k y) kept ((en_c x, v') :: ch'')) as (ks & l' & H' & T' & M & A2 & S2 & N2 & V2).
    + apply S1.
    + assert (X : atp T (k :: js) (en_a x :: l)) by (constructor; eauto). eapply atp_step; eauto.
    + intros j Hj. eapply step_norm; [exact S1|]. apply N. destruct Hj as [<-|Hj]; [left; auto|right; right; auto].
    + constructor; auto. intros X. apply Nk. right. auto.
    + constructor.
      * exists y. rewrite nth_set_nth, Nat.eqb_refl. assert (Lk : k < length T) by (apply nth_error_Some; congruence). apply Nat.ltb_lt in Lk. rewrite Lk. cbn. auto.
      * eapply vals_step; [exact S1| |exact VS'']. intros j Hj [<-|[]]. apply Nk. right. auto.
    + cbn in *. lia.
    + exists ks, l', H', T'. split; [exact M|]. split; auto. split.
      { apply step_trans with (H2 := H1) (T2 := set_nth T k y); [eapply step_more; [| |exact S1]|eapply step_more; [| |exact S2]]; try apply incl_refl.
        - intros j [<-|[]]. left. auto.
        - intros j [<-|Hj]; [left; auto|right; right; auto]. }
      split; [|exact V2]. intros j Hj. destruct (N2 j Hj) as [? [<-|?]]; split; auto; [left; auto|right; right; auto].
  - destruct (IH (k2 :: js) (en_a x2 :: l) H T (S kept) ((en_c x2, v2) :: ch'')) as (ks & l' & H' & T' & M & A2 & S2 & N2 & V2); auto.
    + constructor; eauto.
    + intros j Hj. apply N. right. auto.
    + cbn in *. lia.
    + exists (k :: ks), (en_a x :: l'), H', T'. rewrite M. split; auto.
      assert (Nk' : ~ In k (k2 :: js)) by auto. destruct (step_at _ _ _ _ _ _ _ _ S2 E) as (y & E' & Ea' & Ec' & EV').
      split; [constructor; eauto|]. split; [eapply step_more; [| |exact S2]; [apply incl_tl, incl_refl|apply incl_refl]|]. split.
      * intros j [<-|Hj]; [|destruct (N2 j Hj); split; auto; right; auto]. split; [|left; auto]. eapply step_norm; [exact S2|]. apply N. left. auto.
      * constructor; [|exact V2]. exists y. split; auto. cbn. split; auto. rewrite EV'; auto.
Qed.

Lemma merge_either : forall P js l H T kept ch fuel, inv H T -> atp T js l -> (forall k, In k js -> norm_at H T k) -> (P = js /\ NoDup js) \/ (P = [] /\ adjd (cat_ T js)) ->
  map fst ch = cat_ T js -> vals T js ch -> length l < fuel ->
  exists ks l' H' T', merge_loop fuel H kept l = Ok (l', H') /\ atp T' ks l' /\ step P [] H T H' T' /\
    (forall k, In k ks -> norm_at H' T' k /\ In k js) /\ vals T' ks (mvs ch).
Proof.
  intros P js l H T kept ch fuel I A N [[-> D]|[-> D]] E VS L; [eapply merge_nodup; eauto|].
  exists js, l, H, T. split; [apply merge_adj with js T; auto|]. split; auto. split; [apply step_refl; auto|]. split; [auto|].
  rewrite mvs_adjd; auto. congruence.
Qed.

Lemma allok_vals : forall T js l vs, atp T js l -> allok (Vat T js) = Ok vs ->
  vals T js (combine (cat_ T js) vs) /\ length vs = length js.
Proof.
  intros T js l vs A. revert vs. induction A as [|k a js l (x & E & Ea) A IH]; intros vs; cbn [Vat cat_ map allok].
  - intros [= <-]. split; [constructor|reflexivity].
  - fold (Vat T js). fold (cat_ T js). rewrite E. destruct (en_V x) as [v| | | |] eqn:V; cbn [bind]; try discriminate.
    destruct (allok (Vat T js)) as [us| | | |]; cbn [bind]; try discriminate. intros [= <-]. destruct (IH us eq_refl) as (IH1 & IH2).
    cbn [combine length]. split; [|congruence]. constructor; auto. exists x. auto.
Qed.
Lemma allok_len : forall l vs, allok l = Ok vs -> length vs = length l.
Proof.
  induction l as [|V l IH]; cbn; intros vs; [intros [= <-]; auto|]. destruct V as [v| | | |]; cbn; try discriminate.
  destruct (allok l) as [us| | | |]; cbn; try discriminate. intros [= <-]. cbn. rewrite (IH us); auto.
Qed.
Lemma combine_fst : forall {X Y} (l : list X) (r : list Y), length l = length r -> map fst (combine l r) = l.
Proof. induction l as [|x l IH]; intros [|y r] L; cbn in *; try discriminate; auto. f_equal. apply IH. lia. Qed.
Lemma combine_snd : forall {X Y} (l : list X) (r : list Y), length l = length r -> map snd (combine l r) = r.
Proof. induction l as [|x l IH]; intros [|y r] L; cbn in *; try discriminate; auto. f_equal. apply IH. lia. Qed.
Lemma vals_len : forall T js ch, vals T js ch -> length ch = length js.
Proof. intros T js ch V. induction V; cbn; auto. Qed.

(* Writing an atom outside of the collection. *)
Lemma out_step : forall G H T a x, inv H T -> ~ In (RA a) (fp T) -> In (RA a) G -> step [] G H T (setA H a x) T.
Proof.
  intros G H T a x [O A] N I.
  assert (Keep : forall y, In y T -> forall r, In r (en_F y) -> same H (setA H a x) r).
  { intros y Hy r Hr. destruct (setA_ext H a x [RA a] (or_introl eq_refl)) as (_ & B & _). apply B; [eapply own_in; eauto|].
    intros [<-|[]]. apply N. eapply in_fp; eauto. }
  constructor; auto.
  - split; auto. intros y Hy. apply own_frame with H; [auto|]. apply Keep. auto.
  - apply setA_ext. apply in_or_app. auto.
  - intros j y E Ny. exists y. split; auto. split; [|auto]. eapply normal_frame; [|exact Ny]. apply Keep. eapply nth_error_In; eauto.
Qed.
Lemma step_out : forall P G H T H' T' r, step P G H T H' T' -> inH H r -> ~ In r G -> ~ In r (fp T) -> same H H' r /\ ~ In r (fp T') /\ inH H' r.
Proof.
  intros P G H T H' T' r S I NG N. destruct (st_ext _ _ _ _ _ _ S) as (A & B & C).
  assert (NN : ~ In r (G ++ fp T)) by (intros X; apply in_app_or in X as [X|X]; auto). split; [auto|]. split; [|auto].
  intros X. destruct (C r) as [Y|Y]; [apply in_or_app; auto|contradiction|contradiction].
Qed.

Definition fin (H : heap) (T : list ent) (a : nat) (ks : list nat) : Prop :=
  match ks with
  | [k] => exists x s, nth_error T k = Some x /\ cellA H (en_a x) = Some (ASing s) /\ cellA H a = Some (ASing s)
  | _ => exists l, atp T ks l /\ cellA H a = Some (ACat l)
  end.

Lemma cat_mixed_norm : forall H T ks l, atp T ks l -> (forall k, In k ks -> norm_at H T k) -> cat_mixed H l = Ok false.
Proof.
  intros H T ks l A. induction A as [|k a ks l (x & E & Ea) A IH]; intros N; [reflexivity|]. cbn [cat_mixed].
  destruct (norm_get H T k x E) as (s & v & z & Z1 & Z2 & _); [apply N; left; auto|]. rewrite <- Ea, Z1. cbn [bind]. rewrite Z2.
  apply IH. intros; apply N; right; auto.
Qed.

Lemma cellA_get : forall H a c, cellA H a = Some c -> exists x, getA H a = Ok x /\ at_cell x = c.
Proof.
  intros H a c E. unfold cellA in E. destruct (nth_error (hA H) a) as [x|] eqn:X; [|discriminate]. injection E as E. exists x. split; auto.
  unfold getA. rewrite X. reflexivity.
Qed.
Lemma cellA_set : forall H a x, a < length (hA H) -> cellA (setA H a x) a = Some (at_cell x).
Proof. intros H a x L. unfold cellA. cbn. rewrite nth_set_nth, Nat.eqb_refl. apply Nat.ltb_lt in L. rewrite L. reflexivity. Qed.
Lemma decA_set : forall H a x, a < length (hA H) -> decA (setA H a x) a = at_dec x.
Proof. intros H a x L. unfold decA. cbn. rewrite nth_set_nth, Nat.eqb_refl. apply Nat.ltb_lt in L. rewrite L. reflexivity. Qed.
Lemma getA_dec : forall H a x, getA H a = Ok x -> decA H a = at_dec x.
Proof. intros H a x. unfold getA, decA. destruct (nth_error (hA H) a); [|discriminate]. intros [= ->]. reflexivity. Qed.
Lemma getA_cell : forall H a x, getA H a = Ok x -> cellA H a = Some (at_cell x) /\ a < length (hA H).
Proof.
  intros H a x. unfold getA, cellA. destruct (nth_error (hA H) a) eqn:E; [|discriminate]. intros [= ->]. cbn. split; auto.
  apply nth_error_Some. congruence.
Qed.

Lemma cat_root : forall f, nf_spec f -> forall P H T a js l, inv H T -> atp T js l -> cellA H a = Some (ACat l) -> ~ In (RA a) (fp T) ->
  js <> [] -> (P = js /\ NoDup js) \/ (P = [] /\ adjd (cat_ T js)) ->
  goodr (allok (Vat T js)) (nfA stop stop (S f) H a)
    (fun vs H' => exists T' ks, step P [RA a] H T H' T' /\ ~ In (RA a) (fp T') /\ fin H' T' a ks /\
       (forall k, In k ks -> norm_at H' T' k /\ In k js) /\ vals T' ks (mvs (combine (cat_ T js) vs)) /\
       decA H' a = Some (fold_left dec_concat (map dconst (cat_ T js)) (mkDec DConst [0]))).
Proof.
  intros f NF P H T a js l I A C NI NE ND. cbn [nfA]. pose proof (cellA_in _ _ _ C) as Ia.
  destruct (cellA_get _ _ _ C) as (x & X1 & X2). rewrite X1. cbn [bind]. rewrite X2.
  eapply goodr_bind; [apply (cat_decs_at f NF [] js l H T (mkDec DConst [0]) I A)|auto|]. cbn beta.
  intros vs [d H1] EV (Ed & T1 & S1 & N1). cbn [fst snd] in *.
  destruct (step_out _ _ _ _ _ _ (RA a) S1 Ia (fun z => z) NI) as (Sa & NI1 & Ia1).
  destruct (cellA_get H1 a (ACat l)) as (x1 & Y1 & Y2); [rewrite (same_cell H H1 a Sa); auto|].
  unfold setDec. rewrite Y1. cbn [bind]. set (H2 := setA H1 a (mkAt (at_cell x1) (Some d))).
  assert (S2 : step [] [RA a] H1 T1 H2 T1) by (apply out_step; [apply S1|auto|left; auto]).
  assert (Ia2 : inH H2 (RA a)) by (apply (st_ext _ _ _ _ _ _ S2); auto).
  assert (A1 : atp T1 js l) by (eapply atp_step; [exact S1|exact A]).
  destruct (allok_vals T js l vs A EV) as (VS & LV).
  assert (Ec : cat_ T1 js = cat_ T js) by (eapply cat_step; exact S1).
  assert (Lc : length (cat_ T js) = length vs) by (unfold cat_; rewrite map_length; auto).
  destruct (merge_either P js l H2 T1 0 (combine (cat_ T js) vs) (S (length l))) as (ks & l' & H3 & T3 & M & A3 & S3 & N3 & V3); auto.
  - apply S2.
  - intros k Hk. eapply step_norm; [exact S2|]. auto.
  - rewrite Ec. auto.
  - rewrite combine_fst; auto.
  - eapply vals_step; [exact S1| |exact VS]. intros ? ? [].
  - rewrite M. cbn [bind fst snd]. clear M.
    destruct (step_out _ _ _ _ _ _ (RA a) S3 Ia2 (fun z => z) NI1) as (Sa3 & NI3 & Ia3).
    assert (S03 : step P [RA a] H T H3 T3).
    { apply step_trans with (H2 := H1) (T2 := T1); [eapply step_more; [| |exact S1]; intros ? []|].
      apply step_trans with (H2 := H2) (T2 := T1); [eapply step_more; [| |exact S2]; [intros ? []|apply incl_refl]|].
      eapply step_more; [| |exact S3]; [apply incl_refl|intros ? []]. }
    assert (Cell3 : cellA H3 a = Some (ACat l) /\ decA H3 a = Some d).
    { rewrite (same_cell H2 H3 a Sa3). unfold H2. rewrite cellA_set by auto. cbn. rewrite Y2. split; auto.
      unfold decA. cbn in Sa3. rewrite Sa3. exact (decA_set H1 a (mkAt (at_cell x1) (Some d)) Ia1). }
    destruct Cell3 as (C3 & D3). destruct (cellA_get _ _ _ C3) as (x3 & Z1 & Z2). pose proof (getA_dec _ _ _ Z1) as Z3. rewrite D3 in Z3.
    assert (End : forall c, cellA (setA H3 a (mkAt c (at_dec x3))) a = Some c /\ decA (setA H3 a (mkAt c (at_dec x3))) a = Some d /\
              step P [RA a] H T (setA H3 a (mkAt c (at_dec x3))) T3 /\
              (exists z, getA (setA H3 a (mkAt c (at_dec x3))) a = Ok z /\ at_cell z = c)).
    { intros c. rewrite cellA_set, decA_set by (cbn in Ia3; auto). cbn [at_cell at_dec]. split; auto. split; auto. split.
      - eapply step_trans; [exact S03|]. eapply step_more; [| |apply out_step with (G := [RA a])]; try apply incl_refl; [intros ? []|apply S3|auto|left; auto].
      - apply cellA_get. rewrite cellA_set; auto. }
    destruct ks as [|k [|k2 ks]].
    + exfalso. apply vals_len in V3. cbn [length] in V3. apply length_zero_iff_nil in V3. apply mvs_nil in V3. rename V3 into Emv. apply (f_equal (@length _)) in Emv. rewrite combine_length, Lc, Nat.min_id, LV in Emv.
      destruct js; [congruence|discriminate].
    + inversion A3 as [|? b ? l0 (y & E & Eb) A3' ]; subst. inversion A3'; subst. destruct (N3 k (or_introl eq_refl)) as (Nk & Ik).
      destruct (norm_get H3 T3 k y E Nk) as (s & v & z & W1 & W2 & _). rewrite W1. cbn [bind]. rewrite W2. unfold setCell. rewrite Z1. cbn [bind].
      destruct (End (ASing s)) as (E1 & E2 & E3 & z' & E4 & E5). rewrite E4. cbn [bind]. rewrite E5. cbn. exists vs. split; auto.
      exists T3, [k]. split; auto. split; auto. split.
      { exists y, s. split; auto. split; auto. destruct (getA_cell _ _ _ W1) as (W3 & _). rewrite W2 in W3.
        assert (en_a y <> a).
        { intros <-. apply NI3. apply fp_nth. exists k, y. split; auto. apply own_self with H3. apply S3. eapply nth_error_In; eauto. }
        unfold cellA. cbn. rewrite nth_set_nth. destruct (Nat.eqb_spec (en_a y) a); [contradiction|]. cbn. exact W3. }
      split; [|split; auto]. intros j [<-|[]]. split; auto. eapply step_norm; [|exact Nk]. apply out_step with (G := [RA a]); [apply S3|auto|left; auto].
    + assert (Two : exists b1 b2 l2, l' = b1 :: b2 :: l2).
      { inversion A3 as [|? b1 ? l1 _ A3']; subst. inversion A3' as [|? b2 ? l2 _ A3'']; subst. eauto. }
      destruct Two as (b1 & b2 & l2 & ->). unfold setCell. rewrite Z1. cbn [bind].
      destruct (End (ACat (b1 :: b2 :: l2))) as (E1 & E2 & E3 & z' & E4 & E5). rewrite E4. cbn [bind]. rewrite E5.
      assert (NN : forall j, In j (k :: k2 :: ks) -> norm_at (setA H3 a (mkAt (ACat (b1 :: b2 :: l2)) (at_dec x3))) T3 j).
      { intros j Hj. destruct (N3 j Hj) as (Nj & _). eapply step_norm; [|exact Nj]. apply out_step with (G := [RA a]); [apply S3|auto|left; auto]. }
      rewrite (cat_mixed_norm _ T3 (k :: k2 :: ks)); auto. cbn. exists vs. split; auto. exists T3, (k :: k2 :: ks). split; auto. split; auto.
      split; [exists (b1 :: b2 :: l2); auto|]. split; [|split; [auto|congruence]]. intros j Hj. split; auto. apply N3; auto.
Qed.

(* ---------------- single letters are normalised ---------------- *)

Lemma goodr_post : forall {X X' Y} (V1 : outcome X) (V2 : outcome X') (o : outcome Y) (Q : X -> Y -> Prop) (R : X' -> Y -> Prop),
  goodr V1 o Q -> ((forall v, V1 <> Ok v) -> forall v, V2 <> Ok v) ->
  (forall v y, V1 = Ok v -> Q v y -> exists w, V2 = Ok w /\ R w y) -> goodr V2 o R.
Proof. intros X X' Y V1 V2 o Q R G N K. destruct o as [y| | | |]; cbn in *; auto. destruct G as (v & E & q). eauto. Qed.

Lemma atp_seq : forall T, atp T (seq 0 (length T)) (map en_a T).
Proof.
  intros T. enough (G : forall (U W : list ent) n, n = length U -> atp (U ++ W) (seq n (length W)) (map en_a W)) by apply (G [] T 0 eq_refl).
  intros U W. revert U. induction W as [|x W IH]; intros U n E; cbn [seq length map]; constructor.
  - exists x. split; auto. subst n. rewrite nth_error_app2, Nat.sub_diag by lia. reflexivity.
  - replace (U ++ x :: W) with ((U ++ [x]) ++ W) by (rewrite <- app_assoc; auto). apply IH. rewrite app_length. cbn. lia.
Qed.
Lemma map_seq : forall {U} (g : ent -> U) (u : U) T,
  map (fun k => match nth_error T k with Some x => g x | None => u end) (seq 0 (length T)) = map g T.
Proof.
  intros U g u T. enough (G : forall (A W : list ent) n, n = length A ->
    map (fun k => match nth_error (A ++ W) k with Some x => g x | None => u end) (seq n (length W)) = map g W) by apply (G [] T 0 eq_refl).
  intros A W. revert A. induction W as [|x W IH]; intros A n E; cbn [seq length map]; auto. f_equal.
  - subst n. rewrite nth_error_app2, Nat.sub_diag by lia. reflexivity.
  - replace (A ++ x :: W) with ((A ++ [x]) ++ W) by (rewrite <- app_assoc; auto). apply IH. rewrite app_length. cbn. lia.
Qed.
Lemma const_repeat : forall (T : list ent) c, (forall x, In x T -> en_c x = c) -> map en_c T = repeat c (length T).
Proof. induction T as [|x T IH]; intros c A; cbn; auto. rewrite (A x), (IH c); auto; [intros; apply A; right; auto|left; auto]. Qed.

Lemma set_inter_1 : forall c, set_inter [c] [c] = [c].
Proof. intros c. cbn -[Nat.ltb]. rewrite Nat.ltb_irrefl. reflexivity. Qed.
Lemma dec_concat_cc : forall c, c <> 0 -> dec_concat (dconst c) (dconst c) = dconst c.
Proof.
  intros [|c] N; [congruence|]. unfold dec_concat, dconst. cbn [dec_chars has0 dec_tag uniqChar]. rewrite set_inter_1, Nat.eqb_refl. reflexivity.
Qed.
Lemma dec_concat_0c : forall c, c <> 0 -> dec_concat (mkDec DConst [0]) (dconst c) = dconst c.
Proof. intros [|c] N; [congruence|]. reflexivity. Qed.
Lemma fold_dec_const : forall n c, c <> 0 -> fold_left dec_concat (map dconst (repeat c (S n))) (mkDec DConst [0]) = dconst c.
Proof.
  intros n c N. cbn [repeat map fold_left]. rewrite dec_concat_0c by auto. induction n as [|n IH]; auto. cbn [repeat map fold_left].
  rewrite dec_concat_cc; auto.
Qed.

Lemma sum_const : forall c n vs, length vs = S n -> mvs (combine (repeat c (S n)) vs) = [(c, sum_vs vs)].
Proof.
  intros c n [|v vs] L; [discriminate|]. cbn [repeat combine mvs sum_vs]. injection L as L. rewrite mv_const.
  - cbn [fst snd]. rewrite combine_snd by (rewrite repeat_length; auto). reflexivity.
  - intros [d w] Hq. apply in_combine_l in Hq. apply repeat_spec in Hq. auto.
Qed.

Lemma hfold_at : forall f, nf_spec f -> forall G js l H T, inv H T -> atp T js l ->
  goodr (allok (Vat T js)) (hfold (fun H l => hfold (nfA stop stop f) H l) H (map (fun a => [a]) l))
    (fun _ H' => exists T', step [] G H T H' T' /\ forall k, In k js -> norm_at H' T' k).
Proof.
  intros f NF G. induction js as [|k js IH]; intros l H T I A; inversion A as [|? a ? l' (x & E & Ea) A']; subst.
  - cbn. exists []. split; auto. exists T. split; [apply step_refl; auto|intros k []].
  - cbn [hfold Vat map]. fold (Vat T js). rewrite E. destruct (nfA stop stop f H (en_a x)) as [H'| | | |] eqn:NA; cbn [bind]; auto.
    all: pose proof (nf_at f NF G H T k x I E) as G1; rewrite NA in G1; cbn in G1.
    2-4: cbn; intros v; destruct (en_V x) as [w| | | |]; cbn; try discriminate; destruct (G1 w eq_refl).
    2: exact Logic.I.
    destruct G1 as (v & Ev & T' & S & Nk).
    specialize (IH l' H' T' (st_inv _ _ _ _ _ _ S) (atp_step _ _ _ _ _ _ _ _ S A')).
    rewrite (Vat_step _ _ _ _ _ _ js S) in IH by (intros ? ? []).
    destruct (hfold (fun H0 l0 => hfold (nfA stop stop f) H0 l0) H' _) as [r| | | |]; cbn in IH |- *; auto; rewrite Ev; cbn.
    + destruct IH as (vs & EVs & T2 & S2 & N2). exists (v :: vs). rewrite EVs. split; auto.
      exists T2. split; [eapply step_trans; eauto|]. intros j [<-|Hj]; [eapply step_norm; eauto|auto].
    + intros w. destruct (allok (Vat T js)) as [us| | | |]; cbn; try discriminate. intros _. apply (IH us eq_refl).
    + intros w. destruct (allok (Vat T js)) as [us| | | |]; cbn; try discriminate. intros _. apply (IH us eq_refl).
    + intros w. destruct (allok (Vat T js)) as [us| | | |]; cbn; try discriminate. intros _. apply (IH us eq_refl).
Qed.

Lemma nf_sing : forall f H e s v, cellA H (en_a e) = Some (ASing s) -> nth_error (hS H) s = Some (en_c e, v) ->
  en_V e = Ok v -> en_F e = [RA (en_a e); RS s] ->
  goodr (en_V e) (nfA stop stop (S f) H (en_a e))
    (fun v H' => exists F', normal H' (mkEnt (en_a e) (en_c e) (en_V e) F') /\ (normal H e -> F' = en_F e) /\ ext H H' (en_F e) F').
Proof.
  intros f H e s v C Sv EV EF. cbn [nfA]. destruct (cellA_get _ _ _ C) as (x & X1 & X2). rewrite X1. cbn [bind]. rewrite X2.
  unfold getS. rewrite Sv. cbn [bind fst]. unfold setDec. rewrite X1. cbn [bind]. rewrite EV. apply goodr_total. destruct (getA_cell _ _ _ X1) as (_ & L).
  exists (en_F e). split; [|split; [auto|apply setA_ext; rewrite EF; left; auto]]. exists s, v. cbn [en_a en_c en_V en_F].
  rewrite cellA_set, decA_set by auto. cbn. rewrite X2. repeat split; auto.
Qed.

Lemma nf_cat : forall f, nf_spec f -> forall H e its, cellA H (en_a e) = Some (ACat (map en_a its)) -> 2 <= length its -> en_c e <> 0 ->
  (forall x, In x its -> en_c x = en_c e) -> (forall x, In x its -> own H x) -> apart its -> ~ In (RA (en_a e)) (fp its) ->
  en_V e = sumV (map en_V its) -> en_F e = RA (en_a e) :: fp its ->
  goodr (en_V e) (nfA stop stop (S f) H (en_a e))
    (fun v H' => exists F', normal H' (mkEnt (en_a e) (en_c e) (en_V e) F') /\ (normal H e -> F' = en_F e) /\ ext H H' (en_F e) F').
Proof.
  intros f NF H e its C L Nc Ec Sub A NA EV EF. set (n := length its) in *.
  assert (Cc : cat_ its (seq 0 n) = repeat (en_c e) n) by (unfold cat_; rewrite map_seq; apply const_repeat; auto).
  assert (VV : Vat its (seq 0 n) = map en_V its) by (unfold Vat; apply map_seq).
  eapply goodr_post; [apply (cat_root f NF (seq 0 n) H its (en_a e) (seq 0 n) (map en_a its)); auto| |].
  - split; auto.
  - apply atp_seq.
  - destruct n; [lia|discriminate].
  - left. split; [auto|apply seq_NoDup].
  - rewrite VV, EV. unfold sumV. intros N v. destruct (allok (map en_V its)) as [w| | | |]; cbn; try discriminate. destruct (N w eq_refl).
  - cbn beta. intros vs H' Evs (T' & ks & S & NI & FI & NK & VS & DE). rewrite VV in Evs. exists (sum_vs vs). rewrite EV. unfold sumV. rewrite Evs. cbn [bind]. split; auto.
    destruct n as [|n0] eqn:En; [lia|]. rewrite Cc in VS, DE. rewrite fold_dec_const in DE by auto.
    assert (LV : length vs = Datatypes.S n0) by (rewrite (allok_len _ _ Evs), map_length; exact En).
    rewrite sum_const in VS by auto. inversion VS as [|k cv ks' ? (y & Ey & Ecy & EVy) VS']; subst ks. inversion VS'; subst ks'. cbn [fst snd] in *.
    destruct FI as (x & s & Ex & Cx & Ca). assert (x = y) as -> by congruence. destruct (NK k (or_introl eq_refl)) as ((y' & Ey' & (s' & v' & C' & S' & V' & F' & D')) & _).
    assert (y' = y) as -> by congruence. assert (s' = s) as -> by congruence.
    exists [RA (en_a e); RS s]. split; [|split; [intros (s0 & w0 & C0 & _); congruence|]].
    + exists s, v'. cbn [en_a en_c en_V en_F]. rewrite <- Ecy. repeat split; auto; [congruence|rewrite Ecy; exact DE].
    + destruct (st_ext _ _ _ _ _ _ S) as (X1 & X2 & X3). rewrite EF. cbn [app] in *. split; auto. split; auto. intros r [<-|[<-|[]]]; apply X3; [left; auto|right].
      apply fp_nth. exists k, y. split; auto. rewrite F'. right. left. auto.
Qed.

Lemma nf_within : forall f, nf_spec f -> forall H e x Iv, cellA H (en_a e) = Some (AWithin (en_a x) Iv) -> en_c x = en_c e -> own H x ->
  ~ In (RA (en_a e)) (en_F x) -> en_V e = withinV Iv (en_V x) -> en_F e = RA (en_a e) :: en_F x ->
  goodr (en_V e) (nfA stop stop (S f) H (en_a e))
    (fun v H' => exists F', normal H' (mkEnt (en_a e) (en_c e) (en_V e) F') /\ (normal H e -> F' = en_F e) /\ ext H H' (en_F e) F').
Proof.
  intros f NF H e x Iv C Ec O NA EV EF. cbn [nfA]. pose proof (cellA_in _ _ _ C) as Ia. destruct (cellA_get _ _ _ C) as (z & Z1 & Z2). rewrite Z1. cbn [bind]. rewrite Z2.
  eapply goodr_bind; [apply (NF H x O)| |].
  - intros N v. rewrite EV. unfold withinV. destruct (en_V x) as [w| | | |]; cbn; try discriminate. destruct (N w eq_refl).
  - cbn beta. intros v H1 Ev (F1 & (s & w & C1 & S1 & V1 & EF1 & D1) & _ & X1). cbn [en_a en_c en_V en_F] in *. subst F1.
    assert (w = v) as -> by congruence. destruct X1 as (XA & XB & XC).
    assert (Nb : en_a x <> en_a e). { intros E. apply NA. rewrite <- E. eapply own_self; eauto. }
    assert (Ia1 : inH H1 (RA (en_a e))) by auto.
    destruct (cellA_get _ _ _ C1) as (y & Y1 & Y2). pose proof (getA_dec _ _ _ Y1) as Y3. rewrite D1 in Y3.
    unfold dec_of. rewrite Y1. cbn [bind]. rewrite <- Y3. cbn [bind].
    assert (C1a : cellA H1 (en_a e) = Some (AWithin (en_a x) Iv)) by (rewrite (same_cell H H1); auto).
    destruct (cellA_get _ _ _ C1a) as (z1 & Z3 & Z4). unfold setDec. rewrite Z3. cbn [bind].
    set (H2 := setA H1 (en_a e) _).
    assert (Gb : getA H2 (en_a x) = Ok y).
    { unfold getA, H2. cbn. rewrite nth_set_nth. destruct (Nat.eqb_spec (en_a x) (en_a e)); [contradiction|]. exact Y1. }
    rewrite Gb. cbn [bind]. rewrite Y2. assert (Gs : getS H2 s = Ok (en_c x, v)) by (unfold getS, H2; cbn; rewrite S1; auto).
    rewrite Gs. cbn [bind fst snd]. set (H3 := setS H2 s (en_c x, land1 v Iv)). unfold setCell.
    assert (Gb3 : getA H3 (en_a x) = Ok y) by exact Gb. rewrite Gb3. cbn [bind]. set (H4 := setA H3 (en_a x) _).
    assert (La : en_a e < length (hA H1)) by exact Ia1.
    assert (Ga : getA H4 (en_a e) = Ok (mkAt (at_cell z1) (Some (mkDec DConst [en_c x])))).
    { unfold getA, H4, H3, H2. cbn. rewrite !nth_set_nth. destruct (Nat.eqb_spec (en_a e) (en_a x)) as [E|_]; [congruence|]. cbn [andb].
      rewrite Nat.eqb_refl. apply Nat.ltb_lt in La. rewrite La. reflexivity. }
    rewrite Ga. cbn [bind at_dec]. rewrite EV. unfold withinV. rewrite Ev. cbn [bind]. apply goodr_total.
    assert (La4 : en_a e < length (hA H4)). { unfold H4, H3, H2. cbn. rewrite !set_nth_length. auto. }
    exists [RA (en_a e); RS s]. split; [|split; [intros (s0 & w0 & C0 & _); congruence|]].
    + exists s, (land1 v Iv). cbn [en_a en_c en_V en_F]. rewrite cellA_set, decA_set by auto. cbn [at_cell at_dec]. rewrite <- Ec. repeat split; auto.
      cbn. rewrite nth_set_nth, Nat.eqb_refl. assert (Ls : s < length (hS H1)) by (apply nth_error_Some; congruence). apply Nat.ltb_lt in Ls. rewrite Ls. reflexivity.
    + rewrite EF. set (F := RA (en_a e) :: [RA (en_a x); RS s]).
      apply ext_more with (F := RA (en_a e) :: en_F x) (F' := F); [apply incl_refl|intros r [<-|[<-|[]]]; cbn; auto|].
      apply ext_trans with (H2 := H1) (F2 := F).
      { split; [auto|]. split; [intros r I N; apply XB; auto; intros Y; apply N; right; auto|]. intros r [<-|Hr]; [left; left; auto|].
        destruct (XC r Hr); auto. left. right. auto. }
      eapply ext_trans; [apply setA_ext; left; auto|]. fold H2. eapply ext_trans; [apply setS_ext with (a := s); cbn; auto|]. fold H3.
      eapply ext_trans; [apply setA_ext with (a := en_a x); cbn; auto|]. fold H4. apply setA_ext. left; auto.
Qed.

Lemma nf_conj_mixed : forall H T js l, atp T js l -> (forall k, In k js -> norm_at H T k) ->
  oseq (conj_mixed H) (map (fun a => [a]) l) = Ok (map (fun _ => false) l).
Proof.
  intros H T js l A. induction A as [|k a js l (x & E & Ea) A IH]; intros N; [reflexivity|]. cbn [map oseq].
  destruct (norm_get H T k x E) as (s & v & z & Z1 & Z2 & _); [apply N; left; auto|]. cbn [conj_mixed]. rewrite <- Ea, Z1. cbn [bind]. rewrite Z2. cbn [bind].
  rewrite IH by (intros; apply N; right; auto). reflexivity.
Qed.
Lemma nf_conj_dec : forall f H T js l, atp T js l -> (forall k, In k js -> norm_at H T k) ->
  oseq (conj_dec (S f) H) (map (fun a => [a]) l) = Ok (map dconst (cat_ T js)).
Proof.
  intros f H T js l A. induction A as [|k a js l (x & E & Ea) A IH]; intros N; [reflexivity|]. cbn [map oseq cat_]. fold (cat_ T js). rewrite E.
  unfold conj_dec at 1. rewrite <- Ea, (norm_dec H T k x); auto; [|apply N; left; auto]. cbn [bind conj_loop].
  rewrite IH by (intros; apply N; right; auto). reflexivity.
Qed.
Lemma dec_or_cc : forall c, dec_or (dconst c) (dconst c) = dconst c.
Proof. intros c. unfold dec_or, dconst. cbn [dec_tag dec_chars]. rewrite set_inter_1. reflexivity. Qed.
Lemma dnf_dec_const : forall n c, dnf_dec (map dconst (repeat c (S n))) = Ok (dconst c).
Proof. intros n c. cbn [repeat map dnf_dec]. induction n as [|n IH]; auto. cbn [repeat map fold_left]. rewrite dec_or_cc. exact IH. Qed.

Lemma snfA_sing : forall f c H a z s d v, getA H a = Ok z -> at_cell z = ASing s -> getS H s = Ok (d, v) -> snfA (S f) c H a = Ok (c =? d, H).
Proof. intros f c H a z s d v Z1 Z2 Z3. cbn [snfA]. rewrite Z1. cbn [bind]. rewrite Z2, Z3. reflexivity. Qed.
Lemma snf_keep_norm : forall f c H T js l, atp T js l -> (forall k, In k js -> norm_at H T k) -> (forall d, In d (cat_ T js) -> d = c) ->
  snf_keep (snfA (S f) c) H (map (fun a => [a]) l) = Ok (map (fun a => [a]) l, H).
Proof.
  intros f c H T js l A. induction A as [|k a js l (x & E & Ea) A IH]; intros N Ec; [reflexivity|]. cbn [map snf_keep hall].
  destruct (norm_get H T k x E) as (s & v & z & Z1 & Z2 & Z3 & _); [apply N; left; auto|]. rewrite <- Ea, (snfA_sing f c H (en_a x) z s (en_c x) v); auto. cbn [bind fst].
  rewrite (Ec (en_c x)) by (cbn [cat_ map]; rewrite E; left; auto). rewrite Nat.eqb_refl. cbn [bind fst snd].
  rewrite IH; [reflexivity|intros; apply N; right; auto|intros d Hd; apply Ec; right; auto].
Qed.
Lemma sings_norm : forall H T js l vs, atp T js l -> (forall k, In k js -> norm_at H T k) -> allok (Vat T js) = Ok vs ->
  oseq (fun l => do is <- sings_of H l ; Ok (fold_left land is [interval_default])) (map (fun a => [a]) l) =
  Ok (map (fun v => land [interval_default] v) vs).
Proof.
  intros H T js l vs A. revert vs. induction A as [|k a js l (x & E & Ea) A IH]; intros vs N EV; [injection EV as <-; reflexivity|].
  destruct (norm_get H T k x E) as (s & v & z & Z1 & Z2 & Z3 & Z4 & _); [apply N; left; auto|].
  cbn [Vat map allok] in EV. fold (Vat T js) in EV. rewrite E, Z4 in EV. cbn [bind] in EV. destruct (allok (Vat T js)) as [us| | | |]; cbn [bind] in EV; try discriminate.
  injection EV as <-. cbn [map oseq sings_of]. unfold sing_of. rewrite <- Ea, Z1. cbn [bind]. rewrite Z2. cbn [bind]. rewrite Z3. cbn [bind fst snd fold_left].
  rewrite (IH us); auto. intros; apply N; right; auto.
Qed.

Lemma listD_get : forall H d l, listD H d = Some l -> exists e, getD H d = Ok e /\ dn_list e = l /\ d < length (hD H).
Proof.
  intros H d l. unfold listD, getD. destruct (nth_error (hD H) d) as [e|] eqn:E; [|discriminate]. intros [= <-]. exists e. split; auto. split; auto.
  apply nth_error_Some. congruence.
Qed.
Lemma getA_set : forall H a x, a < length (hA H) -> getA (setA H a x) a = Ok x.
Proof. intros H d x L. unfold getA. cbn. rewrite nth_set_nth, Nat.eqb_refl. apply Nat.ltb_lt in L. rewrite L. reflexivity. Qed.
Lemma getS_set : forall H a x, a < length (hS H) -> nth_error (hS (setS H a x)) a = Some x.
Proof. intros H d x L. cbn. rewrite nth_set_nth, Nat.eqb_refl. apply Nat.ltb_lt in L. rewrite L. reflexivity. Qed.
Lemma getD_set : forall H d x, d < length (hD H) -> getD (setD H d x) d = Ok x.
Proof. intros H d x L. unfold getD. cbn. rewrite nth_set_nth, Nat.eqb_refl. apply Nat.ltb_lt in L. rewrite L. reflexivity. Qed.
Lemma norm_setD : forall H T k d x, norm_at H T k -> norm_at (setD H d x) T k.
Proof. intros H T k d x (y & E & N). exists y. split; auto. Qed.
Lemma plus_dec_const : forall c, c <> 0 -> plus_dec (dconst c) = dconst c.
Proof. intros [|c] N; [congruence|reflexivity]. Qed.

Lemma nf_plus : forall f, (forall g, g <= f -> nf_spec g) -> forall H e d its, cellA H (en_a e) = Some (APlus d) ->
  listD H d = Some (map (fun x => [en_a x]) its) -> its <> [] -> en_c e <> 0 ->
  (forall x, In x its -> en_c x = en_c e) -> (forall x, In x its -> own H x) -> apart its -> ~ In (RA (en_a e)) (fp its) -> ~ In (RD d) (fp its) ->
  en_V e = plusV (map en_V its) -> en_F e = RA (en_a e) :: RD d :: fp its ->
  goodr (en_V e) (nfA stop stop (S f) H (en_a e))
    (fun v H' => exists F', normal H' (mkEnt (en_a e) (en_c e) (en_V e) F') /\ (normal H e -> F' = en_F e) /\ ext H H' (en_F e) F').
Proof.
  intros f NF H e d its C D NE Nc Ec Sub A NA ND EV EF. cbn [nfA]. pose proof (cellA_in _ _ _ C) as Ia. pose proof (listD_in _ _ _ D) as Id.
  destruct (cellA_get _ _ _ C) as (z & Z1 & Z2). rewrite Z1. cbn [bind]. rewrite Z2. destruct f as [|f]; [exact Logic.I|]. cbn [nfD].
  destruct (listD_get _ _ _ D) as (dn & D1 & D2 & D3). rewrite D1. cbn [bind]. rewrite D2. rewrite <- (map_map en_a (fun a => [a])).
  set (n := length its) in *.
  assert (Cc : cat_ its (seq 0 n) = repeat (en_c e) n) by (unfold cat_; rewrite map_seq; apply const_repeat; auto).
  assert (VV : Vat its (seq 0 n) = map en_V its) by (unfold Vat; apply map_seq).
  assert (NoV : (forall v, allok (map en_V its) <> Ok v) -> forall v, en_V e <> Ok v).
  { rewrite EV. unfold plusV. intros N v. destruct (allok (map en_V its)) as [w| | | |]; cbn; try discriminate. destruct (N w eq_refl). }
  pose proof (hfold_at f (NF f ltac:(lia)) [] (seq 0 n) (map en_a its) H its (conj Sub A) (atp_seq its)) as HF. rewrite VV in HF.
  destruct (hfold _ _ _) as [H1| | | |]; cbn in HF |- *; auto. destruct HF as (vs & Evs & T1 & S1 & N1).
  pose proof (atp_step _ _ _ _ _ _ _ _ S1 (atp_seq its)) as A1. fold n in A1.
  rewrite (nf_conj_mixed H1 T1 (seq 0 n) (map en_a its)); auto. cbn [bind].
  assert (NB : existsb (fun b => b) (map (fun _ => false) (map en_a its)) = false) by (clear; induction its; auto).
  rewrite NB. cbn [bind].
  destruct (step_out _ _ _ _ _ _ (RA (en_a e)) S1 Ia (fun z => z) NA) as (Sa & NI1 & Ia1).
  destruct (step_out _ _ _ _ _ _ (RD d) S1 Id (fun z => z) ND) as (Sd & ND1 & Id1).
  assert (D1' : getD H1 d = Ok dn) by (unfold getD in *; cbn in Sd; rewrite Sd; exact D1).
  rewrite D1'. cbn [bind]. rewrite D2, <- (map_map en_a (fun a => [a])). destruct f as [|f].
  { destruct its as [|x its]; [congruence|]. cbn [map oseq conj_dec]. cbn [length seq map] in A1. inversion A1 as [|k0 a0 k1 a1 (y & E & Ea) _ E1 E2].
    rewrite <- Ea, (norm_dec H1 T1 0 y); auto; [exact Logic.I|]. apply N1. cbn. auto. }
  rewrite (nf_conj_dec f H1 T1 (seq 0 n) (map en_a its)) by auto. cbn [bind].
  rewrite (cat_step _ _ _ _ _ _ (seq 0 n) S1), Cc. destruct n as [|n0] eqn:En; [destruct its; [congruence|discriminate]|].
  rewrite dnf_dec_const. cbn [bind]. set (H2 := setD H1 d _). 
  assert (GD2 : getD H2 d = Ok (mkDn (map (fun a => [a]) (map en_a its)) (Some (dconst (en_c e))))) by (apply getD_set; exact Id1).
  rewrite GD2. cbn [bind dn_dec]. rewrite plus_dec_const by auto.
  assert (C2 : cellA H2 (en_a e) = Some (APlus d)) by (transitivity (cellA H1 (en_a e)); [reflexivity|rewrite (same_cell H H1); auto]).
  destruct (cellA_get _ _ _ C2) as (z2 & Y1 & Y2). unfold setDec. rewrite Y1. cbn [bind isMixed isConstant dconst dec_tag dec_chars].
  set (H3 := setA H2 (en_a e) _).
  assert (N3 : forall k, In k (seq 0 (S n0)) -> norm_at H3 T1 k).
  { intros k Hk. destruct (N1 k Hk) as (y & E & N). exists y. split; auto. apply normal_frame with H2; [|exact N]. intros r Hr.
    destruct (setA_ext H2 (en_a e) (mkAt (at_cell z2) (Some (dconst (en_c e)))) [RA (en_a e)] (or_introl eq_refl)) as (_ & B & _). apply B.
    - enough (inH H1 r) by (destruct r; cbn in *; auto; rewrite set_nth_length; auto). eapply own_in; [|exact Hr]. apply S1. eapply nth_error_In; eauto.
    - intros [<-|[]]. apply NI1. apply fp_nth. eauto. }
  assert (La : en_a e < length (hA H3)) by (unfold H3, H2; cbn; rewrite set_nth_length; exact Ia1).
  assert (G3 : getA H3 (en_a e) = Ok (mkAt (APlus d) (Some (dconst (en_c e))))).
  { unfold H3. rewrite getA_set by exact Ia1. rewrite Y2. reflexivity. }
  assert (GD3 : getD H3 d = Ok (mkDn (map (fun a => [a]) (map en_a its)) (Some (dconst (en_c e))))) by (apply getD_set; exact Id1).
  cbn [bind]. cbn [snfA]. fold (dconst (en_c e)) in *. rewrite G3. cbn [bind at_cell snfD]. rewrite GD3. cbn [bind dn_list]. destruct f as [|f].
  { destruct its as [|x its]; [congruence|]. exact Logic.I. }
  assert (Ec1 : cat_ T1 (seq 0 (S n0)) = repeat (en_c e) (S n0)) by (rewrite (cat_step _ _ _ _ _ _ _ S1); auto).
  rewrite (snf_keep_norm f (en_c e) H3 T1 (seq 0 (S n0)) (map en_a its)); auto; [|intros c Hc; rewrite Ec1 in Hc; apply repeat_spec in Hc; auto].
  cbn [bind fst snd]. rewrite (sings_norm H3 T1 (seq 0 (S n0)) (map en_a its) vs); auto; [|rewrite (Vat_step _ _ _ _ _ _ _ S1), VV by (intros ? ? []); auto].
  cbn [bind]. set (L := concat (map (fun v => land [interval_default] v) vs)). unfold newSingle, newS, newA. cbn [fst snd hA hS hD].
  set (an := length (hA H3)). set (s := length (hS H3)). set (H4 := mkH _ _ _).
  assert (GD4 : getD H4 d = getD H3 d) by reflexivity. rewrite GD4, GD3. cbn [bind dn_dec]. set (H5 := setD H4 d _).
  assert (GD5 : getD H5 d = Ok (mkDn [[an]] (Some (dconst (en_c e))))) by (apply getD_set; unfold H4, H3, H2; cbn; rewrite set_nth_length; exact Id1).
  rewrite GD5. cbn [bind dn_list].
  assert (SO : sing_of H5 an = Ok s) by (unfold sing_of, getA, H5, H4, an; cbn; rewrite nth_error_app2, Nat.sub_diag by lia; reflexivity).
  assert (GS : getS H5 s = Ok (en_c e, L)) by (unfold getS, H5, H4, s; cbn; rewrite nth_error_app2, Nat.sub_diag by lia; reflexivity).
  assert (GA : getA H5 (en_a e) = getA H3 (en_a e)) by (unfold getA, H5, H4; cbn; rewrite nth_error_app1 by exact La; reflexivity).
  rewrite SO. cbn [bind]. rewrite GS. cbn [bind fst snd]. unfold setCell. rewrite GA, G3. cbn [bind at_dec].
  set (H6 := setA H5 (en_a e) _). rewrite EV. unfold plusV. rewrite Evs. cbn [bind]. fold L. clear NoV.
  destruct (plus_set L) as [p| | | |]; cbn [bind fst snd goodr]; try discriminate; [|exact Logic.I]. exists p. split; auto.
  exists [RA (en_a e); RS s]. split; [|split; [intros (s0 & w0 & C0 & _); congruence|]].
  - exists s, p. cbn [en_a en_c en_V en_F]. assert (L6 : en_a e < length (hA H5)) by (change (hA H5) with (hA H3 ++ [mkAt (ASing s) None]); rewrite app_length; lia).
    split; [exact (cellA_set H5 (en_a e) _ L6)|]. split; [|split; [auto|split; [auto|exact (decA_set H5 (en_a e) _ L6)]]].
    apply getS_set. change (hS H6) with (hS H3 ++ [(en_c e, L)]). rewrite app_length. unfold s. cbn [length]. lia.
  - rewrite EF. set (F1 := RA (en_a e) :: RD d :: fp T1). set (F4 := RA an :: RS s :: F1).
    apply ext_more with (F := RA (en_a e) :: RD d :: fp its) (F' := F4); [apply incl_refl|intros r [<-|[<-|[]]]; unfold F4, F1; cbn; auto|].
    apply ext_trans with (H2 := H1) (F2 := F1).
    { destruct (st_ext _ _ _ _ _ _ S1) as (XA & XB & XC). cbn [app] in *. split; [auto|]. split; [intros r I N; apply XB; auto; intros Y; apply N; right; right; auto|].
      intros r [<-|[<-|Hr]]; [left; left; auto|left; right; left; auto|]. destruct (XC r Hr); auto. left. right. right. auto. }
    apply ext_trans with (H2 := H2) (F2 := F1); [apply setD_ext; right; left; auto|].
    apply ext_trans with (H2 := H3) (F2 := F1); [apply setA_ext; left; auto|].
    eapply ext_trans; [exact (newS_ext H3 (en_c e) L F1)|].
    eapply ext_trans; [exact (newA_ext (snd (newS H3 (en_c e) L)) (ASing s) (RS s :: F1))|]. change (ext H4 (setS H6 s (en_c e, p)) F4 F4).
    apply ext_trans with (H2 := H5) (F2 := F4); [apply setD_ext; unfold F4, F1; cbn; auto|].
    apply ext_trans with (H2 := H6) (F2 := F4); [apply setA_ext; unfold F4, F1; cbn; auto|].
    apply setS_ext. unfold F4, F1; cbn; auto.
Qed.

Theorem nf_all : forall f, nf_spec f.
Proof.
  intros f. induction f as [f IH] using lt_wf_ind. destruct f as [|f]; [intros H e O; exact Logic.I|].
  intros H e O. pose proof (own_letter H e O) as Nc.
  destruct O as [e s v C S N EV EF|e its C L Ec Sub A NA EV EF|e d its C D NE Ec Sub A NA ND EV EF|e x Iv C Ec O NA EV EF].
  - eapply nf_sing; eauto.
  - eapply nf_cat; eauto.
  - eapply nf_plus; eauto. intros g Hg. apply IH. lia.
  - eapply nf_within; eauto.
Qed.
