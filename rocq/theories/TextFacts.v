(* Facts about the text formats. *)
From Coq Require Import QArith Lqa Bool List ZArith Arith Lia Decimal DecimalPos DecimalZ.
From Verif Require Import Num Outcome Constraint Zone TA Spec TAFacts Text.
Import ListNotations.
Open Scope nat_scope.

(* ---------------- numbers ---------------- *)

Definition nodigit (r : list nat) : Prop := match r with [] => True | c :: _ => digit c = None end.

Lemma digit_chars : forall c D, digit c = Some D -> forall d, uint_chars (D d) = c :: uint_chars d.
Proof.
  intros c D H d. unfold digit in H. destruct (Nat.ltb_spec c 48); [discriminate|].
  assert (E : exists k, c = 48 + k /\ nth_error [D0; D1; D2; D3; D4; D5; D6; D7; D8; D9] k = Some D).
  { exists (c - 48). split; [lia|auto]. }
  destruct E as (k & -> & E).
  do 10 (destruct k as [|k]; [injection E as <-; reflexivity|]). destruct k; discriminate.
Qed.

Lemma scan_stop : forall r, nodigit r -> scan_digits r = (Nil, r).
Proof. intros [|c r] H; auto. unfold nodigit in H. unfold scan_digits. rewrite H. auto. Qed.
Lemma scan_app : forall d r, nodigit r -> scan_digits (uint_chars d ++ r) = (d, r).
Proof.
  induction d; intros r H; [apply scan_stop; auto|..];
    cbn [uint_chars Datatypes.app scan_digits];
    match goal with |- context [digit ?c] => let x := eval compute in (digit c) in change (digit c) with x end;
    rewrite IHd; auto.
Qed.

Lemma scan_inv : forall s d r, scan_digits s = (d, r) -> s = uint_chars d ++ r /\ nodigit r.
Proof.
  induction s as [|c s IH]; intros d r H; cbn [scan_digits] in H.
  - injection H as <- <-. split; reflexivity.
  - destruct (digit c) as [D|] eqn:E.
    + destruct (scan_digits s) as [d' r'] eqn:F. injection H as <- <-. destruct (IH _ _ eq_refl) as [-> N].
      split; auto. rewrite (digit_chars c D E). reflexivity.
    + injection H as <- <-. split; [reflexivity|exact E].
Qed.

(* A number as it may be written: an optional sign and digits. *)
Definition numeral (t : list nat) (z : Z) : Prop :=
  exists d, d <> Nil /\
    ((t = uint_chars d \/ t = 43 :: uint_chars d) /\ z = Z.of_int (Pos d) \/
     t = 45 :: uint_chars d /\ z = Z.of_int (Neg d)).

Definition int_range (z : Z) : Prop := (int_min <= z <= int_max)%Z.

Lemma uint_head : forall d, d <> Nil -> exists c t, uint_chars d = c :: t /\ 48 <= c <= 57.
Proof. destruct d; intros H; try congruence; cbn; eexists; eexists; (split; [reflexivity|lia]). Qed.

Definition at_end (r : list nat) : bool := match r with [] => true | _ => false end.

Lemma read_numeral : forall t z r, numeral t z -> int_range z -> nodigit r ->
  read_int (mkIs (t ++ r) false false) = (Some z, mkIs r false (at_end r)).
Proof.
  intros t z r (d & Nd & H) [L U] N. unfold read_int. cbn [good_stream failed ateof negb andb chars].
  destruct (uint_head d Nd) as (c & t' & E & Rc).
  assert (S : exists neg, sign (t ++ r) = (neg, uint_chars d ++ r) /\ z = Z.of_int (if neg : bool then Neg d else Pos d)).
  { destruct H as [[[-> | ->] ->]|[-> ->]].
    - exists false. split; auto. rewrite E. cbn [Datatypes.app sign].
      destruct (Nat.eqb_spec c 45); [lia|]. destruct (Nat.eqb_spec c 43); [lia|]. reflexivity.
    - exists false. split; auto.
    - exists true. split; auto. }
  destruct S as (neg & -> & Ez). rewrite scan_app by auto.
  destruct d; try congruence; cbv zeta; rewrite <- Ez;
    (destruct (Z.ltb_spec z int_min); [lia|]); (destruct (Z.ltb_spec int_max z); [lia|]); reflexivity.
Qed.

Lemma read_int_inv : forall s z s', read_int s = (Some z, s') -> failed s' = false ->
  failed s = false /\ ateof s = false /\ int_range z /\
  exists t, chars s = t ++ chars s' /\ numeral t z /\ nodigit (chars s') /\ ateof s' = at_end (chars s').
Proof.
  intros [cs f e] z s' H F. unfold read_int, good_stream in H. cbn [failed ateof chars] in H.
  destruct f, e; cbn [negb andb] in H; try discriminate. cbn [failed ateof chars].
  destruct (sign cs) as [neg s1] eqn:S. destruct (scan_digits s1) as [d r] eqn:D.
  apply scan_inv in D as [-> N].
  assert (X : d <> Nil /\ z = Z.of_int (if neg : bool then Neg d else Pos d) /\ int_range z /\ s' = mkIs r false (at_end r)).
  { assert (Nd : d <> Nil) by (destruct d; [injection H as <- <-; discriminate|..]; discriminate). split; auto.
    set (y := Z.of_int (if neg : bool then Neg d else Pos d)) in *.
    assert (H' : (if (y <? int_min)%Z then (Some int_min, mkIs r true (at_end r))
        else if (int_max <? y)%Z then (Some int_max, mkIs r true (at_end r)) else (Some y, mkIs r false (at_end r))) = (Some z, s')).
    { destruct d; try congruence; exact H. }
    destruct (Z.ltb_spec y int_min); [injection H' as <- <-; discriminate|].
    destruct (Z.ltb_spec int_max y); [injection H' as <- <-; discriminate|].
    injection H' as <- <-. repeat split; auto. }
  destruct X as (Nd & -> & Rz & ->). cbn [chars ateof]. repeat split; auto; try (apply Rz).
  unfold sign in S. destruct cs as [|c cs].
  - injection S as <- E. destruct (uint_head d Nd) as (c & t & E2 & _). rewrite E2 in E. discriminate.
  - destruct (Nat.eqb_spec c 45).
    + injection S as <- ->. exists (45 :: uint_chars d). subst c. split; [reflexivity|]. split; [exists d; auto|auto].
    + destruct (Nat.eqb_spec c 43).
      * injection S as <- ->. exists (43 :: uint_chars d). subst c. split; [reflexivity|]. split; [exists d; auto|auto].
      * injection S as <- E. exists (uint_chars d). rewrite E. split; [reflexivity|]. split; [exists d; auto|auto].
Qed.

Lemma int_chars_numeral : forall z, numeral (int_chars z) z.
Proof.
  intros z. pose proof (DecimalZ.of_to z) as E. unfold int_chars. destruct (Z.to_int z) as [d|d] eqn:D; exists d.
  - split.
    + intros ->. destruct z; cbn in D; discriminate.
    + left. split; auto.
  - split.
    + intros ->. destruct z; cbn in D; discriminate.
    + right. split; auto.
Qed.

Lemma to_uint8_id : forall x, x < 256 -> to_uint8 (Z.of_nat x) = x.
Proof. intros x H. unfold to_uint8. rewrite Z.mod_small by lia. apply Nat2Z.id. Qed.

Lemma small_range : forall x, x < 256 -> int_range (Z.of_nat x).
Proof. intros x H. unfold int_range, int_min, int_max. lia. Qed.

(* ---------------- constraints ---------------- *)

Definition printable (g : constr) : Prop := cx g < 256 /\ int_range (cc g).

(* A constraint as it may be written. *)
Definition constr_text (t : list nat) (g : constr) : Prop :=
  exists tx x tc, numeral tx x /\ int_range x /\ cx g = to_uint8 x /\ numeral tc (cc g) /\ int_range (cc g) /\
    t = [120] ++ tx ++ [32] ++ cmp_chars (codr g) ++ [32] ++ tc.

Lemma constr_chars_text : forall g, printable g -> constr_text (constr_chars g) g.
Proof.
  intros g [H1 H2]. exists (int_chars (Z.of_nat (cx g))), (Z.of_nat (cx g)), (int_chars (cc g)).
  repeat split; try apply int_chars_numeral; try apply small_range; auto; try apply H2.
  rewrite to_uint8_id; auto.
Qed.

Lemma expect_ok : forall c t, expect c (mkIs (c :: t) false false) = (true, mkIs t false false).
Proof. intros. unfold expect, get. cbn. rewrite Nat.eqb_refl. reflexivity. Qed.

Lemma expect_inv : forall c s s', expect c s = (true, s') ->
  failed s = false /\ ateof s = false /\ chars s = c :: chars s' /\ failed s' = false /\ ateof s' = false.
Proof.
  intros c [cs f e] s' H. unfold expect, get, good_stream in H. cbn in *. destruct f, e; cbn in H; try discriminate.
  destruct cs as [|c' cs]; cbn in H; [discriminate|]. destruct (Nat.eqb_spec c' c); [|discriminate].
  injection H as <-. subst. cbn. auto.
Qed.

Lemma nodigit_32 : forall t, nodigit (32 :: t).
Proof. intros. reflexivity. Qed.

Lemma read_order_ok : forall o t, read_order (mkIs (cmp_chars o ++ [32] ++ t) false false) = Ok (Some o, mkIs t false false).
Proof. intros [] t; reflexivity. Qed.

Lemma read_order_inv : forall s o s', read_order s = Ok (Some o, s') ->
  failed s = false /\ ateof s = false /\ chars s = cmp_chars o ++ [32] ++ chars s' /\ failed s' = false /\ ateof s' = false.
Proof.
  intros [cs f e] o s' H. unfold read_order, read_char in H. unfold get at 1 in H. unfold good_stream in H. cbn [failed ateof chars] in *.
  destruct f, e; cbn [negb andb] in H; try (destruct (get _); discriminate).
  destruct cs as [|c0 cs]; [cbn in H; discriminate|]. cbn in H.
  destruct cs as [|c1 cs]; [cbn in H; destruct ((c0 =? 62) || (c0 =? 60)); discriminate|].
  unfold get, good_stream in H. cbn [failed ateof chars negb andb] in H.
  destruct (Nat.eqb_spec c0 62) as [->|N62].
  - cbn [orb] in H. destruct (Nat.eqb_spec c1 61) as [->|].
    + destruct (expect 32 _) as [b s2] eqn:E. destruct b; [|discriminate]. apply expect_inv in E as (_ & _ & E & F1 & F2).
      cbn in E. subst. injection H as <- <-. cbn. auto.
    + destruct (Nat.eqb_spec c1 32) as [->|]; [|discriminate]. injection H as <- <-. cbn. auto.
  - cbn [orb] in H. destruct (Nat.eqb_spec c0 60) as [->|]; [|discriminate]. destruct (Nat.eqb_spec c1 61) as [->|].
    + destruct (expect 32 _) as [b s2] eqn:E. destruct b; [|discriminate]. apply expect_inv in E as (_ & _ & E & F1 & F2).
      cbn in E. subst. injection H as <- <-. cbn. auto.
    + destruct (Nat.eqb_spec c1 32) as [->|]; [|discriminate]. injection H as <- <-. cbn. auto.
Qed.

Lemma read_constr_ok : forall t g r, constr_text t g -> nodigit r ->
  read_constr (mkIs (t ++ r) false false) = Ok (Some g, mkIs r false (at_end r)).
Proof.
  intros t g r (tx & x & tc & Nx & Rx & Ex & Nc & Rc & ->) N. unfold read_constr.
  rewrite <- !app_assoc. cbn [Datatypes.app]. rewrite expect_ok. cbn [negb].
  rewrite (read_numeral tx x) by (auto using nodigit_32). cbn [failed at_end]. rewrite expect_ok. cbn [negb].
  change (32 :: tc ++ r) with ([32] ++ tc ++ r). rewrite (read_order_ok (codr g) (tc ++ r)). cbn [bind]. rewrite (read_numeral tc (cc g)) by auto. cbn [failed].
  rewrite <- Ex. destruct g. reflexivity.
Qed.

Lemma read_constr_inv : forall s g s', read_constr s = Ok (Some g, s') ->
  failed s = false /\ ateof s = false /\ failed s' = false /\ ateof s' = at_end (chars s') /\
  exists t, chars s = t ++ chars s' /\ constr_text t g.
Proof.
  intros s g s' H. unfold read_constr in H. destruct (expect 120 s) as [b s1] eqn:E1. destruct b; [|discriminate].
  cbn [negb] in H. apply expect_inv in E1 as (A1 & A2 & A3 & A4 & A5). destruct (read_int s1) as [[x|] s2] eqn:E2; [|discriminate].
  destruct (failed s2) eqn:F2; [discriminate|]. apply read_int_inv in E2 as (_ & _ & Rx & tx & B1 & B2 & B3 & B4); auto.
  destruct (expect 32 s2) as [b s3] eqn:E3. destruct b; [|discriminate]. cbn [negb] in H. apply expect_inv in E3 as (_ & _ & C1 & C2 & C3).
  destruct (read_order s3) as [[[o|] s4]| | | |] eqn:E4; try discriminate. cbn [bind] in H.
  apply read_order_inv in E4 as (_ & _ & D1 & D2 & D3).
  destruct (read_int s4) as [[c|] s5] eqn:E5; [|discriminate]. destruct (failed s5) eqn:F5; [discriminate|].
  apply read_int_inv in E5 as (_ & _ & Rc & tc & G1 & G2 & G3 & G4); auto. injection H as <- <-.
  repeat split; auto. exists ([120] ++ tx ++ [32] ++ cmp_chars o ++ [32] ++ tc). split.
  - rewrite A3, B1, C1, D1, G1. rewrite <- !app_assoc. reflexivity.
  - exists tx, x, tc. repeat split; auto; apply Rx || apply Rc.
Qed.

Lemma read_clock_ok : forall t z r, numeral t z -> int_range z -> nodigit r ->
  read_clock (mkIs (t ++ r) false false) = Ok (Some (to_uint8 z), mkIs r false (at_end r)).
Proof. intros t z r H R N. unfold read_clock. rewrite (read_numeral t z) by auto. reflexivity. Qed.

Definition clock_text (t : list nat) (x : nat) : Prop := exists z, numeral t z /\ int_range z /\ x = to_uint8 z.

Lemma read_clock_inv : forall s x s', read_clock s = Ok (Some x, s') ->
  failed s = false /\ ateof s = false /\ failed s' = false /\ ateof s' = at_end (chars s') /\
  exists t, chars s = t ++ chars s' /\ clock_text t x.
Proof.
  intros s x s' H. unfold read_clock in H. destruct (read_int s) as [[z|] s1] eqn:E; [|discriminate].
  destruct (failed s1) eqn:F; [discriminate|]. injection H as <- <-.
  apply read_int_inv in E as (A & B & R & t & C1 & C2 & C3 & C4); auto. repeat split; auto. exists t. split; auto.
  exists z. auto.
Qed.

(* ---------------- lists ---------------- *)

Lemma F2_length : forall {X Y} (R : X -> Y -> Prop) l k, Forall2 R l k -> length l = length k.
Proof. induction 1; cbn; auto. Qed.

Section Items.
  Context {X : Type}.
  Variable f : istream -> outcome (option X * istream).
  Variable text : list nat -> X -> Prop.
  Hypothesis f_ok : forall t x r, text t x -> nodigit r -> f (mkIs (t ++ r) false false) = Ok (Some x, mkIs r false (at_end r)).
  Hypothesis f_inv : forall s x s', f s = Ok (Some x, s') ->
    failed s = false /\ ateof s = false /\ failed s' = false /\ ateof s' = at_end (chars s') /\
    exists t, chars s = t ++ chars s' /\ text t x.

  Definition texts (ts : list (list nat)) (l : list X) : Prop := Forall2 text ts l.

  Lemma read_items_ok : forall l ts fuel r, texts ts l -> l <> [] -> length l <= fuel ->
    read_items f fuel (mkIs (sep (fun t => t) ts ++ [125] ++ r) false false) = Ok (Some l, mkIs r false false).
  Proof.
    induction l as [|x l IH]; intros ts fuel r T Nl L; [congruence|]. inversion T as [|t x' ts' l' Tx T' E1 E2]; subst.
    destruct fuel as [|k]; [cbn in L; lia|]. cbn [read_items].
    destruct l as [|y l].
    - inversion T'; subst. cbn [sep]. rewrite (f_ok t x ([125] ++ r)) by (auto; reflexivity). reflexivity.
    - inversion T' as [|ty y' ts2 l2 Ty T2 F1 F2]; subst.
      change (sep (fun t => t) (t :: ty :: ts2)) with (t ++ [44; 32] ++ sep (fun t => t) (ty :: ts2)).
      rewrite <- app_assoc. rewrite (f_ok t x) by (auto; reflexivity). cbn [bind].
      change (([44; 32] ++ sep (fun t0 => t0) (ty :: ts2)) ++ [125] ++ r) with (44 :: 32 :: (sep (fun t0 => t0) (ty :: ts2) ++ [125] ++ r)).
      unfold read_char, get, good_stream. cbn [at_end failed ateof negb andb chars]. cbn [Nat.eqb].
      rewrite expect_ok. cbn [negb]. rewrite (IH (ty :: ts2) k r); auto; [discriminate|cbn in *; lia].
  Qed.

  Lemma read_items_inv : forall fuel s l s', read_items f fuel s = Ok (Some l, s') ->
    l <> [] /\ exists ts, texts ts l /\ chars s = sep (fun t => t) ts ++ [125] ++ chars s'.
  Proof.
    induction fuel as [|k IH]; intros s l s' H; [discriminate|]. cbn [read_items] in H.
    destruct (f s) as [[[x|] s1]| | | |] eqn:E; try discriminate. cbn [bind] in H.
    apply f_inv in E as (A1 & A2 & A3 & A4 & t & A5 & A6). unfold read_char, get, good_stream in H. rewrite A3, A4 in H. cbn [negb andb] in H.
    destruct (chars s1) as [|c cs] eqn:C; [cbn in H; discriminate|]. cbn [at_end negb] in H.
    destruct (Nat.eqb_spec c 125) as [->|N1].
    - injection H as <- <-. split; [discriminate|]. exists [t]. split; [repeat constructor; auto|]. cbn. auto.
    - destruct (Nat.eqb_spec c 44) as [->|]; [|discriminate]. destruct (expect 32 _) as [b s2] eqn:E2. destruct b; [|discriminate].
      cbn [negb] in H. apply expect_inv in E2 as (_ & _ & B1 & B2 & B3). cbn in B1.
      destruct (read_items f k s2) as [[[l2|] s3]| | | |] eqn:E3; try discriminate. cbn [bind] in H. injection H as <- <-.
      destruct (IH _ _ _ E3) as (Nl & ts & T & Ec). split; [discriminate|]. exists (t :: ts). split; [constructor; auto|].
      rewrite A5, B1, Ec. destruct ts as [|t2 ts]; [inversion T; subst; congruence|].
      change (sep (fun t => t) (t :: t2 :: ts)) with (t ++ [44; 32] ++ sep (fun t => t) (t2 :: ts)).
      rewrite <- !app_assoc. reflexivity.
  Qed.

  Lemma read_list_ok : forall l ts, texts ts l -> l <> [] ->
    lexical_cast (read_list f) ([123] ++ sep (fun t => t) ts ++ [125]) = Ok l.
  Proof.
    intros l ts T Nl. unfold lexical_cast, read_list. cbn [Datatypes.app]. rewrite expect_ok. cbn [negb chars].
    pose proof (read_items_ok l ts (S (length (sep (fun t => t) ts ++ [125]))) [] T Nl) as R. cbn [Datatypes.app] in R. rewrite R; auto.
    assert (L : forall ts : list (list nat), length ts <= S (length (sep (fun t => t) ts))).
    { clear. induction ts as [|t [|t2 ts] IH]; [cbn; lia|cbn; lia|].
      change (sep (fun t => t) (t :: t2 :: ts)) with (t ++ [44; 32] ++ sep (fun t => t) (t2 :: ts)). rewrite !app_length. cbn [length] in *. lia. }
    rewrite app_length. cbn. specialize (L ts). rewrite <- (F2_length _ _ _ T). lia.
  Qed.

  Lemma read_list_inv : forall s l, lexical_cast (read_list f) s = Ok l ->
    l <> [] /\ exists ts, texts ts l /\ s = [123] ++ sep (fun t => t) ts ++ [125].
  Proof.
    intros s l H. unfold lexical_cast, read_list in H. destruct (expect 123 _) as [b s1] eqn:E. destruct b; cbn [negb] in H; [|discriminate].
    apply expect_inv in E as (_ & _ & E & _ & _). cbn in E.
    destruct (read_items f _ s1) as [[[l1|] s2]| | | |] eqn:E2; try discriminate. cbn [bind] in H.
    destruct (chars s2) eqn:C; [|discriminate]. injection H as <-. apply read_items_inv in E2 as (Nl & ts & T & Ec).
    split; auto. exists ts. split; auto. rewrite E, Ec, C. reflexivity.
  Qed.
End Items.

Lemma sep_map : forall {X} (p : X -> list nat) l, sep p l = sep (fun t => t) (map p l).
Proof.
  induction l as [|x [|y l] IH]; auto. change (sep p (x :: y :: l)) with (p x ++ [44; 32] ++ sep p (y :: l)). rewrite IH. reflexivity.
Qed.
Lemma Forall2_map_l : forall {X Y} (R : Y -> X -> Prop) (p : X -> Y) l, Forall (fun x => R (p x) x) l -> Forall2 R (map p l) l.
Proof. induction 1; cbn; constructor; auto. Qed.

(* ---------------- termination ---------------- *)

Lemma numeral_nonempty : forall t z, numeral t z -> t <> [].
Proof.
  intros t z (d & Nd & H). destruct (uint_head d Nd) as (c & t' & E & _).
  destruct H as [[[-> | ->] _]|[-> _]]; rewrite ?E; discriminate.
Qed.
Lemma constr_text_nonempty : forall t g, constr_text t g -> t <> [].
Proof. intros t g (tx & x & tc & H). destruct H as (_ & _ & _ & _ & _ & ->). discriminate. Qed.
Lemma clock_text_nonempty : forall t x, clock_text t x -> t <> [].
Proof. intros t x (z & H & _). eapply numeral_nonempty; eauto. Qed.

Lemma read_items_fuel : forall {X} (f : istream -> outcome (option X * istream)) (text : list nat -> X -> Prop),
  (forall s, f s <> OutOfFuel) -> (forall t x, text t x -> t <> []) ->
  (forall s x s', f s = Ok (Some x, s') -> failed s' = false /\ exists t, chars s = t ++ chars s' /\ text t x) ->
  forall fuel s, length (chars s) < fuel -> read_items f fuel s <> OutOfFuel.
Proof.
  intros X f text F T I fuel. induction fuel as [|k IH]; intros s L; [lia|]. cbn [read_items].
  destruct (f s) as [[[x|] s1]| | | |] eqn:E; try discriminate; [cbn [bind]|exfalso; eapply F; eauto].
  apply I in E as (_ & t & E & Tx). unfold read_char. destruct (get s1) as [[c|] s2] eqn:G; [|discriminate].
  assert (L2 : length (chars s2) < length (chars s)).
  { rewrite E. destruct t; [exfalso; eapply T; eauto|]. rewrite app_length. cbn [length].
    unfold get in G. destruct (good_stream s1); [|discriminate]. destruct (chars s1) as [|c' cs]; [discriminate|]. injection G as _ <-. cbn. lia. }
  destruct (c =? 125); [discriminate|]. destruct (c =? 44); [|discriminate].
  destruct (expect 32 s2) as [b s3] eqn:X2. destruct b; cbn [negb]; [|discriminate]. apply expect_inv in X2 as (_ & _ & X2 & _).
  assert (N : read_items f k s3 <> OutOfFuel) by (apply IH; rewrite X2 in L2; cbn in L2; lia).
  destruct (read_items f k s3) as [[[l|] s4]| | | |]; cbn [bind]; congruence.
Qed.

Lemma read_constr_fuel : forall s, read_constr s <> OutOfFuel.
Proof.
  intros s. unfold read_constr. destruct (expect 120 s) as [[] s1]; cbn [negb]; [|discriminate].
  destruct (read_int s1) as [[x|] s2]; [|discriminate]. destruct (failed s2); [discriminate|].
  destruct (expect 32 s2) as [[] s3]; cbn [negb]; [|discriminate].
  assert (O : read_order s3 <> OutOfFuel).
  { unfold read_order. destruct (read_char s3) as [o0 s4]. destruct (read_char s4) as [o1 s5]. destruct o0; [|discriminate].
    destruct ((n =? 62) || (n =? 60)); [|discriminate]. destruct o1; [|discriminate]. destruct (n0 =? 61).
    - destruct (expect 32 s5) as [[] s6]; discriminate.
    - destruct (n0 =? 32); discriminate. }
  destruct (read_order s3) as [[[o|] s4]| | | |]; cbn [bind]; try congruence.
  destruct (read_int s4) as [[c|] s5]; [destruct (failed s5)|]; discriminate.
Qed.
Lemma read_clock_fuel : forall s, read_clock s <> OutOfFuel.
Proof. intros s. unfold read_clock. destruct (read_int s) as [[x|] s2]; [destruct (failed s2)|]; discriminate. Qed.

Lemma lexical_fuel : forall {X} (f : istream -> outcome (option X * istream)) (text : list nat -> X -> Prop) s,
  (forall s, f s <> OutOfFuel) -> (forall t x, text t x -> t <> []) ->
  (forall s x s', f s = Ok (Some x, s') -> failed s' = false /\ exists t, chars s = t ++ chars s' /\ text t x) ->
  lexical_cast (read_list f) s <> OutOfFuel.
Proof.
  intros X f text s F T I. unfold lexical_cast, read_list. destruct (expect 123 _) as [[] s1]; cbn [negb]; [|discriminate].
  pose proof (read_items_fuel f text F T I (S (length (chars s1))) s1 ltac:(lia)) as N.
  destruct (read_items f _ s1) as [[[l|] s2]| | | |]; cbn [bind]; try congruence. destruct (chars s2); congruence.
Qed.

(* ---------------- timed words ---------------- *)

Definition spaces (s : list nat) : Prop := Forall (fun c => space c = true) s.

Lemma skip_spaces : forall ws s, spaces ws -> skip (ws ++ s) = skip s.
Proof. induction 1; cbn [Datatypes.app skip]; auto. rewrite H. auto. Qed.
Lemma skip_nospace : forall c s, space c = false -> skip (c :: s) = c :: s.
Proof. intros c s H. cbn [skip]. rewrite H. auto. Qed.
Lemma skip_skip : forall s, skip (skip s) = skip s.
Proof. induction s as [|c s IH]; auto. cbn [skip]. destruct (space c) eqn:E; auto. cbn [skip]. rewrite E. auto. Qed.
Lemma skip_length : forall s, length (skip s) <= length s.
Proof. induction s as [|c s IH]; cbn [skip length]; auto. destruct (space c); cbn [length]; lia. Qed.

Lemma getOne_skip : forall s, getOne (skip s) = getOne s.
Proof. intros s. unfold getOne. rewrite skip_skip. auto. Qed.

(* A number as it may be written in a word: sign, digits with at most one point,
   exponent. *)
Record lit : Type := mkLit { l_sign : option bool; l_int : Decimal.uint; l_frac : option Decimal.uint;
                             l_exp : option (bool * option bool * Decimal.uint) }.
Definition sign_chars (o : option bool) : list nat := match o with None => [] | Some true => [45] | Some false => [43] end.
Definition is_neg (o : option bool) : bool := match o with Some true => true | _ => false end.
Definition lit_chars (l : lit) : list nat :=
  sign_chars (l_sign l) ++ uint_chars (l_int l) ++
  match l_frac l with None => [] | Some f => [46] ++ uint_chars f end ++
  match l_exp l with
  | None => []
  | Some (upper, sg, d) => [if upper : bool then 69 else 101] ++ sign_chars sg ++ uint_chars d
  end.
Definition lit_ok (l : lit) : Prop :=
  (l_int l <> Nil \/ exists f, l_frac l = Some f /\ f <> Nil) /\
  match l_exp l with None => True | Some (_, _, d) => d <> Nil end.
(* Its value: (digits + fraction / 10^length) * 10^exponent. *)
Definition lit_value (l : lit) : Q :=
  let f := match l_frac l with None => Nil | Some f => f end in
  let q := (inject_Z (Z.of_uint (l_int l)) + inject_Z (Z.of_uint f) * Qpower 10 (- Z.of_nat (length (uint_chars f))))%Q in
  let q := if is_neg (l_sign l) then (- q)%Q else q in
  match l_exp l with
  | None => q
  | Some (_, sg, d) => (q * Qpower 10 (Z.of_int (if is_neg sg then Neg d else Pos d)))%Q
  end.

(* What may follow a number. *)
Definition follows (r : list nat) : Prop := match r with [] => True | c :: _ => space c = true end.

Lemma space_values : forall c, space c = true -> c = 32 \/ 9 <= c <= 13.
Proof.
  intros c H. unfold space in H. apply orb_true_iff in H as [H|H]; [left; apply Nat.eqb_eq; auto|right].
  apply andb_true_iff in H as [H1 H2]. apply Nat.leb_le in H1, H2. lia.
Qed.
Lemma digit_none : forall c, c < 48 \/ 57 < c -> digit c = None.
Proof.
  intros c H. unfold digit. destruct (Nat.ltb_spec c 48); auto. apply nth_error_None. cbn. lia.
Qed.
Lemma follows_nodigit : forall r, follows r -> nodigit r.
Proof. intros [|c r] H; cbn [nodigit]; auto. apply digit_none. apply space_values in H. lia. Qed.

Lemma sign_app : forall o d t, d <> Nil -> sign (sign_chars o ++ uint_chars d ++ t) = (is_neg o, uint_chars d ++ t).
Proof.
  intros o d t Nd. destruct (uint_head d Nd) as (c & t' & E & R). destruct o as [[]|]; try reflexivity.
  cbn [sign_chars Datatypes.app is_neg]. rewrite E. cbn [Datatypes.app sign].
  destruct (Nat.eqb_spec c 45); [lia|]. destruct (Nat.eqb_spec c 43); [lia|]. reflexivity.
Qed.

Lemma scan_exp_ok : forall l m r, lit_ok l -> follows r ->
  scan_exp m (match l_exp l with
              | None => []
              | Some (upper, sg, d) => [if upper : bool then 69 else 101] ++ sign_chars sg ++ uint_chars d
              end ++ r) =
  Number (match l_exp l with
          | None => m
          | Some (_, sg, d) => (m * Qpower 10 (Z.of_int (if is_neg sg then Neg d else Pos d)))%Q
          end) r.
Proof.
  intros l m r [_ H] F. destruct (l_exp l) as [[[upper sg] d]|].
  - rewrite <- !app_assoc. cbn [Datatypes.app].
    assert (U : forall t, scan_exp m ((if upper then 69 else 101) :: t) =
      let '(neg, t1) := sign t in let '(d, r) := scan_digits t1 in
      match d with Nil => Unmodelled | _ => Number (m * pow10 (Z.of_int (if neg : bool then Neg d else Pos d)))%Q r end).
    { intros t. destruct upper; reflexivity. }
    rewrite U, sign_app, scan_app by auto using follows_nodigit. destruct d; try congruence; reflexivity.
  - cbn [Datatypes.app]. destruct r as [|c r]; [reflexivity|]. unfold scan_exp. apply space_values in F.
    destruct (Nat.eqb_spec c 101); [lia|]. destruct (Nat.eqb_spec c 69); [lia|]. reflexivity.
Qed.

Lemma scan_exp_nodigit : forall l r, lit_ok l -> follows r ->
  nodigit (match l_exp l with
           | None => []
           | Some (upper, sg, d) => [if upper : bool then 69 else 101] ++ sign_chars sg ++ uint_chars d
           end ++ r).
Proof. intros l r _ F. destruct (l_exp l) as [[[[] sg] d]|]; try reflexivity. apply follows_nodigit. auto. Qed.

Lemma scan_lf_ok : forall l r, lit_ok l -> follows r -> scan_lf (lit_chars l ++ r) = Number (lit_value l) r.
Proof.
  intros l r H F. unfold scan_lf, lit_chars. rewrite <- !app_assoc.
  pose proof (scan_exp_ok l) as SE. pose proof (scan_exp_nodigit l r H F) as SN.
  set (ex := match l_exp l with None => [] | Some (upper, sg, d) => [if upper : bool then 69 else 101] ++ sign_chars sg ++ uint_chars d end) in *.
  assert (S : sign (sign_chars (l_sign l) ++ uint_chars (l_int l) ++ match l_frac l with None => [] | Some f => [46] ++ uint_chars f end ++ ex ++ r)
    = (is_neg (l_sign l), uint_chars (l_int l) ++ match l_frac l with None => [] | Some f => [46] ++ uint_chars f end ++ ex ++ r)).
  { destruct (l_int l) eqn:I; try (apply sign_app; discriminate).
    destruct H as [[N|(f & E & N)] _]; [congruence|]. rewrite E. destruct (l_sign l) as [[]|]; reflexivity. }
  rewrite S. destruct (l_frac l) as [f|] eqn:Ef.
  - rewrite scan_app by reflexivity. cbn [Datatypes.app]. cbn [Nat.eqb]. rewrite scan_app by auto.
    assert (X : forall z, scan_exp (mantissa (is_neg (l_sign l)) (l_int l) f) (ex ++ r) = z ->
        match l_int l, f with Nil, Nil => NoNumber (ex ++ r) | _, _ => scan_exp (mantissa (is_neg (l_sign l)) (l_int l) f) (ex ++ r) end = z).
    { intros z <-. destruct (l_int l) eqn:I; auto. destruct f eqn:If; auto. destruct H as [[N|(f' & E & N)] _]; congruence. }
    apply X. rewrite SE by auto. unfold lit_value, mantissa, pow10. rewrite Ef. destruct (l_exp l) as [[[u sg] d]|]; reflexivity.
  - cbn [Datatypes.app]. rewrite scan_app by auto.
    assert (Ni : l_int l <> Nil) by (destruct H as [[N|(f' & E & N)] _]; congruence).
    assert (V : scan_exp (mantissa (is_neg (l_sign l)) (l_int l) Nil) (ex ++ r) = Number (lit_value l) r).
    { rewrite SE by auto. unfold lit_value, mantissa, pow10. rewrite Ef. destruct (l_exp l) as [[[u sg] d]|]; reflexivity. }
    destruct (ex ++ r) as [|c t] eqn:Ex.
    + destruct (l_int l) eqn:I; try congruence; rewrite <- I in *; unfold scan_exp in V; exact V.
    + assert (C : c = 69 \/ c = 101 \/ space c = true).
      { subst ex. destruct (l_exp l) as [[[[] sg] d]|]; cbn [Datatypes.app] in Ex; try (injection Ex as <- _; auto).
        cbn in Ex. subst r. auto. }
      assert (C1 : c =? 46 = false). { apply Nat.eqb_neq. destruct C as [->|[->|C]]; try lia. apply space_values in C. lia. }
      assert (C2 : (c =? 120) || (c =? 88) = false).
      { apply orb_false_iff. split; apply Nat.eqb_neq; (destruct C as [->|[->|C]]; try lia; apply space_values in C; lia). }
      rewrite C1, C2. destruct (l_int l) as [|[]| | | | | | | | | ] eqn:I; try congruence; rewrite <- I in *; exact V.
Qed.

(* Texts of a timed word: characters and numbers separated by white space. *)
Inductive rendered : tword -> list nat -> Prop :=
| rend_nil : forall ws, spaces ws -> rendered [] ws
| rend_last : forall ws1 c ws2 l, spaces ws1 -> space c = false -> spaces ws2 -> lit_ok l ->
    rendered [(c, lit_value l)] (ws1 ++ c :: ws2 ++ lit_chars l)
| rend_cons : forall ws1 c ws2 l ws3 w s, spaces ws1 -> space c = false -> spaces ws2 -> lit_ok l -> spaces ws3 -> ws3 <> [] ->
    rendered w s -> rendered ((c, lit_value l) :: w) (ws1 ++ c :: ws2 ++ lit_chars l ++ ws3 ++ s).

Lemma lit_head : forall l t, lit_ok l -> skip (lit_chars l ++ t) = lit_chars l ++ t.
Proof.
  intros l t [H _]. unfold lit_chars. destruct (l_sign l) as [[]|]; try reflexivity.
  cbn [sign_chars Datatypes.app]. destruct (l_int l) eqn:I; try reflexivity.
  destruct H as [H|(f & -> & H)]; [congruence|]. reflexivity.
Qed.

Lemma getOne_event : forall ws1 c ws2 l r, spaces ws1 -> space c = false -> spaces ws2 -> lit_ok l -> follows r ->
  getOne (ws1 ++ c :: ws2 ++ lit_chars l ++ r) = Ok (Some (c, lit_value l), skip r).
Proof.
  intros ws1 c ws2 l r H1 Hc H2 Hl F. unfold getOne. rewrite skip_spaces, skip_nospace by auto.
  rewrite skip_spaces, lit_head, scan_lf_ok by auto. reflexivity.
Qed.

Lemma read_word_skip : forall fuel s, read_word fuel (skip s) = read_word fuel s.
Proof. intros [|k] s; auto. cbn [read_word]. rewrite getOne_skip. auto. Qed.

Lemma read_word_ok : forall w s, rendered w s -> forall fuel, length s < fuel -> read_word fuel s = Ok w.
Proof.
  induction 1 as [ws H|ws1 c ws2 l H1 Hc H2 Hl|ws1 c ws2 l ws3 w s H1 Hc H2 Hl H3 N3 R IH]; intros fuel L;
    (destruct fuel as [|k]; [lia|]); cbn [read_word].
  - unfold getOne. rewrite <- (app_nil_r ws), skip_spaces by auto. reflexivity.
  - pose proof (getOne_event ws1 c ws2 l [] H1 Hc H2 Hl Logic.I) as E. rewrite app_nil_r in E. rewrite E. cbn [bind skip].
    rewrite app_length in L. cbn [length] in L. destruct k as [|k]; [lia|]. reflexivity.
  - rewrite getOne_event; auto.
    + cbn [bind]. rewrite read_word_skip. assert (E : read_word k (ws3 ++ s) = Ok w).
      { rewrite <- read_word_skip, skip_spaces, read_word_skip by auto. apply IH.
        rewrite !app_length in L. cbn [length] in L. rewrite !app_length in L. lia. }
      rewrite E. reflexivity.
    + destruct ws3 as [|x ws3]; [congruence|]. inversion H3. cbn. auto.
Qed.

(* Every call consumes something until the end. *)
Lemma scan_digits_length : forall s d r, scan_digits s = (d, r) -> length r <= length s.
Proof. intros s d r H. apply scan_inv in H as [-> _]. rewrite app_length. lia. Qed.
Lemma sign_length : forall s b r, sign s = (b, r) -> length r <= length s.
Proof.
  intros [|c s] b r H; cbn in H; [injection H as <- <-; auto|]. destruct (c =? 45); [|destruct (c =? 43)]; injection H as <- <-; cbn; lia.
Qed.
Definition scan_rest (x : scanned) : list nat := match x with Number _ r => r | NoNumber r => r | Unmodelled => [] end.
Lemma scan_exp_length : forall m s, length (scan_rest (scan_exp m s)) <= length s.
Proof.
  intros m [|c s]; cbn [scan_exp]; [cbn; lia|]. destruct ((c =? 101) || (c =? 69)); [|cbn; lia].
  destruct (sign s) as [b t] eqn:S. apply sign_length in S. destruct (scan_digits t) as [d r] eqn:D. apply scan_digits_length in D.
  destruct d; cbn [scan_rest length]; lia.
Qed.
Lemma scan_lf_length : forall s, length (scan_rest (scan_lf s)) <= length s.
Proof.
  intros s. unfold scan_lf. destruct (sign s) as [b t] eqn:S. apply sign_length in S.
  destruct (scan_digits t) as [d r] eqn:D. apply scan_digits_length in D. destruct r as [|c r].
  - destruct d; cbn; lia.
  - destruct (c =? 46).
    + destruct (scan_digits r) as [f r2] eqn:F. apply scan_digits_length in F. cbn [length] in *.
      destruct d; [destruct f|..]; cbn [scan_rest]; try lia; (etransitivity; [apply scan_exp_length|lia]).
    + destruct d as [|d| | | | | | | | | ]; [destruct (existsb _ _); cbn [scan_rest length] in *; lia|..];
        try (etransitivity; [apply scan_exp_length|]; cbn [length] in *; lia).
      destruct d; try (etransitivity; [apply scan_exp_length|]; cbn [length] in *; lia).
      destruct ((c =? 120) || (c =? 88)); [cbn; lia|]. etransitivity; [apply scan_exp_length|]. cbn [length] in *. lia.
Qed.

Lemma getOne_length : forall s e r, getOne s = Ok (Some e, r) -> length r < length s.
Proof.
  intros s e r H. unfold getOne in H. pose proof (skip_length s) as L. destruct (skip s) as [|c t]; [discriminate|]. cbn [length] in L.
  pose proof (scan_lf_length (skip t)) as L2. pose proof (skip_length t) as L3. destruct (scan_lf (skip t)) as [q r'|r'|]; cbn [scan_rest] in L2.
  - injection H as _ <-. pose proof (skip_length r'). lia.
  - injection H as _ <-. lia.
  - discriminate.
Qed.

Lemma read_word_fuel : forall fuel s, length s < fuel -> read_word fuel s <> OutOfFuel.
Proof.
  induction fuel as [|k IH]; intros s L; [lia|]. cbn [read_word].
  destruct (getOne s) as [[[e|] r]| | | |] eqn:E; cbn [bind]; try discriminate.
  - apply getOne_length in E. specialize (IH r ltac:(lia)). destruct (read_word k r); cbn [bind]; congruence.
  - unfold getOne in E. destruct (skip s); [discriminate|]. destruct (scan_lf _); discriminate.
Qed.
