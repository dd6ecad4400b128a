(* C82: binary words of doubles, and monaa -b. *)
From Coq Require Import QArith Qpower Lqa Bool List ZArith Arith Lia DecimalFacts DecimalPos DecimalN DecimalZ.
From Verif Require Import Num Outcome TA Spec Text TextFacts PropText Main PropMain Ieee.
Import ListNotations.
Open Scope nat_scope.

(* ---------------- specification ---------------- *)

(* IEEE 754 binary64: sign s, exponent E and fraction f from the bytes. *)
Definition d_sign (b : nat -> nat) : nat := b 7 / 128.
Definition d_exp (b : nat -> nat) : nat := (b 7 mod 128) * 16 + b 6 / 16.
Definition d_frac (b : nat -> nat) : Z :=
  (Z.of_nat (b 0%nat) + 2 ^ 8 * Z.of_nat (b 1%nat) + 2 ^ 16 * Z.of_nat (b 2%nat) + 2 ^ 24 * Z.of_nat (b 3%nat) + 2 ^ 32 * Z.of_nat (b 4%nat)
   + 2 ^ 40 * Z.of_nat (b 5%nat) + 2 ^ 48 * Z.of_nat (b 6%nat mod 16)%nat)%Z.
Definition is_double (b : nat -> nat) (q : Q) : Prop :=
  let s := (if d_sign b =? 0 then 1 else -1)%Q in
  let f := (inject_Z (d_frac b) / Qpower 2 52)%Q in
  (d_exp b = 0 /\ (q == s * Qpower 2 (-1022) * f)%Q) \/
  (0 < d_exp b < 2047 /\ (q == s * Qpower 2 (Z.of_nat (d_exp b) - 1023) * (1 + f))%Q).

Definition bytes8 (l : list nat) : Prop := length l = 8 /\ Forall (fun b => b < 256) l.
Definition finite (l : list nat) : Prop := d_exp (fun k => nth k l 0) <> 2047.

(* ---------------- values ---------------- *)

Lemma pow2_nz : forall e, ~ (Qpower 2 e == 0)%Q.
Proof. intros e. apply Qpower_not_0. lra. Qed.

Lemma inject_pow : forall a k, (inject_Z (a ^ Zpos k) == Qpower (inject_Z a) (Zpos k))%Q.
Proof. intros a k. rewrite Zpower_Qpower by lia. reflexivity. Qed.

Lemma scaled_ok : forall m e, (scaled m e == inject_Z m * Qpower 2 e)%Q.
Proof.
  intros m [|k|k]; unfold scaled.
  - unfold Qpower. unfold Qeq, inject_Z. cbn. lia.
  - change (m * 2 ^ Z.pos k # 1) with (inject_Z (m * 2 ^ Zpos k)). rewrite inject_Z_mult, inject_pow. reflexivity.
  - assert (E : ((m * 5 ^ Z.pos k # 10 ^ k) == inject_Z m * (inject_Z (5 ^ Zpos k) / inject_Z (10 ^ Zpos k)))%Q).
    { unfold Qeq, Qdiv, Qmult, Qinv, inject_Z. rewrite <- (Pos2Z.inj_pow 10). cbn [Qnum Qden]. rewrite ?Pos2Z.inj_mul, ?Pos2Z.inj_pow. ring. }
    rewrite E. apply Qmult_comp; [reflexivity|]. rewrite !inject_pow. change (Z.neg k) with (- Z.pos k)%Z. rewrite Qpower_opp.
    change (inject_Z 10) with (2 * 5)%Q. change (inject_Z 5) with 5%Q. rewrite Qmult_power.
    assert (~ (Qpower 5 (Zpos k) == 0)%Q) by (apply Qpower_not_0; lra). pose proof (pow2_nz (Zpos k)). field. auto.
Qed.

Lemma fields : forall l, bytes8 l -> let b := fun k => nth k l 0 in
  little l = (d_frac b + 2 ^ 52 * (Z.of_nat (d_exp b) + 2 ^ 11 * Z.of_nat (d_sign b)))%Z /\
  (0 <= d_frac b < 2 ^ 52)%Z /\ d_exp b < 2048 /\ d_sign b < 2.
Proof.
  intros l (L & F) b. do 8 (destruct l as [|? l]; [discriminate|]). destruct l; [|discriminate].
  repeat match goal with H : Forall _ (_ :: _) |- _ => inversion H; clear H; subst end. unfold d_frac, d_exp, d_sign, b. cbn [nth little].
  repeat match goal with |- context [Z.of_nat (?x mod ?y)] => rewrite (Nat2Z.inj_mod x y) end.
  match goal with |- context [?x mod 128] => pose proof (Nat.div_mod x 128 ltac:(lia)); pose proof (Nat.mod_upper_bound x 128 ltac:(lia)); pose proof (Nat.div_lt_upper_bound x 128 2 ltac:(lia) ltac:(lia)) end.
  match goal with |- context [?x / 16] => pose proof (Nat.div_mod x 16 ltac:(lia)); pose proof (Nat.mod_upper_bound x 16 ltac:(lia)); pose proof (Nat.div_lt_upper_bound x 16 16 ltac:(lia) ltac:(lia)) end.
  rewrite <- ?Nat2Z.inj_mod. change (2 ^ 8)%Z with 256%Z. change (2 ^ 16)%Z with 65536%Z. change (2 ^ 24)%Z with 16777216%Z. change (2 ^ 32)%Z with 4294967296%Z.
  change (2 ^ 40)%Z with 1099511627776%Z. change (2 ^ 48)%Z with 281474976710656%Z. change (2 ^ 52)%Z with 4503599627370496%Z. change (2 ^ 11)%Z with 2048%Z. lia.
Qed.

Theorem C82_double : forall l, bytes8 l -> finite l -> is_double (fun k => nth k l 0) (dec64 l).
Proof.
  intros l B F. destruct (fields l B) as (N & Rf & Re & Rs). cbn zeta in *. unfold finite in F. set (b := fun k => nth k l 0) in *.
  assert (Ef : frac_bits (little l) = d_frac b).
  { unfold frac_bits. rewrite N. symmetry. apply (Z.mod_unique _ _ (Z.of_nat (d_exp b) + 2 ^ 11 * Z.of_nat (d_sign b))); lia. }
  assert (Eq : (little l / 2 ^ 52 = Z.of_nat (d_exp b) + 2 ^ 11 * Z.of_nat (d_sign b))%Z).
  { rewrite N. symmetry. apply (Z.div_unique _ _ _ (d_frac b)); lia. }
  assert (Ee : exp_bits (little l) = Z.of_nat (d_exp b)).
  { unfold exp_bits. rewrite Eq. symmetry. apply (Z.mod_unique _ _ (Z.of_nat (d_sign b))); [left; change (2 ^ 11)%Z with 2048%Z; lia|lia]. }
  assert (Es : sign_bit (little l) = negb (d_sign b =? 0)).
  { unfold sign_bit. assert (X : (little l / 2 ^ 63 = Z.of_nat (d_sign b))%Z).
    { change (2 ^ 63)%Z with (2 ^ 52 * 2 ^ 11)%Z. rewrite <- Z.div_div by lia. rewrite Eq. symmetry. apply (Z.div_unique _ _ _ (Z.of_nat (d_exp b))); [left; change (2 ^ 11)%Z with 2048%Z; lia|lia]. }
    rewrite X. destruct (d_sign b); reflexivity. }
  assert (P : forall e, (Qpower 2 (e - 1075) == Qpower 2 (e - 1023) / Qpower 2 52)%Q).
  { intros e. replace (e - 1075)%Z with ((e - 1023) + - (52))%Z by lia. rewrite Qpower_plus by lra. rewrite Qpower_opp. reflexivity. }
  unfold is_double, dec64. rewrite Ee, Ef, Es. destruct (Z.eqb_spec (Z.of_nat (d_exp b)) 2047) as [X|_]; [lia|]. cbn zeta.
  destruct (Z.eqb_spec (Z.of_nat (d_exp b)) 0) as [Z0|NZ].
  - left. split; [lia|]. rewrite Z0. change (Z.max 0 1 - 1075)%Z with (1 - 1075)%Z.
    assert (S : (scaled (d_frac b) (1 - 1075) == Qpower 2 (-1022) * (inject_Z (d_frac b) / Qpower 2 52))%Q).
    { rewrite scaled_ok, P. change (1 - 1023)%Z with (-1022)%Z. field; apply pow2_nz. }
    destruct (d_sign b =? 0); cbn [negb]; rewrite S; ring.
  - right. split; [lia|]. rewrite Z.max_l by lia.
    assert (S : (scaled (d_frac b + 2 ^ 52) (Z.of_nat (d_exp b) - 1075) == Qpower 2 (Z.of_nat (d_exp b) - 1023) * (1 + inject_Z (d_frac b) / Qpower 2 52))%Q).
    { rewrite scaled_ok, P, inject_Z_plus. change (inject_Z (2 ^ 52)) with (Qpower 2 52). field; apply pow2_nz. }
    destruct (d_sign b =? 0); cbn [negb]; rewrite S; ring.
Qed.

(* ---------------- the word as a text ---------------- *)

Definition num_lit (minus : bool) (m e : Z) : lit :=
  match e with
  | Zneg k => mkLit (if minus then Some true else None) (N.to_uint (Z.to_N (m * 5 ^ Zpos k))) None
                    (Some (false, Some true, N.to_uint (Npos k)))
  | _ => mkLit (if minus then Some true else None) (N.to_uint (Z.to_N (m * 2 ^ e))) None None
  end.

Lemma uint_value : forall n, Z.of_uint (N.to_uint n) = Z.of_N n.
Proof. intros n. rewrite <- (DecimalN.Unsigned.of_to n) at 2. reflexivity. Qed.
Lemma uint_nil : forall n, N.to_uint n <> Decimal.Nil.
Proof. intros [|p]; [discriminate|]. apply DecimalPos.Unsigned.to_uint_nonnil. Qed.
Lemma lit_num_ok : forall minus m e, lit_ok (num_lit minus m e).
Proof. intros minus m [|k|k]; (split; [left; cbn [num_lit l_int]; apply uint_nil|]); cbn [num_lit l_exp]; auto. apply uint_nil. Qed.

Lemma ten_double : forall k, (10 ^ k~0 = 10 ^ k * 10 ^ k)%positive.
Proof.
  intros k. apply Pos2Z.inj. rewrite Pos2Z.inj_mul, !Pos2Z.inj_pow, <- Z.pow_add_r by lia. f_equal. lia.
Qed.
Lemma ten_pow : forall k, Qpower_positive 10 k = (Zpos (10 ^ k) # 1)%Q.
Proof.
  intros k. unfold Qpower_positive. induction k as [k IH|k IH|].
  - cbn [pow_pos]. rewrite IH. unfold Qmult. cbn [Qnum Qden]. f_equal. rewrite <- !Pos2Z.inj_mul. f_equal.
    replace (k~1)%positive with (Pos.succ (k~0)) by reflexivity. rewrite Pos.pow_succ_r, ten_double. reflexivity.
  - cbn [pow_pos]. rewrite IH. unfold Qmult. cbn [Qnum Qden]. f_equal. rewrite <- Pos2Z.inj_mul. f_equal. rewrite ten_double. reflexivity.
  - reflexivity.
Qed.

Lemma num_value : forall minus m e, (0 <= m)%Z ->
  lit_value (num_lit minus m e) = if minus then (- scaled m e)%Q else scaled m e.
Proof.
  assert (I : forall z, (inject_Z z + inject_Z (Z.of_uint Decimal.Nil) * Qpower 10 (- Z.of_nat (length (uint_chars Decimal.Nil))))%Q = (z # 1)%Q).
  { intros z. cbn. unfold Qplus, Qmult, inject_Z. cbn [Qnum Qden]. f_equal. lia. }
  assert (P : forall k, Qpower 10 (- Zpos k) = (1 # 10 ^ k)%Q).
  { intros k. cbn [Z.opp Qpower]. rewrite ten_pow. reflexivity. }
  intros minus m e H. unfold lit_value, num_lit, scaled. destruct e as [|k|k]; cbn [l_sign l_int l_frac l_exp].
  - rewrite I, uint_value, Z2N.id by lia. rewrite Z.pow_0_r, Z.mul_1_r. destruct minus; reflexivity.
  - rewrite I, uint_value, Z2N.id by (apply Z.mul_nonneg_nonneg; [auto|apply Z.pow_nonneg; lia]). destruct minus; reflexivity.
  - rewrite I, uint_value, Z2N.id by (apply Z.mul_nonneg_nonneg; [auto|apply Z.pow_nonneg; lia]). cbn [is_neg Z.of_int]. rewrite uint_value. cbn [Z.of_N].
    rewrite P. destruct minus; cbn [is_neg]; unfold Qmult, Qopp; cbn [Qnum Qden]; f_equal; lia.
Qed.

(* Every double is written by some number. *)
Lemma double_lit : forall l, exists t, lit_ok t /\ lit_value t = dec64 l.
Proof.
  intros l. unfold dec64. set (n := little l). set (m := if (exp_bits n =? 0)%Z then frac_bits n else (frac_bits n + 2 ^ 52)%Z).
  assert (M : (0 <= m)%Z).
  { assert (0 <= frac_bits n)%Z by (apply Z.mod_pos_bound; lia). unfold m. destruct (exp_bits n =? 0)%Z; lia. }
  destruct (exp_bits n =? 2047)%Z.
  - exists (num_lit false 0 0). split; [apply lit_num_ok|]. rewrite num_value by lia. reflexivity.
  - exists (num_lit (sign_bit n) m (Z.max (exp_bits n) 1 - 1075)). split; [apply lit_num_ok|]. apply num_value. auto.
Qed.

(* The records of a binary word. *)
Definition word_of (l : list (nat * list nat)) : tword := map (fun r => (fst r, dec64 (snd r))) l.
Definition records (l : list (nat * list nat)) : list nat := flat_map (fun r => fst r :: snd r) l.

(* There is a text of the same word. *)
Theorem C82_text : forall l, Forall (fun r => space (fst r) = false) l -> exists s, rendered (word_of l) s.
Proof.
  induction l as [|[c b] l IH]; intros F.
  - exists []. constructor. constructor.
  - inversion F as [|? ? Hc Fl]; subst. destruct (IH Fl) as (s & R). destruct (double_lit b) as (t & Ok & E). cbn [word_of map fst snd] in *. rewrite <- E.
    eexists. apply (rend_cons [] c [32] t [10] _ s); auto; try (repeat constructor); discriminate.
Qed.

(* ---------------- monaa -b ---------------- *)

Definition as_text (o : options) : options :=
  mkO (o_help o) (o_quiet o) (o_version o) (o_ascii o) false (o_event o) (o_signal o) (o_input o) (o_automaton o) (o_expression o) (o_pos o).
(* The input that the run opens. *)
Definition input_of (W : world) (o : options) : option (list nat) :=
  let wf := snd (positional (o_pos o) (o_automaton o) (o_expression o) (o_input o)) in
  if str_eqb wf stdin_name then Some (w_stdin W) else w_file W wf.

(* monaa -b on a file of records does what monaa does on a text of the word of
   the doubles in them. *)
Theorem C82_same : forall sepA sepD fuel al0 al W W' o l rest s,
  o_binary o = true -> o_ascii o = false -> w_dot W = w_dot W' ->
  Forall (fun r => length (snd r) = 8) l -> length rest < 9 -> input_of W o = Some (records l ++ rest) ->
  input_of W' o = Some s -> rendered (word_of l) s ->
  main sepA sepD dec64 fuel al0 al W o = main sepA sepD dec64 fuel al0 al W' (as_text o).
Proof.
  intros sepA sepD fuel al0 al W W' o l rest s B A D F L I I' R. unfold main. cbn [as_text o_pos o_automaton o_expression o_input o_version o_help o_ascii o_binary o_signal o_event o_quiet].
  unfold input_of in I, I'. destruct (positional _ _ _ _) as [tre wf]. cbn [snd] in I, I'. rewrite A. cbn [andb].
  assert (P : main_pattern sepA sepD fuel al0 W o tre = main_pattern sepA sepD fuel al0 W' (as_text o) tre) by (unfold main_pattern; rewrite D; reflexivity). rewrite P.
  assert (Wd : main_word dec64 W o wf = main_word dec64 W' (as_text o) wf).
  { unfold main_word. cbn [as_text o_binary]. rewrite B.
    assert (X : forall V x, (if str_eqb wf stdin_name then Some (w_stdin V) else w_file V wf) = Some x ->
      (if str_eqb wf stdin_name then Ok (w_stdin V) else match w_file V wf with Some s => Ok s | None => Exit 1 end) = Ok x).
    { intros V x. destruct (str_eqb wf stdin_name); [intros E; injection E as ->; reflexivity|]. intros ->. reflexivity. }
    rewrite (X _ _ I), (X _ _ I'). cbn [bind]. rewrite (C39_wellformed _ _ R). apply C39_binary; auto. }
  rewrite Wd. reflexivity.
Qed.

(* So every run on a file of records is a run on a text. *)
Theorem C82_run : forall sepA sepD fuel al0 al W o l rest,
  o_binary o = true -> o_ascii o = false ->
  Forall (fun r => space (fst r) = false /\ bytes8 (snd r)) l -> length rest < 9 -> input_of W o = Some (records l ++ rest) ->
  exists s, rendered (word_of l) s /\
    main sepA sepD dec64 fuel al0 al W o =
    main sepA sepD dec64 fuel al0 al (mkW s (fun _ => Some s) (w_dot W)) (as_text o).
Proof.
  intros sepA sepD fuel al0 al W o l rest B A F L I. destruct (C82_text l) as (s & R).
  { eapply Forall_impl; [|exact F]. intros r (X & _). exact X. }
  exists s. split; [exact R|]. apply (C82_same _ _ _ _ _ _ _ _ l rest s); auto.
  - eapply Forall_impl; [|exact F]. intros r (_ & X & _). exact X.
  - unfold input_of. cbn [w_stdin w_file]. destruct (str_eqb _ _); reflexivity.
Qed.

(* 1.9 rounded to a double, -2.5 and the smallest number above 0. *)
Definition bytes_1_9 : list nat := [102; 102; 102; 102; 102; 102; 254; 63].
Definition bytes_m2_5 : list nat := [0; 0; 0; 0; 0; 0; 4; 192].
Definition bytes_tiny : list nat := [1; 0; 0; 0; 0; 0; 0; 0].
Example C82_values : Forall (fun l => bytes8 l /\ finite l) [bytes_1_9; bytes_m2_5; bytes_tiny] /\
  (dec64 bytes_1_9 == 8556839292003942 # 4503599627370496)%Q /\ (dec64 bytes_m2_5 == - (5 # 2))%Q /\ (dec64 bytes_tiny == 1 # 2 ^ 1074)%Q.
Proof.
  split.
  - repeat match goal with |- Forall _ _ => constructor end; (split; [split; [reflexivity|apply (proj2 (Forall_forall _ _)); intros b H; cbn in H; lia]|vm_compute; discriminate]).
  - repeat split; vm_compute; reflexivity.
Qed.

Example C82_case : let l := [(65, bytes_1_9); (66, bytes_1_9)] in
  Forall (fun r => space (fst r) = false /\ bytes8 (snd r)) l /\
  input_of (world1 (records l ++ [67; 0])) (mkO false false false false true false false stdin_name [] [] [[40; 65; 66; 41; 36]]) = Some (records l ++ [67; 0]) /\
  exists t, word_of l = [(65, t); (66, t)] /\ (t == 8556839292003942 # 4503599627370496)%Q.
Proof.
  cbn zeta. split; [|split].
  - repeat match goal with |- Forall _ _ => constructor end; (split; [reflexivity|apply (proj1 (Forall_inv (proj1 C82_values)))]).
  - reflexivity.
  - exists (dec64 bytes_1_9). split; [reflexivity|]. apply C82_values.
Qed.
