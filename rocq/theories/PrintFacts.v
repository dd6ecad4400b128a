(* Facts about the characters that are printed. *)
From Coq Require Import QArith Qabs Lqa Bool List ZArith Arith Lia Decimal DecimalN DecimalPos.
From Verif Require Import Num NumFacts Outcome Zone TA Text TextFacts Ans Print.
Import ListNotations.
Open Scope nat_scope.

(* ---------------- digits ---------------- *)

Definition ulen (u : Decimal.uint) : nat := length (uint_chars u).
Lemma acc_value : forall l p, Zpos (Pos.of_uint_acc l p) = (Zpos p * 10 ^ Z.of_nat (ulen l) + Z.of_uint l)%Z.
Proof.
  induction l as [|l IH|l IH|l IH|l IH|l IH|l IH|l IH|l IH|l IH|l IH]; intros p.
  { cbn [Pos.of_uint_acc]. change (Z.of_uint Nil) with 0%Z. change (Z.of_nat (ulen Nil)) with 0%Z. lia. }
  1: { cbn [Pos.of_uint_acc]. rewrite IH. change (Z.of_uint (D0 l)) with (Z.of_uint l). change (ulen (D0 l)) with (S (ulen l)). rewrite Nat2Z.inj_succ, Z.pow_succ_r by lia. lia. }
  all: cbn [Pos.of_uint_acc]; rewrite IH;
    match goal with |- _ = (_ * 10 ^ Z.of_nat (ulen ?u) + Z.of_uint ?u)%Z => match u with ?D ?v => change (ulen u) with (S (ulen v));
      let x := eval cbv [Z.of_uint Pos.of_uint Z.of_N] in (Z.of_uint u) in change (Z.of_uint u) with x end end;
    cbn [Z.of_N]; rewrite IH; rewrite Nat2Z.inj_succ, Z.pow_succ_r by lia; lia.
Qed.
Lemma digit_value : forall k u, (0 <= k < 10)%Z -> Z.of_uint (digit_of k u) = (k * 10 ^ Z.of_nat (ulen u) + Z.of_uint u)%Z.
Proof.
  intros k u H. assert (C : (k = 0 \/ k = 1 \/ k = 2 \/ k = 3 \/ k = 4 \/ k = 5 \/ k = 6 \/ k = 7 \/ k = 8 \/ k = 9)%Z) by lia.
  destruct C as [->|C]; [reflexivity|].
  repeat match type of C with _ \/ _ => destruct C as [->|C] | _ => subst k end; cbn [digit_of];
  match goal with |- Z.of_uint (?D u) = _ => let x := eval cbv [Z.of_uint Pos.of_uint Z.of_N] in (Z.of_uint (D u)) in change (Z.of_uint (D u)) with x end;
  cbn [Z.of_N]; rewrite acc_value; reflexivity.
Qed.
Lemma digit_len : forall k u, ulen (digit_of k u) = S (ulen u).
Proof. intros k u. unfold ulen. destruct k as [|p|p]; try reflexivity. do 4 (destruct p as [p|p|]; try reflexivity). Qed.
Lemma last_value : forall n z u, Z.of_uint (last_digits n z u) = ((z mod 10 ^ Z.of_nat n) * 10 ^ Z.of_nat (ulen u) + Z.of_uint u)%Z /\ ulen (last_digits n z u) = n + ulen u.
Proof.
  induction n as [|n IH]; intros z u.
  - cbn [last_digits]. change (10 ^ Z.of_nat 0)%Z with 1%Z. rewrite Z.mod_1_r. split; [lia|auto].
  - cbn [last_digits]. destruct (IH (z / 10)%Z (digit_of (z mod 10) u)) as (V & L). rewrite V, L, digit_len. split; [|lia].
    rewrite digit_value by (apply Z.mod_pos_bound; lia). rewrite !Nat2Z.inj_succ, !Z.pow_succ_r by lia.
    rewrite (Z.rem_mul_r z 10 (10 ^ Z.of_nat n)) by (try lia; apply Z.pow_nonzero; lia). ring.
Qed.
Lemma to_uint_value : forall n, Z.of_uint (N.to_uint n) = Z.of_N n.
Proof. intros n. unfold Z.of_uint. f_equal. apply (DecimalN.Unsigned.of_to n). Qed.
Lemma to_uint_nonnil : forall n, N.to_uint n <> Nil.
Proof. intros [|p]; [discriminate|]. apply DecimalPos.Unsigned.to_uint_nonnil. Qed.

(* ---------------- numbers ---------------- *)

Definition shown_lit (minus : bool) (q : Q) : lit :=
  mkLit (if (Qnum q <? 0)%Z || (minus && (Qnum q =? 0)%Z) then Some true else None)
        (N.to_uint (Z.to_N (Z.abs (millionths q) / 1000000))) (Some (last_digits 6 (Z.abs (millionths q) mod 1000000) Nil)) None.
Lemma lf_lit : forall minus q, lf minus (Fin q) = lit_chars (shown_lit minus q).
Proof.
  intros minus q. unfold lf, lit_chars, shown_lit. cbn [l_sign l_int l_frac l_exp]. rewrite app_nil_r. destruct ((Qnum q <? 0)%Z || _); reflexivity.
Qed.
Lemma shown_ok : forall minus q, lit_ok (shown_lit minus q).
Proof. intros minus q. split; [left; apply to_uint_nonnil|exact Logic.I]. Qed.

Lemma millionths_near : forall q, (2 * Z.abs (millionths q * Zpos (Qden q) - Qnum q * 1000000) <= Zpos (Qden q))%Z.
Proof.
  intros q. unfold millionths. set (n := (Qnum q * 1000000)%Z). set (d := Zpos (Qden q)). assert (Hd : (0 < d)%Z) by reflexivity.
  pose proof (Z.div_mod n d ltac:(lia)) as E. pose proof (Z.mod_pos_bound n d Hd) as B. set (f := (n / d)%Z) in *. set (r := (n mod d)%Z) in *.
  destruct (Z.compare_spec (2 * r) d) as [C|C|C]; [destruct (Z.even f)|..]; rewrite E; nia.
Qed.
Lemma millionths_sign : forall q, ((Qnum q < 0)%Z -> (millionths q <= 0)%Z) /\ ((0 <= Qnum q)%Z -> (0 <= millionths q)%Z) /\ (Qnum q = 0%Z -> millionths q = 0%Z).
Proof.
  intros q. pose proof (millionths_near q) as H. assert (Hd : (0 < Zpos (Qden q))%Z) by reflexivity. repeat split; intros S; nia.
Qed.

(* What a printed number says. *)
Lemma shown_value : forall minus q, lit_value (shown_lit minus q) == inject_Z (millionths q) / 1000000.
Proof.
  intros minus q. unfold lit_value, shown_lit. cbn [l_sign l_int l_frac l_exp]. rewrite to_uint_value.
  set (z := Z.abs (millionths q)). assert (Hz : (0 <= z)%Z) by (unfold z; lia).
  destruct (last_value 6 (z mod 1000000) Nil) as (V & L). fold (ulen (last_digits 6 (z mod 1000000) Nil)). rewrite L, V. change (ulen Nil) with 0. cbn [Nat.add].
  change (10 ^ Z.of_nat 6)%Z with 1000000%Z. rewrite Z.mod_mod by lia. change (Z.of_uint Nil) with 0%Z. change (10 ^ Z.of_nat 0)%Z with 1%Z. rewrite Z.mul_1_r, Z.add_0_r.
  rewrite Z2N.id by (apply Z.div_pos; lia). change (Qpower 10 (- Z.of_nat 6)) with (1 # 1000000)%Q.
  assert (E : inject_Z (z / 1000000) + inject_Z (z mod 1000000) * (1 # 1000000) == inject_Z z / 1000000).
  { pose proof (Z.div_mod z 1000000 ltac:(lia)) as D. set (a := (z / 1000000)%Z) in *. set (b := (z mod 1000000)%Z) in *. rewrite D. rewrite inject_Z_plus, inject_Z_mult. field. }
  destruct (millionths_sign q) as (S1 & S2 & S3).
  destruct ((Qnum q <? 0)%Z || (minus && (Qnum q =? 0)%Z)) eqn:Sg; cbn [is_neg].
  - rewrite E. replace (millionths q) with (- z)%Z; [rewrite inject_Z_opp; field|]. unfold z. apply orb_prop in Sg as [Sg|Sg].
    + apply Z.ltb_lt in Sg. specialize (S1 Sg). lia.
    + apply andb_prop in Sg as (_ & Sg). apply Z.eqb_eq in Sg. specialize (S3 Sg). lia.
  - rewrite E. apply orb_false_elim in Sg as (Sg & _). apply Z.ltb_ge in Sg. specialize (S2 Sg). unfold z. rewrite Z.abs_eq by auto. reflexivity.
Qed.

(* A multiple of a millionth. *)
Definition micro (q : Q) : Prop := exists z, q == inject_Z z / 1000000.
Lemma near_value : forall q, (Qabs (q - inject_Z (millionths q) / 1000000) <= 1 # 2000000)%Q.
Proof.
  intros q. pose proof (millionths_near q) as H. set (m := millionths q) in *. destruct q as [n d]. cbn [Qnum Qden] in H.
  apply Qabs_Qle_condition. unfold Qle, Qminus, Qplus, Qopp, Qdiv, Qmult, Qinv, inject_Z. cbn [Qnum Qden]. split; nia.
Qed.
Lemma even_value : forall q, (Qabs (q - inject_Z (millionths q) / 1000000) == 1 # 2000000)%Q -> Z.even (millionths q) = true.
Proof.
  intros q H.
  assert (T : (2 * Z.abs (millionths q * Zpos (Qden q) - Qnum q * 1000000) = Zpos (Qden q))%Z).
  { set (m := millionths q) in *. clearbody m. destruct q as [n d]. cbn [Qnum Qden] in *.
    unfold Qabs, Qeq, Qminus, Qplus, Qopp, Qdiv, Qmult, Qinv, inject_Z in H. cbn [Qnum Qden] in H. nia. }
  revert T. clear H. unfold millionths. set (n := (Qnum q * 1000000)%Z). set (d := Zpos (Qden q)). assert (Hd : (0 < d)%Z) by reflexivity.
  pose proof (Z.div_mod n d ltac:(lia)) as E. pose proof (Z.mod_pos_bound n d Hd) as B. set (f := (n / d)%Z) in *. set (r := (n mod d)%Z) in *. clearbody f r n d.
  destruct (Z.compare_spec (2 * r) d) as [C|C|C]; intros T.
  - destruct (Z.even f) eqn:V; auto. rewrite Z.even_add, V. reflexivity.
  - exfalso. replace (f * d - n)%Z with (- r)%Z in T by (rewrite E; ring). lia.
  - exfalso. replace ((f + 1) * d - n)%Z with (d - r)%Z in T by (rewrite E; ring). lia.
Qed.
Lemma micro_near : forall q r, micro q -> micro r -> (Qabs (q - r) <= 1 # 2000000)%Q -> r == q.
Proof.
  intros q r (a & Ea) (b & Eb) H. rewrite Ea, Eb in *. apply Qabs_Qle_condition in H as (H1 & H2).
  assert (X : (a - b = 0)%Z).
  { unfold Qle, Qminus, Qplus, Qopp, Qdiv, Qmult, Qinv, inject_Z in H1, H2. cbn [Qnum Qden] in H1, H2. lia. }
  replace b with a by lia. reflexivity.
Qed.
