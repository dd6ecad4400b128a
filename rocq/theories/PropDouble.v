(* C82 and C85: the numbers that eight bytes can be are exactly the doubles of
   the rounding theorems. *)
From Coq Require Import QArith Qpower Qabs Lqa Bool List ZArith Arith Lia.
From Verif Require Import Num Outcome TA Spec Text Word TextFacts PropText Main Ieee Round Enc Bin PropBin PropBinary PropRound.
Import ListNotations.
Open Scope nat_scope.

Lemma le_bytes_ok : forall k n, (0 <= n < 256 ^ Z.of_nat k)%Z -> little (le_bytes k n) = n.
Proof.
  induction k as [|k IH]; intros n H; cbn [le_bytes little].
  - change (256 ^ Z.of_nat 0)%Z with 1%Z in H. lia.
  - rewrite Nat2Z.inj_succ, Z.pow_succ_r in H by lia. pose proof (Z.mod_pos_bound n 256 ltac:(lia)). rewrite Z2Nat.id by lia.
    rewrite IH; [pose proof (Z.div_mod n 256 ltac:(lia)); lia|]. split; [apply Z.div_pos; lia|apply Z.div_lt_upper_bound; lia].
Qed.
Lemma le_bytes_8 : forall n, bytes8 (le_bytes 8 n).
Proof.
  intros n. split; [reflexivity|]. assert (G : forall k n, Forall (fun b => b < 256) (le_bytes k n)); [|apply G]. clear n. induction k as [|k IH]; intros n; cbn [le_bytes]; constructor; auto.
  pose proof (Z.mod_pos_bound n 256 ltac:(lia)). lia.
Qed.

(* All bits are used, or there are no lower ones. *)
Lemma double_normal : forall q, double q -> exists m e, (Z.abs m < 2 ^ 53)%Z /\ (-1074 <= e <= 971)%Z /\ (q == inject_Z m * Qpower 2 e)%Q /\
  ((2 ^ 52 <= Z.abs m)%Z \/ e = (-1074)%Z).
Proof.
  intros q (m & e & Hm & He & E).
  assert (G : forall n m e, (e + 1074 = Z.of_nat n)%Z -> (Z.abs m < 2 ^ 53)%Z -> (e <= 971)%Z -> (q == inject_Z m * Qpower 2 e)%Q ->
    exists m e, (Z.abs m < 2 ^ 53)%Z /\ (-1074 <= e <= 971)%Z /\ (q == inject_Z m * Qpower 2 e)%Q /\ ((2 ^ 52 <= Z.abs m)%Z \/ e = (-1074)%Z)).
  { clear. induction n as [|n IH]; intros m e N Hm He E; [exists m, e; repeat split; auto; lia|].
    destruct (Z.le_gt_cases (2 ^ 52) (Z.abs m)) as [L|L]; [exists m, e; repeat split; auto; lia|].
    apply (IH (2 * m)%Z (e - 1)%Z); [lia|lia|lia|]. rewrite E. replace e with (1 + (e - 1))%Z at 1 by lia. rewrite p2_plus, inject_Z_mult.
    change (Qpower 2 1) with 2%Q. change (inject_Z 2) with 2%Q. ring. }
  apply (G (Z.to_nat (e + 1074)) m e); auto; lia.
Qed.

Lemma exp_split : forall x, (Qpower 2 (x - 1075) == Qpower 2 (x - 1023) / Qpower 2 52)%Q.
Proof. intros x. replace (x - 1075)%Z with ((x - 1023) + - (52))%Z by lia. rewrite p2_plus, Qpower_opp. reflexivity. Qed.

(* The number with given sign, exponent and fraction. *)
Lemma bits_value : forall s X f, (0 <= s < 2)%Z -> (0 <= X < 2047)%Z -> (0 <= f < 2 ^ 52)%Z ->
  let l := le_bytes 8 (f + 2 ^ 52 * (X + 2 ^ 11 * s)) in
  bytes8 l /\ finite l /\
  (dec64 l == (if (s =? 0)%Z then 1 else -1) * (inject_Z (if (X =? 0)%Z then f else f + 2 ^ 52) * Qpower 2 (Z.max X 1 - 1075)))%Q.
Proof.
  intros s X f Rs RX Rf l. set (n := (f + 2 ^ 52 * (X + 2 ^ 11 * s))%Z) in l.
  assert (L : little l = n) by (apply le_bytes_ok; unfold n; change (256 ^ Z.of_nat 8)%Z with (2 ^ 52 * 4096)%Z; nia).
  assert (B : bytes8 l) by apply le_bytes_8. split; [exact B|].
  destruct (fields l B) as (F1 & F2 & F3 & F4). cbn zeta in *. set (b := fun k => nth k l 0) in *. rewrite L in F1. unfold n in F1.
  assert (V : (d_frac b = f /\ Z.of_nat (d_exp b) = X /\ Z.of_nat (d_sign b) = s)%Z).
  { change (2 ^ 11)%Z with 2048%Z in *. change (2 ^ 52)%Z with 4503599627370496%Z in *. lia. }
  destruct V as (V1 & V2 & V3). assert (Fi : finite l) by (unfold finite; fold b; lia). split; [exact Fi|].
  pose proof (C82_double l B Fi) as Dl. fold b in Dl. unfold is_double in Dl. rewrite V1 in Dl.
  assert (Sg : (if d_sign b =? 0 then 1 else -1)%Q = (if (s =? 0)%Z then 1 else -1)%Q) by (destruct (Nat.eqb_spec (d_sign b) 0), (Z.eqb_spec s 0); auto; lia).
  rewrite Sg in Dl. destruct Dl as [(Y & ->)|(Y & ->)].
  - replace X with 0%Z by lia. change (Z.max 0 1 - 1075)%Z with (1 - 1075)%Z. rewrite exp_split. change (1 - 1023)%Z with (-1022)%Z. cbn [Z.eqb]. field; apply pow2_nz.
  - rewrite V2, Z.max_l, exp_split by lia. destruct (Z.eqb_spec X 0); [lia|]. rewrite inject_Z_plus. change (inject_Z (2 ^ 52)) with (Qpower 2 52). field; apply pow2_nz.
Qed.

Theorem C82_range : forall q, double q <-> exists l, bytes8 l /\ finite l /\ (dec64 l == q)%Q.
Proof.
  intros q. split.
  - intros D. destruct (double_normal q D) as (m & e & Hm & He & E & N).
    assert (Sg : (inject_Z m == (if ((if (m <? 0)%Z then 1 else 0) =? 0)%Z then 1 else -1) * inject_Z (Z.abs m))%Q).
    { destruct (Z.ltb_spec m 0); cbn [Z.eqb]; [rewrite Z.abs_neq, inject_Z_opp by lia; ring|rewrite Z.abs_eq by lia; ring]. }
    destruct (Z.lt_ge_cases (Z.abs m) (2 ^ 52)) as [Sm|Bg].
    + assert (e = (1 - 1075)%Z) by lia. subst e.
      destruct (bits_value (if (m <? 0)%Z then 1 else 0) 0 (Z.abs m)) as (B & F & V); [destruct (m <? 0)%Z; lia|lia|lia|].
      eexists. split; [exact B|]. split; [exact F|]. rewrite V, E, Sg. cbn [Z.eqb]. change (Z.max 0 1) with 1%Z. ring.
    + destruct (bits_value (if (m <? 0)%Z then 1 else 0) (e + 1075) (Z.abs m - 2 ^ 52)) as (B & F & V); [destruct (m <? 0)%Z; lia|lia|lia|].
      eexists. split; [exact B|]. split; [exact F|]. rewrite V, E, Sg. destruct (Z.eqb_spec (e + 1075) 0); [lia|]. rewrite Z.max_l by lia.
      replace (Z.abs m - 2 ^ 52 + 2 ^ 52)%Z with (Z.abs m) by lia. replace (e + 1075 - 1075)%Z with e by lia. ring.
  - intros (l & B & Fi & E). pose proof (C82_double l B Fi) as Dl. destruct (fields l B) as (_ & F2 & F3 & F4). cbn zeta in *. unfold finite in Fi. set (b := fun k => nth k l 0) in *.
    unfold is_double in Dl. rewrite E in Dl.
    assert (K : forall m e, (0 <= m < 2 ^ 53)%Z -> (-1074 <= e <= 971)%Z -> (q == (if d_sign b =? 0 then 1 else -1) * (inject_Z m * Qpower 2 e))%Q -> double q).
    { intros m e Hm He Q. destruct (d_sign b =? 0); [exists m, e|exists (- m)%Z, e]; (split; [lia|]); (split; [lia|]); rewrite Q, ?inject_Z_opp; ring. }
    destruct Dl as [(X & Q)|(X & Q)].
    + apply (K (d_frac b) (1 - 1075)%Z); [lia|lia|]. rewrite Q, exp_split. change (1 - 1023)%Z with (-1022)%Z. field; apply pow2_nz.
    + apply (K (d_frac b + 2 ^ 52)%Z (Z.of_nat (d_exp b) - 1075)%Z); [lia|lia|]. rewrite Q, exp_split, inject_Z_plus. change (inject_Z (2 ^ 52)) with (Qpower 2 52). field; apply pow2_nz.
Qed.

(* A time that was read from a binary word is not changed by the rounding. *)
Corollary C82_kept : forall rnd l, exact_on_doubles rnd -> bytes8 l -> finite l -> rnd (dec64 l) = dec64 l.
Proof. intros rnd l H B F. apply H, C82_range. exists l. split; [auto|]. split; [auto|reflexivity]. Qed.

(* The bytes of 2.4, and the greatest double. *)
Example C82_range_case : let l := [51; 51; 51; 51; 51; 51; 3; 64] in let m := [255; 255; 255; 255; 255; 255; 239; 127] in
  bytes8 l /\ finite l /\ (dec64 l == rnd64 (24 # 10))%Q /\ ~ (dec64 l == 24 # 10)%Q /\
  bytes8 m /\ finite m /\ (dec64 m == inject_Z (2 ^ 1024 - 2 ^ 971))%Q.
Proof.
  cbn zeta. assert (B : forall l, length l = 8 -> forallb (fun b => b <? 256) l = true -> bytes8 l).
  { intros l H1 H2. split; [exact H1|]. apply Forall_forall. rewrite forallb_forall in H2. intros x I. apply Nat.ltb_lt, H2, I. }
  split; [apply B; reflexivity|]. split; [vm_compute; discriminate|]. split; [vm_compute; reflexivity|]. split; [vm_compute; discriminate|].
  split; [apply B; reflexivity|]. split; [vm_compute; discriminate|]. vm_compute. reflexivity.
Qed.

(* ---------------- what ascii2bin writes ---------------- *)

Lemma r64_bits : forall q, (Z.abs (nearest (q / Qpower 2 (last_place q))) <= 2 ^ 53)%Z.
Proof.
  intros q. set (e := last_place q). pose proof (p2_pos e) as P.
  assert (Y : (Qabs (q / Qpower 2 e) <= inject_Z (2 ^ 53))%Q).
  { destruct (Qeq_dec q 0) as [Q0|Q0]; [rewrite Q0; unfold Qdiv; rewrite Qmult_0_l; discriminate|].
    pose proof (last_place_high q Q0) as H. fold e in H. rewrite (p2_step (e + 53) e) in H by lia. replace (e + 53 - e)%Z with 53%Z in H by lia.
    apply Qlt_le_weak. unfold Qdiv. rewrite Qabs_Qmult, (Qabs_pos (/ Qpower 2 e)) by (apply Qinv_le_0_compat, Qlt_le_weak; auto). apply Qlt_shift_div_r; auto. }
  set (x := (q / Qpower 2 e)%Q) in *. set (z := nearest x). apply Qabs_Qle_condition in Y. destruct Y as (Y1 & Y2).
  assert (Zz : (- 2 ^ 53 <= z <= 2 ^ 53)%Z); [|lia]. rewrite <- inject_Z_opp in Y1. split.
  - destruct (Z.le_gt_cases (- 2 ^ 53) z) as [G|G]; auto. exfalso. pose proof (nearest_best x (- 2 ^ 53)) as N. fold z in N.
    rewrite Zlt_Qlt in G. rewrite (Qabs_neg (inject_Z z - x)), (Qabs_neg (inject_Z (- 2 ^ 53) - x)) in N by lra. lra.
  - destruct (Z.le_gt_cases z (2 ^ 53)) as [G|G]; auto. exfalso. pose proof (nearest_best x (2 ^ 53)) as N. fold z in N.
    rewrite Zlt_Qlt in G. rewrite (Qabs_pos (inject_Z z - x)), (Qabs_pos (inject_Z (2 ^ 53) - x)) in N by lra. lra.
Qed.
Lemma last_place_range : forall q, (Qabs q < Qpower 2 1023)%Q -> (-1074 <= last_place q <= 970)%Z.
Proof.
  intros q B. split; [unfold last_place; lia|]. destruct (Qeq_dec q 0) as [Q0|Q0].
  - destruct q as [n d]. unfold Qeq in Q0. cbn in Q0. assert (n = 0%Z) by lia. subst n. unfold last_place. cbn [Qnum Qden Z.abs]. change (Z.log2 0) with 0%Z.
    pose proof (Z.log2_nonneg (Zpos d)). destruct (Qle_bool _ _); lia.
  - destruct (last_place_low q Q0) as [P|P]; [|lia]. set (e := last_place q) in *.
    assert (X : (Qpower 2 (e + 52) < Qpower 2 1023)%Q) by (eapply Qle_lt_trans; eauto). destruct (Z.le_gt_cases 1023 (e + 52)) as [G|G]; [|lia].
    exfalso. destruct (Z.eq_dec (e + 52) 1023) as [Eq|D]; [rewrite Eq in X; apply (Qlt_irrefl _ X)|]. assert (Y := p2_lt 1023 (e + 52) ltac:(lia)). apply (Qlt_irrefl (Qpower 2 1023)). eapply Qlt_trans; eauto.
Qed.
Lemma r64_first : forall q, ~ (q == 0)%Q -> last_place q <> (-1074)%Z -> (2 ^ 52 <= Z.abs (nearest (q / Qpower 2 (last_place q))))%Z.
Proof.
  intros q Q0 NE.
  destruct (last_place_low q Q0) as [P|P]; [|congruence]. set (e := last_place q) in *. pose proof (p2_pos e) as Pe.
  rewrite (p2_step (e + 52) e) in P by lia. replace (e + 52 - e)%Z with 52%Z in P by lia.
  assert (Y : (inject_Z (2 ^ 52) <= Qabs (q / Qpower 2 e))%Q).
  { unfold Qdiv. rewrite Qabs_Qmult, (Qabs_pos (/ Qpower 2 e)) by (apply Qinv_le_0_compat, Qlt_le_weak; auto). apply Qle_shift_div_l; auto. }
  set (x := (q / Qpower 2 e)%Q) in *. set (z := nearest x). destruct (Qlt_le_dec x 0) as [Sg|Sg].
  - rewrite Qabs_neg in Y by (apply Qlt_le_weak; auto). assert (z <= - 2 ^ 52)%Z; [|lia].
    destruct (Z.le_gt_cases z (- 2 ^ 52)) as [G|G]; auto. exfalso. pose proof (nearest_best x (- 2 ^ 52)) as N. fold z in N. rewrite Zlt_Qlt in G.
    rewrite inject_Z_opp in N, G. rewrite (Qabs_pos (inject_Z z - x)), (Qabs_pos (- inject_Z (2 ^ 52) - x)) in N by lra. lra.
  - rewrite Qabs_pos in Y by auto. assert (2 ^ 52 <= z)%Z; [|lia].
    destruct (Z.le_gt_cases (2 ^ 52) z) as [G|G]; auto. exfalso. pose proof (nearest_best x (2 ^ 52)) as N. fold z in N. rewrite Zlt_Qlt in G.
    rewrite (Qabs_neg (inject_Z z - x)), (Qabs_neg (inject_Z (2 ^ 52) - x)) in N by lra. lra.
Qed.

Theorem C82_enc : forall q, (Qabs q < Qpower 2 1023)%Q -> bytes8 (enc64 q) /\ finite (enc64 q) /\ (dec64 (enc64 q) == rnd64 q)%Q.
Proof.
  intros q Bq. unfold enc64. set (e := last_place q). set (z := nearest (q / Qpower 2 e)). rewrite rnd64_eq. unfold r64. fold e. fold z.
  destruct (Z.eqb_spec z 0) as [Z0|Z0].
  { destruct (bits_value 0 0 0) as (B & F & V); [lia|lia|lia|]. cbn zeta in *. change (0 + 2 ^ 52 * (0 + 2 ^ 11 * 0))%Z with 0%Z in *.
    split; [exact B|]. split; [exact F|]. rewrite V, Z0. cbn [Z.eqb]. ring. }
  assert (Q0 : ~ (q == 0)%Q).
  { intros Q0. apply Z0. pose proof (nearest_best (q / Qpower 2 e) 0) as N. fold z in N. assert (X : (q / Qpower 2 e == 0)%Q) by (rewrite Q0; unfold Qdiv; ring).
    rewrite X in N. assert (A : (Qabs (inject_Z z) <= 0)%Q) by (rewrite <- (Qplus_0_r (inject_Z z)); exact N). apply Qabs_Qle_condition in A. destruct A as (A1 & A2).
    change (- (0))%Q with (inject_Z 0) in A1. change 0%Q with (inject_Z 0) in A2. rewrite <- Zle_Qle in A1, A2. lia. }
  assert (Z53 : (Z.abs z <= 2 ^ 53)%Z) by apply r64_bits.
  assert (Le : (-1074 <= e <= 970)%Z) by (apply last_place_range; auto).
  assert (N : (2 ^ 52 <= Z.abs z)%Z \/ e = (-1074)%Z).
  { destruct (Z.eq_dec e (-1074)) as [X|X]; [auto|left]. apply r64_first; auto. }
  assert (Sg : (inject_Z z == (if ((if (z <? 0)%Z then 1 else 0) =? 0)%Z then 1 else -1) * inject_Z (Z.abs z))%Q).
  { destruct (Z.ltb_spec z 0); cbn [Z.eqb]; [rewrite Z.abs_neq, inject_Z_opp by lia; ring|rewrite Z.abs_eq by lia; ring]. }
  rewrite Sg. set (s := if (z <? 0)%Z then 1%Z else 0%Z) in *. assert (Rs : (0 <= s < 2)%Z) by (unfold s; destruct (z <? 0)%Z; lia).
  assert (T : forall X f, (0 <= X < 2047)%Z -> (0 <= f < 2 ^ 52)%Z -> (Z.abs z + 2 ^ 52 * (e + 1074) = f + 2 ^ 52 * X)%Z ->
    (inject_Z (Z.abs z) * Qpower 2 e == inject_Z (if (X =? 0)%Z then f else f + 2 ^ 52) * Qpower 2 (Z.max X 1 - 1075))%Q ->
    let l := le_bytes 8 (Z.abs z + 2 ^ 52 * (e + 1074) + (if (z <? 0)%Z then 2 ^ 63 else 0)) in
    bytes8 l /\ finite l /\ (dec64 l == (if (s =? 0)%Z then 1 else -1) * inject_Z (Z.abs z) * Qpower 2 e)%Q).
  { intros X f RX Rf En Ev. cbn zeta. destruct (bits_value s X f Rs RX Rf) as (B & F & V).
    replace (Z.abs z + 2 ^ 52 * (e + 1074) + (if (z <? 0)%Z then 2 ^ 63 else 0))%Z with (f + 2 ^ 52 * (X + 2 ^ 11 * s))%Z; [|rewrite En; unfold s; destruct (z <? 0)%Z; lia].
    split; [exact B|]. split; [exact F|]. rewrite V, <- Ev. ring. }
  destruct (Z.lt_ge_cases (Z.abs z) (2 ^ 52)) as [Sm|Bg]; [|destruct (Z.eq_dec (Z.abs z) (2 ^ 53)) as [Cy|NC]].
  - assert (E : e = (-1074)%Z) by lia. apply (T 0%Z (Z.abs z)); [lia|lia|rewrite E; lia|]. rewrite E. reflexivity.
  - apply (T (e + 1076)%Z 0%Z); [lia|lia|rewrite Cy; lia|]. destruct (Z.eqb_spec (e + 1076) 0); [lia|]. rewrite Z.max_l, Cy by lia.
    replace (e + 1076 - 1075)%Z with (1 + e)%Z by lia. rewrite p2_plus. change (inject_Z (2 ^ 53)) with (inject_Z (2 ^ 52) * 2)%Q. change (0 + 2 ^ 52)%Z with (2 ^ 52)%Z. change (Qpower 2 1) with 2%Q. ring.
  - apply (T (e + 1075)%Z (Z.abs z - 2 ^ 52)%Z); [lia|lia|lia|]. destruct (Z.eqb_spec (e + 1075) 0); [lia|]. rewrite Z.max_l by lia.
    replace (Z.abs z - 2 ^ 52 + 2 ^ 52)%Z with (Z.abs z) by lia. replace (e + 1075 - 1075)%Z with e by lia. reflexivity.
Qed.

(* The records that ascii2bin writes are read by monaa -b, without the number in
   front, as the same letters with the times rounded; times that are doubles are
   read unchanged. *)
Theorem C79_records : forall w, (forall x, In x w -> (Qabs (snd x) < Qpower 2 1023)%Q) ->
  exists w', binary_word dec64 (flat_map (record enc64) w) = Ok w' /\ map fst w' = map fst w /\
    Forall2 (fun x x' => snd x' == rnd64 (snd x))%Q w w' /\
    ((forall x, In x w -> double (snd x)) -> Forall2 (fun x x' => snd x' == snd x)%Q w w').
Proof.
  intros w H. pose proof (C39_binary dec64 (map (fun x => (fst x, enc64 (snd x))) w) []) as R. rewrite app_nil_r in R.
  rewrite flat_map_concat_map, map_map, <- flat_map_concat_map in R. eexists. split; [apply R; [|cbn; lia]|].
  - apply Forall_forall. intros y I. apply in_map_iff in I as (x & <- & I). cbn [snd]. apply (C82_enc (snd x) (H x I)).
  - rewrite !map_map. cbn [fst snd]. split; [reflexivity|].
    assert (G : Forall2 (fun x x' => snd x' == rnd64 (snd x))%Q w (map (fun x => (fst x, dec64 (enc64 (snd x)))) w)).
    { clear R. induction w as [|x w IH]; cbn [map]; constructor; [apply C82_enc, H; left; auto|apply IH; intros; apply H; right; auto]. }
    split; [exact G|]. intros D. clear R H. revert D. induction G as [|x x' w w' E G IH]; intros D; constructor; [|apply IH; intros; apply D; right; auto].
    rewrite E, (C85_nearest (snd x)); [reflexivity|apply D; left; auto].
Qed.

(* From the text: behind the four bytes of the number stand records that are read
   as the word of the text with its times rounded. *)
Corollary C79_rounded : forall ws d r w s, spaces ws -> d <> Decimal.Nil -> nodigit (r ++ s) -> spaces r ->
  Z.of_uint d = Z.of_nat (List.length w) -> (Z.of_nat (List.length w) <= int_max)%Z -> rendered w s -> (forall x, In x w -> (Qabs (snd x) < Qpower 2 1023)%Q) ->
  exists h b w', convert enc64 (ws ++ uint_chars d ++ r ++ s) = Ok (h ++ b) /\ List.length h = 4 /\
    binary_word dec64 b = Ok w' /\ map fst w' = map fst w /\ Forall2 (fun x x' => snd x' == rnd64 (snd x))%Q w w'.
Proof.
  intros ws d r w s Hw Nd Nr Hr EN LN R H. destruct (C79_records w H) as (w' & E & F & G & _).
  exists (int_bytes (Z.of_nat (List.length w))), (flat_map (record enc64) w), w'. split; [apply (C79_exact enc64 ws d r w s); auto|]. split; [reflexivity|]. auto.
Qed.

Example C79_records_case : exists w', binary_word dec64 (flat_map (record enc64) [(65, (1 # 10)%Q); (66, (5 # 2)%Q)]) = Ok w' /\ length w' = 2 /\
  (snd (nth 1 w' (O, 0%Q)) == 5 # 2)%Q /\ ~ (snd (nth 0 w' (O, 0%Q)) == 1 # 10)%Q /\ enc64 (1 # 10) = [154; 153; 153; 153; 153; 153; 185; 63].
Proof. eexists. split; [vm_compute; reflexivity|]. split; [reflexivity|]. split; [vm_compute; reflexivity|]. split; [vm_compute; discriminate|vm_compute; reflexivity]. Qed.
