(* Property C80: the text that is printed. *)
From Coq Require Import QArith Qabs Lqa Bool List ZArith Arith Lia.
From Verif Require Import Num NumFacts Outcome Zone ZoneFacts TA Spec Word WordFacts Constraint Monaa MonaaFacts MonaaVec Skip SkipFacts Text TextFacts Ans PropMonaa PropText Print PrintFacts PrintMicro.
Import ListNotations.
Open Scope nat_scope.

(* ---------------- a reader of the output ---------------- *)

(* Somebody who reads the output: numbers (as scanf reads them, or infinities),
   comparisons and variables, separated by white space; three lines and a rule
   for each block. *)
Definition read_num (s : list nat) : option (num * list nat) :=
  match scan_lf (skip s) with
  | Number q r => Some (Fin q, r)
  | _ => match skip s with
         | 105 :: 110 :: 102 :: r => Some (PInf, r)
         | 45 :: 105 :: 110 :: 102 :: r => Some (MInf, r)
         | _ => None
         end
  end.
Definition read_op (s : list nat) : option (bool * list nat) :=
  match skip s with
  | 60 :: 61 :: r => Some (true, r)
  | 60 :: r => Some (false, r)
  | _ => None
  end.
Definition read_var (s : list nat) : option (nat * list nat) :=
  match skip s with
  | 116 :: 39 :: 32 :: 45 :: 32 :: 116 :: r => Some (2, r)
  | 116 :: 39 :: r => Some (1, r)
  | 116 :: r => Some (0, r)
  | _ => None
  end.
Definition read_line (s : list nat) : option (ineq * list nat) :=
  match read_num s with Some (lo, s) =>
  match read_op s with Some (b1, s) =>
  match read_var s with Some (v, s) =>
  match read_op s with Some (b2, s) =>
  match read_num s with Some (up, 10 :: s) => Some (mkIneq lo b1 v b2 up, s)
  | _ => None end | _ => None end | _ => None end | _ => None end | _ => None end.
Definition read_rule (s : list nat) : option (list nat) :=
  if list_eq_dec Nat.eq_dec (firstn 30 s) (repeat 61 29 ++ [10]) then Some (skipn 30 s) else None.
Definition read_block (s : list nat) : option (list ineq * list nat) :=
  match read_line s with Some (a, s) =>
  match read_line s with Some (b, s) =>
  match read_line s with Some (c, s) =>
  match read_rule s with Some s => Some ([a; b; c], s)
  | _ => None end | _ => None end | _ => None end | _ => None end.
Fixpoint read_blocks (n : nat) (s : list nat) : option (list (list ineq)) :=
  match s, n with
  | [], _ => Some []
  | _, O => None
  | _, S k => match read_block s with
              | Some (b, r) => match read_blocks k r with Some l => Some (b :: l) | None => None end
              | None => None
              end
  end.
Definition read_output (s : list nat) : option (list (list ineq)) := read_blocks (length s) s.

(* The nearest millionths, the even one of two. *)
Definition near (a b : num) : Prop :=
  match a, b with
  | Fin q, Fin r => micro r /\ (Qabs (q - r) <= 1 # 2000000)%Q /\
      ((Qabs (q - r) == 1 # 2000000)%Q -> exists k, r == inject_Z (2 * k) / 1000000)
  | PInf, PInf => True
  | MInf, MInf => True
  | _, _ => False
  end.
Definition near_ineq (i j : ineq) : Prop :=
  q_lole i = q_lole j /\ q_uple i = q_uple j /\ q_var i = q_var j /\ near (q_lo i) (q_lo j) /\ near (q_up i) (q_up j).
Definition regular (b : list ineq) : Prop :=
  length b = 3 /\ Forall (fun i => q_var i <= 2 /\ q_lo i <> NaN /\ q_up i <> NaN) b.

(* ---------------- what it reads ---------------- *)

Lemma pad_skip : forall n s t, skip (pad n s ++ t) = skip (s ++ t).
Proof.
  intros n s t. unfold pad. rewrite <- app_assoc. apply skip_spaces. apply Forall_forall. intros x Hx. apply repeat_spec in Hx. subst. reflexivity.
Qed.
Lemma read_num_lf : forall m a t, a <> NaN -> follows t -> exists b, read_num (pad 10 (lf m a) ++ t) = Some (b, t) /\ near a b.
Proof.
  intros m a t N F. unfold read_num. rewrite pad_skip. assert (X : forall q, a = Fin q -> exists b, match scan_lf (skip (lf m a ++ t)) with
    | Number q r => Some (Fin q, r) | _ => match skip (lf m a ++ t) with 105 :: 110 :: 102 :: r => Some (PInf, r) | 45 :: 105 :: 110 :: 102 :: r => Some (MInf, r) | _ => None end end = Some (b, t) /\ near a b).
  { intros q ->. rewrite lf_lit, lit_head, scan_lf_ok by (auto using shown_ok). eexists. split; [reflexivity|]. cbn [near]. pose proof (shown_value m q) as V. split; [|split].
    - exists (millionths q). exact V.
    - rewrite V. apply near_value.
    - rewrite V. intros T. apply even_value, Z.even_spec in T as (k & Ek). exists k. rewrite V, Ek. reflexivity. }
  destruct a; try congruence; eauto; cbn [lf app]; eexists; split; reflexivity.
Qed.
Lemma read_op_op : forall n b c t, c <> 61 -> read_op (pad n (op_chars b) ++ c :: t) = Some (b, c :: t).
Proof.
  intros n b c t N. unfold read_op. rewrite pad_skip. destruct b; cbn [op_chars app]; [reflexivity|]. rewrite skip_nospace by reflexivity.
  do 61 (destruct c as [|c]; [reflexivity|]). destruct c; [congruence|reflexivity].
Qed.
Lemma read_var_var : forall v t, v <= 2 -> read_var ([32] ++ var_chars v ++ [32; 60] ++ t) = Some (v, [32; 60] ++ t).
Proof. intros v t H. destruct v as [|[|[|v]]]; try lia; reflexivity. Qed.
Lemma op_head : forall b t, exists t', op_chars b ++ t = 60 :: t'.
Proof. intros [] t; cbn; eauto. Qed.
Lemma read_op_blank : forall s, read_op (32 :: s) = read_op s.
Proof. reflexivity. Qed.
Lemma read_line_line : forall m1 m2 i t, q_var i <= 2 -> q_lo i <> NaN -> q_up i <> NaN ->
  exists j, read_line (line_chars m1 m2 i ++ t) = Some (j, t) /\ near_ineq i j.
Proof.
  intros m1 m2 [lo b1 v b2 up] t Hv Hl Hu. cbn [q_lo q_up q_var] in *. unfold line_chars. cbn [q_lo q_lole q_var q_uple q_up]. rewrite <- !app_assoc.
  unfold read_line.
  destruct (read_num_lf m1 lo ([32] ++ pad 8 (op_chars b1) ++ [32] ++ var_chars v ++ [32] ++ op_chars b2 ++ [32] ++ pad 10 (lf m2 up) ++ [10] ++ t) Hl eq_refl) as (a & Ra & Na). rewrite Ra.
  cbn [app]. rewrite read_op_blank, read_op_op by discriminate.
  destruct (op_head b2 (32 :: pad 10 (lf m2 up) ++ 10 :: t)) as (t' & Et). rewrite Et. pose proof (read_var_var v t' Hv) as Rv. cbn [app] in Rv. rewrite Rv. rewrite <- Et.
  rewrite read_op_blank. pose proof (read_op_op 0 b2 32 (pad 10 (lf m2 up) ++ 10 :: t) ltac:(discriminate)) as Ro. unfold pad at 1 in Ro. cbn [Nat.sub repeat app] in Ro. rewrite Ro.
  destruct (read_num_lf m2 up (10 :: t) Hu eq_refl) as (b & Rb & Nb).
  assert (Rb' : read_num (32 :: pad 10 (lf m2 up) ++ 10 :: t) = Some (b, 10 :: t)) by exact Rb. rewrite Rb'. eexists. split; [reflexivity|]. repeat split; auto.
Qed.
Lemma read_rule_rule : forall t, read_rule (rule_chars ++ t) = Some t.
Proof. intros t. unfold read_rule. cbn [rule_chars app repeat firstn skipn]. reflexivity. Qed.
Lemma read_block_block : forall minus n b t, regular b -> exists c, read_block (lines_chars minus n b ++ rule_chars ++ t) = Some (c, t) /\ Forall2 near_ineq b c.
Proof.
  intros minus n b t (L & F). destruct b as [|x [|y [|z [|]]]]; try discriminate. inversion F as [|? ? (X1 & X2 & X3) F1]; subst. inversion F1 as [|? ? (Y1 & Y2 & Y3) F2]; subst. inversion F2 as [|? ? (Z1 & Z2 & Z3) _]; subst.
  cbn [lines_chars]. rewrite app_nil_r, <- !app_assoc. unfold read_block.
  edestruct (read_line_line) as (a & Ra & Na); [| | |rewrite Ra]; auto.
  edestruct (read_line_line) as (b & Rb & Nb); [| | |rewrite Rb]; auto.
  edestruct (read_line_line) as (c & Rc & Nc); [| | |rewrite Rc]; auto. rewrite read_rule_rule. eexists. split; [reflexivity|]. auto.
Qed.
Lemma lines_nonempty : forall minus n b t, regular b -> lines_chars minus n b ++ t <> [].
Proof.
  intros minus n b t (L & _). destruct b as [|i b]; [discriminate|]. cbn [lines_chars]. unfold line_chars. intros E. apply (f_equal (@length nat)) in E. rewrite !app_length in E. cbn in E. lia.
Qed.
Lemma read_blocks_ok : forall minus l n k, Forall regular l -> length l <= k -> exists l', read_blocks k (blocks_chars minus n l) = Some l' /\ Forall2 (Forall2 near_ineq) l l'.
Proof.
  intros minus l. induction l as [|b l IH]; intros n k F L.
  - exists []. split; [destruct k; reflexivity|constructor].
  - inversion F as [|? ? Rb F']; subst. cbn [blocks_chars]. cbn in L. destruct k as [|k]; [lia|].
    destruct (read_block_block minus n b (blocks_chars minus (n + length b) l) Rb) as (c & Rc & Nc).
    destruct (IH (n + length b) k F' ltac:(lia)) as (l' & Rl & Nl). exists (c :: l').
    cbn [read_blocks]. destruct (lines_chars minus n b ++ _) as [|x s] eqn:E; [exfalso; eapply lines_nonempty; eauto|]. rewrite Rc, Rl. auto.
Qed.
Lemma blocks_length : forall minus l n, length l <= length (blocks_chars minus n l).
Proof. intros minus. induction l as [|b l IH]; intros n; [cbn; lia|]. cbn [blocks_chars length]. rewrite !app_length. specialize (IH (n + length b)). cbn [rule_chars app length repeat]. lia. Qed.

(* ================= C80 the printed text ================= *)

(* Whatever is printed, the reader finds the blocks again, with bounds rounded
   to the nearest millionth. *)
Theorem C80_read : forall minus p, Forall regular (pr_out p) ->
  exists l, read_output (output minus p) = Some l /\ Forall2 (Forall2 near_ineq) (pr_out p) l.
Proof. intros minus p F. unfold read_output, output. apply read_blocks_ok; auto. apply blocks_length. Qed.

(* What is printed is regular. *)
Lemma zone_regular : forall z, mgood 3 z -> regular (print_zone z).
Proof.
  intros z G. split; [reflexivity|].
  assert (L : forall i j, i < 3 -> j < 3 -> nopp (fst (mget z i j)) <> NaN /\ fst (mget z i j) <> NaN).
  { intros i j Hi Hj. specialize (G i j Hi Hj). unfold good in G. destruct (fst (mget z i j)); cbn; try contradiction; split; discriminate. }
  unfold print_zone. repeat constructor; cbn [q_var q_lo q_up]; try lia; apply L; lia.
Qed.
Lemma event_blocks : forall fuel al A input w p, rendered w input -> main_event fuel al false A input = Ok p ->
  exists zs, monaaDollar fuel al vecC A w = Ok zs /\ pr_out p = map print_zone zs.
Proof.
  intros fuel al A input w p R H. unfold main_event in H. rewrite (C39_wellformed w input R) in H. cbn [bind] in H.
  destruct (monaaDollar fuel al lazyC A (lopen w)) as [zs| | | |] eqn:M; try discriminate. cbn [bind] in H. apply Ok_inj in H. subst p.
  rewrite C36_online_offline in M. exists zs. split; auto. destruct (C46_printer (Clear :: map Push zs) false) as [_ E]. rewrite E. cbn [flat_map Datatypes.app].
  clear. induction zs as [|z zs IH]; auto. cbn [map flat_map Datatypes.app]. rewrite IH. reflexivity.
Qed.

(* In event mode: every printed bound is the nearest millionth to the bound. *)
Theorem C80_printed : forall fuel al A input w p minus, wf_ta A -> rendered w input -> nondecreasing 0 w ->
  main_event fuel al false A input = Ok p ->
  exists l, read_output (output minus p) = Some l /\ Forall2 (Forall2 near_ineq) (pr_out p) l.
Proof.
  intros fuel al A input w p minus WF R ND H. apply C80_read. destruct (event_blocks _ _ _ _ _ _ R H) as (zs & M & ->).
  apply Forall_forall. intros b Hb. apply in_map_iff in Hb as (z & <- & Hz). destruct (monaaDollar_ok _ _ _ _ _ WF ND M z Hz) as (i & _ & _ & G & _). apply zone_regular. auto.
Qed.

Lemma near_same : forall a b, mnum a -> near a b -> match a, b with Fin q, Fin r => r == q | PInf, PInf => True | MInf, MInf => True | _, _ => False end.
Proof. intros [| |q|] [| |r|] M N; cbn in *; auto. destruct N as (N1 & N2 & _). apply micro_near; auto. Qed.
Lemma near_sat : forall i j t t', mnum (q_lo i) -> mnum (q_up i) -> near_ineq i j -> (sat_ineq i t t' <-> sat_ineq j t t').
Proof.
  intros [lo b1 v b2 up] [lo' b1' v' b2' up'] t t' M1 M2 (E1 & E2 & E3 & N1 & N2). cbn [q_lo q_up q_lole q_uple q_var] in *. subst b1' b2' v'.
  apply (near_same _ _ M1) in N1. apply (near_same _ _ M2) in N2. unfold sat_ineq. cbn [q_lo q_up q_lole q_uple q_var].
  set (x := match v with 0 => t | 1 => t' | _ => (t' - t)%Q end).
  destruct lo as [| |q|], lo' as [| |q'|]; try contradiction; destruct up as [| |r|], up' as [| |r'|]; try contradiction; destruct b1, b2; rewrite ?N1, ?N2; reflexivity.
Qed.
Lemma near_block : forall b c t t', Forall (fun i => mnum (q_lo i) /\ mnum (q_up i)) b -> Forall2 near_ineq b c ->
  (Forall (fun q => sat_ineq q t t') b <-> Forall (fun q => sat_ineq q t t') c).
Proof.
  intros b c t t' F H. induction H as [|i j b c N H IH]; [split; constructor|]. inversion F as [|? ? (M1 & M2) F']; subst. pose proof (near_sat i j t t' M1 M2 N) as S. specialize (IH F').
  split; intros X; inversion X; subst; constructor; tauto.
Qed.
Lemma zone_mnum : forall z, mzone z -> Forall (fun i => mnum (q_lo i) /\ mnum (q_up i)) (print_zone z).
Proof.
  intros z M. assert (L : forall i j, mnum (nopp (fst (mget z i j))) /\ mnum (fst (mget z i j))).
  { intros i j. specialize (M i j). unfold mbound in M. destruct (fst (mget z i j)); cbn in *; auto. split; auto. apply micro_opp. auto. }
  unfold print_zone. repeat constructor; cbn [q_lo q_up]; apply L.
Qed.

(* The pairs that satisfy one of the blocks in the text. *)
Definition says (s : list nat) (t t' : Q) : Prop :=
  exists l b, read_output s = Some l /\ In b l /\ Forall (fun q => sat_ineq q t t') b.

(* For words with at most six decimals the text is exact. *)
Theorem C80_exact : forall fuel al A input w p minus, wf_ta A -> rendered w input -> nondecreasing 0 w -> (forall c t, In (c, t) w -> micro t) ->
  main_event fuel al false A input = Ok p -> forall t t',
  says (output minus p) t t' <-> exists b, In b (pr_out p) /\ Forall (fun q => sat_ineq q t t') b.
Proof.
  intros fuel al A input w p minus WF R ND MW H t t'. destruct (C80_printed _ _ _ _ _ _ minus WF R ND H) as (l & Rl & N).
  destruct (event_blocks _ _ _ _ _ _ R H) as (zs & M & Ep). pose proof (monaaDollar_micro _ _ _ _ _ MW M) as F.
  assert (B : Forall (Forall (fun i => mnum (q_lo i) /\ mnum (q_up i))) (pr_out p)).
  { rewrite Ep. apply Forall_forall. intros b Hb. apply in_map_iff in Hb as (z & <- & Hz). rewrite Forall_forall in F. apply zone_mnum. auto. }
  unfold says. rewrite Rl. clear - N B. split.
  - intros (l' & b & [= <-] & Hb & S). induction N as [|x y xs l NX N IH]; [destruct Hb|]. inversion B; subst. destruct Hb as [->|Hb].
    + exists x. split; [left; auto|]. apply (near_block x b t t'); auto.
    + destruct IH as (c & Hc & Sc); auto. exists c. split; [right; auto|auto].
  - intros (b & Hb & S). exists l. induction N as [|x y xs l NX N IH]; [destruct Hb|]. inversion B; subst. destruct Hb as [->|Hb].
    + exists y. split; auto. split; [left; auto|]. apply (near_block b y t t'); auto.
    + destruct IH as (c & _ & Hc & Sc); auto. exists c. split; auto. split; [right; auto|auto].
Qed.

(* Halfway between two millionths: 1/128 is printed as 0.007812 and 3/128 as
   0.023438. *)
Example C80_tie_case : lf false (Fin (1 # 128)) = [48; 46; 48; 48; 55; 56; 49; 50] /\ lf false (Fin (3 # 128)) = [48; 46; 48; 50; 51; 52; 51; 56] /\
  (Qabs ((1 # 128) - (7812 # 1000000)) == 1 # 2000000)%Q.
Proof. split; [reflexivity|]. split; [reflexivity|]. reflexivity. Qed.
