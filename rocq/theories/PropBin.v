(* Property C79: ascii2bin and monaa -b. *)
From Coq Require Import QArith Lqa Bool List ZArith Arith Lia Ascii String.
From Verif Require Import Num Outcome TA Spec Word Text TextFacts PropText Main MainFacts PropParse PropMain Bin.
Import ListNotations.
Open Scope list_scope.
Open Scope nat_scope.

(* The record of an event: one byte and the eight bytes of the time. *)
Definition record (enc : Q -> list nat) (e : event) : list nat := fst e :: enc (snd e).

(* ---------------- reading ---------------- *)

Lemma uint_bound : forall d, (0 <= Z.of_uint d)%Z.
Proof. intros d. unfold Z.of_uint. destruct (Pos.of_uint d); lia. Qed.
Lemma scan_d_ok : forall ws o d r, spaces ws -> d <> Decimal.Nil -> nodigit r -> int_range (Z.of_int (if is_neg o then Decimal.Neg d else Decimal.Pos d)) ->
  scan_d (ws ++ sign_chars o ++ uint_chars d ++ r) = Ok (Some (Z.of_int (if is_neg o then Decimal.Neg d else Decimal.Pos d)), skip r).
Proof.
  intros ws o d r Hw Nd Nr [R1 R2]. unfold scan_d. rewrite skip_spaces by auto.
  assert (E : skip (sign_chars o ++ uint_chars d ++ r) = sign_chars o ++ uint_chars d ++ r).
  { destruct (uint_head d Nd) as (c & t & E & Rg). destruct o as [[]|]; try reflexivity. cbn [sign_chars app]. rewrite E. cbn [app]. apply skip_nospace.
    unfold space. destruct (Nat.eqb_spec c 32); [lia|]. destruct (Nat.leb_spec 9 c), (Nat.leb_spec c 13); auto; lia. }
  rewrite E, sign_app, scan_app by auto. apply Z.leb_le in R1, R2. destruct d; [congruence|..]; rewrite R1, R2; reflexivity.
Qed.

Lemma put_skip : forall enc n v s, put_events enc n v (skip s) = put_events enc n v s.
Proof. intros enc [|n] v s; auto. cbn [put_events]. unfold scan_event. rewrite skip_skip. reflexivity. Qed.

Definition known (e : event) : vars := mkV (Some (fst e)) (Some (snd e)).
Lemma scan_event_ok : forall v ws1 c ws2 l r, spaces ws1 -> space c = false -> spaces ws2 -> lit_ok l -> follows r ->
  scan_event v (ws1 ++ c :: ws2 ++ lit_chars l ++ r) = Ok (known (c, lit_value l), skip r).
Proof.
  intros v ws1 c ws2 l r H1 Hc H2 Hl F. unfold scan_event. rewrite skip_spaces, skip_nospace by auto.
  rewrite skip_spaces, lit_head, scan_lf_ok by auto. reflexivity.
Qed.

(* Behind the end of the text the last event is written again. *)
Definition filled (n : nat) (w : tword) (e : event) : tword := firstn n w ++ repeat (last w e) (n - List.length w).
Lemma last_cons : forall (w : tword) x e, last (x :: w) e = last w x.
Proof. induction w as [|a w IH]; intros x e; auto. cbn in *. destruct w; auto. Qed.
Lemma put_end : forall enc n e ws, spaces ws -> put_events enc n (known e) ws = Ok (flat_map (record enc) (repeat e n)).
Proof.
  intros enc. induction n as [|n IH]; intros e ws H; auto. cbn [put_events]. unfold scan_event. rewrite <- (app_nil_r ws), skip_spaces by auto. cbn [skip bind fst snd].
  change (put_event enc (known e)) with (Ok (record enc e)). cbn [bind]. rewrite (IH e []) by constructor. reflexivity.
Qed.
Lemma put_ok : forall enc w s, rendered w s -> forall n v e, (w = [] -> n = 0 \/ v = known e) -> put_events enc n v s = Ok (flat_map (record enc) (filled n w e)).
Proof.
  intros enc w s R. induction R as [ws H|ws1 c ws2 l H1 Hc H2 Hl|ws1 c ws2 l ws3 w s H1 Hc H2 Hl H3 N3 R IH]; intros n v e Hv.
  - destruct (Hv eq_refl) as [-> | ->]; [reflexivity|]. rewrite put_end by auto. unfold filled. rewrite firstn_nil, Nat.sub_0_r. reflexivity.
  - destruct n as [|n]; auto. cbn [put_events]. pose proof (scan_event_ok v ws1 c ws2 l [] H1 Hc H2 Hl Logic.I) as E. rewrite app_nil_r in E. rewrite E. cbn [bind fst snd skip].
    change (put_event enc (known (c, lit_value l))) with (Ok (record enc (c, lit_value l))). cbn [bind]. rewrite (put_end enc n _ []) by constructor. cbn [bind].
    unfold filled. cbn [firstn List.length last Nat.sub app]. rewrite firstn_nil, Nat.sub_0_r. reflexivity.
  - destruct n as [|n]; auto. cbn [put_events]. rewrite scan_event_ok; auto.
    + cbn [bind fst snd]. change (put_event enc (known (c, lit_value l))) with (Ok (record enc (c, lit_value l))). cbn [bind].
      rewrite put_skip, <- (put_skip enc n _ (ws3 ++ s)), skip_spaces, put_skip by auto. rewrite (IH n _ (c, lit_value l)) by auto. cbn [bind].
      unfold filled. rewrite last_cons. reflexivity.
    + destruct ws3 as [|x ws3]; [congruence|]. inversion H3. cbn. auto.
Qed.

(* ================= C79 ascii2bin and monaa -b ================= *)

(* A text with a number in front: the number, and so many records; the events of
   the text, and if these are too few, the last one again and again. *)
Theorem C79_converted : forall enc ws o d r w s e, spaces ws -> d <> Decimal.Nil -> nodigit (r ++ s) -> spaces r ->
  let N := Z.of_int (if is_neg o then Decimal.Neg d else Decimal.Pos d) in
  int_range N -> rendered w s -> w <> [] \/ (N <= 0)%Z ->
  convert enc (ws ++ sign_chars o ++ uint_chars d ++ r ++ s) = Ok (int_bytes N ++ flat_map (record enc) (filled (Z.to_nat N) w e)).
Proof.
  intros enc ws o d r w s e Hw Nd Nr Hr N RN R Hn. unfold convert. rewrite scan_d_ok by auto. cbn [bind]. fold N. rewrite skip_spaces, put_skip by auto.
  rewrite (put_ok enc w s R (Z.to_nat N) _ e); [reflexivity|]. intros ->. left. destruct Hn as [Hn|Hn]; [congruence|]. lia.
Qed.

(* With the right number the records are the events, no more and no fewer. *)
Corollary C79_exact : forall enc ws d r w s, spaces ws -> d <> Decimal.Nil -> nodigit (r ++ s) -> spaces r ->
  Z.of_uint d = Z.of_nat (List.length w) -> (Z.of_nat (List.length w) <= int_max)%Z -> rendered w s ->
  convert enc (ws ++ uint_chars d ++ r ++ s) = Ok (int_bytes (Z.of_nat (List.length w)) ++ flat_map (record enc) w).
Proof.
  intros enc ws d r w s Hw Nd Nr Hr EN LN R. pose proof (C79_converted enc ws None d r w s (0, 0%Q) Hw Nd Nr Hr) as C. cbn [is_neg sign_chars app Z.of_int] in C. rewrite EN in C. rewrite C; auto.
  - rewrite Nat2Z.id. unfold filled. rewrite firstn_all, Nat.sub_diag. cbn [repeat]. rewrite app_nil_r. reflexivity.
  - split; [unfold int_min; lia|auto].
  - destruct w; [right; cbn; lia|left; discriminate].
Qed.

(* Without the four bytes in front monaa -b reads what was written. *)
Theorem C79_without_number : forall enc dec w rest, (forall e, In e w -> List.length (enc (snd e)) = 8 /\ dec (enc (snd e)) = snd e) -> List.length rest < 9 ->
  binary_word dec (flat_map (record enc) w ++ rest) = Ok w.
Proof.
  intros enc dec w rest H L. pose proof (C39_binary dec (map (fun e => (fst e, enc (snd e))) w) rest) as B. rewrite flat_map_concat_map, map_map, <- flat_map_concat_map in B.
  cbn [fst snd] in B. etransitivity; [apply B|]; auto.
  - apply Forall_forall. intros x Hx. apply in_map_iff in Hx as (e & <- & He). cbn. apply H. auto.
  - f_equal. rewrite map_map. cbn [fst snd]. rewrite <- (map_id w) at 2. apply map_ext_in. intros [c q] Hq. cbn [fst snd]. destruct (H _ Hq) as (_ & E). cbn in E. rewrite E. reflexivity.
Qed.

Lemma binary_first : forall dec c b t w, List.length b = 8 -> binary_word dec (c :: b ++ t) = Ok w -> exists w', w = (c, dec b) :: w'.
Proof.
  intros dec c b t w L E. unfold binary_word in E. cbn [read_binary] in E. unfold getOneBinary in E. destruct (Nat.ltb_spec (List.length (b ++ t)) 8) as [Lt|_]; [rewrite app_length in Lt; lia|].
  rewrite firstn_app, L, Nat.sub_diag, firstn_O, app_nil_r in E. rewrite <- L, firstn_all in E. destruct (read_binary _ _ _) as [w'| | | |]; cbn [bind] in E; try discriminate. injection E as <-. eauto.
Qed.

(* With them, the first event that monaa -b sees is a byte of the number. *)
Theorem C79_binary_refuted : forall enc dec w, w <> [] -> (forall e, In e w -> List.length (enc (snd e)) = 8) ->
  forall w', binary_word dec (int_bytes (Z.of_nat (List.length w)) ++ flat_map (record enc) w) = Ok w' ->
  exists t w2, w' = (List.length w mod 256, t) :: w2.
Proof.
  intros enc dec [|[c q] w] NE H w' E; [congruence|]. pose proof (H (c, q) (or_introl eq_refl)) as L8. cbn [snd] in L8.
  set (n := List.length ((c, q) :: w)) in *. unfold int_bytes in E. cbn [seq map flat_map record fst snd app] in E.
  destruct (enc q) as [|b0 [|b1 [|b2 [|b3 b]]]] eqn:Eq; cbn in L8; try lia.
  match type of E with binary_word dec (?x :: ?x1 :: ?x2 :: ?x3 :: ?y) = _ => set (h := x) in E; set (h1 := x1) in E; set (h2 := x2) in E; set (h3 := x3) in E end. cbn [app] in E.
  destruct (binary_first dec h [h1; h2; h3; c; b0; b1; b2; b3] (b ++ flat_map (record enc) w) w' eq_refl E) as (w2 & ->).
  exists (dec [h1; h2; h3; c; b0; b1; b2; b3]), w2. f_equal. f_equal. unfold h. change (256 ^ Z.of_nat 0)%Z with 1%Z. rewrite Z.div_1_r. rewrite <- (Nat2Z.id (n mod 256)), Nat2Z.inj_mod. reflexivity.
Qed.
(* So what ascii2bin makes of a word is never read as the word, as long as the
   word does not begin with the character of that number. *)
Corollary C79_never_refuted : forall enc dec ws d r w s, spaces ws -> d <> Decimal.Nil -> nodigit (r ++ s) -> spaces r ->
  Z.of_uint d = Z.of_nat (List.length w) -> (Z.of_nat (List.length w) <= int_max)%Z -> rendered w s -> (forall e, In e w -> List.length (enc (snd e)) = 8) ->
  w <> [] -> fst (hd (0, 0%Q) w) <> List.length w mod 256 ->
  exists out, convert enc (ws ++ uint_chars d ++ r ++ s) = Ok out /\ binary_word dec out <> Ok w.
Proof.
  intros enc dec ws d r w s Hw Nd Nr Hr EN LN R H8 NE NH. eexists. split; [apply (C79_exact enc ws d r w s); auto|]. intros E.
  destruct (C79_binary_refuted enc dec w NE H8 w E) as (t & w2 & X). destruct w as [|[c q] w]; [discriminate|]. apply NH. cbn [hd fst]. injection X as X1 _ _. exact X1.
Qed.

(* A number in front that is not an int: nothing is known of what ascii2bin
   does, whatever follows. *)
Theorem C79_overflow_refuted : forall enc ws o d r, spaces ws -> nodigit r ->
  let N := Z.of_int (if is_neg o then Decimal.Neg d else Decimal.Pos d) in
  ~ int_range N -> convert enc (ws ++ sign_chars o ++ uint_chars d ++ r) = UB.
Proof.
  intros enc ws o d r Hw Nr N RN.
  assert (Nd : d <> Decimal.Nil). { intros ->. apply RN. subst N. unfold int_range, int_min, int_max. destruct o as [[]|]; cbn; lia. }
  unfold convert, scan_d. rewrite skip_spaces by auto.
  assert (E : skip (sign_chars o ++ uint_chars d ++ r) = sign_chars o ++ uint_chars d ++ r).
  { destruct (uint_head d Nd) as (c & t & E & Rg). destruct o as [[]|]; try reflexivity. cbn [sign_chars app]. rewrite E. cbn [app]. apply skip_nospace.
    unfold space. destruct (Nat.eqb_spec c 32); [lia|]. destruct (Nat.leb_spec 9 c), (Nat.leb_spec c 13); auto; lia. }
  rewrite E, sign_app, scan_app by auto. fold N.
  replace ((int_min <=? N)%Z && (N <=? int_max)%Z) with false; [destruct d; [congruence|..]; reflexivity|].
  symmetry. apply andb_false_iff. destruct (Z.leb_spec int_min N); [|auto]. right. apply Z.leb_gt. unfold int_range in RN. lia.
Qed.

Example C79_overflow_case : convert (fun _ => []) (str "2147483648 A 1") = UB /\ ~ int_range 2147483648.
Proof. split; [vm_compute; reflexivity|]. unfold int_range, int_max. lia. Qed.

(* The texts that monaa itself reads have no number in front: ascii2bin is
   undefined for them. *)
Theorem C79_number_refuted : forall enc w s, rendered w s -> match w with [] => True | (c, _) :: _ => digit c = None /\ c <> 43 /\ c <> 45 end -> convert enc s = UB.
Proof.
  intros enc w s R H. unfold convert.
  assert (X : forall ws c t, spaces ws -> space c = false -> digit c = None -> c <> 43 -> c <> 45 -> exists r, scan_d (ws ++ c :: t) = Ok (None, r)).
  { clear. intros ws c t Hw Hc Hd N1 N2. unfold scan_d. rewrite skip_spaces, skip_nospace by auto. cbn [sign]. destruct (Nat.eqb_spec c 45); [congruence|]. destruct (Nat.eqb_spec c 43); [congruence|].
    rewrite scan_stop by exact Hd. eauto. }
  destruct R as [ws Hw|ws1 c ws2 l H1 Hc H2 Hl|ws1 c ws2 l ws3 w s H1 Hc H2 Hl H3 N3 R].
  - unfold scan_d. rewrite <- (app_nil_r ws), skip_spaces by auto. reflexivity.
  - destruct H as (D & N1 & N2). destruct (X ws1 c (ws2 ++ lit_chars l) H1 Hc D N1 N2) as (r & ->). reflexivity.
  - destruct H as (D & N1 & N2). destruct (X ws1 c (ws2 ++ lit_chars l ++ ws3 ++ s) H1 Hc D N1 N2) as (r & ->). reflexivity.
Qed.

(* The files: -i F -o G. *)
Theorem C79_files : forall enc W can i o s, w_file W i = Some s -> can o = true -> i <> o ->
  ascii2bin enc W can [InFile i; OutFile o] = do b <- convert enc s ; Ok (Some o, b).
Proof.
  intros enc W can i o s Hi Ho N. unfold ascii2bin. cbn [opened]. rewrite Hi, Ho. cbn [bind existsb]. unfold str_eqb. destruct (list_eq_dec Nat.eq_dec i o); [congruence|]. cbn [orb]. rewrite Hi. reflexivity.
Qed.
(* A number and no events: the variables are written without a value. *)
Theorem C79_no_events_refuted : forall enc ws o d r, spaces ws -> d <> Decimal.Nil -> spaces r ->
  let N := Z.of_int (if is_neg o then Decimal.Neg d else Decimal.Pos d) in
  int_range N -> (0 < N)%Z -> convert enc (ws ++ sign_chars o ++ uint_chars d ++ r) = UB.
Proof.
  intros enc ws o d r Hw Nd Hr N RN P. unfold convert.
  assert (Nr : nodigit r) by (destruct r as [|c r]; [exact Logic.I|]; inversion Hr as [|? ? Hc _]; subst; unfold nodigit; destruct (digit c) eqn:E; auto; exfalso; revert Hc E; clear; intros Hc E;
    unfold space in Hc; unfold digit in E; do 60 (destruct c as [|c]; [cbn in Hc, E; discriminate|]); cbn in Hc, E; discriminate).
  rewrite scan_d_ok by auto. cbn [bind]. fold N. rewrite <- (app_nil_r r), skip_spaces by auto. destruct (Z.to_nat N) as [|k] eqn:E; [lia|]. reflexivity.
Qed.

(* Any options: the last -i and the last -o count; without them the standard
   input and the standard output are used. *)
Definition last_in (l : list bopt) (i : option (list nat)) : Prop :=
  (i = None /\ forall p, ~ In (InFile p) l) \/ exists l1 p l2, l = l1 ++ InFile p :: l2 /\ i = Some p /\ forall p', ~ In (InFile p') l2.
Definition last_out (l : list bopt) (o : option (list nat)) : Prop :=
  (o = None /\ forall p, ~ In (OutFile p) l) \/ exists l1 p l2, l = l1 ++ OutFile p :: l2 /\ o = Some p /\ forall p', ~ In (OutFile p') l2.
Definition fin (l : list bopt) i := fold_left (fun a b => match b with InFile p => Some p | _ => a end) l i.
Definition fout (l : list bopt) o := fold_left (fun a b => match b with OutFile p => Some p | _ => a end) l o.
Lemma fin_last : forall l i, (fin l i = i /\ forall p, ~ In (InFile p) l) \/ exists l1 p l2, l = l1 ++ InFile p :: l2 /\ fin l i = Some p /\ forall p', ~ In (InFile p') l2.
Proof.
  induction l as [|b l IH]; intros i; [left; auto|]. cbn [fin fold_left].
  destruct (IH (match b with InFile p => Some p | _ => i end)) as [(E & N)|(l1 & p & l2 & -> & E & N)]; [|right; exists (b :: l1), p, l2; auto].
  destruct b as [p|p]; [right; exists [], p, l; auto|left]. split; auto. intros q [X|X]; [discriminate|apply (N q X)].
Qed.
Lemma fout_last : forall l o, (fout l o = o /\ forall p, ~ In (OutFile p) l) \/ exists l1 p l2, l = l1 ++ OutFile p :: l2 /\ fout l o = Some p /\ forall p', ~ In (OutFile p') l2.
Proof.
  induction l as [|b l IH]; intros o; [left; auto|]. cbn [fout fold_left].
  destruct (IH (match b with OutFile p => Some p | _ => o end)) as [(E & N)|(l1 & p & l2 & -> & E & N)]; [|right; exists (b :: l1), p, l2; auto].
  destruct b as [p|p]; [left|right; exists [], p, l; auto]. split; auto. intros q [X|X]; [discriminate|apply (N q X)].
Qed.
Lemma opened_ok : forall file can l i o outs, (forall p, In (InFile p) l -> file p <> None) -> (forall p, In (OutFile p) l -> can p = true) ->
  exists outs', opened file can l i o outs = Ok (fin l i, fout l o, outs') /\ (forall p, In p outs' <-> In p outs \/ In (OutFile p) l).
Proof.
  intros file can. induction l as [|[p|p] l IH]; intros i o outs HI HO.
  - exists outs. split; [reflexivity|]. intros p; cbn; tauto.
  - cbn [opened]. destruct (file p) eqn:E; [|exfalso; apply (HI p); cbn; auto].
    destruct (IH (Some p) o outs) as (outs' & E' & H1); [intros q Hq; apply HI; right; auto|intros q Hq; apply HO; right; auto|].
    exists outs'. split; [exact E'|]. intros q; rewrite H1; cbn; split; [tauto|intros [X|[X|X]]; auto; discriminate].
  - cbn [opened]. rewrite (HO p) by (cbn; auto).
    destruct (IH i (Some p) (p :: outs)) as (outs' & E' & H1); [intros q Hq; apply HI; right; auto|intros q Hq; apply HO; right; auto|].
    exists outs'. split; [exact E'|]. intros q; rewrite H1; cbn; split; [intros [[X|X]|X]; subst; auto|intros [X|[X|X]]; auto; injection X as ->; auto].
Qed.
Theorem C79_options : forall enc W can l i o s, (forall p, In (InFile p) l -> w_file W p <> None) -> (forall p, In (OutFile p) l -> can p = true) ->
  (forall p, In (InFile p) l -> ~ In (OutFile p) l) -> last_in l i -> last_out l o ->
  match i with None => s = w_stdin W | Some p => w_file W p = Some s end ->
  ascii2bin enc W can l = do b <- convert enc s ; Ok (o, b).
Proof.
  intros enc W can l i o s HI HO HN LI LO Hs. unfold ascii2bin. destruct (opened_ok (w_file W) can l None None [] HI HO) as (outs & -> & Ho). cbn [bind].
  assert (EI : fin l None = i).
  { destruct LI as [(-> & N)|(l1 & p & l2 & -> & -> & N)].
    - destruct (fin_last l None) as [(E & _)|(l1 & p & l2 & -> & _)]; [exact E|]. exfalso. apply (N p). apply in_app_iff. right. left. auto.
    - unfold fin. rewrite fold_left_app. cbn [fold_left]. destruct (fin_last l2 (Some p)) as [(E & _)|(l3 & q & l4 & -> & _)]; [exact E|]. exfalso. apply (N q). apply in_app_iff. right. left. auto. }
  assert (EO : fout l None = o).
  { destruct LO as [(-> & N)|(l1 & p & l2 & -> & -> & N)].
    - destruct (fout_last l None) as [(E & _)|(l1 & p & l2 & -> & _)]; [exact E|]. exfalso. apply (N p). apply in_app_iff. right. left. auto.
    - unfold fout. rewrite fold_left_app. cbn [fold_left]. destruct (fout_last l2 (Some p)) as [(E & _)|(l3 & q & l4 & -> & _)]; [exact E|]. exfalso. apply (N q). apply in_app_iff. right. left. auto. }
  rewrite EI, EO. destruct i as [p|]; [|rewrite Hs; reflexivity].
  assert (Ip : In (InFile p) l). { destruct LI as [(X & _)|(l1 & p' & l2 & -> & X & _)]; [discriminate|]. injection X as <-. apply in_app_iff. right. left. auto. }
  destruct (existsb (str_eqb p) outs) eqn:Ex; [|rewrite Hs; reflexivity]. exfalso. apply existsb_exists in Ex as (q & Hq & E). apply str_eqb_iff in E. subst q.
  apply Ho in Hq as [[]|Hq]. apply (HN p Ip Hq).
Qed.

(* A line without a number: the program goes on with the time of the event
   before; it neither stops nor says that something is wrong. *)
Theorem C79_malformed_refuted : forall enc v c q s, space c = false -> v_time v = Some q -> (exists r, scan_lf (skip s) = NoNumber r) ->
  put_events enc 1 v (c :: s) = Ok (record enc (c, q)).
Proof.
  intros enc v c q s Hc Hv (r & E). cbn [put_events]. unfold scan_event. rewrite skip_nospace by auto. rewrite E. cbn [bind fst snd]. unfold put_event. cbn [v_event v_time]. rewrite Hv.
  cbn [bind]. rewrite app_nil_r. reflexivity.
Qed.

Theorem C79_missing : forall enc W can i l, w_file W i = None -> ascii2bin enc W can (InFile i :: l) = Exit 1.
Proof. intros enc W can i l H. unfold ascii2bin. cbn [opened]. rewrite H. reflexivity. Qed.
(* The same file for both: it is empty before it is read. *)
Theorem C79_same_file_refuted : forall enc W can f s, w_file W f = Some s -> can f = true ->
  ascii2bin enc W can [InFile f; OutFile f] = UB.
Proof.
  intros enc W can f s Hf Hc. unfold ascii2bin. cbn [opened]. rewrite Hf, Hc. cbn [bind existsb]. unfold str_eqb. destruct (list_eq_dec Nat.eq_dec f f); [|congruence]. reflexivity.
Qed.

(* Also when -o comes first, whether the file existed or not: -i opens the empty
   file, not the standard input. *)
Theorem C79_created_refuted : forall enc W can f, can f = true -> ascii2bin enc W can [OutFile f; InFile f] = UB.
Proof.
  intros enc W can f Hc. unfold ascii2bin. cbn [opened]. rewrite Hc. cbn [bind existsb]. unfold str_eqb. destruct (list_eq_dec Nat.eq_dec f f); [|congruence]. cbn [orb].
  destruct (w_file W f); cbn [bind existsb]; unfold str_eqb; (destruct (list_eq_dec Nat.eq_dec f f); [|congruence]); reflexivity.
Qed.

(* "2\nA 1.5\nB 2.5\n", with doubles written as their numerators in tenths. *)
Definition bin_txt : list nat := flat_map (fun l => str l ++ [10]) ["A 1.5"; "B 2.5"]%string.
Definition bin_w : tword := [(65, 1.5%Q); (66, 2.5%Q)].
Definition enc10 (q : Q) : list nat := [Z.to_nat (Qnum q); 0; 0; 0; 0; 0; 0; 0].
Definition dec10 (b : list nat) : Q := (Z.of_nat (nth 0 b 0) # 10).
Lemma bin_rendered : rendered bin_w bin_txt.
Proof.
  assert (X : exists w, rendered w bin_txt /\ w = bin_w); [|destruct X as (w & R & ->); exact R]. eexists. split.
  - change bin_txt with ([] ++ 65 :: [32] ++ lit_chars (mkLit None (Decimal.D1 Decimal.Nil) (Some (Decimal.D5 Decimal.Nil)) None) ++ [10] ++
      ([] ++ 66 :: [32] ++ lit_chars (mkLit None (Decimal.D2 Decimal.Nil) (Some (Decimal.D5 Decimal.Nil)) None) ++ [10] ++ [])).
    repeat apply rend_cons; try discriminate; try reflexivity; try (repeat constructor; fail); try (split; [left; discriminate|exact Logic.I]).
  - vm_compute. reflexivity.
Qed.
Example C79_case : rendered bin_w bin_txt /\ (forall e, In e bin_w -> List.length (enc10 (snd e)) = 8 /\ dec10 (enc10 (snd e)) = snd e) /\
  convert enc10 (str "2" ++ [10] ++ bin_txt) = Ok ([2; 0; 0; 0] ++ [65; 15; 0; 0; 0; 0; 0; 0; 0] ++ [66; 25; 0; 0; 0; 0; 0; 0; 0]) /\
  convert enc10 (str "4" ++ [10] ++ bin_txt) = Ok ([4; 0; 0; 0] ++ flat_map (record enc10) (bin_w ++ [(66, 2.5%Q); (66, 2.5%Q)])) /\
  convert enc10 (str "2" ++ [10] ++ str "A 1.5" ++ [10] ++ str "B x 2.5" ++ [10]) = Ok ([2; 0; 0; 0] ++ flat_map (record enc10) [(65, 1.5%Q); (66, 1.5%Q)]) /\
  convert enc10 bin_txt = UB /\
  binary_word dec10 ([2; 0; 0; 0] ++ flat_map (record enc10) bin_w) = Ok [(2, (0 # 10)%Q); (0, (0 # 10)%Q)] /\
  binary_word dec10 (flat_map (record enc10) bin_w) = Ok bin_w.
Proof.
  split; [exact bin_rendered|]. split; [intros e [<-|[<-|[]]]; split; reflexivity|]. repeat split; vm_compute; reflexivity.
Qed.
