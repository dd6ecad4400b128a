(* Property C75: translating several patterns in signal mode. *)
From Coq Require Import QArith Lqa Bool List ZArith Arith Lia.
From Verif Require Import Num NumFacts Outcome Interval Constraint Zone TA Spec TAFacts WfDec Tre TreFacts Signal SignalSpec SignalAut PropBase Intersection Rename PropRename PropSignal SkipFacts.
Import ListNotations.
Open Scope nat_scope.

(* ---------------- the automata before the renaming ---------------- *)

Definition flat (A : ta) : Prop := forall p s, In (p, s) (states A) -> zeroDur s = false /\ (isMatch s = true -> next s = []).

Lemma oseq_in : forall {X Y} (f : X -> outcome Y) l l', oseq f l = Ok l' -> forall y, In y l' -> exists x, In x l /\ f x = Ok y.
Proof.
  induction l as [|x l IH]; intros l' H y Hy; cbn in H.
  - apply Ok_inj in H. subst l'. destruct Hy.
  - apply bind_Ok in H as (b & E1 & H). apply bind_Ok in H as (bs & E2 & H). apply Ok_inj in H. subst l'. destruct Hy as [<-|Hy]; [exists x; split; auto; left; auto|].
    destruct (IH bs E2 y Hy) as (x' & Hx & E). exists x'. split; auto. right. auto.
Qed.

Lemma flat_cat : forall L R, flat L -> flat R -> flat (concat2 L R).
Proof.
  intros L R FL FR p s H. unfold concat2 in H. cbn [states] in H. apply in_app_or in H as [H|H].
  - apply in_map_iff in H as ([p1 s1] & E & H). cbn [fst snd] in E. injection E as <- <-. cbn. split; [apply (FL _ _ H)|discriminate].
  - unfold cat_right in H. destruct (cat_jumps L); [|apply (FR _ _ H)]. apply in_map_iff in H as ([p1 s1] & E & H). cbn [fst snd] in E. injection E as <- <-.
    destruct (FR _ _ H) as [F1 F2]. destruct (mem p1 (inits R)); cbn; auto.
Qed.
Lemma flat_alt : forall A B, flat A -> flat B -> flat (altTA A B).
Proof. intros A B FA FB p s H. unfold altTA in H. cbn [states] in H. apply in_app_or in H as [H|H]; [apply (FA _ _ H)|apply (FB _ _ H)]. Qed.
Lemma flat_within : forall al A Iv n X, flat A -> sigWithinTA al A Iv n = Ok X -> flat (fst X).
Proof.
  intros al A Iv n X F H. unfold sigWithinTA in H. destruct (num_to_int (fst (upb Iv))) as [up|]; [|discriminate]. destruct (num_to_int (fst (lob Iv))) as [lo|]; [|discriminate].
  apply bind_Ok in H as (sts & E & H). apply Ok_inj in H. subst X. cbn [fst]. intros p s Hs. cbn [states] in Hs. apply in_app_or in Hs as [Hs|Hs].
  - destruct (oseq_in _ _ _ E _ Hs) as ([p1 s1] & H1 & E1). cbn [fst snd] in E1. apply bind_Ok in E1 as (nx & _ & E1). apply Ok_inj in E1. injection E1 as <- <-. cbn.
    split; [apply (F _ _ H1)|discriminate].
  - destruct Hs as [E1|[E1|[]]]; injection E1 as <- <-; cbn; split; auto; discriminate.
Qed.
Lemma flat_sing : forall al c l n X, singTA al c l n = Ok X -> flat (fst X).
Proof.
  intros al c l n X H. unfold singTA in H. destruct l as [|i l]; [apply Ok_inj in H; subst X; intros p s []|].
  apply bind_Ok in H as (gs & E & H). apply Ok_inj in H. subst X. intros p s [E1|[E1|[]]]; injection E1 as <- <-; cbn; split; auto; discriminate.
Qed.

Lemma flat_ta : forall fuel al H, (forall a n X, taA fuel al H a n = Ok X -> flat (fst X)) /\ (forall d n X, taD fuel al H d n = Ok X -> flat (fst X)).
Proof.
  induction fuel as [|f IH]; intros al H; [split; intros; discriminate|]. destruct (IH al H) as [IA ID]. split.
  - intros a n X E. cbn [taA] in E. apply bind_Ok in E as (x & _ & E). destruct (at_cell x) as [s| | |l|d|b Iv]; try discriminate.
    + apply bind_Ok in E as (cl & _ & E). eapply flat_sing; eauto.
    + apply Ok_inj in E. subst X. intros p s [E|[]]. injection E as <- <-. cbn. auto.
    + destruct l as [|b l]; [discriminate|]. apply bind_Ok in E as (Y & EY & E). apply IA in EY. revert Y EY E. induction l as [|b' l IHl]; intros Y FY E.
      * apply Ok_inj in E. subst X. exact FY.
      * apply bind_Ok in E as (Z & EZ & E). apply IA in EZ. apply (IHl (concat2 (fst Y) (fst Z), snd Z) (flat_cat _ _ FY EZ) E).
    + apply bind_Ok in E as (Y & EY & E). apply bind_Ok in E as (B & EB & E). apply Ok_inj in E. subst X. apply ID in EY. cbn [fst]. unfold sigPlusTA in EB.
      destruct (_ && _) in EB; [discriminate|]. apply Ok_inj in EB. subst B. exact EY.
    + apply bind_Ok in E as (Y & EY & E). eapply flat_within; eauto.
  - intros d n X E. cbn [taD] in E. apply bind_Ok in E as (e & _ & E).
    assert (G : forall l Y, flat (fst Y) -> (fix go (l : list (list nat)) (X : ta * nat) : outcome (ta * nat) :=
         match l with
         | [] => Ok X
         | [] :: _ => UB
         | (a :: _) :: t => do Y <- taA f al H a (snd X) ; go t (altTA (fst X) (fst Y), snd Y)
         end) l Y = Ok X -> flat (fst X)).
    { induction l as [|[|a c] t IHl]; intros Y FY E0; [apply Ok_inj in E0; subst X; exact FY|discriminate|].
      apply bind_Ok in E0 as (Z & EZ & E0). apply IA in EZ. apply (IHl (altTA (fst Y) (fst Z), snd Z) (flat_alt _ _ FY EZ) E0). }
    apply (G (dn_list e) (mkTA [] [] [], n) (fun p s F => match F with end) E).
Qed.

Lemma flat_final : forall A, flat A -> forall q c, match_at A q = true -> has_key A q c = false.
Proof.
  intros A F q c M. unfold match_at, has_key, deref in *. destruct (assoc q (states A)) as [s|] eqn:E; auto. apply assoc_In in E.
  rewrite (proj2 (F _ _ E) M). reflexivity.
Qed.

(* ---------------- an honest map changes nothing ---------------- *)

Definition honest (A : ta) (out : omap) : Prop := forall q, out q <> 0 -> has_key A q (out q) = true.

Section Honest.
  Variables (al : nat -> ptr) (A : ta) (fuel : nat).
  Hypothesis F : flat A.

  Lemma rn_edge_ok : forall out n c e acc, honest A out -> exists out', honest A out' /\
    rn_edge (S fuel) al A (mkR out [] n) c e = Ok (rename_edges A acc c [e], filter (to_change A c) [e], mkR out' [] n).
  Proof.
    intros out n c e acc Ho. unfold rename_edges, to_change. cbn [rn_edge flat_map filter]. destruct (etgt e) as [q|] eqn:Eq; [|exists out; auto].
    unfold have_to_change. cbn [r_out r_acc r_n]. destruct (Nat.eqb_spec c 0) as [->|N]; cbn [negb andb].
    - exists out. auto.
    - destruct (has_key A q c) eqn:K.
      + exists (oset out q c). split.
        * intros p Hp. unfold oset in *. destruct (Nat.eqb_spec p q) as [E|Np]; [rewrite E; exact K|apply Ho; exact Hp].
        * unfold match_now. cbn [r_acc existsb]. destruct (match_at A q) eqn:M; [rewrite (flat_final A F q c M) in K; discriminate|]. reflexivity.
      + exists out. split; auto. destruct (Nat.eqb_spec (out q) c) as [E|NE]; [|reflexivity].
        assert (X : has_key A q (out q) = true) by (apply Ho; congruence). rewrite E in X. congruence.
  Qed.
  Lemma rn_edges_ok : forall acc c es out n, honest A out -> exists out', honest A out' /\
    rn_edges (S fuel) al A (mkR out [] n) c es = Ok (rename_edges A acc c es, filter (to_change A c) es, mkR out' [] n).
  Proof.
    intros acc c. induction es as [|e es IH]; intros out n Ho; [exists out; auto|]. cbn [rn_edges].
    destruct (rn_edge_ok out n c e acc Ho) as (o1 & H1 & E1). rewrite E1. cbn [bind snd fst]. destruct (IH o1 n H1) as (o2 & H2 & E2). rewrite E2. cbn [bind fst snd].
    exists o2. split; auto. unfold rename_edges. cbn [flat_map filter]. rewrite app_nil_r. destruct (to_change A c e); reflexivity.
  Qed.
  Lemma rn_keys_ok : forall acc nx out n, honest A out -> exists out', honest A out' /\
    rn_keys (S fuel) al A (mkR out [] n) nx =
      Ok (map (fun ce => (fst ce, rename_edges A acc (fst ce) (snd ce))) nx, flat_map (fun ce => filter (to_change A (fst ce)) (snd ce)) nx, mkR out' [] n).
  Proof.
    intros acc. induction nx as [|[c es] nx IH]; intros out n Ho; [exists out; auto|]. cbn [rn_keys].
    destruct (rn_edges_ok acc c es out n Ho) as (o1 & H1 & E1). rewrite E1. cbn [bind snd fst]. destruct (IH o1 n H1) as (o2 & H2 & E2). rewrite E2. cbn [bind fst snd].
    exists o2. auto.
  Qed.
  Lemma rn_states_ok : forall acc l out n, honest A out -> exists out', honest A out' /\
    rn_states (S fuel) al A (mkR out [] n) l = Ok (map (fun ps => (fst ps, rename_state A acc (snd ps))) l, mkR out' [] n).
  Proof.
    intros acc. induction l as [|[p s] l IH]; intros out n Ho; [exists out; auto|]. cbn [rn_states].
    destruct (rn_keys_ok acc (next s) out n Ho) as (o1 & H1 & E1). rewrite E1. cbn [bind snd fst]. destruct (IH o1 n H1) as (o2 & H2 & E2). rewrite E2. cbn [bind fst snd].
    exists o2. split; [auto|]. cbn [map fst snd]. unfold rename_state at 2. destruct (flat_map (fun ce => filter (to_change A (fst ce)) (snd ce)) (next s)); reflexivity.
  Qed.

  Lemma flat_unchanged : changed_accepting A = [].
  Proof.
    unfold changed_accepting. match goal with |- nodup_keep ?l = [] => enough (E : l = []) by (rewrite E; reflexivity) end.
    apply flat_map_none. intros ps _. apply flat_map_none. intros ce _. apply flat_map_none. intros e _.
    destruct (to_change A (fst ce) e && acc_tgt A e) eqn:E; auto. apply andb_true_iff in E as [E1 E2]. unfold to_change, acc_tgt in *.
    destruct (etgt e) as [q|]; auto. apply andb_true_iff in E1 as [_ E1]. rewrite (flat_final A F q (fst ce) E2) in E1. discriminate.
  Qed.

  Lemma rename_honest : forall out n, honest A out -> exists out', honest A out' /\
    renameStatic (S fuel) al out A n = Ok (renameTA al A n, out').
  Proof.
    intros out n Ho. unfold renameStatic. destruct (rn_states_ok (fun q => al (n + pos q [])) (states A) out n Ho) as (o & H & E). rewrite E. cbn [bind fst snd r_acc r_n r_out map].
    exists o. split; auto. unfold renameTA. rewrite flat_unchanged. cbn [map length mem existsb]. rewrite !app_nil_r, Nat.add_0_r, map_map. reflexivity.
  Qed.
End Honest.

(* ================= C75 ================= *)

(* In a process in which no automaton was translated before, the static map
   changes nothing. *)
Theorem C75_first_call : forall s1 s2 fuel al r n A m, toSignalTA s1 s2 fuel al r n = Ok (A, m) ->
  exists out, toSignalStatic s1 s2 fuel al (fun _ => 0) r n = Ok (A, m, out).
Proof.
  intros s1 s2 fuel al r n A m H. unfold toSignalTA, toSignalStatic in *. apply bind_Ok in H as (X & EX & H). rewrite EX. cbn [bind].
  destruct (newD (snd X) (fst X)) as [d H0]. apply bind_Ok in H as (H1 & E1 & H). rewrite E1. cbn [bind]. apply bind_Ok in H as (Y & EY & H). rewrite EY. cbn [bind].
  apply Ok_inj in H. destruct fuel as [|f]; [discriminate|].
  destruct (rename_honest al (fst Y) f (proj2 (flat_ta (S f) al H1) _ _ _ EY) (fun _ => 0) (snd Y)) as (o & _ & E); [intros q Hq; congruence|].
  exists o. rewrite E, H. reflexivity.
Qed.

(* No state of an automaton of signal mode has zero duration. *)
Theorem C75_flags : forall s1 s2 fuel al r n A m p s, toSignalTA s1 s2 fuel al r n = Ok (A, m) -> In (p, s) (states A) -> zeroDur s = false.
Proof.
  intros s1 s2 fuel al r n A m p s H Hs. unfold toSignalTA in H. apply bind_Ok in H as (X & EX & H).
  destruct (newD (snd X) (fst X)) as [d H0]. apply bind_Ok in H as (H1 & E1 & H). apply bind_Ok in H as (Y & EY & H). apply Ok_inj in H.
  pose proof (proj2 (flat_ta fuel al H1) _ _ _ EY) as F. unfold renameTA in H. rewrite (flat_unchanged _ F) in H. cbn [map length mem existsb] in H. rewrite app_nil_r in H.
  injection H as <- _. cbn [states] in Hs. apply in_map_iff in Hs as ([p1 s1'] & E & H2). cbn [fst snd] in E. injection E as <- <-. apply (F _ _ H2).
Qed.

(* The map left by an earlier call has the addresses of states that are gone.
   After (ab)%(1,2)b, the expression bc, one of whose states lies where a state
   of the first automaton was, gets an automaton without the word bc. *)
Definition exFirst : tre := Cat (Within (Cat la lb) (interval_open 1 2)) lb.
Definition exSecond : tre := Cat lb (Atom 99).
Theorem C75_later_call_refuted : exists A1 m1 out A2 m2 out2 A3 m3,
  toSignalStatic sep0 sep0 20 (fun k => k) (fun _ => 0) exFirst 0 = Ok (A1, m1, out) /\
  toSignalStatic sep0 sep0 20 (fun k => k + 4) out exSecond 0 = Ok (A2, m2, out2) /\
  toSignalTA sep0 sep0 20 (fun k => k + 4) exSecond 0 = Ok (A3, m3) /\
  accepts A3 [(98, 1%Q); (99, 2%Q)] /\ ~ accepts A2 [(98, 1%Q); (99, 2%Q)].
Proof.
  do 8 eexists. split; [vm_compute; reflexivity|]. split; [vm_compute; reflexivity|]. split; [vm_compute; reflexivity|]. split.
  - exists 4, 7. do 2 eexists. split; [left; reflexivity|]. split; [|eexists; split; [right; right; right; left; reflexivity|reflexivity]].
    econstructor; [eexists; eexists; split; [left; reflexivity|]; split; [left; reflexivity|right; left; reflexivity]|reflexivity|intros g []|].
    econstructor; [eexists; eexists; split; [right; right; left; reflexivity|]; split; [left; reflexivity|left; reflexivity]|reflexivity|intros g []|constructor].
  - intros (p & q & v & T & [<-|[]] & R & (s & Hs & M)). cbn in Hs.
    inversion R as [|? ? ? ? ? e ? q1 ? ? ? (s1 & es & I1 & I2 & I3) Et SG R1]; subst.
    destruct I1 as [E|[E|[E|[E|[]]]]]; try discriminate. injection E as <-. destruct I2 as [E|[E|[]]]; try discriminate. injection E as <-.
    destruct I3 as [<-|[]]. injection Et as <-.
    inversion R1 as [|? ? ? ? ? e ? q1 ? ? ? (s1 & es & I1 & I2 & I3) Et SG1 R2]; subst.
    destruct I1 as [E|[E|[E|[E|[]]]]]; try discriminate. injection E as <-. destruct I2.
Qed.
Example C75_case : exists A m, toSignalTA sep0 sep0 20 (fun k => k) exFirst 0 = Ok (A, m) /\ length (states A) = 8.
Proof. do 2 eexists. split; [vm_compute; reflexivity|reflexivity]. Qed.

(* The automata that toSignalTA gives to the renaming are as C74_final needs
   them. *)
Theorem C74_before : forall fuel al H d n Y, taD fuel al H d n = Ok Y -> wf_ta (fst Y) -> ends_final (fst Y).
Proof.
  intros fuel al H d n Y E W q c Ac K. pose proof (proj2 (flat_ta fuel al H) _ _ _ E) as F.
  apply (match_at_spec _ _ (wf_nodup _ W)) in Ac. apply (has_key_spec _ _ _ (wf_nodup _ W)) in K. rewrite (flat_final _ F q c Ac) in K. discriminate.
Qed.
