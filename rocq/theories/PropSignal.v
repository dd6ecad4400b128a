(* Signal mode: termination, dead code, and what is wrong. *)
From Coq Require Import QArith Lqa Bool List ZArith Arith Lia.
From Verif Require Import Num NumFacts Outcome Interval IntervalFacts Constraint Zone TA Spec TAFacts WfDec Tre TreRun Signal SignalFacts SignalTerm SignalSpec PropBase.
Import ListNotations.
Open Scope nat_scope.

(* Examples use the addresses 0, 1, ... and a separation that would be seen. *)
Definition sep0 (H : heap) (a : nat) : outcome heap := Exit 61.
Definition sigTA (r : tre) : outcome (ta * nat) := toSignalTA sep0 sep0 20 (fun k => k) r 0.
Notation la := (Atom 97).
Notation lb := (Atom 98).

(* ================= C49 termination ================= *)

(* With a conjunction anywhere, no result is ever reached. *)
Theorem C49_conjunction_never_returns : forall s1 s2 fuel al r n A m,
  has_and r = true -> toSignalTA s1 s2 fuel al r n <> Ok (A, m).
Proof. exact and_never_returns. Qed.

Lemma conj_loop_spins : forall fuel H d a l dec, dec_of H a = Ok dec -> conj_loop fuel H d (a :: l) = OutOfFuel.
Proof. induction fuel as [|f IH]; intros H d a l dec E; [reflexivity|]. cbn [conj_loop]. rewrite E. cbn [bind]. eapply IH; eauto. Qed.

(* a & b runs forever: whatever the fuel, it is used up. *)
Theorem C49_terminates_refuted : forall s1 s2 fuel al n, toSignalTA s1 s2 fuel al (And la lb) n = OutOfFuel.
Proof.
  intros s1 s2 fuel al n. destruct fuel as [|[|f]]; [reflexivity|reflexivity|]. unfold toSignalTA. cbn.
  erewrite conj_loop_spins by reflexivity. reflexivity.
Qed.

(* Without conjunctions it ends.  Missing: conjunctions (refuted above). *)
Theorem C49_terminates_partial : forall r, has_and r = false ->
  exists F, forall s1 s2 fuel al n, F <= fuel -> toSignalTA s1 s2 fuel al r n <> OutOfFuel.
Proof. exact no_and_ends. Qed.

Example C49_case : has_and (Cat (Plus (Within la (interval_open 1 4))) (Alt lb (Within (Atom 99) (interval_from 2)))) = false /\
  (exists A m, sigTA (Cat (Plus (Within la (interval_open 1 4))) (Alt lb (Within (Atom 99) (interval_from 2)))) = Ok (A, m) /\ length (states A) = 8).
Proof. split; [reflexivity|]. eexists _, _. split; [vm_compute; reflexivity|reflexivity]. Qed.

(* ================= C61 separation ================= *)

Theorem C61_separation_is_dead : forall s1 s2 s1' s2' fuel al r n,
  toSignalTA s1 s2 fuel al r n = toSignalTA s1' s2' fuel al r n.
Proof. exact signal_no_separation. Qed.

(* A plus followed by another letter gives an automaton without it. *)
Example C61_case : exists A m, sigTA (Cat (Plus (Alt la (Within la (interval_open 3 4)))) lb) = Ok (A, m) /\ length (states A) = 4.
Proof. eexists _, _. split; [vm_compute; reflexivity|reflexivity]. Qed.

(* ================= C62 the language ================= *)

Definition aliased : tre := Cat (Within la (interval_open 1 2)) (Alt (Within la (interval_open 1 2)) lb).

(* (a%(1,2))((a%(1,2))|b): the singleton of the first a is shared by the two
   disjuncts and is changed while the first one is normalised. *)
Theorem C62_aliasing_accepts_refuted : exists A m u,
  sigTA aliased = Ok (A, m) /\ canonical u /\ accepts A (stamps 0 u) /\ ~ sig_lang false aliased u.
Proof.
  eexists _, _, [(97, 3%Q); (98, 1%Q)]. split; [vm_compute; reflexivity|]. split; [cbn; repeat split; auto; lra|]. split.
  - apply isMember_correct; [apply wf_tab_ok; vm_compute; reflexivity|vm_compute; reflexivity].
  - intros (w & S & E). cbn in S. destruct S as (w1 & w2 & -> & ((d1 & -> & _) & [D1 D1']) & S).
    unfold above, below, duration in D1, D1'; cbn in D1, D1'.
    destruct S as [((d2 & -> & _) & _)|(d2 & -> & P2)].
    + specialize (E 4%Q ltac:(lra)). cbn in E. destruct (Qle_bool 4 d1); [discriminate|]. destruct (Qle_bool (4 - d1) d2); discriminate.
    + specialize (E (5 # 2)%Q ltac:(lra)). cbn in E. rewrite (qle_false (5 # 2) d1) in E by (unfold inject_Z in *; lra). destruct (Qle_bool ((5 # 2) - d1) d2); discriminate.
Qed.

Theorem C62_aliasing_misses_refuted : exists A m u,
  sigTA aliased = Ok (A, m) /\ canonical u /\ ~ accepts A (stamps 0 u) /\ sig_lang true aliased u.
Proof.
  eexists _, _, [(97, (3 # 2)%Q); (98, 1%Q)]. split; [vm_compute; reflexivity|]. split; [cbn; repeat split; auto; lra|]. split.
  - rewrite <- isMember_correct; [vm_compute; discriminate|apply wf_tab_ok; vm_compute; reflexivity].
  - exists [(97, (3 # 2)%Q); (98, 1%Q)]. split; [|intros x _; reflexivity]. cbn. exists [(97, (3 # 2)%Q)], [(98, 1%Q)].
    split; [reflexivity|]. split.
    + split; [exists (3 # 2)%Q; split; [reflexivity|lra]|]. split; unfold above, below, duration; cbn; unfold inject_Z; lra.
    + right. exists 1%Q. split; [reflexivity|lra].
Qed.

(* (ab)%(1,2): the clock of the restriction is reset after a, so that only b is
   measured. *)
Theorem C62_within_sequence_accepts_refuted : exists A m u,
  sigTA (Within (Cat la lb) (interval_open 1 2)) = Ok (A, m) /\ canonical u /\ accepts A (stamps 0 u) /\
  ~ sig_lang false (Within (Cat la lb) (interval_open 1 2)) u.
Proof.
  eexists _, _, [(97, 5%Q); (98, (3 # 2)%Q)]. split; [vm_compute; reflexivity|]. split; [cbn; repeat split; auto; lra|]. split.
  - apply isMember_correct; [apply wf_tab_ok; vm_compute; reflexivity|vm_compute; reflexivity].
  - intros (w & S & E). cbn in S. destruct S as ((w1 & w2 & -> & (d1 & -> & P1) & (d2 & -> & P2)) & [_ D]).
    unfold below, duration in D; cbn in D. unfold inject_Z in D.
    specialize (E 5%Q ltac:(lra)). cbn in E. rewrite (qle_false 5 d1) in E by lra. rewrite (qle_false (5 - d1) d2) in E by lra. discriminate.
Qed.

Theorem C62_within_sequence_misses_refuted : exists A m u,
  sigTA (Within (Cat la lb) (interval_open 1 2)) = Ok (A, m) /\ canonical u /\ ~ accepts A (stamps 0 u) /\
  sig_lang true (Within (Cat la lb) (interval_open 1 2)) u.
Proof.
  eexists _, _, [(97, (1 # 2)%Q); (98, 1%Q)]. split; [vm_compute; reflexivity|]. split; [cbn; repeat split; auto; lra|]. split.
  - rewrite <- isMember_correct; [vm_compute; discriminate|apply wf_tab_ok; vm_compute; reflexivity].
  - exists [(97, (1 # 2)%Q); (98, 1%Q)]. split; [|intros x _; reflexivity]. cbn. split.
    + exists [(97, (1 # 2)%Q)], [(98, 1%Q)]. split; [reflexivity|]. split; [exists (1 # 2)%Q|exists 1%Q]; split; auto; lra.
    + split; unfold above, below, duration; cbn; unfold inject_Z; lra.
Qed.

(* A word with one letter shows it up to its duration. *)
Lemma sval_konst : forall c w x, nonneg w -> (forall a, In a w -> fst a = c) -> (0 < x)%Q ->
  sval w x = if Qle_bool x (duration w) then Some c else None.
Proof.
  intros c. induction w as [|[c' d] w IH]; intros x N K X.
  - cbn. unfold duration; cbn. rewrite qle_false; auto.
  - inversion N as [|? ? Hd N']; subst; cbn in Hd. assert (c' = c) as -> by (apply (K (c', d)); left; auto).
    assert (KW : forall a, In a w -> fst a = c) by (intros; apply K; right; auto). rewrite duration_cons.
    assert (DN : (0 <= duration w)%Q).
    { clear -N'. unfold duration. induction N' as [|[e f] w H N IH]; cbn [map qsum fold_right snd] in *; [lra|]. fold (qsum (map snd w)) in *. lra. }
    cbn [sval]. destruct (qle_cases x d) as [[L ->]|[L ->]]; [rewrite qle_true by lra; auto|].
    rewrite IH by (auto; lra). destruct (qle_cases (x - d) (duration w)) as [[M ->]|[M ->]]; [rewrite qle_true by lra; auto|rewrite qle_false by lra; auto].
Qed.

(* (a%(1,2))+ accepts a for exactly 2. *)
Theorem C62_plus_refuted : exists A m u,
  sigTA (Plus (Within la (interval_open 1 2))) = Ok (A, m) /\ canonical u /\ accepts A (stamps 0 u) /\
  ~ sig_lang true (Plus (Within la (interval_open 1 2))) u.
Proof.
  eexists _, _, [(97, 2%Q)]. split; [vm_compute; reflexivity|]. split; [cbn; repeat split; auto; lra|]. split.
  - apply isMember_correct; [apply wf_tab_ok; vm_compute; reflexivity|vm_compute; reflexivity].
  - intros (w & S & E). pose proof (nonneg_positive _ (sig_words_positive _ _ S)) as NW. destruct S as (us & NE & F & ->).
    assert (K : forall a, In a (concat us) -> fst a = 97).
    { intros a Ha. apply in_concat in Ha as (u & Hu & Ha). rewrite Forall_forall in F. destruct (F u Hu) as ((d & -> & _) & _). destruct Ha as [<-|[]]. reflexivity. }
    assert (D : (duration (concat us) == 2)%Q).
    { destruct (Qlt_le_dec (duration (concat us)) 2) as [L|L].
      - specialize (E 2%Q ltac:(lra)). rewrite (sval_konst 97 (concat us)) in E by (auto; lra). rewrite (qle_false 2) in E by auto. discriminate.
      - destruct (Qlt_le_dec 2 (duration (concat us))) as [L'|L']; [|lra].
        specialize (E (duration (concat us)) ltac:(lra)). rewrite (sval_konst 97 (concat us)) in E by (auto; lra). cbn in E.
        rewrite (qle_true (duration (concat us)) (duration (concat us))) in E by lra. rewrite qle_false in E by lra. discriminate. }
    destruct C05_kleene_plus_refuted as (_ & _ & _ & R). apply R. exists (map duration us). split; [destruct us; [congruence|discriminate]|]. split.
    + intros x Hx. apply in_map_iff in Hx as (u & <- & Hu). rewrite Forall_forall in F. apply (F u Hu).
    + rewrite <- D. clear. induction us as [|u us IH]; [reflexivity|]. cbn [map concat]. unfold duration in *. rewrite map_app, qsum_app. cbn [qsum fold_right].
      fold (qsum (map (fun u => qsum (map snd u)) us)). rewrite IH. reflexivity.
Qed.

(* ================= C63 undefined behaviour ================= *)

(* The empty expression before or after a letter; a*b is (eps|a+)b. *)
Theorem C63_empty_refuted : forall s1 s2 fuel al n, toSignalTA s1 s2 fuel al (Cat Eps la) n = UB /\
  toSignalTA s1 s2 fuel al (Cat (Alt Eps (Plus la)) lb) n = UB.
Proof. intros. split; reflexivity. Qed.

(* (ab)+. *)
Theorem C63_plus_refuted : sigTA (Plus (Cat la lb)) = UB.
Proof. vm_compute. reflexivity. Qed.

(* (ab)%(1,oo). *)
Theorem C63_within_infinite_refuted : sigTA (Within (Cat la lb) (interval_from 1)) = UB.
Proof. vm_compute. reflexivity. Qed.
