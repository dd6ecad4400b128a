(* Properties C21, C24 and C72: when monaa returns. *)
From Coq Require Import QArith Lqa Bool List ZArith Arith Lia Cantor.
From Verif Require Import Num NumFacts Outcome Constraint Zone ZoneFacts ZoneOps TA Spec TAFacts PropBase Word WfDec ZA ZASpec ZAFacts ZAGraph PropZA ZATerm ZALive ZADiv ZAFin
  Intersection IntersectionFacts Monaa MonaaFacts MonaaVec Skip SkipFacts ApFacts Sunday SundayTerm Kmp KmpRun KmpSafe KmpUB KmpTerm KmpHang PropMonaa PropModes.
Import ListNotations.
Open Scope nat_scope.

(* ================= C21 termination of the construction ================= *)

(* Every transition decreases a rank, or is a self-loop that tests and resets
   nothing. *)
Theorem C21_termination_idle_partial : forall A rk, wf_ta A -> clockSize A <= 255 -> labels_ok A ->
  (forall p c e q, is_edge A p c e -> etgt e = Some q -> rk q < rk p \/ (q = p /\ eguard e = [] /\ eresets e = [])) ->
  exists fuel Z, forall k, ta2za (fuel + k) A zempty [] = Ok Z.
Proof.
  intros A rk W K LB H. destruct (Inv_empty A (max_const A)) as [I0 E0].
  destruct (ta2za_idle_loops A rk zempty W K LB H I0) as (f & Z & E). exists f, Z. intros k. apply ta2za_more. exact E.
Qed.

(* a, x:=0; any number of b; c with x >= 1 *)
Definition exI : ta := mkTA
  [(0, mkS false false [(97, [mkE (Some 1) [0] []])]);
   (1, mkS false false [(98, [mkE (Some 1) [] []]); (99, [mkE (Some 2) [] [mkC 0 Ge 1]])]);
   (2, mkS true false [])] [0] [1%Z].

(* a boolean test for the condition *)
Definition idleb (A : ta) (rk : ptr -> nat) : bool :=
  forallb (fun ps => forallb (fun ces => forallb (fun e => match etgt e with
    | Some q => (rk q <? rk (fst ps)) || ((q =? fst ps) && match eguard e with [] => match eresets e with [] => true | _ => false end | _ => false end)
    | None => true end) (snd ces)) (next (snd ps))) (states A).
Lemma idleb_ok : forall A rk, idleb A rk = true -> idle_loops A rk.
Proof.
  intros A rk H p c e q (s & es & I1 & I2 & I3) Et. unfold idleb in H. rewrite forallb_forall in H. specialize (H _ I1). rewrite forallb_forall in H.
  specialize (H _ I2). rewrite forallb_forall in H. specialize (H _ I3). rewrite Et in H. cbn [fst] in H. apply orb_true_iff in H as [H|H].
  - left. now apply Nat.ltb_lt.
  - right. apply andb_true_iff in H as [H1 H2]. apply Nat.eqb_eq in H1. destruct (eguard e); [|discriminate]. destruct (eresets e); [|discriminate]. auto.
Qed.
Definition charsb (A : ta) : bool := forallb (fun ps => forallb (fun ces => fst ces <? char_max) (next (snd ps))) (states A).
Lemma charsb_ok : forall A, charsb A = true -> chars_ok A.
Proof.
  intros A X p c e (s & es & I1 & I2 & I3). unfold charsb in X. rewrite forallb_forall in X. specialize (X _ I1).
  rewrite forallb_forall in X. specialize (X _ I2). now apply Nat.ltb_lt in X.
Qed.

Example C21_case_idle : wf_ta exI /\ labels_ok exI /\ idle_loops exI (fun q => 3 - q) /\
  exists Z, ta2za 100 exI zempty [] = Ok Z /\ length (zsts Z) = 4.
Proof.
  split; [apply wf_tab_ok; reflexivity|]. split; [apply charsb_ok; reflexivity|]. split; [apply idleb_ok; reflexivity|].
  eexists. split; [vm_compute; reflexivity|reflexivity].
Qed.

(* Every transition decreases a rank, or keeps it and its guard has only upper
   bounds (and constraints x >= 0, x > 0); resets are free.  So on cycles nothing
   is waited for.  Some constant is positive, or there are no clocks.  Missing:
   cycles with lower bounds. *)
Theorem C21_termination_mild_partial : forall A rk, wf_ta A -> clockSize A <= 255 -> labels_ok A ->
  (clockSize A = 0 \/ exists k, In k (maxC A) /\ (1 <= k)%Z) ->
  (forall p c e q, is_edge A p c e -> etgt e = Some q ->
     rk q < rk p \/ (rk q = rk p /\ forall g, In g (eguard e) -> codr g = Lt \/ codr g = Le \/ (cc g <= 0)%Z)) ->
  exists fuel Z, forall k, ta2za (fuel + k) A zempty [] = Ok Z.
Proof.
  intros A rk W K LB T H. destruct (Inv_empty A (max_const A)) as [I0 E0].
  assert (ML : mild A rk).
  { intros p c e q He Et. destruct (H p c e q He Et) as [L|[E G]]; split; auto; [lia|lia|right]. apply Forall_forall. exact G. }
  destruct (ta2za_mild A rk zempty W K LB T ML I0) as (f & Z & E). exists f, Z. intros k. apply ta2za_more. exact E.
Qed.

Definition mildcb (g : constr) : bool := match codr g with Lt => true | Le => true | _ => (cc g <=? 0)%Z end.
Definition mildb (A : ta) (rk : ptr -> nat) : bool :=
  forallb (fun ps => forallb (fun ces => forallb (fun e => match etgt e with
    | Some q => (rk q <? rk (fst ps)) || ((rk q =? rk (fst ps)) && forallb mildcb (eguard e))
    | None => true end) (snd ces)) (next (snd ps))) (states A).
Lemma mildb_ok : forall A rk, mildb A rk = true -> mild A rk.
Proof.
  intros A rk H p c e q (s & es & I1 & I2 & I3) Et. unfold mildb in H. rewrite forallb_forall in H. specialize (H _ I1). rewrite forallb_forall in H.
  specialize (H _ I2). rewrite forallb_forall in H. specialize (H _ I3). rewrite Et in H. cbn [fst] in H. apply orb_true_iff in H as [H|H].
  - apply Nat.ltb_lt in H. split; [lia|auto].
  - apply andb_true_iff in H as [H1 H2]. apply Nat.eqb_eq in H1. split; [lia|right]. apply Forall_forall. intros g Hg. rewrite forallb_forall in H2. specialize (H2 g Hg).
    unfold mildcb, mildc in *. destruct (codr g); auto; right; right; now apply Z.leb_le.
Qed.

(* examples/TA/timed.dot: a and b or c in turn, each within one second; at the
   end more than one second.  The states 1 and 2 are on a cycle with resets. *)
Definition exT : ta := mkTA
  [(1, mkS false false [(65, [mkE (Some 2) [0] [mkC 0 Lt 1]])]);
   (2, mkS false false [(66, [mkE (Some 1) [0] [mkC 0 Lt 1]]); (67, [mkE (Some 1) [0] [mkC 0 Lt 1]]); (dollar, [mkE (Some 3) [] [mkC 0 Gt 1]])]);
   (3, mkS true false [])] [1] [1%Z].
Example C21_case_mild : wf_ta exT /\ labels_ok exT /\ mild exT (fun q => if q =? 3 then 0 else 1) /\
  exists Z, ta2za 100 exT zempty [] = Ok Z /\ length (zsts Z) = 3.
Proof.
  split; [apply wf_tab_ok; reflexivity|]. split; [apply charsb_ok; reflexivity|]. split; [apply mildb_ok; reflexivity|].
  eexists. split; [vm_compute; reflexivity|reflexivity].
Qed.

(* The other side.  A cycle that some run reaches and that can be taken again
   and again, each time waiting until x >= 1 at least and then resetting x, in an
   automaton with a clock that the cycle does not reset: the construction never
   ends, also when the guards have upper bounds. *)
Theorem C21_cycle_diverges : forall A p0 p es x y T0 w v T,
  wf_ta A -> clockSize A <= 255 -> labels_ok A -> (exists k, In k (maxC A) /\ (1 <= k)%Z) ->
  x < clockSize A -> y < clockSize A -> x <> y -> paced 0 x es = true -> spares y es ->
  (forall v, (v x == 0)%Q -> exists v', turn A p v es p v' /\ (v' x == 0)%Q) ->
  In p0 (inits A) -> run A p0 zeroval T0 w p v T -> increasing T0 w -> (v x == 0)%Q ->
  forall fuel, ta2za fuel A zempty [] = OutOfFuel.
Proof.
  intros A p0 p es x y T0 w v T W K LB (k & Hk & K1) Hx Hy XY Pc Sy Ag Hp0 R Inc Vx fuel.
  destruct (max_const_ge A k Hk) as (z & Ez & Lz).
  destruct (ta2za_fine fuel A W K LB) as [E|(Z & E)]; [exact E|]. exfalso.
  eapply (diverges A z x y p es); eauto. lia.
Qed.

(* a; b with 1 < x < 20, x := 0; and so on *)
Definition exDa : edge := mkE (Some 1) [] [].
Definition exDb : edge := mkE (Some 0) [0] [mkC 0 Gt 1; mkC 0 Lt 20].
Definition exD2 : ta := mkTA [(0, mkS true false [(97, [exDa])]); (1, mkS false false [(98, [exDb])])] [0] [20%Z; 1%Z].
(* one second before each of the two *)
Lemma ab_turn : forall B, is_edge B 0 97 exDa -> is_edge B 1 98 exDb -> forall v, (v 0%nat == 0)%Q ->
  exists v', turn B 0 v [(97, exDa); (98, exDb)] 0 v' /\ (v' 0%nat == 0)%Q.
Proof.
  intros B Ea Eb v V. eexists. split.
  - apply (turn_cons B 0 v 97 exDa 1 1%Q); [exact Ea|reflexivity|lra|intros g []|].
    apply (turn_cons B 1 _ 98 exDb 0 1%Q); [exact Eb|reflexivity|lra| |constructor].
    intros g [<-|[<-|[]]]; unfold holds, delay, reset_set; cbn; rewrite V; unfold Qlt; cbn; lia.
  - reflexivity.
Qed.
Example C21_case_diverges : wf_ta exD2 /\ forall fuel, ta2za fuel exD2 zempty [] = OutOfFuel.
Proof.
  assert (W : wf_ta exD2) by (apply wf_tab_ok; reflexivity). split; [exact W|].
  apply (C21_cycle_diverges exD2 0 0 [(97, exDa); (98, exDb)] 0 1 0%Q [] zeroval 0%Q);
    [exact W|cbn; lia|apply charsb_ok; reflexivity|exists 20%Z; split; [left; reflexivity|lia]|cbn; lia|cbn; lia|discriminate|reflexivity| | |left; reflexivity|constructor|exact I|reflexivity].
  - intros c e [E|[E|[]]]; injection E as <- <-; cbn; intuition discriminate.
  - apply ab_turn; eexists; eexists; (split; [cbn; eauto|split; [left; reflexivity|left; reflexivity]]).
Qed.

(* ================= C24 removeDeadStates ================= *)

(* What is kept is reachable and productive inside of what is kept, and nothing
   is added. *)
Theorem C24_kept_inside : forall Z fuel Z', za_wf Z -> all_alive Z -> removeDeadStates fuel Z = Ok Z' ->
  (forall i, In i (zinit Z') -> alive Z' i) /\
  (forall i, alive Z' i -> zreachable Z' i /\ zproductive Z' i) /\
  (forall i c j, zedge Z' i c j -> zedge Z i c j).
Proof.
  intros Z fuel Z' W AA H. destruct (removeDead_live Z W AA fuel Z' H) as (WZ & L & E). split; [apply (zwf_init _ WZ)|]. auto.
Qed.

Example C24_case_inside : exists Z Z', ta2za 100 exI zempty [] = Ok Z /\ removeDeadStates 100 Z = Ok Z' /\ zinit Z' = [0] /\
  map zlive (zsts Z') = [true; true; true; true].
Proof. eexists. eexists. split; [vm_compute; reflexivity|]. split; [vm_compute; reflexivity|]. split; reflexivity. Qed.

(* ================= C72 monaa returns ================= *)

Definition no_tau (A : ta) : Prop := forall p e, ~ is_edge A p 0 e.

Lemma no_eps_tau : forall A, no_eps A = true -> no_tau A.
Proof.
  intros A H p e (s & es & I1 & I2 & I3). unfold no_eps in H. rewrite forallb_forall in H. specialize (H _ I1). cbn [snd] in H.
  destruct (assoc 0 (next s)) eqn:E; [discriminate|]. apply assoc_None in E. apply E. apply in_map_iff. exists (0, es). auto.
Qed.

(* What the tables have to be built for: at most 127 clocks, the letters fit
   into the tables, transitions into accepting states stand last, and nothing is
   waited for on cycles. *)
Record returns_ok (B : ta) (rk : ptr -> nat) : Prop := mkRO {
  ro_clocks : 2 * clockSize B <= 255;
  ro_chars : chars_ok B;
  ro_last : accepting_last B;
  ro_calm : calm B rk
}.

(* monaa and monaa -e, patterns without unobservable transitions.  Missing:
   cycles with lower bounds; unobservable transitions. *)
Theorem C72_returns_partial : forall al A Ap rk w, wf_ta A -> make_ap A = Ok Ap -> no_eps A = true -> returns_ok Ap rk -> (forall m, alloc_ok al Ap m) ->
  nondecreasing 0 w -> (forall c t, In (c, t) w -> c < char_max) ->
  exists fuel, (forall k, monaaDollar (fuel + k) al vecC A w = Exit 10) \/ (forall k, exists zs, monaaDollar (fuel + k) al vecC A w = Ok zs).
Proof.
  intros al A Ap rk w W HA NE [RK RC RL RI] AO ND HC.
  assert (WP : wf_ta Ap) by (eapply ap_wf; eauto).
  assert (NT : no_tau Ap). { intros p e H. apply (ap_edge A Ap HA) in H as [H _]. exact (no_eps_tau A NE p e H). }
  destruct (tables_end al Ap rk WP AO RK RC NT RL RI) as (fuel & [E|(T & E)]).
  - exists fuel. left. intros k. unfold monaaDollar. rewrite HA. cbn [bind]. rewrite E. reflexivity.
  - exists (fuel + length w). right. intros k. apply (C32_terminates (fuel + length w + k) al A w Ap T); auto; [|lia].
    replace (fuel + length w + k) with (fuel + (length w + k)) by lia. apply E.
Qed.

Theorem C72_returns_signal_partial : forall al A rk w, wf_ta A -> no_eps A = true -> returns_ok A rk -> (forall m, alloc_ok al A m) ->
  nondecreasing 0 w -> (forall c t, In (c, t) w -> c < char_max) ->
  exists fuel, (forall k, monaa_plain (fuel + k) al vecC A w = Exit 10) \/ (forall k, exists zs, monaa_plain (fuel + k) al vecC A w = Ok zs).
Proof.
  intros al A rk w W NE [RK RC RL RI] AO ND HC.
  destruct (tables_end al A rk W AO RK RC (no_eps_tau A NE) RL RI) as (fuel & [E|(T & E)]).
  - exists fuel. left. intros k. unfold monaa_plain. rewrite E. reflexivity.
  - exists (fuel + length w). right. intros k. apply (C32_terminates_signal (fuel + length w + k) al A w T); auto; [|lia].
    replace (fuel + length w + k) with (fuel + (length w + k)) by lia. apply E.
Qed.

Theorem C72_returns_optional_partial : forall al A Ap rk w, wf_ta A -> make_ap A = Ok Ap -> no_eps A = true -> returns_ok Ap rk -> (forall m, alloc_ok al Ap m) ->
  nondecreasing 0 w -> (forall c t, In (c, t) w -> c < char_max) ->
  exists fuel, (forall k, monaaNotNecessaryDollar (fuel + k) al vecC A w = Exit 10) \/ (forall k, exists zs, monaaNotNecessaryDollar (fuel + k) al vecC A w = Ok zs).
Proof.
  intros al A Ap rk w W HA NE [RK RC RL RI] AO ND HC. pose proof (lax_ap A Ap W HA) as EL.
  assert (WP : wf_ta Ap) by (eapply ap_wf; eauto).
  assert (NT : no_tau Ap). { intros p e H. apply (ap_edge A Ap HA) in H as [H _]. exact (no_eps_tau A NE p e H). }
  destruct (tables_end al Ap rk WP AO RK RC NT RL RI) as (fuel & [E|(T & E)]).
  - exists fuel. left. intros k. unfold monaaNotNecessaryDollar. rewrite EL, E. reflexivity.
  - exists (fuel + length w). right. intros k. apply (C32_terminates_optional (fuel + length w + k) al A w T); auto; [|lia].
    rewrite EL. replace (fuel + length w + k) with (fuel + (length w + k)) by lia. apply E.
Qed.

(* addresses for any pattern and any table length *)
Definition uAl : alloc := mkAl (fun q => 3 * q) (fun i => 3 * i + 1) 2 (fun q => 2 * q) (fun q => 2 * q + 1) (fun p q => Cantor.to_nat (p, q)).
Lemma nodup_map : forall (f : nat -> nat) l, (forall a b, f a = f b -> a = b) -> NoDup l -> NoDup (map f l).
Proof. intros f l H N. induction N; cbn; constructor; auto. intros X. apply in_map_iff in X as (y & E & Y). apply H in E. subst. contradiction. Qed.
Lemma nodup_app : forall (l k : list nat), NoDup l -> NoDup k -> (forall a, In a l -> ~ In a k) -> NoDup (l ++ k).
Proof.
  intros l k N M H. induction N as [|a l Ha N IH]; cbn; auto. constructor; [|apply IH; intros; apply H; right; auto].
  intros X. apply in_app_or in X as [X|X]; [auto|apply (H a (or_introl eq_refl) X)].
Qed.
Lemma uAl_ok : forall B m, wf_ta B -> alloc_ok uAl B m.
Proof.
  intros B m W. pose proof (wf_nodup _ W) as N. constructor.
  - unfold keys0. cbn [a_0 a_acc a_ext uAl]. apply nodup_app; [apply nodup_map; auto; intros; lia| |].
    + constructor; [|constructor].
      * intros [X|X]; [lia|]. apply in_map_iff in X as (i & E & _). lia.
      * intros X. apply in_map_iff in X as (i & E & Hi). apply in_seq in Hi. lia.
      * apply nodup_map; [intros; lia|apply seq_NoDup].
    + intros a Ha Hb. apply in_map_iff in Ha as (q & <- & _). destruct Hb as [X|[X|X]]; [lia|lia|]. apply in_map_iff in X as (i & E & _). lia.
  - unfold keysS. cbn [a_S a_dum uAl]. apply nodup_app; [apply nodup_map; auto; intros; lia|apply nodup_map; auto; intros; lia|].
    intros a Ha Hb. apply in_map_iff in Ha as (q & <- & _). apply in_map_iff in Hb as (r & E & _). lia.
  - intros p1 p2 q1 q2 _ _ _ _ E. cbn [a_2 uAl] in E. apply (f_equal Cantor.of_nat) in E. rewrite !cancel_of_to in E. injection E. auto.
Qed.

Definition lastb (B : ta) : bool := forallb (fun ps => forallb (fun ces => length (snd ces) <=? 1) (next (snd ps))) (states B).
Lemma lastb_ok : forall B, lastb B = true -> accepting_last B.
Proof.
  intros B X p s c es e rest q sq I1 I2 (pre & ->) _ _ _. unfold lastb in X.
  rewrite forallb_forall in X. specialize (X _ I1). rewrite forallb_forall in X. specialize (X _ I2). apply Nat.leb_le in X. cbn [snd] in X.
  rewrite app_length in X. cbn in X. destruct rest; [auto|cbn in X; lia].
Qed.

(* a, x:=0; any number of b; c with x >= 1; $ *)
Definition exR : ta := mkTA
  [(0, mkS false false [(97, [mkE (Some 1) [0] []])]);
   (1, mkS false false [(98, [mkE (Some 1) [] []]); (99, [mkE (Some 2) [] [mkC 0 Ge 1]])]);
   (2, mkS false false [(dollar, [mkE (Some 3) [] []])]); (3, mkS true false [])] [0] [1%Z].
Definition exRap : ta := mkTA
  [(0, mkS false false [(97, [mkE (Some 1) [0] []])]);
   (1, mkS false false [(98, [mkE (Some 1) [] []]); (99, [mkE (Some 2) [] [mkC 0 Ge 1]])]);
   (2, mkS true false []); (3, mkS true false [])] [0] [1%Z].
Example C72_case : wf_ta exR /\ make_ap exR = Ok exRap /\ no_eps exR = true /\ returns_ok exRap (fun q => 3 - q) /\ (forall m, alloc_ok uAl exRap m) /\
  sunday_sets 100 exRap = Ok [[97]; [98; 99]].
Proof.
  assert (WR : wf_ta exRap) by (apply wf_tab_ok; reflexivity).
  split; [apply wf_tab_ok; reflexivity|]. split; [vm_compute; reflexivity|]. split; [reflexivity|]. split; [|split; [intros; apply uAl_ok; exact WR|vm_compute; reflexivity]].
  constructor; [cbn; lia|apply charsb_ok; reflexivity|apply lastb_ok; reflexivity|left; apply idleb_ok; reflexivity].
Qed.

(* examples/TA/timed.dot *)
Definition exTap : ta := mkTA
  [(1, mkS false false [(65, [mkE (Some 2) [0] [mkC 0 Lt 1]])]);
   (2, mkS true false [(66, [mkE (Some 1) [0] [mkC 0 Lt 1]]); (67, [mkE (Some 1) [0] [mkC 0 Lt 1]])]);
   (3, mkS true false [])] [1] [1%Z].
Example C72_case_cycle : wf_ta exT /\ make_ap exT = Ok exTap /\ no_eps exT = true /\ returns_ok exTap (fun _ => 0) /\ (forall m, alloc_ok uAl exTap m) /\
  sunday_sets 100 exTap = Ok [[65]] /\ ~ idle_loops exTap (fun _ => 0).
Proof.
  assert (WR : wf_ta exTap) by (apply wf_tab_ok; reflexivity).
  split; [apply wf_tab_ok; reflexivity|]. split; [vm_compute; reflexivity|]. split; [reflexivity|]. split; [|split; [intros; apply uAl_ok; exact WR|split; [vm_compute; reflexivity|]]].
  - constructor; [cbn; lia|apply charsb_ok; reflexivity|apply lastb_ok; reflexivity|right]. split; [right; exists 1%Z; split; [left; reflexivity|lia]|apply mildb_ok; reflexivity].
  - intros H. destruct (H 1 65 (mkE (Some 2) [0] [mkC 0 Lt 1]) 2) as [L|(E & _)]; [|reflexivity|lia|discriminate].
    eexists. eexists. split; [left; reflexivity|]. split; [left; reflexivity|left; reflexivity].
Qed.

(* The other side: a cycle of a pattern that some run reaches and that can be
   taken again and again, each time waiting until x >= 1 at least and then
   resetting x.  The KMP table of such a pattern is never finished, so that no
   call of monaa returns a result, whatever the word. *)
Record waiting_cycle (B : ta) : Type := mkWL {
  wl_p0 : nat; wl_p : nat; wl_x : nat; wl_es : list (nat * edge); wl_w : tword; wl_v : valuation; wl_T : Q;
  wl_init : In wl_p0 (inits B);
  wl_run : run B wl_p0 zeroval 0 wl_w wl_p wl_v wl_T;
  wl_ne : wl_w <> [];
  wl_inc : increasing 0 wl_w;
  wl_let : Forall letter wl_w;
  wl_clock : wl_x < clockSize B;
  wl_zero : (wl_v wl_x == 0)%Q;
  wl_paced : paced 0 wl_x wl_es = true;
  wl_char : forall c e, In (c, e) wl_es -> 1 <= c;
  wl_again : forall v, (v wl_x == 0)%Q -> exists v', turn B wl_p v wl_es wl_p v' /\ (v' wl_x == 0)%Q;
  wl_max : exists k, In k (maxC B) /\ (1 <= k)%Z
}.

Lemma tables_hang : forall al B, wf_ta B -> (forall m, alloc_ok al B m) -> 2 * clockSize B <= 255 -> chars_ok B -> accepting_last B ->
  (forall p s, In (p, s) (states B) -> zeroDur s = false) -> waiting_cycle B -> forall fuel T, tables fuel al B <> Ok T.
Proof.
  intros al B W AO K C L Z0 [p0 p x es w v T Hi R NE Inc Lw Hx Vx Pc Le Ag Mx] fuel T' H.
  unfold tables in H. apply bind_Ok in H as (sets & HS & H). apply bind_Ok in H as (beta & HK & _).
  destruct (A0_ok al B (length sets) W (AO _) L) as (A0 & H0).
  exact (kmp_hangs_A0 al B (length sets) A0 W (AO _) K C Z0 H0 (sunday_sets_length _ _ _ HS) p0 p x es w v T Hi R NE Inc Lw Hx Vx Pc Le Ag Mx fuel beta HK).
Qed.

Theorem C72_cycle_never_returns : forall al A Ap w, wf_ta A -> make_ap A = Ok Ap -> 2 * clockSize Ap <= 255 -> chars_ok Ap -> accepting_last Ap ->
  (forall m, alloc_ok al Ap m) -> (forall p s, In (p, s) (states Ap) -> zeroDur s = false) -> waiting_cycle Ap ->
  forall fuel zs, monaaDollar fuel al vecC A w <> Ok zs.
Proof.
  intros al A Ap w W HA K C L AO Z0 WL fuel zs H. unfold monaaDollar in H. rewrite HA in H. cbn [bind] in H.
  apply bind_Ok in H as (T & H & _). revert H. apply tables_hang; auto. eapply ap_wf; eauto.
Qed.

(* (ab with 1 < x < 20 between) any number of times; c; $ *)
Definition exL : ta := mkTA
  [(0, mkS false false [(97, [exDa]); (99, [mkE (Some 2) [] []])]); (1, mkS false false [(98, [exDb])]);
   (2, mkS false false [(dollar, [mkE (Some 3) [] []])]); (3, mkS true false [])] [0] [20%Z].
Definition exLap : ta := mkTA
  [(0, mkS false false [(97, [exDa]); (99, [mkE (Some 2) [] []])]); (1, mkS false false [(98, [exDb])]);
   (2, mkS true false []); (3, mkS true false [])] [0] [20%Z].
Lemma exLap_loop : waiting_cycle exLap.
Proof.
  assert (Ea : is_edge exLap 0 97 exDa) by (eexists; eexists; split; [left; reflexivity|split; [left; reflexivity|left; reflexivity]]).
  assert (Eb : is_edge exLap 1 98 exDb) by (eexists; eexists; split; [right; left; reflexivity|split; [left; reflexivity|left; reflexivity]]).
  refine (mkWL exLap 0 0 0 [(97, exDa); (98, exDb)] [(97, 1%Q); (98, 2%Q)] _ _ _ _ _ _ _ _ _ _ _ _ _).
  - left. reflexivity.
  - econstructor; [exact Ea|reflexivity|intros g []|]. econstructor; [exact Eb|reflexivity| |constructor].
    intros g [<-|[<-|[]]]; cbn; unfold Qlt; cbn; lia.
  - discriminate.
  - cbn. repeat split; unfold Qlt; cbn; lia.
  - repeat constructor; cbn; lia.
  - cbn. lia.
  - cbn. reflexivity.
  - reflexivity.
  - intros c e [E|[E|[]]]; injection E as <- <-; lia.
  - apply ab_turn; auto.
  - exists 20%Z. split; [left; reflexivity|lia].
Qed.

Lemma sunday_more : forall f k A l, sunday_sets f A = Ok l -> sunday_sets (f + k) A = Ok l.
Proof.
  intros f k A l H. unfold sunday_sets in *. apply bind_Ok in H as (Z & E1 & H). apply bind_Ok in H as (Z' & E2 & H).
  rewrite (ta2za_more _ k _ _ _ _ E1). cbn [bind]. rewrite (dead_more _ k _ _ E2). cbn [bind]. apply build_more; eauto.
Qed.

Theorem C72_returns_refuted : wf_ta exL /\ no_eps exL = true /\ forall fuel w, monaaDollar fuel uAl vecC exL w = OutOfFuel.
Proof.
  split; [apply wf_tab_ok; reflexivity|]. split; [reflexivity|]. intros fuel w.
  assert (WL : wf_ta exLap) by (apply wf_tab_ok; reflexivity).
  assert (CL : chars_ok exLap) by (apply charsb_ok; reflexivity).
  assert (LL : accepting_last exLap) by (apply lastb_ok; reflexivity).
  assert (HA : make_ap exL = Ok exLap) by (vm_compute; reflexivity).
  assert (N : forall T, tables fuel uAl exLap <> Ok T).
  { apply tables_hang; auto; [intros; apply uAl_ok; auto|cbn; lia| |exact exLap_loop].
    intros p s [E|[E|[E|[E|[]]]]]; injection E as <- <-; reflexivity. }
  assert (E : tables fuel uAl exLap = OutOfFuel).
  { destruct (Nat.lt_ge_cases fuel 3) as [L|L].
    - destruct fuel as [|[|[|fuel]]]; [| | |lia]; unfold tables.
      + replace (sunday_sets 0 exLap) with (@OutOfFuel (list (list nat))) by (vm_compute; reflexivity). reflexivity.
      + replace (sunday_sets 1 exLap) with (@OutOfFuel (list (list nat))) by (vm_compute; reflexivity). reflexivity.
      + replace (sunday_sets 2 exLap) with (@OutOfFuel (list (list nat))) by (vm_compute; reflexivity). reflexivity.
    - assert (HS : sunday_sets fuel exLap = Ok [[97; 99]]).
      { replace fuel with (3 + (fuel - 3)) by lia. apply sunday_more. vm_compute. reflexivity. }
      unfold tables in *. rewrite HS in *. cbn [bind] in *.
      destruct (kmp_no_ub fuel uAl exLap (length [[97; 99]]) WL (uAl_ok _ _ WL) ltac:(cbn; lia) CL LL) as [(beta & K)|K].
      + exfalso. rewrite K in N. cbn [bind] in N. exact (N _ eq_refl).
      + rewrite K. reflexivity. }
  unfold monaaDollar. rewrite HA. cbn [bind]. rewrite E. reflexivity.
Qed.

(* a, then any number of a, then an unobservable transition into the accepting
   state: the loop of SundaySkipValue asks the targets of letters whether they
   are accepting, not what unobservable transitions lead to, and never ends. *)
Definition exS : ta := mkTA
  [(0, mkS false false [(97, [mkE (Some 1) [] []])]);
   (1, mkS false false [(97, [mkE (Some 1) [] []]); (0, [mkE (Some 2) [] []])]);
   (2, mkS true false [])] [0] [].
Definition exSz : za := mkZA
  [mkZ 0 [[(Fin 0, true)]] false [(97, 1)] true; mkZ 1 [[(PInf, false)]] false [(97, 1); (0, 2)] true; mkZ 2 [[(PInf, false)]] true [] true] [0].
Theorem C72_unobservable_refuted : wf_ta exS /\ idle_loops exS (fun q => 3 - q) /\ accepts exS [(97, 1%Q); (0, 2%Q)] /\
  forall al fuel, tables fuel al exS = OutOfFuel.
Proof.
  split; [apply wf_tab_ok; reflexivity|]. split; [apply idleb_ok; reflexivity|]. split.
  { eexists. eexists. eexists. eexists. split; [left; reflexivity|]. split.
    - econstructor; [| | |econstructor; [| | |constructor]].
      + eexists. eexists. split; [left; reflexivity|]. split; [left; reflexivity|]. left. reflexivity.
      + reflexivity.
      + intros g [].
      + eexists. eexists. split; [right; left; reflexivity|]. split; [right; left; reflexivity|]. left. reflexivity.
      + reflexivity.
      + intros g [].
    - eexists. split; [right; right; left; reflexivity|reflexivity]. }
  intros al fuel. unfold tables. assert (E : sunday_sets fuel exS = OutOfFuel); [|rewrite E; reflexivity].
  assert (S0 : sunday_succ exSz 0 = Ok [(97, 1)]) by (vm_compute; reflexivity).
  assert (S1 : sunday_succ exSz 1 = Ok [(97, 1)]) by (vm_compute; reflexivity).
  assert (L1 : forall f sets, sunday_build f exSz [1] sets = OutOfFuel).
  { induction f as [|f IH]; intros sets; cbn [sunday_build]; auto. cbn [fold_out bind]. rewrite S1. cbn [bind app existsb snd map]. apply IH. }
  assert (L0 : forall f, sunday_build f exSz [0] [] = OutOfFuel).
  { intros [|f]; cbn [sunday_build]; auto. cbn [fold_out bind]. rewrite S0. cbn [bind app existsb snd map]. apply L1. }
  unfold sunday_sets. destruct (Nat.lt_ge_cases fuel 4) as [L|L].
  - destruct fuel as [|[|[|[|fuel]]]]; [| | | |lia]; vm_compute; reflexivity.
  - replace fuel with (4 + (fuel - 4)) by lia.
    assert (Z0 : ta2za 4 exS zempty [] = Ok exSz) by (vm_compute; reflexivity). rewrite (ta2za_more _ (fuel - 4) _ _ _ _ Z0). cbn [bind].
    assert (D0 : removeDeadStates 4 exSz = Ok exSz) by (vm_compute; reflexivity). rewrite (dead_more _ (fuel - 4) _ _ D0). cbn [bind].
    apply L0.
Qed.
