(* removeDeadStates on zone automata in which the last useful edge of a state leads
   closer to acceptance: nothing useful is lost, whatever the cycles are. *)
From Coq Require Import Bool List Arith Lia.
From Verif Require Import Outcome TA TAFacts ZA ZASpec ZAFacts ZAGraph PropZA SkipFacts.
Import ListNotations.
Open Scope nat_scope.

Lemma finite_dec : forall (P : nat -> Prop) n, ~ ~ (forall i, i < n -> P i \/ ~ P i).
Proof.
  intros P. induction n as [|n IH]; intros H; [apply H; intros; lia|]. apply IH. intros D.
  assert (X : ~ ~ (P n \/ ~ P n)) by tauto. apply X. intros Pn. apply H. intros i Hi. destruct (Nat.eq_dec i n) as [->|]; auto. apply D. lia.
Qed.
Lemma edges_spec : forall i P, ~ In i P -> forall js st R st' R', fold_left (dead_edge i P) js (st, R) = (st', R') ->
  exists L, st' = map (fun j => (j, sadd P i)) (rev L) ++ st /\ incl L js /\ (forall j, In j js -> In j L \/ In j R') /\ incl R R' /\
    (forall x, In x R' -> In x R \/ x = i \/ In x P) /\
    ((R' = R /\ L = js /\ forall j, In j js -> ~ In j R) \/ (In i R' /\ incl P R' /\ exists j, In j js /\ In j R)).
Proof.
  intros i P NI. induction js as [|j js IH]; intros st R st' R' H; cbn [fold_left] in H.
  - injection H as <- <-. exists []. split; [reflexivity|]. split; [intros x []|]. split; [intros x []|]. split; [apply incl_refl|]. split; [auto|]. left. split; auto.
  - unfold dead_edge at 2 in H. rewrite (proj2 (mem_false i P) NI) in H. cbn [fst snd] in H. destruct (mem j R) eqn:E.
    + apply mem_In in E. destruct (IH _ _ _ _ H) as (L & E1 & E2 & E3 & E4 & E5 & E6). exists L. split; auto. split; [apply incl_tl; auto|].
      assert (X : forall y, In y R \/ y = i \/ In y P -> In y R') by (intros y Hy; apply E4; apply in_sadds; rewrite in_sadd; tauto).
      split; [|split; [|split; [|right; split; [|split]]]].
      * intros k [<-|Hk]; [right; auto|auto].
      * intros y Hy. auto.
      * intros y Hy. apply E5 in Hy as [Hy|Hy]; auto. apply in_sadds in Hy. rewrite in_sadd in Hy. tauto.
      * auto.
      * intros y Hy. auto.
      * exists j. split; [left; auto|auto].
    + apply mem_false in E. destruct (IH _ _ _ _ H) as (L & E1 & E2 & E3 & E4 & E5 & E6). exists (j :: L). split; [|split; [|split; [|split; [|split]]]]; auto.
      * rewrite E1. cbn [rev]. rewrite map_app, <- app_assoc. reflexivity.
      * intros x [<-|Hx]; [left; auto|right; auto].
      * intros k [<-|Hk]; [left; left; auto|]. destruct (E3 k Hk); [left; right; auto|auto].
      * destruct E6 as [(-> & -> & F)|(F1 & F2 & k & F3 & F4)]; [left|right].
        -- split; auto. split; auto. intros k [<-|Hk]; auto.
        -- split; auto. split; auto. exists k. split; [right; auto|auto].
Qed.

Section Last.
  Variable Z : za.
  Variable rk : nat -> nat.
  Hypothesis W : za_wf Z.
  Hypothesis AA : all_alive Z.
  Notation prod := (zproductive Z).
  (* the edges behind the last useful one are useless or self-loops *)
  Definition last_closer : Prop := forall i s, nth_error (zsts Z) i = Some s -> zreachable Z i -> prod i -> zacc s = false ->
    exists pre j post, zedges s = pre ++ j :: post /\ prod j /\ rk j < rk i /\ forall k, In k post -> ~ prod k \/ k = i.
  Hypothesis LC : last_closer.
  Hypothesis DEC : forall i, i < length (zsts Z) -> prod i \/ ~ prod i.

  Definition noacc (i : nat) : Prop := forall s, nth_error (zsts Z) i = Some s -> zacc s = false.
  Definition idle_entry (e : nat * list nat) : Prop := ~ prod (fst e) \/ (In (fst e) (snd e) /\ noacc (fst e)).

  Record inv (st : list (nat * list nat)) (R D : list nat) : Prop := mkInv {
    in_lt : forall i P, In (i, P) st -> (i < length (zsts Z) /\ zreachable Z i) /\ incl P D /\ forall p, In p P -> exists w, zpath Z p w i;
    in_init : forall i, In i (zinit Z) -> In i D \/ In i (map fst st);
    in_succ : forall d s j, In d D -> nth_error (zsts Z) d = Some s -> In j (zedges s) -> In j D \/ In j (map fst st);
    in_R : forall x, In x R -> In x D /\ prod x;
    in_pend : (Forall idle_entry st /\ forall d, In d D -> prod d -> In d R) \/
      exists N i P rest, st = N ++ (i, P) :: rest /\ Forall idle_entry N /\ prod i /\
        (forall d, In d D -> prod d -> In d R \/ In d P) /\
        (forall p, In p P -> prod p -> In p R \/ (rk i < rk p /\ ~ In i R)) /\
        (forall i' P' p, In (i', P') rest -> In p P' -> prod p -> In p R \/ In p P)
  }.

  (* everything on the stack has marked parents *)
  Lemma settle : forall st R D, (forall i P, In (i, P) st -> i < length (zsts Z)) ->
    (forall d, In d D -> prod d -> In d R) -> (forall i P p, In (i, P) st -> In p P -> prod p -> In p R) ->
    (Forall idle_entry st /\ forall d, In d D -> prod d -> In d R) \/
      exists N i P rest, st = N ++ (i, P) :: rest /\ Forall idle_entry N /\ prod i /\
        (forall d, In d D -> prod d -> In d R \/ In d P) /\
        (forall p, In p P -> prod p -> In p R \/ (rk i < rk p /\ ~ In i R)) /\
        (forall i' P' p, In (i', P') rest -> In p P' -> prod p -> In p R \/ In p P).
  Proof.
    intros st R D LT HD HP. induction st as [|[i P] st IH]; [left; split; auto|].
    destruct (DEC i) as [Pi|Pi]; [apply (LT i P); left; auto| |].
    - right. exists [], i, P, st. split; [reflexivity|]. split; [constructor|]. split; auto. split; [auto|]. split.
      + intros p Hp Pp. left. apply (HP i P p); auto. left. auto.
      + intros i' P' p I Hp Pp. left. apply (HP i' P' p); auto. right. auto.
    - destruct IH as [[F _]|(N & i1 & P1 & rest & -> & F & X)].
      + intros a Q I. apply (LT a Q). right. auto.
      + intros a Q p I. apply (HP a Q p). right. auto.
      + left. split; auto. constructor; auto. left. auto.
      + right. exists ((i, P) :: N), i1, P1, rest. split; [reflexivity|]. split; [constructor; auto; left; auto|]. exact X.
  Qed.

  Lemma edge_in : forall i s j, nth_error (zsts Z) i = Some s -> In j (zedges s) -> exists c, zedge Z i c j.
  Proof.
    intros i s j G H. unfold zedges in H. apply in_flat_map in H as (c & _ & H). unfold znext in H. apply in_map_iff in H as ([c' j'] & <- & H).
    apply filter_In in H as [H _]. exists c'. exists s. split; auto. split; [apply AA; eapply nth_error_In; eauto|]. split; auto.
    apply all_alive_i; auto. apply (zwf_edge Z W i s c' j' G H).
  Qed.
  Lemma prod_back : forall i s j, nth_error (zsts Z) i = Some s -> In j (zedges s) -> prod j -> prod i.
  Proof. intros i s j G H (w & k & P & A). destruct (edge_in i s j G H) as (c & E). exists (c :: w), k. split; auto. econstructor; eauto. Qed.

  Lemma mem_skip : forall i P, In i P -> forall js SR, fold_left (dead_edge i P) js SR = SR.
  Proof. intros i P H. induction js as [|j js IH]; intros SR; cbn; auto. rewrite IH. unfold dead_edge. rewrite (proj2 (mem_In i P) H). reflexivity. Qed.
  Lemma path_prod : forall p w i, zpath Z p w i -> prod i -> prod p.
  Proof. intros p w i P (w2 & k & P2 & A). exists (w ++ w2), k. split; auto. clear A. induction P as [|i c j w k' E P IH]; cbn; auto. econstructor; eauto. Qed.

  Lemma step : forall i P st R D s, inv ((i, P) :: st) R D -> nth_error (zsts Z) i = Some s ->
    let R1 := if zacc s then fold_left sadd P (sadd R i) else R in
    let SR := fold_left (dead_edge i P) (zedges s) (st, R1) in
    exists D', inv (fst SR) (snd SR) D'.
  Proof.
    intros i P st R D s [LT IN SU HR PE] G. cbv zeta. set (R1 := if zacc s then _ else R).
    destruct (LT i P (or_introl eq_refl)) as ((Li & Lr) & PD & PW).
    assert (R1x : forall x, In x R1 <-> In x R \/ (zacc s = true /\ (x = i \/ In x P))).
    { intros x. unfold R1. destruct (zacc s); [rewrite in_sadds, in_sadd; tauto|]. split; [auto|]. intros [H|[H _]]; [auto|discriminate]. }
    assert (Pac : zacc s = true -> prod i) by (intros A; exists [], i; split; [constructor|exists s; auto]).
    assert (LT' : forall a Q, In (a, Q) st -> a < length (zsts Z)) by (intros a Q I; apply (LT a Q); right; auto).
    destruct (in_dec Nat.eq_dec i P) as [IP|IP].
    - rewrite (mem_skip i P IP). cbn [fst snd]. exists D. constructor.
      + intros a Q I. apply LT. right. auto.
      + intros a Ha. destruct (IN a Ha) as [|[<-|]]; auto.
      + intros d t j Hd Gd Hj. destruct (SU d t j Hd Gd Hj) as [|[<-|]]; auto.
      + intros x Hx. apply R1x in Hx as [Hx|(A & Hx)]; auto. destruct Hx as [->|Hx]; [split; auto|].
        split; auto. destruct (PW x Hx) as (w & Pw). apply (path_prod x w i); auto.
      + destruct (zacc s) eqn:A; [|].
        * assert (NId : ~ idle_entry (i, P)) by (intros [H|[_ H]]; cbn in H; [apply H; auto|specialize (H s G); congruence]).
          destruct PE as [[F _]|(N & i1 & P1 & rest & E & F & Pi & Q1 & Q2 & Q3)]; [inversion F; subst; contradiction|].
          destruct N as [|e N]; [|cbn in E; injection E as <- ->; inversion F; subst; contradiction].
          cbn in E. injection E as <- <- <-.
          apply settle; auto.
          -- intros d Hd Pd. apply R1x. destruct (Q1 d Hd Pd); auto.
          -- intros a Q p I Hp Pp. apply R1x. destruct (Q3 a Q p I Hp Pp); auto.
        * unfold R1. destruct PE as [[F Q1]|(N & i1 & P1 & rest & E & F & Pi & Q1 & Q2 & Q3)]; [left; inversion F; subst; auto|].
          destruct N as [|e N].
          -- cbn in E. injection E as <- <- <-.
             assert (PR : forall p, In p P -> prod p -> In p R).
             { intros p Hp Pp. destruct (Q2 p Hp Pp) as [|[_ NR]]; auto. destruct (Q2 i IP Pi) as [|[X _]]; [contradiction|lia]. }
             apply settle; auto.
             ++ intros d Hd Pd. destruct (Q1 d Hd Pd); auto.
             ++ intros a Q p I Hp Pp. destruct (Q3 a Q p I Hp Pp); auto.
          -- cbn in E. injection E as <- ->. inversion F; subst. right. exists N, i1, P1, rest. auto 10.
    - destruct (fold_left (dead_edge i P) (zedges s) (st, R1)) as [st' R'] eqn:FE. cbn [fst snd].
      destruct (edges_spec i P IP _ _ _ _ _ FE) as (L & -> & E2 & E3 & E4 & E5 & E6). exists (i :: D).
      assert (R1D : forall x, In x R1 -> In x (i :: D)).
      { intros x Hx. apply R1x in Hx as [Hx|(_ & [->|Hx])]; [right; apply HR; auto|left; auto|right; auto]. }
      assert (R1p : forall x, In x R1 -> prod x).
      { intros x Hx. apply R1x in Hx as [Hx|(A & [->|Hx])]; [apply HR; auto|auto|]. destruct (PW x Hx) as (w & Pw). apply (path_prod x w i); auto. }
      assert (CH : forall a Q, In (a, Q) (map (fun j => (j, sadd P i)) (rev L)) -> In a (zedges s) /\ Q = sadd P i).
      { intros a Q I. apply in_map_iff in I as (j & E & I). injection E as <- <-. split; auto. apply E2. apply in_rev. auto. }
      assert (LT2 : forall a Q, In (a, Q) (map (fun j => (j, sadd P i)) (rev L) ++ st) -> a < length (zsts Z)).
      { intros a Q I. apply in_app_or in I as [I|I]; [|eauto]. apply CH in I as (I & _). destruct (edge_in i s a G I) as (c & s' & _ & _ & _ & E). apply alive_lt in E. exact E. }
      constructor.
      + intros a Q I. pose proof (LT2 a Q I) as La. apply in_app_or in I as [I|I].
        * apply CH in I as (I & ->). destruct (edge_in i s a G I) as (c & E). split; [split; auto; destruct Lr as (i0 & w0 & Hi0 & P0); exists i0, (w0 ++ [c]); split; auto; eapply zpath_snoc; eauto|]. split.
          -- intros x Hx. apply in_sadd in Hx as [Hx| ->]; [right; auto|left; auto].
          -- intros p Hp. apply in_sadd in Hp as [Hp| ->]; [|exists [c]; econstructor; [exact E|constructor]].
             destruct (PW p Hp) as (w & Pw). exists (w ++ [c]). eapply zpath_snoc; eauto.
        * destruct (LT a Q (or_intror I)) as (I1 & I2 & I3). split; auto. split; auto. intros x Hx. right. auto.
      + intros a Ha. rewrite map_app, in_app_iff. destruct (IN a Ha) as [|[<-|]]; [left; right; auto|left; left; auto|right; right; auto].
      + intros d t j Hd Gd Hj. rewrite map_app, in_app_iff. destruct Hd as [<-|Hd].
        * rewrite G in Gd. injection Gd as <-. destruct (E3 j Hj) as [I|I].
          -- right. left. apply in_map_iff. exists (j, sadd P i). split; auto. apply in_map_iff. exists j. split; auto. apply -> in_rev. auto.
          -- left. apply E5 in I as [I|[->|I]]; [apply R1D; auto|left; auto|right; auto].
        * destruct (SU d t j Hd Gd Hj) as [|[<-|]]; [left; right; auto|left; left; auto|right; right; auto].
      + intros x Hx. pose proof Hx as Hx0. apply E5 in Hx as [Hx|Hx]; [split; auto|].
        split; [destruct Hx as [->|Hx]; [left; auto|right; auto]|].
        destruct E6 as [(-> & _)|(_ & _ & j & Hj & Rj)]; [apply R1p; auto|].
        assert (Pi : prod i) by (apply (prod_back i s j); auto). destruct Hx as [->|Hx]; auto. destruct (PW x Hx) as (w & Pw). apply (path_prod x w i); auto.
      + destruct (DEC i Li) as [Pi|Pi].
        * assert (NId : ~ idle_entry (i, P)) by (intros [H|[H _]]; cbn in H; auto).
          destruct PE as [[F _]|(N & i1 & P1 & rest & E & F & _ & Q1 & Q2 & Q3)]; [inversion F; subst; contradiction|].
          destruct N as [|e N]; [|cbn in E; injection E as <- ->; inversion F; subst; contradiction].
          cbn in E. injection E as <- <- <-.
          assert (Mk : In i R' -> incl P R' -> (Forall idle_entry (map (fun j => (j, sadd P i)) (rev L) ++ st) /\ forall d, In d (i :: D) -> prod d -> In d R') \/
            exists N i0 P0 rest, map (fun j => (j, sadd P i)) (rev L) ++ st = N ++ (i0, P0) :: rest /\ Forall idle_entry N /\ prod i0 /\
            (forall d, In d (i :: D) -> prod d -> In d R' \/ In d P0) /\
            (forall p, In p P0 -> prod p -> In p R' \/ (rk i0 < rk p /\ ~ In i0 R')) /\
            (forall i' P' p, In (i', P') rest -> In p P' -> prod p -> In p R' \/ In p P0)).
          { intros M1 M2. assert (RR : forall x, In x R -> In x R') by (intros x Hx; apply E4, R1x; auto). apply settle; auto.
            - intros d [<-|Hd] Pd; auto. destruct (Q1 d Hd Pd); auto.
            - intros a Q p I Hp Pp. apply in_app_or in I as [I|I].
              + apply CH in I as (_ & ->). apply in_sadd in Hp as [Hp| ->]; auto.
              + destruct (Q3 a Q p I Hp Pp); auto. }
          destruct (zacc s) eqn:A.
          -- apply Mk; [apply E4, R1x; auto|intros x Hx; apply E4, R1x; auto].
          -- destruct E6 as [(-> & -> & NR)|(M1 & M2 & _)]; [|apply Mk; auto]. clear Mk. unfold R1 in *.
             destruct (LC i s G Lr Pi A) as (pre & j & post & Ez & Pj & Rj & PO). rewrite Ez in *. right.
             exists (map (fun j => (j, sadd P i)) (rev post)), j, (sadd P i), (map (fun j => (j, sadd P i)) (rev pre) ++ st).
             split; [rewrite rev_app_distr; cbn [rev]; rewrite <- app_assoc, !map_app, <- !app_assoc; reflexivity|].
             split.
             { apply Forall_forall. intros e He. apply in_map_iff in He as (k & <- & Hk). apply in_rev in Hk. destruct (PO k Hk) as [NP| ->]; [left; auto|right].
               cbn. split; [apply in_sadd; auto|]. intros s' G'. congruence. }
             split; auto. split; [|split].
             ++ intros d [<-|Hd] Pd; [right; apply in_sadd; auto|]. rewrite in_sadd. destruct (Q1 d Hd Pd); auto.
             ++ intros p Hp Pp. assert (NRj : ~ In j R) by (apply NR; apply in_or_app; right; left; auto). apply in_sadd in Hp as [Hp| ->]; [|right; auto].
                destruct (Q2 p Hp Pp) as [|[X _]]; [left; auto|right; split; auto; lia].
             ++ intros a Q p I Hp Pp. apply in_app_or in I as [I|I].
                ** apply in_map_iff in I as (k & E & _). injection E as <- <-. auto.
                ** rewrite in_sadd. destruct (Q3 a Q p I Hp Pp); auto.
        * assert (A : zacc s = false) by (destruct (zacc s); auto; destruct (Pi (Pac eq_refl))). unfold R1 in *. rewrite A in *.
          assert (NX : forall j, In j (zedges s) -> ~ prod j) by (intros j Hj Pj; apply Pi; apply (prod_back i s j); auto).
          destruct E6 as [(-> & -> & NR)|(_ & _ & j & Hj & Rj)]; [|destruct (NX j Hj); apply R1p; auto].
          assert (FN : Forall idle_entry (map (fun j => (j, sadd P i)) (rev (zedges s)))).
          { apply Forall_forall. intros e He. apply in_map_iff in He as (k & <- & Hk). left. apply NX. apply in_rev. auto. }
          destruct PE as [[F Q1]|(N & i1 & P1 & rest & E & F & Pi1 & Q1 & Q2 & Q3)].
          -- left. split; [apply Forall_app; split; auto; inversion F; auto|]. intros d [<-|Hd] Pd; [contradiction|auto].
          -- destruct N as [|e N]; cbn in E; [injection E as <- <- <-; contradiction|]. injection E as <- ->. right.
             exists (map (fun j => (j, sadd P i)) (rev (zedges s)) ++ N), i1, P1, rest. split; [rewrite <- app_assoc; reflexivity|].
             split; [apply Forall_app; split; auto; inversion F; auto|]. split; auto. split; [|auto]. intros d [<-|Hd] Pd; [contradiction|auto].
  Qed.

  Lemma loop_last : forall fuel st R D R', inv st R D -> dead_loop fuel Z st R = Ok R' -> exists D', inv [] R' D'.
  Proof.
    induction fuel as [|f IH]; intros st R D R' I H; destruct st as [|[i P] st]; cbn [dead_loop] in H; try discriminate; try (injection H as <-; eauto).
    destruct (zlock Z i) as [s|] eqn:E; [|discriminate].
    assert (G : nth_error (zsts Z) i = Some s) by (unfold zlock, zget in E; destruct (nth_error (zsts Z) i) as [t|]; [|discriminate]; destruct (zlive t); congruence).
    destruct (step i P st R D s I G) as (D' & I'). eapply IH; eauto.
  Qed.

  Lemma last_kept : forall fuel Z', removeDeadStates fuel Z = Ok Z' -> forall i, zreachable Z i -> prod i -> alive Z' i.
  Proof.
    intros fuel Z' H i RE PR. unfold removeDeadStates in H. apply bind_Ok in H as (R & HR & H). injection H as <-.
    assert (I0 : inv (map (fun i => (i, [])) (rev (zinit Z))) [] []).
    { assert (X : forall a (Q : list nat), In (a, Q) (map (fun i => (i, [])) (rev (zinit Z))) -> In a (zinit Z) /\ Q = []).
      { intros a Q I. apply in_map_iff in I as (x & E & I). injection E as <- <-. split; auto. apply in_rev. auto. }
      assert (LT0 : forall a (Q : list nat), In (a, Q) (map (fun i => (i, [])) (rev (zinit Z))) -> a < length (zsts Z)).
      { intros a Q I. apply X in I as (I & ->). apply alive_lt. apply (zwf_init Z W). auto. }
      constructor.
      - intros a Q I. pose proof (LT0 a Q I). apply X in I as (I & ->). split; [split; auto; exists a, []; split; auto; constructor|]. split; [intros x []|intros p []].
      - intros a Ha. right. apply in_map_iff. exists (a, @nil nat). split; auto. apply in_map_iff. exists a. split; auto. apply -> in_rev. auto.
      - intros d s j [].
      - intros x [].
      - apply settle; [exact LT0|intros d []|]. intros a Q p I. apply X in I as (_ & ->). intros []. }
    destruct (loop_last _ _ _ _ _ I0 HR) as (D & [_ IN SU _ PE]).
    destruct PE as [[_ DR]|(N & a & P & rest & E & _)]; [|destruct N; discriminate].
    assert (RD : forall i w j, zpath Z i w j -> In i D -> In j D).
    { intros a w j P. induction P as [|a c j w k E P IH]; intros Ha; auto. apply IH. destruct E as (s & G & _ & Hc & _).
      destruct (SU a s j Ha G) as [|[]]; auto. unfold zedges. apply in_flat_map. exists c. split; [apply in_seq; pose proof (zwf_edge Z W a s c j G Hc); lia|].
      unfold znext. apply in_map_iff. exists (c, j). split; auto. apply filter_In. split; auto. apply Nat.eqb_refl. }
    destruct RE as (i0 & w & Hi & P). apply kept_iff; auto. split.
    - apply alive_lt. eapply zpath_alive; eauto. apply (zwf_init Z W); auto.
    - apply DR; auto. apply (RD i0 w i P). destruct (IN i0 Hi) as [|[]]; auto.
  Qed.
End Last.

(* What removeDeadStates keeps is exactly what is reachable and productive, if for
   every such state there is an edge to a productive state of smaller rank
   such that the edges behind it lead to the state itself or to no acceptance. *)
Theorem C25_last_partial : forall Z rk fuel Z', za_wf Z -> all_alive Z -> last_closer Z rk -> removeDeadStates fuel Z = Ok Z' ->
  forall i, zreachable Z i -> zproductive Z i -> kept Z' i.
Proof.
  intros Z rk fuel Z' W AA LC H i RE PR. unfold kept.
  assert (Dk : alive Z' i \/ ~ alive Z' i).
  { unfold alive. destruct (nth_error (zsts Z') i) as [s|]; [|right; intros (s & E & _); discriminate].
    destruct (zlive s) eqn:E; [left; eauto|right; intros (s' & E' & L); congruence]. }
  destruct Dk as [|Dk]; auto. exfalso. apply (finite_dec (zproductive Z) (length (zsts Z))). intros D.
  apply Dk. apply (last_kept Z rk W AA LC D fuel Z' H); auto.
Qed.
