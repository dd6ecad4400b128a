(* When the Sunday table is built. *)
From Coq Require Import QArith Lqa Bool List ZArith Arith Lia.
From Verif Require Import Num NumFacts Outcome Constraint Zone ZoneFacts ZoneOps TA Spec TAFacts PropBase Word ZA ZASpec ZAFacts ZAGraph PropZA ZATerm
  Intersection Monaa Skip SkipFacts Sunday.
Import ListNotations.
Open Scope nat_scope.

(* More fuel does not change a result. *)
Lemma loop_more : forall f k A M Z q r, ta2za_loop f A M Z q = Ok r -> ta2za_loop (f + k) A M Z q = Ok r.
Proof.
  induction f as [|f IH]; intros k A M Z q r H; destruct q as [|i q]; cbn [ta2za_loop Nat.add] in *; auto; [destruct k; exact H|discriminate|].
  apply bind_Ok in H as (Zq & E & H). rewrite E. cbn [bind]. auto.
Qed.
Lemma ta2za_more : forall f k A Z iz r, ta2za f A Z iz = Ok r -> ta2za (f + k) A Z iz = Ok r.
Proof.
  intros f k A Z iz r H. unfold ta2za in *. destruct (filter _ (inits A)); auto. apply bind_Ok in H as (ss & E & H). rewrite E. cbn [bind].
  apply loop_more. exact H.
Qed.
Lemma dead_more : forall f k Z r, removeDeadStates f Z = Ok r -> removeDeadStates (f + k) Z = Ok r.
Proof.
  assert (X : forall f k Z st R r, dead_loop f Z st R = Ok r -> dead_loop (f + k) Z st R = Ok r).
  { induction f as [|f IH]; intros k Z st R r H; destruct st as [|[a P] st]; cbn [dead_loop Nat.add] in *; auto; [destruct k; auto|discriminate|].
    destruct (zlock Z a) as [s|]; [|discriminate]. apply IH; auto. }
  intros f k Z r H. unfold removeDeadStates in *. apply bind_Ok in H as (R & HR & H). rewrite (X _ k _ _ _ _ HR). exact H.
Qed.
Lemma build_more : forall f k Z cs sets r, (r = Exit 10 \/ exists l, r = Ok l) -> sunday_build f Z cs sets = r -> sunday_build (f + k) Z cs sets = r.
Proof.
  induction f as [|f IH]; intros k Z cs sets r Hr H; destruct cs as [|c cs]; cbn [sunday_build Nat.add] in *.
  - destruct k; exact H.
  - subst r. destruct Hr as [Hr|(l & Hr)]; discriminate.
  - exact H.
  - destruct (fold_out _ (c :: cs) []) as [l| | | |]; cbn [bind] in *; auto. destruct (existsb _ l); auto.
Qed.

Section Build.
  Variable Z : za.
  Hypothesis W : za_wf Z.
  Hypothesis NE0 : forall i c j, zedge Z i c j -> 1 <= c.
  (* everything alive is useful *)
  Hypothesis U : forall i, alive Z i -> exists w k, zpath Z i w k /\ zaccepting Z k.

  Lemma succ_alive : forall i, alive Z i -> exists l, sunday_succ Z i = Ok l /\ (forall c j, In (c, j) l -> alive Z j).
  Proof.
    intros i Hi. unfold sunday_succ.
    destruct (epsilonClosure_spec Z [i]) as (R & E & _); [repeat constructor; intros []|intros x [<-|[]]; exact Hi|].
    rewrite E. cbn [bind]. eexists. split; [reflexivity|]. intros c j H. apply in_flat_map in H as (k & _ & H).
    destruct (zget Z k) as [s|]; [|contradiction]. apply in_flat_map in H as (c' & _ & H). apply in_map_iff in H as (j' & E' & H). injection E' as <- <-.
    apply filter_In in H as [_ H]. unfold zlock in H. destruct (zget Z j') as [s'|] eqn:G; [|discriminate]. destruct (zlive s') eqn:L; [|discriminate].
    exists s'. auto.
  Qed.

  Lemma succs_alive : forall cs acc, (forall i, In i cs -> alive Z i) -> (forall c j, In (c, j) acc -> alive Z j) ->
    exists l, fold_out (fun i acc => do l <- sunday_succ Z i ; Ok (acc ++ l)) cs acc = Ok l /\ (forall c j, In (c, j) l -> alive Z j).
  Proof.
    induction cs as [|i cs IH]; intros acc H HA; cbn [fold_out]; [eauto|].
    destruct (succ_alive i (H i (or_introl eq_refl))) as (l & E & Hl). rewrite E. cbn [bind]. apply IH; [intros; apply H; right; auto|].
    intros c j Hin. apply in_app_or in Hin as [Hin|Hin]; eauto.
  Qed.

  Lemma alive_accepts : forall j, alive Z j -> zaccepting Z j -> zaccepts Z j = true.
  Proof.
    intros j (s & G & L) (s' & G' & A). unfold zaccepts, zlock, zget. rewrite G, L. congruence.
  Qed.

  Lemma build_near : forall n cs sets i w k, length w <= n -> w <> [] -> (forall i, In i cs -> alive Z i) -> In i cs ->
    zpath Z i w k -> zaccepting Z k -> exists l, sunday_build n Z cs sets = Ok l.
  Proof.
    induction n as [|n IH]; intros cs sets i w k L NE HA Hi P Ac.
    - destruct w; [congruence|cbn in L; lia].
    - destruct cs as [|c0 cs0]; [contradiction|]. remember (c0 :: cs0) as cs. cbn [sunday_build].
      destruct (succs_alive cs [] HA ltac:(intros ? ? [])) as (l & E & Hl). rewrite Heqcs. rewrite <- Heqcs. rewrite E. cbn [bind]. cbv zeta.
      destruct (existsb (fun cj => zaccepts Z (snd cj)) l) eqn:EX; [eauto|].
      destruct P as [|i c j w k He P]; [congruence|]. cbn [length] in L.
      pose proof (NE0 _ _ _ He) as C1. assert (C2 : c < char_max) by (destruct He as (s & Hs & _ & Hc & _); apply (zwf_edge Z W i s c j Hs Hc)).
      apply fold_out_app in E as [_ E]. destruct (E i Hi) as (y & Ey & Iy).
      pose proof (Iy _ (sunday_succ_edge _ _ _ _ _ Ey He C1 C2)) as Hin.
      assert (Hj : In j (map snd l)) by (apply in_map_iff; exists (c, j); auto).
      assert (HAl : forall x, In x (map snd l) -> alive Z x) by (intros x Hx; apply in_map_iff in Hx as ([c' x'] & <- & Hx); eapply Hl; eauto).
      destruct w as [|c' w].
      + exfalso. inversion P; subst. pose proof (alive_accepts k (HAl k Hj) Ac) as X.
        assert (Y : existsb (fun cj => zaccepts Z (snd cj)) l = true) by (apply existsb_exists; exists (c, k); auto). congruence.
      + apply (IH (map snd l) _ j (c' :: w) k); auto; [lia|discriminate].
  Qed.

  Lemma build_ends : forall cs sets, (forall i, In i cs -> alive Z i) ->
    exists fuel, sunday_build fuel Z cs sets = Exit 10 \/ exists l, sunday_build fuel Z cs sets = Ok l.
  Proof.
    intros cs sets HA. destruct cs as [|c0 cs0]; [exists 0; left; reflexivity|]. remember (c0 :: cs0) as cs.
    destruct (succs_alive cs [] HA ltac:(intros ? ? [])) as (l & E & Hl).
    destruct (existsb (fun cj => zaccepts Z (snd cj)) l) eqn:EX.
    - exists 1. right. subst cs. cbn [sunday_build]. rewrite E. cbn [bind]. cbv zeta. rewrite EX. eauto.
    - destruct l as [|[c j] l'] eqn:EL.
      + exists 1. left. subst cs. cbn [sunday_build]. rewrite E. cbn [bind]. cbv zeta. rewrite EX. reflexivity.
      + rewrite <- EL in *. assert (Hj : In (c, j) l) by (subst l; left; auto).
        destruct (U j (Hl c j Hj)) as (w & k & P & Ac).
        assert (NE : w <> []).
        { intros ->. inversion P; subst k. pose proof (alive_accepts j (Hl c j Hj) Ac) as X.
          assert (Y : existsb (fun cj => zaccepts Z (snd cj)) l = true) by (apply existsb_exists; exists (c, j); auto). congruence. }
        destruct (build_near (length w) (map snd l) (sets ++ [map fst l]) j w k) as (r & Hr); auto.
        * intros x Hx. apply in_map_iff in Hx as ([c' x'] & <- & Hx). eapply Hl; eauto.
        * apply in_map_iff. exists (c, j). auto.
        * exists (S (length w)). right. exists r. subst cs. cbn [sunday_build]. rewrite E. cbn [bind]. cbv zeta. rewrite EX. exact Hr.
  Qed.
End Build.
