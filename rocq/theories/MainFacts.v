(* The exit statuses of main. *)
From Coq Require Import QArith Bool List ZArith Arith Lia.
From Verif Require Import Num Outcome Interval Constraint Zone TA Word ZA Intersection Monaa Skip EpsZone Tre Signal SignalFacts Parse Text Ans Main.
Import ListNotations.
Open Scope nat_scope.

(* The only status a computation may exit with is 10. *)
Definition ten {T} (o : outcome T) : Prop := forall n, o = Exit n -> n = 10.

Lemma ten_Ok : forall T (x : T), ten (Ok x). Proof. discriminate. Qed.
Lemma ten_UB : forall T, ten (@UB T). Proof. discriminate. Qed.
Lemma ten_Throw : forall T, ten (@Throw T). Proof. discriminate. Qed.
Lemma ten_fuel : forall T, ten (@OutOfFuel T). Proof. discriminate. Qed.
Lemma ten_bind : forall T U (o : outcome T) (f : T -> outcome U), ten o -> (forall x, ten (f x)) -> ten (bind o f).
Proof. intros T U [x| | |k|] f O F n E; cbn in E; try discriminate; [apply (F x n E)|]. injection E as <-. apply (O k eq_refl). Qed.
Lemma ten_10 : forall T, ten (@Exit T 10). Proof. intros T n E. injection E as <-. reflexivity. Qed.
#[export] Hint Resolve ten_Ok ten_UB ten_Throw ten_fuel ten_10 : ten.

Ltac tn1 :=
  match goal with
  | |- ten (bind _ _) => apply ten_bind; [|intros]
  | |- ten (let (_, _) := ?x in _) => destruct x
  | |- ten (match ?x with _ => _ end) => destruct x
  | |- forall _, _ => intros
  | |- ten _ => solve [eauto 2 with ten]
  end.
Ltac tn := repeat (first [tn1 | progress (cbn beta iota zeta)]).

Lemma ten_fold_out : forall S X (f : X -> S -> outcome S) l s, (forall x s, ten (f x s)) -> ten (fold_out f l s).
Proof. induction l; intros s F; cbn; tn; try (apply IHl; auto). Qed.
Lemma ten_map_out : forall X Y (f : X -> outcome Y) l, (forall x, ten (f x)) -> ten (map_out f l).
Proof. induction l; intros F; cbn; tn; try (apply IHl; auto). Qed.
Lemma ten_oseq : forall X Y (f : X -> outcome Y) l, (forall x, ten (f x)) -> ten (oseq f l).
Proof. induction l; intros F; cbn; tn; try (apply IHl; auto). Qed.
Lemma ten_traverse : forall X Y (f : X -> outcome Y) l, (forall x, ten (f x)) -> ten (traverse f l).
Proof. induction l; intros F; cbn; tn; try (apply IHl; auto). Qed.

(* ---------------- words and automaton files ---------------- *)

Lemma ten_text : forall s, ten (text_word s).
Proof.
  intros s. unfold text_word. generalize (S (length s)). intros n. revert s. induction n as [|n IH]; intros s; cbn; tn.
  unfold getOne. tn.
Qed.
Lemma ten_binary : forall dec s, ten (binary_word dec s).
Proof. intros dec s. unfold binary_word. generalize (S (length s)). intros n. revert s. induction n as [|n IH]; intros s; cbn; tn. Qed.

Lemma ten_read_constr : forall s, ten (read_constr s).
Proof. intros s. unfold read_constr, read_order. tn. Qed.
Lemma ten_read_clock : forall s, ten (read_clock s).
Proof. intros s. unfold read_clock. tn. Qed.
Lemma ten_read_list : forall X (f : istream -> outcome (option X * istream)) s, (forall s, ten (f s)) -> ten (read_list f s).
Proof.
  intros X f s F. unfold read_list. destruct (expect 123 s) as [b s0]. destruct (negb b); [tn|]. generalize (S (length (Text.chars s0))). intros n. revert s0.
  induction n as [|n IH]; intros s0; cbn; tn; auto.
Qed.
Lemma ten_dot : forall vs es, ten (parseBoostTA vs es).
Proof.
  intros vs es. unfold parseBoostTA. apply ten_bind; [|tn]. apply ten_traverse. intros e. unfold parse_edge, guard_of, resets_of, lexical_cast.
  tn; apply ten_read_list; [apply ten_read_constr|apply ten_read_clock].
Qed.

(* ---------------- expressions ---------------- *)

Lemma ten_reduce : forall A, ten (reduceStates A).
Proof. intros A. unfold reduceStates. generalize (S (length (states A))). intros n. revert A. induction n as [|n IH]; intros A; cbn; tn. Qed.
Lemma ten_within : forall A J, ten (withinTA A J).
Proof.
  intros A J. unfold withinTA. tn. apply ten_oseq. intros x. tn. apply ten_oseq. intros y. tn. apply ten_oseq. intros e. unfold within_edge. tn.
Qed.
Lemma ten_event : forall al r n, ten (toEventTA al r n).
Proof.
  induction r; intros k; cbn [toEventTA]; (apply ten_bind; [|intros X; apply ten_bind; [apply ten_reduce|tn]]); tn; auto.
  apply ten_within.
Qed.

Lemma ten_hmap : forall X Y (f : heap -> X -> outcome (Y * heap)) l H, (forall H x, ten (f H x)) -> ten (hmap f H l).
Proof. induction l; intros H F; cbn; tn; try (apply IHl; auto). Qed.
Lemma ten_hfold : forall X (f : heap -> X -> outcome heap) l H, (forall H x, ten (f H x)) -> ten (hfold f H l).
Proof. induction l; intros H F; cbn; tn; try (apply IHl; auto). Qed.
Lemma ten_hall : forall (f : heap -> nat -> outcome (bool * heap)) l H, (forall H x, ten (f H x)) -> ten (hall f H l).
Proof. induction l; intros H F; cbn; tn; try (apply IHl; auto). Qed.
Lemma ten_getA : forall H a, ten (getA H a). Proof. intros. unfold getA. tn. Qed.
Lemma ten_getS : forall H a, ten (getS H a). Proof. intros. unfold getS. tn. Qed.
Lemma ten_getD : forall H a, ten (getD H a). Proof. intros. unfold getD. tn. Qed.
#[export] Hint Resolve ten_getA ten_getS ten_getD : ten.
Lemma ten_setCell : forall H a c, ten (setCell H a c). Proof. intros. unfold setCell. tn. Qed.
Lemma ten_setDec : forall H a c, ten (setDec H a c). Proof. intros. unfold setDec. tn. Qed.
Lemma ten_sing_of : forall H a, ten (sing_of H a). Proof. intros. unfold sing_of. tn. Qed.
Lemma ten_dec_of : forall H a, ten (dec_of H a). Proof. intros. unfold dec_of. tn. Qed.
#[export] Hint Resolve ten_setCell ten_setDec ten_sing_of ten_dec_of : ten.
Lemma ten_newCat : forall H l r, ten (newCat H l r). Proof. intros. unfold newCat, cat_items. tn. Qed.
Lemma ten_newWithin : forall H a J, ten (newWithin H a J). Proof. intros. unfold newWithin. tn. Qed.
#[export] Hint Resolve ten_newCat ten_newWithin : ten.
Lemma ten_dnf_of : forall r H, ten (dnf_of r H).
Proof.
  induction r; intros H; cbn [dnf_of]; tn; auto.
  - apply ten_hmap. intros. apply ten_hmap. tn.
  - apply ten_hmap. intros. apply ten_hmap. tn.
Qed.
Lemma ten_sings_of : forall l H, ten (sings_of H l).
Proof. induction l; intros H; cbn; tn. Qed.
Lemma ten_snf_keep : forall (f : heap -> nat -> outcome (bool * heap)) l H, (forall H x, ten (f H x)) -> ten (snf_keep f H l).
Proof. induction l; intros H F; cbn; tn; try (apply IHl; auto). apply ten_hall; auto. Qed.
Lemma ten_omap : forall X Y (f : X -> outcome Y) l, (forall x, ten (f x)) -> ten (omap f l).
Proof. induction l; intros F; cbn; tn; try (apply IHl; auto). Qed.
Lemma ten_plus_set : forall l, ten (plus_set l).
Proof. intros l. unfold plus_set. destruct (32 <=? length l); [tn|]. apply ten_bind; [apply ten_omap|tn]. intros J. unfold iplus. destruct (fst (upb J)); tn. Qed.
#[export] Hint Resolve ten_sings_of ten_plus_set : ten.
Lemma ten_snf : forall fuel c, (forall H a, ten (snfA fuel c H a)) /\ (forall H d, ten (snfD fuel c H d)).
Proof.
  induction fuel as [|f IH]; intros c; [split; intros; cbn; tn|]. destruct (IH c) as [IA ID]. split; intros H a.
  - rewrite snfA_S. tn; auto. apply ten_hall. auto.
  - rewrite snfD_S. tn; [apply ten_snf_keep; auto|apply ten_oseq; tn].
Qed.
Lemma ten_merge : forall fuel H k l, ten (merge_loop fuel H k l).
Proof. induction fuel as [|f IH]; intros H k l; cbn [merge_loop]; tn. Qed.
Lemma ten_cat_decs : forall (f : heap -> nat -> outcome heap) l H acc, (forall H x, ten (f H x)) -> ten (cat_decs f H acc l).
Proof. induction l; intros H acc F; cbn; tn; try (apply IHl; auto). Qed.
Lemma ten_cat_mixed : forall l H, ten (cat_mixed H l).
Proof. induction l; intros H; cbn; tn. Qed.
Lemma ten_conj_mixed : forall l H, ten (conj_mixed H l).
Proof. induction l; intros H; cbn; tn. Qed.
Lemma ten_conj_loop : forall fuel H d l, ten (conj_loop fuel H d l).
Proof. induction fuel as [|f IH]; intros H d l; cbn [conj_loop]; tn. Qed.
#[export] Hint Resolve ten_merge ten_cat_mixed ten_conj_mixed ten_conj_loop : ten.
Definition nosep (H : heap) (a : nat) : outcome heap := UB.
Lemma ten_nf : forall fuel, (forall H a, ten (nfA nosep nosep fuel H a)) /\ (forall H d, ten (nfD nosep nosep fuel H d)).
Proof.
  induction fuel as [|f [IA ID]]; [split; intros; cbn; tn|]. assert (SN := fun c => proj1 (ten_snf f c)). split; intros H a.
  - rewrite nfA_S. tn; auto; try (unfold nosep; tn; fail). apply ten_cat_decs. auto.
  - rewrite nfD_S. tn; auto; try (unfold nosep; tn; fail).
    + apply ten_hfold. intros. apply ten_hfold. auto.
    + apply ten_oseq. tn.
    + apply ten_oseq. intros. unfold conj_dec. tn.
    + unfold dnf_dec. tn.
Qed.

Lemma ten_sing : forall al c l n, ten (singTA al c l n).
Proof.
  intros. unfold singTA. destruct l; [tn|]. apply ten_bind; [|tn]. apply ten_oseq. intros J. unfold sing_guard. tn.
Qed.
Lemma ten_sw : forall A acc gs es, ten (sw_edges A acc gs es).
Proof. induction es as [|e t IH]; cbn; tn. Qed.
Lemma ten_sigWithin : forall al A J n, ten (sigWithinTA al A J n).
Proof. intros. unfold sigWithinTA. tn. apply ten_oseq. tn. apply ten_oseq. intros. apply ten_bind; [apply ten_sw|tn]. Qed.
Lemma ten_sigPlus : forall A, ten (sigPlusTA A).
Proof. intros. unfold sigPlusTA. tn. Qed.
#[export] Hint Resolve ten_sing ten_sigWithin ten_sigPlus : ten.
Lemma ten_ta : forall fuel al, (forall H a n, ten (taA fuel al H a n)) /\ (forall H d n, ten (taD fuel al H d n)).
Proof.
  induction fuel as [|f IH]; intros al; [split; intros; cbn; tn|]. destruct (IH al) as [IA ID]. split; intros H a n; cbn [taA taD].
  - apply ten_bind; [tn|]. intros x. destruct (at_cell x) as [| | | | |]; try (tn; auto; fail).
    match goal with l : list nat |- _ => destruct l as [|b l] end; [tn|].
    apply ten_bind; auto. intros X. revert X. induction l as [|c l IHl]; intros X; tn; auto.
  - apply ten_bind; [tn|]. intros e. generalize (mkTA [] [] [], n). induction (dn_list e) as [|[|c l] t IHl]; intros X; tn; auto.
Qed.
Lemma ten_signal : forall s1 s2 fuel al r n, ten (toSignalTA s1 s2 fuel al r n).
Proof.
  intros. rewrite (signal_no_separation s1 s2 nosep nosep). unfold toSignalTA. apply ten_bind; [apply ten_dnf_of|].
  intros X. destruct (newD (snd X) (fst X)) as [d H]. apply ten_bind; [apply ten_nf|]. intros H1. apply ten_bind; [apply ten_ta|tn].
Qed.

(* ---------------- skip values and matching ---------------- *)

Lemma ten_ta2za_loop : forall fuel A M Z q, ten (ta2za_loop fuel A M Z q).
Proof.
  intros fuel A M. induction fuel as [|f IH]; intros Z q; destruct q as [|i q]; cbn [ta2za_loop]; try (tn; fail).
  apply ten_bind; [|tn]. unfold ta2za_conf. destruct (zget _ i); [|tn]. destruct (deref A _); [|tn].
  apply ten_fold_out. intros. apply ten_fold_out. intros. unfold ta2za_edge. tn.
Qed.
Lemma ten_ta2za : forall fuel A Z iz, ten (ta2za fuel A Z iz).
Proof.
  intros. unfold ta2za. set (new := filter _ _). destruct new; [tn|]. apply ten_bind; [apply ten_fold_out; tn|]. intros ss. apply ten_ta2za_loop.
Qed.
Lemma ten_dead_loop : forall fuel Z l r, ten (dead_loop fuel Z l r).
Proof. induction fuel as [|f IH]; intros Z l r; destruct l as [|[i ps] l]; cbn [dead_loop]; tn. Qed.
Lemma ten_dead : forall fuel Z, ten (removeDeadStates fuel Z).
Proof. intros. unfold removeDeadStates. apply ten_bind; [apply ten_dead_loop|tn]. Qed.
Lemma ten_eps_loop : forall n Z l w, ten (eps_loop n Z l w).
Proof. induction n as [|n IH]; intros Z l w; destruct w as [|i w]; cbn [eps_loop]; tn. Qed.
Lemma ten_epsilon : forall Z l, ten (epsilonClosure Z l).
Proof. intros. apply ten_eps_loop. Qed.
Lemma ten_empty_level : forall Z l NV, ten (empty_level Z l NV).
Proof. induction l as [|j l IHl]; intros NV; cbn [empty_level]; tn. Qed.
Lemma ten_empty_loop : forall n Z l v, ten (empty_loop n Z l v).
Proof. induction n as [|n IH]; intros Z l v; destruct l as [|i l]; cbn [empty_loop]; try (tn; fail). apply ten_bind; [apply ten_empty_level|tn]. Qed.
Lemma ten_empty : forall Z, ten (zempty_check Z).
Proof. intros. apply ten_empty_loop. Qed.
#[export] Hint Resolve ten_ta2za ten_dead ten_epsilon ten_empty : ten.
Lemma ten_sunday_build : forall fuel Z l s, ten (sunday_build fuel Z l s).
Proof.
  induction fuel as [|f IH]; intros Z l s; destruct l as [|i l]; cbn [sunday_build]; try (tn; fail).
  apply ten_bind; [|tn]. apply ten_fold_out. intros. unfold sunday_succ. tn.
Qed.
Lemma ten_sunday_sets : forall fuel A, ten (sunday_sets fuel A).
Proof. intros. unfold sunday_sets. apply ten_bind; [tn|]. intros Z0. apply ten_bind; [tn|]. intros Z. apply ten_sunday_build. Qed.
Lemma ten_acc_append : forall A0 acc es, ten (acc_append A0 acc es).
Proof. induction es as [|e t IH]; cbn [acc_append]; tn. Qed.
Lemma ten_kmp_try : forall fuel al m A0 As ks ns A2 Z, ten (kmp_try fuel al m A0 As ks ns A2 Z).
Proof. induction ns as [|n ns IHn]; intros A2 Z; cbn [kmp_try]; tn. Qed.
Lemma ten_kmp_states : forall fuel al m A0 As ks ps A2 Z b, ten (kmp_states fuel al m A0 As ks ps A2 Z b).
Proof. induction ps as [|p l IH]; intros A2 Z b; cbn [kmp_states]; [tn|]. apply ten_bind; [apply ten_kmp_try|tn]. Qed.
Lemma ten_kmp : forall fuel al A m, ten (kmp fuel al A m).
Proof.
  intros. unfold kmp. apply ten_bind.
  - unfold kmp_A0. apply ten_bind; [|tn]. apply ten_map_out. intros ps. apply ten_bind; [|tn]. apply ten_map_out. intros ces. apply ten_bind; [apply ten_acc_append|tn].
  - intros A0. apply ten_kmp_states.
Qed.
Lemma ten_tables : forall fuel al A, ten (tables fuel al A).
Proof. intros. unfold tables. apply ten_bind; [apply ten_sunday_sets|]. intros. apply ten_bind; [apply ten_kmp|tn]. Qed.

Lemma ten_cat : forall c i, ten (cat lazyC c i).
Proof. intros c i. cbn. unfold lazy_at. tn. Qed.
Lemma ten_setFront : forall c i, ten (csetFront lazyC c i).
Proof. intros c i. cbn. unfold lazy_setFront. tn. Qed.
#[export] Hint Resolve ten_cat ten_setFront : ten.
#[local] Opaque cat csetFront cfetch lazyC.
Lemma ten_low : forall c i, ten (low_end lazyC c i).
Proof. intros. unfold low_end. tn. Qed.
#[export] Hint Resolve ten_low : ten.
Lemma ten_acc : forall A fin l c j cs ans, ten (acc_confs lazyC A fin l c j cs ans).
Proof. intros. unfold acc_confs. apply ten_fold_out. intros. apply ten_fold_out. tn. Qed.
#[export] Hint Resolve ten_acc : ten.
Lemma ten_match : forall A M fuel c j cs ls ans, ten (match_loop lazyC A M fuel c j cs ls ans).
Proof.
  intros A M. induction fuel as [|f IH]; intros c j cs ls ans; destruct cs as [|x cs]; cbn [match_loop]; try (tn; fail).
Qed.
Lemma ten_sunday : forall T fuel c i, ten (sunday_shift lazyC T fuel c i).
Proof.
  intros T fuel c i. unfold sunday_shift. destruct (1 <? sk_m T); [|tn]. destruct (cfetch lazyC c (i + sk_m T - 1)) as [b c0]. destruct b; [|tn].
  clear c. rename c0 into c. revert c i. induction fuel as [|f IH]; intros c i; cbn [sunday_loop]; tn.
Qed.
#[export] Hint Resolve ten_match ten_sunday : ten.
Lemma ten_outer : forall A T M fuel c i ls ans, ten (outer_loop lazyC A T M fuel c i ls ans).
Proof.
  intros A T M. induction fuel as [|f IH]; intros c i ls ans; cbn [outer_loop]; [tn|].
  tn; try (unfold start_confs; tn; fail); unfold greatest; apply ten_fold_out; tn.
Qed.

Lemma ten_tighten : forall x y c z, ten (iz_tighten x y c z).
Proof.
  intros x y c z. unfold iz_tighten. destruct z; [|tn]. apply ten_bind; [|tn]. unfold iv_tighten.
  destruct l as [|[l0 u0] [|[l1 u1] [|[l2 u2] [|]]]]; try (tn; fail); destruct x as [|[|[|x]]], y as [|[|[|y]]]; tn.
Qed.
#[export] Hint Resolve ten_tighten : ten.
Lemma ten_end : forall c j cfg e, ten (end_zone lazyC c j cfg e).
Proof.
  intros. unfold end_zone. apply ten_bind; [tn|]. intros. apply ten_bind; [tn|]. intros. apply ten_bind; [unfold iz_alloc; tn|]. intros.
  unfold iz_guard. apply ten_fold_out. intros. unfold rget. apply ten_bind; [tn|]. intros. unfold iz_guard1. tn.
Qed.
Lemma ten_rset : forall r xs rst, ten (rset r xs rst). Proof. intros. unfold rset. tn. Qed.
Lemma ten_update : forall r z, ten (iz_update r z). Proof. intros. unfold iz_update. tn. Qed.
#[export] Hint Resolve ten_end ten_rset ten_update : ten.
Lemma ten_eps_step : forall A fx c j cs, ten (eps_step lazyC A fx c j cs).
Proof. intros. unfold eps_step. apply ten_fold_out. intros. apply ten_fold_out. intros. unfold eps_edge. tn. Qed.
Lemma ten_rounds : forall A fx fuel c j cur cs, ten (eps_rounds lazyC A fx fuel c j cur cs).
Proof.
  intros A fx. induction fuel as [|f IH]; intros c j cur cs; destruct cur; cbn [eps_rounds]; try (tn; fail). apply ten_bind; [apply ten_eps_step|tn].
Qed.
Lemma ten_obs : forall A l t cs, ten (obs_step A l t cs).
Proof.
  intros. unfold obs_step. apply ten_fold_out. intros. apply ten_fold_out. intros. unfold obs_edge. apply ten_bind; [|tn]. destruct (etgt x0); [|tn].
  apply ten_bind; [|tn]. unfold iz_guard_at. apply ten_fold_out. intros. unfold rget, iz_guard1_at. tn.
Qed.
Lemma ten_eps_accept : forall A l c j cs ans, ten (eps_accept lazyC A l c j cs ans).
Proof. intros. unfold eps_accept. apply ten_fold_out. intros. apply ten_fold_out. tn. Qed.
#[export] Hint Resolve ten_rounds ten_obs ten_eps_accept : ten.
Lemma ten_eps_match : forall A fx fuel c j cs ls ans, ten (eps_match lazyC A fx fuel c j cs ls ans).
Proof.
  intros A fx. induction fuel as [|f IH]; intros c j cs ls ans; destruct cs as [|x cs]; cbn [eps_match]; try (tn; fail). unfold eps_close. tn.
Qed.
#[export] Hint Resolve ten_eps_match : ten.
Lemma ten_eps_outer : forall A T fx nz fuel c i ls ans, ten (eps_outer lazyC A T fx nz fuel c i ls ans).
Proof.
  intros A T fx nz. induction fuel as [|f IH]; intros c i ls ans; cbn [eps_outer]; [tn|].
  tn; try (unfold eps_start; tn; fail); unfold eps_greatest; apply ten_fold_out; tn.
Qed.

Lemma ten_monaa : forall fuel al nz A c, ten (monaa fuel al nz lazyC A c).
Proof. intros. unfold monaa. apply ten_bind; [apply ten_tables|]. intros T. destruct (no_eps A); [apply ten_outer|apply ten_eps_outer]. Qed.
Lemma ten_dollar : forall fuel al A c, ten (monaaDollar fuel al lazyC A c).
Proof.
  intros. unfold monaaDollar. apply ten_bind; [unfold make_ap; tn|]. intros Ap. apply ten_bind; [apply ten_tables|]. intros T.
  destruct (no_eps A); [apply ten_outer|tn].
Qed.
