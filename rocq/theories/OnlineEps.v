(* The loops of monaa() for patterns with unobservable transitions
   (libmonaa/monaa.hh:497-692) with the order in which they read and report, as
   in Online.v.  EpsZone.v collects the zones in a list. *)
From Coq Require Import QArith Bool List ZArith Arith.
From Verif Require Import Num Outcome Constraint Zone TA Word ZA Monaa Skip EpsZone Online.
Import ListNotations.
Open Scope nat_scope.

(* A for loop. *)
Fixpoint tfold {X} (f : X -> traced unit) (l : list X) : traced unit :=
  match l with [] => tlift (Ok tt) | x :: t => tbind (f x) (fun _ => tfold f t) end.

Section RunEps.
  Variable W : cont.
  Variable A : ta.
  Variable T : skips.
  Variable nz : nat.

  (* libmonaa/monaa.hh:619-642. *)
  Definition t_eps_accept (l : nat) (c : ctype W) (j : nat) (cs : list econf) : traced unit :=
    tfold (fun cfg =>
      tfold (fun e =>
        if match etgt e with Some q => match_at A q | None => false end then
          tbind (tlift (end_zone W c j cfg e)) (fun z =>
          if iz_sat z then ([Emits (iz_ans z)], Ok tt) else tlift (Ok tt))
        else tlift (Ok tt)) (edges_at A (est cfg) l)) cs.

  (* libmonaa/monaa.hh:570-671. *)
  Fixpoint t_eps_match (fuel : nat) (c : ctype W) (j : nat) (cs ls : list econf)
      : traced (ctype W * nat * list econf * list econf) :=
    match cs with
    | [] => tlift (Ok (c, j, cs, ls))
    | _ =>
        tbind (tfetch W c j) (fun bc =>
        if fst bc then
          match fuel with
          | O => tlift OutOfFuel
          | S f =>
              tbind (tlift (eps_close W A false fuel (snd bc) j cs)) (fun cs =>
              tbind (tlift (cat W (snd bc) j)) (fun e =>
              tbind (t_eps_accept (fst e) (snd bc) j cs) (fun _ =>
              tbind (tlift (obs_step A (fst e) (snd e) cs)) (fun cs' =>
              t_eps_match f (snd bc) (S j) cs' cs))))
          end
        else tlift (Ok (snd bc, j, cs, ls)))
    end.

  (* libmonaa/monaa.hh:505-683. *)
  Fixpoint t_eps_outer (fuel : nat) (c : ctype W) (i : nat) (ls : list econf) : traced unit :=
    tbind (tfetch W c (i + sk_m T - 1)) (fun bc =>
    if fst bc then
      match fuel with
      | O => tlift OutOfFuel
      | S f =>
          tbind (t_sunday_shift W T fuel (snd bc) i) (fun ci =>
          match snd ci with
          | None => tlift (Ok tt)
          | Some i =>
              tbind (tfetch W (fst ci) i) (fun bc =>
              if fst bc then
                tbind (tlift (eps_start W A nz (snd bc) i)) (fun cs =>
                tbind (t_eps_match fuel (snd bc) i cs ls) (fun r =>
                let '(c, j, cs, ls) := r in
                tbind (tfetch W c j) (fun bc =>
                let ls := if fst bc then ls else cs in
                tbind (tlift (eps_greatest T ls)) (fun n =>
                tbind (tfront W (snd bc) (i + n - 1)) (fun c =>
                t_eps_outer f c (i + n) ls)))))
              else tlift (Ok tt))
          end)
      end
    else tlift (Ok tt)).
End RunEps.

(* monaa, libmonaa/monaa.hh:151-692. *)
Definition t_monaa (fuel : nat) (al : alloc) (nz : nat) (W : cont) (A : ta) (c : ctype W) : traced unit :=
  tbind (tlift (tables fuel al A)) (fun T =>
  if no_eps A then t_outer W A T MSignal fuel c 0 [] else t_eps_outer W A T nz fuel c 0 []).
