(* The matching loops of libmonaa/monaa.hh once more, this time with the order
   in which they read the word and report zones.  Monaa.v collects the zones in
   a list that is returned in the end; the program passes each one to
   ans.push_back (AnsPrinter prints it, libmonaa/ans_vec.hh:98-113) between two
   calls of fetch.  PropOnline.v proves that both models report the same. *)
From Coq Require Import QArith Bool List ZArith Arith.
From Verif Require Import Num Outcome Constraint Zone TA Word ZA Monaa Skip.
Import ListNotations.
Open Scope nat_scope.

(* [Reads k]: fetch or setFront makes sure that the first k events of the word
   were read (or the end of the file was met, or they were read before).
   [Emits z]: ans.push_back(z). *)
Inductive act : Type := Reads (k : nat) | Emits (z : mat).

(* What was done, and how it ended. *)
Definition traced (X : Type) : Type := (list act * outcome X)%type.

Definition tlift {X} (o : outcome X) : traced X := ([], o).

Definition tbind {X Y} (m : traced X) (f : X -> traced Y) : traced Y :=
  match snd m with
  | Ok x => let r := f x in (fst m ++ fst r, snd r)
  | UB => (fst m, UB)
  | Throw => (fst m, Throw)
  | Exit n => (fst m, Exit n)
  | OutOfFuel => (fst m, OutOfFuel)
  end.

Section Run.
  Variable W : cont.
  Variable A : ta.
  Variable T : skips.
  Variable M : mode.

  (* fetch(n) asks for the event with number n, that is for n + 1 events. *)
  Definition tfetch (c : ctype W) (n : nat) : traced (bool * ctype W) := ([Reads (S n)], Ok (cfetch W c n)).

  (* setFront(n) passes over n events, libmonaa/lazy_deque.hh:60-73. *)
  Definition tfront (c : ctype W) (n : nat) : traced (ctype W) := ([Reads n], csetFront W c n).

  (* The accepting edges, libmonaa/monaa.hh:851-967 and 1029-1145.  The reads of
     word[j] and word[j - 1] fail before the first zone is reported or not at
     all. *)
  Definition t_acc (fin : bool) (l : nat) (c : ctype W) (j : nat) (cs : list iconf) : traced unit :=
    match acc_confs W A fin l c j cs [] with
    | Ok zs => (map Emits zs, Ok tt)
    | UB => ([], UB)
    | Throw => ([], Throw)
    | Exit n => ([], Exit n)
    | OutOfFuel => ([], OutOfFuel)
    end.

  (* libmonaa/monaa.hh:845-1027. *)
  Fixpoint t_match (fuel : nat) (c : ctype W) (j : nat) (cs ls : list iconf)
      : traced (ctype W * nat * list iconf * list iconf) :=
    match cs with
    | [] => tlift (Ok (c, j, cs, ls))
    | _ =>
        tbind (tfetch c j) (fun bc =>
        if fst bc then
          match fuel with
          | O => tlift OutOfFuel
          | S f =>
              tbind (tlift (cat W (snd bc) j)) (fun e =>
              tbind (t_acc false (acc_letter M (fst e)) (snd bc) j cs) (fun _ =>
              tbind (map Emits (event_zones M A (fst e) (snd e) cs), Ok tt) (fun _ =>
              t_match f (snd bc) (S j) (event_confs M A (fst e) (snd e) cs) cs)))
          end
        else tlift (Ok (snd bc, j, cs, ls)))
    end.

  (* libmonaa/monaa.hh:808-824. *)
  Fixpoint t_sunday_loop (fuel : nat) (c : ctype W) (i : nat) : traced (ctype W * option nat) :=
    tbind (tlift (cat W c (i + sk_m T - 1))) (fun e =>
    if mem (fst e) (sk_end T) then tlift (Ok (c, Some i))
    else
      tbind (tfetch c (i + sk_m T)) (fun bc =>
      if fst bc then
        tbind (tlift (cat W (snd bc) (i + sk_m T))) (fun e =>
        match sk_delta T (fst e) with
        | None => tlift UB
        | Some d =>
            match fuel with
            | O => tlift OutOfFuel
            | S f =>
                tbind (tfront (snd bc) (i + d - 1)) (fun c =>
                tbind (tfetch c (i + d + sk_m T - 1)) (fun bc =>
                if fst bc then t_sunday_loop f (snd bc) (i + d) else tlift (Ok (snd bc, None))))
            end
        end)
      else tlift (Ok (snd bc, None)))).

  Definition t_sunday_shift (fuel : nat) (c : ctype W) (i : nat) : traced (ctype W * option nat) :=
    if 1 <? sk_m T then
      tbind (tfetch c (i + sk_m T - 1)) (fun bc =>
      if fst bc then t_sunday_loop fuel (snd bc) i else tlift (Ok (snd bc, Some i)))
    else tlift (Ok (c, Some i)).

  (* libmonaa/monaa.hh:776-1155. *)
  Fixpoint t_outer (fuel : nat) (c : ctype W) (i : nat) (ls : list iconf) : traced unit :=
    tbind (tfetch c (i + sk_m T - 1)) (fun bc =>
    if fst bc then
      match fuel with
      | O => tlift OutOfFuel
      | S f =>
          tbind (t_sunday_shift fuel (snd bc) i) (fun ci =>
          match snd ci with
          | None => tlift (Ok tt)
          | Some i =>
              tbind (tfetch (fst ci) i) (fun bc =>
              if fst bc then
                tbind (tlift (start_confs W A (snd bc) i)) (fun cs =>
                tbind (t_match fuel (snd bc) i cs ls) (fun r =>
                let '(c, j, cs, ls) := r in
                tbind (tfetch c j) (fun bc =>
                tbind (if fst bc then tlift (Ok ls)
                       else match M with
                            | MSignal => tlift (Ok cs)
                            | _ => tbind (t_acc true dollar (snd bc) j cs) (fun _ => tlift (Ok cs))
                            end) (fun ls =>
                tbind (tlift (greatest T ls)) (fun n =>
                tbind (tfront (snd bc) (i + n - 1)) (fun c =>
                t_outer f c (i + n) ls))))))
              else tlift (Ok tt))
          end)
      end
    else tlift (Ok tt)).
End Run.

(* monaaDollar, libmonaa/monaa.hh:702-1157, with the order of its actions.  The
   tables are made before anything is read. *)
Definition t_monaaDollar (fuel : nat) (al : alloc) (W : cont) (A : ta) (c : ctype W) : traced unit :=
  tbind (tlift (make_ap A)) (fun Ap =>
  tbind (tlift (tables fuel al Ap)) (fun T =>
  if no_eps A then t_outer W A T MDollar fuel c 0 [] else tlift (Ok tt))).

(* monaa without unobservable transitions, libmonaa/monaa.hh:151-467. *)
Definition t_monaa_plain (fuel : nat) (al : alloc) (W : cont) (A : ta) (c : ctype W) : traced unit :=
  tbind (tlift (tables fuel al A)) (fun T => t_outer W A T MSignal fuel c 0 []).

(* monaaNotNecessaryDollar, libmonaa/monaa.hh:1168-1661. *)
Definition t_monaaNotNecessaryDollar (fuel : nat) (al : alloc) (W : cont) (A : ta) (c : ctype W) : traced unit :=
  tbind (tlift (tables fuel al (make_ap_lax A))) (fun T =>
  if no_eps A then t_outer W A T MOptional fuel c 0 [] else tlift (Ok tt)).

(* ---------------- specification ---------------- *)

(* The zones reported in a trace. *)
Definition emitted (tr : list act) : list mat :=
  flat_map (fun a => match a with Emits z => [z] | Reads _ => [] end) tr.

(* What is done before more than n events of the word are asked for. *)
Fixpoint before (n : nat) (tr : list act) : list act :=
  match tr with
  | [] => []
  | Reads k :: r => if k <=? n then Reads k :: before n r else []
  | Emits z :: r => Emits z :: before n r
  end.
