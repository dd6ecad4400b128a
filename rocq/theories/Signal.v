(* Model of monaa/intermediate_tre.hh, monaa/intermediate_tre.cc and
   monaa/tre.cc:436-491: the translation of timed regular expressions in signal
   mode.  The objects (AtomicTRE, SingletonTRE, DNFTRE) are held by shared_ptr
   and changed in place, so the model has an explicit heap of objects. *)
From Coq Require Import QArith Bool List ZArith Arith.
From Verif Require Import Num Outcome Interval Constraint Zone TA Tre.
Import ListNotations.
Open Scope nat_scope.

(* ---------------- SyntacticDecision ---------------- *)

(* monaa/intermediate_tre.hh:14-41.  A character is a natural number: the lexer
   (monaa/tre_lexer.l:44) only makes letters and '$', which are positive chars. *)
Inductive dtag : Type := DConst | DMixed.
Record decision : Type := mkDec { dec_tag : dtag; dec_chars : list nat }.

Definition isMixed (d : decision) : bool :=
  match dec_tag d with DMixed => negb (is_nil (dec_chars d)) | DConst => false end.
Definition isConstant (d : decision) : option nat :=
  match dec_chars d with [c] => Some c | _ => None end.

(* std::set_union and std::set_intersection on sorted vectors. *)
Fixpoint set_union (a : list nat) : list nat -> list nat :=
  fix go (b : list nat) : list nat :=
    match a, b with
    | [], _ => b
    | _, [] => a
    | x :: a', y :: b' =>
        if x <? y then x :: set_union a' b else if y <? x then y :: go b' else x :: set_union a' b'
    end.
Fixpoint set_inter (a : list nat) : list nat -> list nat :=
  fix go (b : list nat) : list nat :=
    match a, b with
    | x :: a', y :: b' =>
        if x <? y then set_inter a' b else if y <? x then go b' else x :: set_inter a' b'
    | _, _ => []
    end.

(* chars.size() > 0 && chars[0] == 0. *)
Definition has0 (l : list nat) : bool := match l with 0 :: _ => true | _ => false end.

(* uniqChar; -1 is [None]. *)
Definition uniqChar (l : list nat) : option nat :=
  match l with
  | [c] => Some c
  | [0; c] => Some c
  | _ => None
  end.

(* SyntacticDecision::concat, monaa/intermediate_tre.cc:16-61. *)
Definition dec_concat (d e : decision) : decision :=
  let chars :=
    if has0 (dec_chars d) then
      (if has0 (dec_chars e) then set_union (dec_chars d) (dec_chars e) else dec_chars e)
    else if has0 (dec_chars e) then dec_chars d
    else set_inter (dec_chars d) (dec_chars e) in
  let tag :=
    match dec_tag d, dec_tag e with
    | DConst, DConst =>
        match uniqChar (dec_chars d), uniqChar (dec_chars e) with
        | Some a, Some b => if (a =? 0) || (b =? 0) || (a =? b) then DConst else DMixed
        | _, _ => DMixed
        end
    | _, _ => DMixed
    end in
  mkDec tag chars.

(* ---------------- the heap ---------------- *)

(* The variants of AtomicTRE (monaa/intermediate_tre.hh:90-216); objects are
   referred to by their index.  [AMoved] is a singleton whose pointer was moved
   away, monaa/intermediate_tre.cc:291-296. *)
Inductive acell : Type :=
| ASing : nat -> acell
| AMoved : acell
| AEps : acell
| ACat : list nat -> acell
| APlus : nat -> acell
| AWithin : nat -> interval -> acell.

Record atom : Type := mkAt { at_cell : acell; at_dec : option decision }.
Record dnf : Type := mkDn { dn_list : list (list nat); dn_dec : option decision }.

(* The AtomicTRE, SingletonTRE and DNFTRE objects.  The Interval objects of a
   SingletonTRE are values: the only vectors that share Interval objects are
   those of an atom and its copy in the constructor for within
   (monaa/intermediate_tre.hh:170-173), which drops the atom. *)
Record heap : Type := mkH { hA : list atom; hS : list (nat * list interval); hD : list dnf }.

Definition getA (H : heap) (a : nat) : outcome atom :=
  match nth_error (hA H) a with Some x => Ok x | None => UB end.
Definition getS (H : heap) (s : nat) : outcome (nat * list interval) :=
  match nth_error (hS H) s with Some x => Ok x | None => UB end.
Definition getD (H : heap) (d : nat) : outcome dnf :=
  match nth_error (hD H) d with Some x => Ok x | None => UB end.
Definition setA (H : heap) (a : nat) (x : atom) : heap := mkH (set_nth (hA H) a x) (hS H) (hD H).
Definition setS (H : heap) (s : nat) (x : nat * list interval) : heap := mkH (hA H) (set_nth (hS H) s x) (hD H).
Definition setD (H : heap) (d : nat) (x : dnf) : heap := mkH (hA H) (hS H) (set_nth (hD H) d x).
Definition newA (H : heap) (c : acell) : nat * heap := (length (hA H), mkH (hA H ++ [mkAt c None]) (hS H) (hD H)).
Definition newS (H : heap) (c : nat) (l : list interval) : nat * heap :=
  (length (hS H), mkH (hA H) (hS H ++ [(c, l)]) (hD H)).
Definition newD (H : heap) (l : list (list nat)) : nat * heap :=
  (length (hD H), mkH (hA H) (hS H) (hD H ++ [mkDn l None])).

Definition setCell (H : heap) (a : nat) (c : acell) : outcome heap :=
  do x <- getA H a ; Ok (setA H a (mkAt c (at_dec x))).
Definition setDec (H : heap) (a : nat) (d : decision) : outcome heap :=
  do x <- getA H a ; Ok (setA H a (mkAt (at_cell x) (Some d))).

(* Reading a singleton through an atom; a null pointer is undefined. *)
Definition sing_of (H : heap) (a : nat) : outcome nat :=
  do x <- getA H a ; match at_cell x with ASing s => Ok s | _ => UB end.

(* ---------------- constructors ---------------- *)

(* AtomicTRE(c), monaa/intermediate_tre.hh:98-103 and 73-75. *)
Definition newSingle (H : heap) (c : nat) (l : list interval) : nat * heap :=
  let (s, H1) := newS H c l in newA H1 (ASing s).

(* The part of the list an operand of a concatenation contributes. *)
Definition cat_items (H : heap) (a : nat) : outcome (list nat) :=
  do x <- getA H a ;
  Ok (match at_cell x with ACat l => l | AEps => [] | _ => [a] end).

(* AtomicTRE(left, right), monaa/intermediate_tre.hh:119-163.  With one element
   left, the code assigns to a member of the union whose storage still holds the
   destroyed list. *)
Definition newCat (H : heap) (l r : nat) : outcome (nat * heap) :=
  do xs <- cat_items H l ; do ys <- cat_items H r ;
  match xs ++ ys with
  | [] => Ok (newA H AEps)
  | [_] => UB
  | zs => Ok (newA H (ACat zs))
  end.

(* AtomicTRE(atomic, interval), monaa/intermediate_tre.hh:167-179. *)
Definition newWithin (H : heap) (a : nat) (Iv : interval) : outcome (nat * heap) :=
  do x <- getA H a ;
  match at_cell x with
  | ASing s => do cl <- getS H s ; Ok (newSingle H (fst cl) (land1 (snd cl) Iv))
  | AMoved => UB
  | _ => Ok (newA H (AWithin a Iv))
  end.

(* Folding a step that changes the heap and yields a value. *)
Fixpoint hmap {X Y} (f : heap -> X -> outcome (Y * heap)) (H : heap) (l : list X) : outcome (list Y * heap) :=
  match l with
  | [] => Ok ([], H)
  | x :: t => do r <- f H x ; do q <- hmap f (snd r) t ; Ok (fst r :: fst q, snd q)
  end.
Fixpoint hfold {X} (f : heap -> X -> outcome heap) (H : heap) (l : list X) : outcome heap :=
  match l with
  | [] => Ok H
  | x :: t => do H1 <- f H x ; hfold f H1 t
  end.

Definition pairs {X Y} (l : list X) (r : list Y) : list (X * Y) := flat_map (fun x => map (fun y => (x, y)) r) l.

(* DNFTRE(tre), monaa/intermediate_tre.cc:63-143: the list of the new DNFTRE. *)
Fixpoint dnf_of (r : tre) (H : heap) : outcome (list (list nat) * heap) :=
  match r with
  | Atom c => let (a, H1) := newSingle H c [interval_default] in Ok ([[a]], H1)
  | Eps => let (a, H1) := newA H AEps in Ok ([[a]], H1)
  | Plus r1 =>
      do X <- dnf_of r1 H ;
      let (d, H1) := newD (snd X) (fst X) in
      let (a, H2) := newA H1 (APlus d) in Ok ([[a]], H2)
  | Cat r1 r2 =>
      do X <- dnf_of r1 H ; do Y <- dnf_of r2 (snd X) ;
      do Z <- hmap (fun H lr => hmap (fun H ab => newCat H (fst ab) (snd ab)) H (pairs (fst lr) (snd lr)))
                (snd Y) (pairs (fst X) (fst Y)) ;
      Ok (filter (fun l => negb (is_nil l)) (fst Z), snd Z)
  | Alt r1 r2 =>
      do X <- dnf_of r1 H ; do Y <- dnf_of r2 (snd X) ; Ok (fst X ++ fst Y, snd Y)
  | And r1 r2 =>
      do X <- dnf_of r1 H ; do Y <- dnf_of r2 (snd X) ;
      Ok (filter (fun l => negb (is_nil l)) (map (fun lr => fst lr ++ snd lr) (pairs (fst X) (fst Y))), snd Y)
  | Within r1 Iv =>
      do X <- dnf_of r1 H ;
      hmap (fun H l => hmap (fun H a => newWithin H a Iv) H l) (snd X) (fst X)
  end.

(* ---------------- SNF ---------------- *)

(* std::all_of over the atoms of a list: stops at the first false. *)
Fixpoint hall (f : heap -> nat -> outcome (bool * heap)) (H : heap) (l : list nat) : outcome (bool * heap) :=
  match l with
  | [] => Ok (true, H)
  | x :: t => do r <- f H x ; if fst r then hall f (snd r) t else Ok (false, snd r)
  end.

(* The intervals of the singletons of a list of atoms. *)
Fixpoint sings_of (H : heap) (l : list nat) : outcome (list (list interval)) :=
  match l with
  | [] => Ok []
  | a :: t => do s <- sing_of H a ; do cl <- getS H s ; do r <- sings_of H t ; Ok (snd cl :: r)
  end.

(* The conjunctions for which makeSNF succeeds, monaa/intermediate_tre.cc:457-470. *)
Fixpoint snf_keep (f : heap -> nat -> outcome (bool * heap)) (H : heap) (l : list (list nat)) : outcome (list (list nat) * heap) :=
  match l with
  | [] => Ok ([], H)
  | c :: t => do r <- hall f H c ; do q <- snf_keep f (snd r) t ;
              Ok (if fst r then c :: fst q else fst q, snd q)
  end.

(* AtomicTRE::makeSNF and DNFTRE::makeSNF, monaa/intermediate_tre.cc:398-484.
   Fuel: the depth of the recursion. *)
Fixpoint snfA (fuel : nat) (c : nat) (H : heap) (a : nat) : outcome (bool * heap) :=
  match fuel with
  | O => OutOfFuel
  | S f =>
      do x <- getA H a ;
      match at_cell x with
      | ASing s => do cl <- getS H s ; Ok (c =? fst cl, H)
      | AMoved => UB
      | AEps => Ok (false, H)
      | ACat l =>
          do r <- hall (snfA f c) H l ;
          if fst r then
            do ls <- sings_of (snd r) l ;
            let (s, H1) := newS (snd r) c (fold_left isum ls [mkI bzero bzero]) in
            do H2 <- setCell H1 a (ASing s) ; Ok (true, H2)
          else Ok (false, snd r)
      | APlus d =>
          do H1 <- snfD f c H d ;
          do e <- getD H1 d ;
          match dn_list e with
          | (b :: _) :: _ =>
              do s <- sing_of H1 b ; do cl <- getS H1 s ;
              do H2 <- setCell H1 a (ASing s) ;
              do p <- plus_set (snd cl) ;
              Ok (true, setS H2 s (fst cl, p))
          | _ => UB
          end
      | AWithin b Iv =>
          do r <- snfA f c H b ;
          if fst r then
            do s <- sing_of (snd r) b ; do cl <- getS (snd r) s ;
            do H2 <- setCell (snd r) a (ASing s) ;
            Ok (true, setS H2 s (fst cl, land1 (snd cl) Iv))
          else Ok (false, snd r)
      end
  end
with snfD (fuel : nat) (c : nat) (H : heap) (d : nat) : outcome heap :=
  match fuel with
  | O => OutOfFuel
  | S f =>
      do e <- getD H d ;
      do r <- snf_keep (snfA f c) H (dn_list e) ;
      do ls <- oseq (fun l => do is <- sings_of (snd r) l ; Ok (fold_left land is [interval_default])) (fst r) ;
      let (a, H1) := newSingle (snd r) c (concat ls) in
      do e1 <- getD H1 d ;
      Ok (setD H1 d (mkDn [[a]] (dn_dec e1)))
  end.

(* ---------------- normal form ---------------- *)

(* Merging within a concatenation, monaa/intermediate_tre.cc:166-179.  [kept]
   elements precede [l] in the list.  Fuel: the length of the list. *)
Fixpoint merge_loop (fuel : nat) (H : heap) (kept : nat) (l : list nat) : outcome (list nat * heap) :=
  match fuel with
  | O => OutOfFuel
  | S f =>
      match l with
      | [] => Ok ([], H)
      | a :: t =>
          do x <- getA H a ;
          match at_cell x with
          | AEps =>
              if 1 <? kept + length l then merge_loop f H kept t
              else do r <- merge_loop f H (S kept) t ; Ok (a :: fst r, snd r)
          | ASing s =>
              match t with
              | b :: t' =>
                  do y <- getA H b ;
                  match at_cell y with
                  | ASing s' =>
                      do cl <- getS H s ; do cl' <- getS H s' ;
                      if fst cl =? fst cl'
                      then merge_loop f (setS H s (fst cl, isum (snd cl) (snd cl'))) kept (a :: t')
                      else do r <- merge_loop f H (S kept) t ; Ok (a :: fst r, snd r)
                  | AMoved => UB
                  | _ => do r <- merge_loop f H (S kept) t ; Ok (a :: fst r, snd r)
                  end
              | [] => Ok ([a], H)
              end
          | _ => do r <- merge_loop f H (S kept) t ; Ok (a :: fst r, snd r)
          end
      end
  end.

(* The decision of one atom, which toNormalForm has set. *)
Definition dec_of (H : heap) (a : nat) : outcome decision :=
  do x <- getA H a ; match at_dec x with Some d => Ok d | None => UB end.

(* The decisions of the elements of a concatenation: each element is normalised
   and its decision appended, monaa/intermediate_tre.cc:158-164. *)
Fixpoint cat_decs (f : heap -> nat -> outcome heap) (H : heap) (acc : decision) (l : list nat) : outcome (decision * heap) :=
  match l with
  | [] => Ok (acc, H)
  | a :: t => do H1 <- f H a ; do d <- dec_of H1 a ; cat_decs f H1 (dec_concat acc d) t
  end.

(* Whether some element is a plus whose expression is Mixed,
   monaa/intermediate_tre.cc:209-213. *)
Fixpoint cat_mixed (H : heap) (l : list nat) : outcome bool :=
  match l with
  | [] => Ok false
  | a :: t =>
      do x <- getA H a ;
      match at_cell x with
      | APlus d => do e <- getD H d ;
                   match dn_dec e with
                   | Some dec => if isMixed dec then Ok true else cat_mixed H t
                   | None => UB
                   end
      | _ => cat_mixed H t
      end
  end.

(* Whether some atom of a conjunction is a plus that is Mixed,
   monaa/intermediate_tre.cc:336-340. *)
Fixpoint conj_mixed (H : heap) (l : list nat) : outcome bool :=
  match l with
  | [] => Ok false
  | a :: t =>
      do x <- getA H a ;
      match at_cell x with
      | APlus _ => do dec <- dec_of H a ; if isMixed dec then Ok true else conj_mixed H t
      | _ => conj_mixed H t
      end
  end.

(* The decision of one conjunction, monaa/intermediate_tre.cc:358-379.  The
   inner loop does not advance its iterator. *)
Fixpoint conj_loop (fuel : nat) (H : heap) (d : decision) (rest : list nat) : outcome decision :=
  match fuel with
  | O => OutOfFuel
  | S f =>
      match rest with
      | [] => Ok d
      | a :: _ =>
          do e <- dec_of H a ;
          conj_loop f H (mkDec (match dec_tag d, dec_tag e with DMixed, DMixed => DMixed | _, _ => DConst end)
                               (set_inter (dec_chars d) (dec_chars e))) rest
      end
  end.
Definition conj_dec (fuel : nat) (H : heap) (l : list nat) : outcome decision :=
  match l with
  | [] => UB
  | a :: t => do d <- dec_of H a ; conj_loop fuel H d t
  end.

(* monaa/intermediate_tre.cc:381-395. *)
Definition dec_or (d e : decision) : decision :=
  mkDec (match dec_tag d, dec_tag e with DConst, DConst => DConst | _, _ => DMixed end)
        (set_inter (dec_chars d) (dec_chars e)).
Definition dnf_dec (ds : list decision) : outcome decision :=
  match ds with
  | [] => UB
  | d :: t => Ok (fold_left dec_or t d)
  end.

(* The decision of a plus, monaa/intermediate_tre.cc:236-242. *)
Definition plus_dec (d : decision) : decision :=
  match dec_tag d, dec_chars d with
  | DConst, [c] => mkDec DConst [c]
  | DConst, [0; c] => mkDec DConst [0; c]
  | _, cs => mkDec DMixed cs
  end.

Section NF.
  (* What the separation code does when a decision is Mixed with characters:
     monaa/intermediate_tre.cc:213-230, 246-277, 305-318 and 342-351.  It is a
     parameter (C61: it is never run). *)
  Variable sepA : heap -> nat -> outcome heap.
  Variable sepD : heap -> nat -> outcome heap.

  (* AtomicTRE::toNormalForm and DNFTRE::toNormalForm,
     monaa/intermediate_tre.cc:145-396.  Fuel: the depth of the recursion, and
     the number of turns of the loop over a conjunction. *)
  Fixpoint nfA (fuel : nat) (H : heap) (a : nat) : outcome heap :=
    match fuel with
    | O => OutOfFuel
    | S f =>
        do x <- getA H a ;
        match at_cell x with
        | ASing s => do cl <- getS H s ; setDec H a (mkDec DConst [fst cl])
        | AMoved => UB
        | AEps => setDec H a (mkDec DConst [0])
        | ACat l =>
            do r <- cat_decs (nfA f) H (mkDec DConst [0]) l ;
            do H1 <- setDec (snd r) a (fst r) ;
            do m <- merge_loop (S (length l)) H1 0 l ;
            do H2 <- (match fst m with
                      | [b] => do y <- getA (snd m) b ;
                               match at_cell y with AMoved => UB | c => setCell (snd m) a c end
                      | l' => setCell (snd m) a (ACat l')
                      end) ;
            do x2 <- getA H2 a ;
            match at_cell x2 with
            | ACat l' => do mx <- cat_mixed H2 l' ; if mx then sepA H2 a else Ok H2
            | _ => Ok H2
            end
        | APlus d =>
            do H1 <- nfD f H d ;
            do e <- getD H1 d ;
            match dn_dec e with
            | None => UB
            | Some de =>
                let da := plus_dec de in
                do H2 <- setDec H1 a da ;
                do H3 <- (if isMixed da then sepA H2 a else Ok H2) ;
                match isConstant da with
                | Some c => do r <- snfA f c H3 a ; Ok (snd r)
                | None => Ok H3
                end
            end
        | AWithin b Iv =>
            do H1 <- nfA f H b ;
            do d <- dec_of H1 b ;
            do H2 <- setDec H1 a d ;
            do y <- getA H2 b ;
            match at_cell y with
            | ASing s =>
                do cl <- getS H2 s ;
                let H3 := setS H2 s (fst cl, land1 (snd cl) Iv) in
                do H4 <- setCell H3 b AMoved ;
                setCell H4 a (ASing s)
            | AMoved => UB
            | AEps => setCell H2 a AEps
            | APlus _ => if isMixed d then sepA H2 a else Ok H2
            | _ => Ok H2
            end
        end
    end
  with nfD (fuel : nat) (H : heap) (d : nat) : outcome heap :=
    match fuel with
    | O => OutOfFuel
    | S f =>
        do e <- getD H d ;
        do H1 <- hfold (fun H l => hfold (nfA f) H l) H (dn_list e) ;
        do ms <- oseq (conj_mixed H1) (dn_list e) ;
        do H2 <- (if existsb (fun b => b) ms then sepD H1 d else Ok H1) ;
        do e2 <- getD H2 d ;
        do ds <- oseq (conj_dec f H2) (dn_list e2) ;
        do dec <- dnf_dec ds ;
        Ok (setD H2 d (mkDn (dn_list e2) (Some dec)))
    end.
End NF.

(* ---------------- signal automata ---------------- *)

(* The guard of one interval on clock 0, monaa/intermediate_tre.cc:506-532.
   (Conversions of doubles to int; an infinite lower bound is undefined.) *)
Definition sing_guard (Iv : interval) : outcome (list constr) :=
  let lo := if beqb (lob Iv) bzero then Some []
            else match num_to_int (fst (lob Iv)) with
                 | Some z => Some [mkC 0 (if snd (lob Iv) then Ge else Gt) z]
                 | None => None
                 end in
  let up := match fst (upb Iv) with
            | PInf | MInf => Some []
            | n => match num_to_int n with
                   | Some z => Some [mkC 0 (if snd (upb Iv) then Le else Lt) z]
                   | None => None
                   end
            end in
  match lo, up with Some l, Some u => Ok (l ++ u) | _, _ => UB end.

(* case op::singleton, monaa/intermediate_tre.cc:488-540. *)
Definition singTA (al : nat -> ptr) (c : nat) (ivs : list interval) (n : nat) : outcome (ta * nat) :=
  match ivs with
  | [] => Ok (mkTA [] [] [], n)
  | _ =>
      do gs <- oseq sing_guard ivs ;
      let m := fold_left (fun m g => Z.max m (cc g)) (concat gs) (-1)%Z in
      Ok (mkTA [(al n, mkS false false [(c, map (fun g => mkE (Some (al (S n))) [] g) gs)]); (al (S n), mkS true false [])]
               [al n] (if (m =? -1)%Z then [] else [m]), S (S n))
  end.

(* Appending edges under a key of an unordered_map. *)
Fixpoint key_push (c : nat) (es : list edge) (nx : list (nat * list edge)) : list (nat * list edge) :=
  match nx with
  | [] => [(c, es)]
  | (c', es') :: t => if c =? c' then (c', es' ++ es) :: t else (c', es') :: key_push c es t
  end.

(* The copies of the edges into accepting states, which are appended to the
   vector the loop runs over, monaa/intermediate_tre.cc:598-628.  Reading
   another element after the first append is a use of a dangling reference (the
   vectors are reserved to their exact size). *)
Fixpoint sw_edges (A : ta) (acc : ptr) (gs : list constr) (es : list edge) : outcome (list edge) :=
  match es with
  | [] => Ok []
  | e :: t =>
      if acc_tgt A e
      then match t with [] => Ok [mkE (Some acc) (eresets e) (eguard e ++ gs)] | _ => UB end
      else sw_edges A acc gs t
  end.

(* case op::within, monaa/intermediate_tre.cc:579-638.  (As in [withinTA], the
   model converts both bounds always.) *)
Definition sigWithinTA (al : nat -> ptr) (A : ta) (Iv : interval) (n : nat) : outcome (ta * nat) :=
  match num_to_int (fst (upb Iv)), num_to_int (fst (lob Iv)) with
  | Some up, Some lo =>
      let x := clockSize A mod 256 in
      let gs := within_guard x Iv lo up in
      let dummy := fold_left (fun nx p => match deref A p with
                                          | Some s => fold_left (fun nx ce => key_push (fst ce)
                                                         (map (fun e => mkE (etgt e) (eresets e ++ [x]) (eguard e)) (snd ce)) nx)
                                                       (next s) nx
                                          | None => nx
                                          end) (inits A) [] in
      do sts <- oseq (fun ps =>
             do nx <- oseq (fun ce => do es <- sw_edges A (al (S n)) gs (snd ce) ; Ok (fst ce, snd ce ++ es)) (next (snd ps)) ;
             Ok (fst ps, mkS false (zeroDur (snd ps)) nx)) (states A) ;
      Ok (mkTA (sts ++ [(al n, mkS false false dummy); (al (S n), mkS true false [])]) [al n] (maxC A ++ [up]), S (S n))
  | _, _ => UB
  end.

(* case op::plus, monaa/intermediate_tre.cc:549-568: after the call of reserve,
   the reference edge dangles. *)
Definition sigPlusTA (A : ta) : outcome ta :=
  if existsb (fun ps => existsb (fun ce => existsb (acc_tgt A) (snd ce)) (next (snd ps))) (states A)
     && negb (is_nil (inits A)) then UB else Ok A.

(* AtomicTRE::toSignalTA and DNFTRE::toSignalTA into an empty automaton,
   monaa/intermediate_tre.cc:486-668.  Of a conjunction only the automaton of
   the first atom is used.  Fuel: the depth of the recursion. *)
Fixpoint taA (fuel : nat) (al : nat -> ptr) (H : heap) (a : nat) (n : nat) : outcome (ta * nat) :=
  match fuel with
  | O => OutOfFuel
  | S f =>
      do x <- getA H a ;
      match at_cell x with
      | ASing s => do cl <- getS H s ; singTA al (fst cl) (snd cl) n
      | AMoved => UB
      | AEps => Ok (mkTA [(al n, mkS true false [])] [al n] [], S n)
      | APlus d => do X <- taD f al H d n ; do A <- sigPlusTA (fst X) ; Ok (A, snd X)
      | ACat [] => UB
      | ACat (b :: l) =>
          do X <- taA f al H b n ;
          (fix go (l : list nat) (X : ta * nat) : outcome (ta * nat) :=
             match l with
             | [] => Ok X
             | b :: t => do Y <- taA f al H b (snd X) ; go t (concat2 (fst X) (fst Y), snd Y)
             end) l X
      | AWithin b Iv => do X <- taA f al H b n ; sigWithinTA al (fst X) Iv (snd X)
      end
  end
with taD (fuel : nat) (al : nat -> ptr) (H : heap) (d : nat) (n : nat) : outcome (ta * nat) :=
  match fuel with
  | O => OutOfFuel
  | S f =>
      do e <- getD H d ;
      (fix go (l : list (list nat)) (X : ta * nat) : outcome (ta * nat) :=
         match l with
         | [] => Ok X
         | [] :: _ => UB
         | (a :: _) :: t => do Y <- taA f al H a (snd X) ; go t (altTA (fst X) (fst Y), snd Y)
         end) (dn_list e) (mkTA [] [] [], n)
  end.

(* ---------------- unobservable transitions ---------------- *)

(* haveToChangeToEpsilon, monaa/tre.cc:438-449.  (The static map only repeats
   what the keys of the target say.) *)
Definition has_key (A : ta) (q : ptr) (c : nat) : bool :=
  match deref A q with Some s => existsb (fun ce => fst ce =? c) (next s) | None => false end.
Definition to_change (A : ta) (c : nat) (e : edge) : bool :=
  match etgt e with Some q => negb (c =? 0) && has_key A q c | None => false end.

(* The accepting states that get a copy, in the order they are found. *)
Fixpoint nodup_keep (l : list ptr) : list ptr :=
  match l with
  | [] => []
  | p :: t => p :: filter (fun q => negb (q =? p)) (nodup_keep t)
  end.
Definition changed_accepting (A : ta) : list ptr :=
  nodup_keep (flat_map (fun ps => flat_map (fun ce => flat_map (fun e =>
      if to_change A (fst ce) e && acc_tgt A e then match etgt e with Some q => [q] | None => [] end else [])
    (snd ce)) (next (snd ps))) (states A)).

(* renameToEpsilonTransitions, monaa/tre.cc:436-482.  (Inserting the key 0 while
   iterating over the map invalidates the iterators if the map rehashes; the
   model assumes that it does not.) *)
Definition rename_edges (A : ta) (acc : ptr -> ptr) (c : nat) (es : list edge) : list edge :=
  flat_map (fun e => match etgt e with
                     | None => []
                     | Some q => if to_change A c e
                                 then (if match_at A q then [mkE (Some (acc q)) (eresets e) (eguard e)] else [])
                                 else [e]
                     end) es.
Definition rename_state (A : ta) (acc : ptr -> ptr) (s : tastate) : tastate :=
  let kept := map (fun ce => (fst ce, rename_edges A acc (fst ce) (snd ce))) (next s) in
  let eps := flat_map (fun ce => filter (to_change A (fst ce)) (snd ce)) (next s) in
  mkS (isMatch s) (zeroDur s) (match eps with [] => kept | _ => key_push 0 eps kept end).

Definition renameTA (al : nat -> ptr) (A : ta) (n : nat) : ta * nat :=
  let ch := changed_accepting A in
  let acc := fun q => al (n + pos q ch) in
  (mkTA (map (fun ps => let s := rename_state A acc (snd ps) in
                        (fst ps, if mem (fst ps) ch then mkS false (zeroDur s) (next s) else s)) (states A)
         ++ map (fun q => (acc q, mkS true false [])) ch)
        (inits A) (maxC A), n + length ch).

(* toSignalTA, monaa/tre.cc:484-491. *)
Definition toSignalTA (sepA sepD : heap -> nat -> outcome heap) (fuel : nat) (al : nat -> ptr) (r : tre) (n : nat)
    : outcome (ta * nat) :=
  do X <- dnf_of r (mkH [] [] []) ;
  let (d, H) := newD (snd X) (fst X) in
  do H1 <- nfD sepA sepD fuel H d ;
  do Y <- taD fuel al H1 d n ;
  Ok (renameTA al (fst Y) (snd Y)).
