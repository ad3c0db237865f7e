(* Model of lp_minimize_verified of kv/lp.hpp (118-263).  The unverified lp_minimize (22-116) is not
   modelled.  A ublas vector or matrix is a function read inside its size only; the objective and the
   constraints, whose sizes come from the caller, are lists. *)
From Coq Require Import ZArith Bool List Arith.
From Verif Require Import Ext Scalar IntervalModel VecModel.
Import ListNotations.

Section Lp.
Variable S : scal.
Notation iv := (iv S).

Definition upd {A : Type} (f : nat -> A) (k : nat) (v : A) : nat -> A := fun i => if Nat.eqb i k then v else f i.

(* the variables of the loop: a, isbasic, basic *)
Record lpst := mklp { lpa : nat -> nat -> S; lpis : nat -> bool; lpb : nat -> nat }.

(* 131-157: a; lpn = objfunc.size() - 1.  Entry 0 of an empty constraint and objfunc(0) of an empty
   objective are out-of-bounds reads *)
Fixpoint cons_ok (cs : list (list S)) : res unit :=
  match cs with
  | [] => Ok tt
  | [] :: _ => Err EUB
  | (c0 :: _) :: cs => if slt s0 c0 then Err EDomain else cons_ok cs
  end.
Definition lp_a (obj : list S) (cs : list (list S)) (i j : nat) : S :=
  let lpn := length obj - 1 in
  match i with
  | O => if j =? 0 then nth 0 obj s0 else if j <=? lpn then sneg (nth j obj s0) else s0
  | Datatypes.S i' =>
      let c := nth i' cs [] in
      if j =? 0 then sneg (nth 0 c s0)
      else if j <=? lpn then (if j <? length c then nth j c s0 else s0)
      else if lpn + i' + 1 =? j then s1 else s0
  end.

Section Loop.
Variables m n : nat.
Variable round : Z.
Definition force2 (f : nat -> nat -> S) : nat -> nat -> S := force (1 + m) (fun i => force (1 + n) (f i)).

(* 167-175: pivot_j and minmax after the columns 1..k *)
Fixpoint pcol (a : nat -> nat -> S) (isb : nat -> bool) (k : nat) : option nat * S :=
  match k with
  | O => (None, s0)
  | Datatypes.S k' =>
      let (p, mm) := pcol a isb k' in
      if isb k then (p, mm) else if slt mm (a 0 k) then (Some k, a 0 k) else (p, mm)
  end.
(* 178-187: pivot_i after the rows 1..k *)
Fixpoint prow (a : nat -> nat -> S) (pj : nat) (k : nat) : option nat * S :=
  match k with
  | O => (None, smax)
  | Datatypes.S k' =>
      let (p, mm) := prow a pj k' in
      if sle (a k pj) s0 then (p, mm)
      else let tmp := ndiv (a k 0) (a k pj) in if slt tmp mm then (Some k, tmp) else (p, mm)
  end.
(* 198-205: a(i,0) raised until Imin.upper() < (a(i,0) / a(i,pivot_j)).lower() *)
Fixpoint raise (fuel : nat) (Imin : iv) (x y : S) : res S :=
  match fuel with
  | O => Err EFuel
  | Datatypes.S fuel =>
      do It <- idivS (ipt x) y;
      if slt (hi Imin) (lo It) then Ok x
      else raise fuel Imin (hi (iaddS (ipt x) sdmin)) y
  end.
(* 208-216: a(pivot_i,0) lowered *)
Fixpoint lower (fuel : nat) (Imin It : iv) (x y : S) : res (iv * S) :=
  match fuel with
  | O => Err EFuel
  | Datatypes.S fuel =>
      if slt (hi Imin) (lo It) then Ok (Imin, x)
      else
        let x := lo (isubS (ipt x) sdmin) in
        do Imin <- idivS (ipt x) y;
        lower fuel Imin It x y
  end.
(* 193-219: the loop over the rows l *)
Fixpoint ties (fuel : nat) (r p : nat) (Imin : iv) (a : nat -> nat -> S) (l : list nat) : res (nat -> nat -> S) :=
  match l with
  | [] => Ok a
  | i :: l =>
      if sle (a i p) s0 then ties fuel r p Imin a l
      else if i =? r then ties fuel r p Imin a l
      else if (round =? -1)%Z then
        do x <- raise fuel Imin (a i 0) (a i p);
        ties fuel r p Imin (upd a i (upd (a i) 0 x)) l
      else
        do It <- idivS (ipt (a i 0)) (a i p);
        do q <- lower fuel Imin It (a r 0) (a r p);
        ties fuel r p (fst q) (upd a r (upd (a r) 0 (snd q))) l
  end.
(* 225-232: row pivot_i of Ia; entries of basic columns are not computed *)
Fixpoint divrow (a : nat -> nat -> S) (isb : nat -> bool) (r p k : nat) : res (nat -> iv) :=
  match k with
  | O => Ok (fun _ => i0)
  | Datatypes.S k' =>
      do f <- divrow a isb r p k';
      if isb k' then Ok f
      else do q <- iSdiv (a r k') (ipt (a r p)); Ok (upd f k' q)
  end.
(* 221-262: the new tableau.  Itmp = a(i,pivot_j) is read before the entry is cleared. *)
Definition elim (a : nat -> nat -> S) (isb : nat -> bool) (r p : nat) (Ir : nat -> iv) : nat -> nat -> S := fun i j =>
  if isb j then (if j =? p then (if i =? r then s1 else s0) else a i j)
  else if i =? r then (if xorb (j =? 0) (round =? 1)%Z then hi (Ir j) else lo (Ir j))
  else
    let I := iSsub (a i j) (imul (Ir j) (ipt (a i p))) in
    if xorb (xorb (j =? 0) (round =? 1)%Z) (i =? 0) then hi I else lo I.
(* one turn of the loop; None: break *)
Definition lp_step (fuel : nat) (st : lpst) : res (option lpst) :=
  let a := lpa st in
  match fst (pcol a (lpis st) n) with
  | None => Ok None
  | Some p =>
    match fst (prow a p m) with
    | None => Err EDomain
    | Some r =>
      do Imin <- idivS (ipt (a r 0)) (a r p);
      do a <- ties fuel r p Imin a (seq 1 m);
      let isb := upd (upd (lpis st) (lpb st r) false) p true in
      do Ir <- divrow a isb r p (1 + n);
      Ok (Some (mklp (force2 (elim a isb r p Ir)) (force (1 + n) isb) (force (1 + m) (upd (lpb st) r p))))
    end
  end.
Fixpoint lp_loop (fuel : nat) (st : lpst) : res lpst :=
  match fuel with
  | O => Err EFuel
  | Datatypes.S f =>
      do o <- lp_step fuel st;
      match o with None => Ok st | Some st' => lp_loop f st' end
  end.
End Loop.

(* 118-165 and 263 *)
Definition lp_init (obj : list S) (cs : list (list S)) : res lpst :=
  let lpn := length obj - 1 in
  if length obj =? 0 then Err EUB
  else
    do _ <- cons_ok cs;
    let m := length cs in
    let n := lpn + m in
    Ok (mklp (force2 m n (lp_a obj cs)) (force (1 + n) (fun i => lpn <? i)) (fun i => lpn + i)).
Definition lp_minimize_verified (fuel : nat) (obj : list S) (cs : list (list S)) (round : Z) : res S :=
  do st <- lp_init obj cs;
  do st <- lp_loop (length cs) (length obj - 1 + length cs) round fuel st;
  Ok (lpa st 0 0).
End Lp.
Arguments mklp {S}. Arguments lpa {S}. Arguments lpis {S}. Arguments lpb {S}.
Arguments lp_a {S}. Arguments cons_ok {S}. Arguments pcol {S}. Arguments prow {S}. Arguments raise {S}. Arguments lower {S}.
Arguments ties {S}. Arguments divrow {S}. Arguments elim {S}. Arguments lp_step {S}. Arguments lp_loop {S}.
Arguments lp_init {S}. Arguments lp_minimize_verified {S}. Arguments force2 {S}.
