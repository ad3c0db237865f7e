(* Model of double_newtoncotes in kv/double-newtoncotes.hpp 26-156.  The three tables (32-61) are those of defint_newtoncotes (NcModel.v), letter by letter.
   - double_newtoncotes takes hd_x and hd_y, the ranges of the two partial derivatives of order errord[n] (67-81), as arguments; double_newtoncotes_opt computes them;
   - the numbers of steps estimated in 85-128 when m1 or m2 is 0 are the parameters est1, est2: they only select the grid;
   - f is any function object on T = interval.  ints are unbounded. *)
From Coq Require Import ZArith Bool List Arith.
From Verif Require Import Ext Scalar IntervalModel ElemModel ADModel ADInst PsaModel OptModel NcModel.
Import ListNotations.

Section Dnc.
Variable B : base.
Variables (row : list (Z * Z)) (err : Z * Z) (ord : Z).    (* coeff[n], errterm[n], errord[n] *)
Variable f : B -> B -> res B.
(* 142-148 *)
Fixpoint dnc_inner (k1 x start2 h2 : B) (n m2 : Z) (cnt : nat) (j : Z) (r : B) : res B :=
  match cnt with
  | O => Ok r
  | S cnt =>
      let y := badd start2 (bSmul j 0 h2) in
      do k2 <- frac (nth (nc_idx n m2 j) row (0, 1)%Z);
      do v <- f x y;
      dnc_inner k1 x start2 h2 n m2 cnt (j + 1) (badd r (bmul (bmul k1 k2) v))
  end.
(* 137-149 *)
Fixpoint dnc_outer (start1 h1 start2 h2 : B) (n m1 m2 : Z) (cnt : nat) (i : Z) (r : B) : res B :=
  match cnt with
  | O => Ok r
  | S cnt =>
      let x := badd start1 (bSmul i 0 h1) in
      do k1 <- frac (nth (nc_idx n m1 i) row (0, 1)%Z);
      do r <- dnc_inner k1 x start2 h2 n m2 (Z.to_nat (m2 + 1)) 0 r;
      dnc_outer start1 h1 start2 h2 n m1 m2 cnt (i + 1) r
  end.
(* 65-66, 130-155 *)
Definition dnc_sum (start1 end1 start2 end2 hd_x hd_y : B) (n m1 m2 : Z) : res B :=
  let w1 := bsub end1 start1 in
  let w2 := bsub end2 start2 in
  let m1 := nc_round n m1 in
  let m2 := nc_round n m2 in
  do h1 <- bdivS w1 m1 0;
  do h2 <- bdivS w2 m2 0;
  do r <- dnc_outer start1 h1 start2 h2 n m1 m2 (Z.to_nat (m1 + 1)) 0 t0;
  let r := bmul r (bmul h1 h2) in
  do et <- frac err;
  do q1 <- bpowi h1 ord;
  let r := badd r (bmul (bmul (bmul (bmul hd_x w1) w2) q1) et) in
  do q2 <- bpowi h2 ord;
  Ok (badd r (bmul (bmul (bmul (bmul hd_y w1) w2) q2) et)).
End Dnc.
Arguments dnc_inner {B}. Arguments dnc_outer {B}. Arguments dnc_sum {B}.

(* 26-156 *)
Definition double_newtoncotes {S : scal} (P : elemp S) (fuel : nat) (f : iv S -> iv S -> res (iv S)) (hd_x hd_y : iv S) (est1 est2 : Z) (start1 end1 start2 end2 : iv S) (n m1 m2 : Z) : res (iv S) :=
  if (n <? 1)%Z || (7 <? n)%Z then Err EDomain
  else
    let k := Z.to_nat n in
    let '(m1, m2) := if (m1 =? 0)%Z || (m2 =? 0)%Z then (est1, est2) else (m1, m2) in
    dnc_sum (B := Ibase P fuel) (nc_row k) (nth k nc_err (0, 1)%Z) (nc_d k) f start1 end1 start2 end2 hd_x hd_y n m1 m2.

(* 73-81: the range of a derivative.  g is PartialDeriv on interval<T> (kv/highderiv.hpp 94-102) and fD its gradient on autodif; both are parameters.
   limit and ofuel as in NcModel.v; maximize_value is minimize_value of -g with the opposite sign (kv/optimize.hpp 43-50) *)
Definition dnc_range {S : scal} (g : (nat -> iv S) -> res (iv S)) (fD : (nat -> iv S) -> res (nat -> iv S)) (limit : S) (ofuel : nat) (v : nat -> iv S) : res (iv S) :=
  do lo_ <- minimize_value 2 g fD v limit ofuel;
  do hi_ <- minimize_value 2 (negr g) (negd fD) v limit ofuel;
  Ok (hull lo_ (ineg hi_)).
(* 26-156 with the two ranges computed *)
Definition double_newtoncotes_opt {S : scal} (P : elemp S) (fuel : nat) (f : iv S -> iv S -> res (iv S)) (gx gy : (nat -> iv S) -> res (iv S)) (dgx dgy : (nat -> iv S) -> res (nat -> iv S)) (limit : S) (ofuel : nat)
    (est1 est2 : Z) (start1 end1 start2 end2 : iv S) (n m1 m2 : Z) : res (iv S) :=
  if (n <? 1)%Z || (7 <? n)%Z then Err EDomain
  else
    let v := fun i => match i with O => hull start1 end1 | _ => hull start2 end2 end in
    do hd_x <- dnc_range gx dgx limit ofuel v;
    do hd_y <- dnc_range gy dgy limit ofuel v;
    double_newtoncotes P fuel f hd_x hd_y est1 est2 start1 end1 start2 end2 n m1 m2.
