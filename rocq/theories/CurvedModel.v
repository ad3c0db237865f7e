(* Model of kv/doubleint-curvededge.hpp 13-59.  As in DncModel.v the ranges of the partial derivatives of the converted integrand and the estimated numbers of steps are arguments. *)
From Coq Require Import ZArith Bool List.
From Verif Require Import Ext Scalar IntervalModel ElemModel ADModel PsaModel DncModel.

Section Curved.
Context {S : scal}.
(* 19-24: Convert_Curved_Edge::operator() *)
Definition curved_edge (f : iv S -> iv S -> res (iv S)) (el eh : iv S -> res (iv S)) (x y : iv S) : res (iv S) :=
  do tmp <- el x;
  do e <- eh x;
  let tmp2 := isub e tmp in
  do v <- f x (iadd tmp (imul y tmp2));
  Ok (imul v tmp2).
(* 31-33: Swap_xy::operator() *)
Definition swap_xy (f : iv S -> iv S -> res (iv S)) (x y : iv S) : res (iv S) := f y x.
(* 42-46 *)
Definition doubleint_curvededge (P : elemp S) (fuel : nat) (f : iv S -> iv S -> res (iv S)) (el eh : iv S -> res (iv S)) (hd_x hd_y : iv S) (est1 est2 : Z) (start end_ : iv S) (n m1 m2 : Z) : res (iv S) :=
  double_newtoncotes P fuel (curved_edge f el eh) hd_x hd_y est1 est2 start end_ (ipt s0) (ipt s1) n m1 m2.
(* 55-59 *)
Definition doubleint_curvededge_s (P : elemp S) (fuel : nat) (f : iv S -> iv S -> res (iv S)) (el eh : iv S -> res (iv S)) (hd_x hd_y : iv S) (est1 est2 : Z) (start end_ : iv S) (n m1 m2 : Z) : res (iv S) :=
  doubleint_curvededge P fuel (swap_xy f) el eh hd_x hd_y est1 est2 start end_ n m2 m1.
End Curved.
