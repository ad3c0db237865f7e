(* What an interval denotes. *)
From Coq Require Import Reals.
From Verif Require Import Ext Scalar IntervalModel.
Open Scope R_scope.

(* r belongs to the closed interval I (I's endpoints satisfy the representation invariant) *)
Definition isin {S : scal} (I : iv S) (r : R) : Prop :=
  swf (lo I) /\ swf (hi I) /\ lb (sval (lo I)) r /\ ub (sval (hi I)) r.

(* a proper interval: no NaN, lower < +inf, upper > -inf, lower <= upper *)
Definition ivalid {S : scal} (I : iv S) : Prop :=
  swf (lo I) /\ swf (hi I) /\
  is_lo (sval (lo I)) /\ is_hi (sval (hi I)) /\ xle (sval (lo I)) (sval (hi I)).

