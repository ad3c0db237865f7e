(* What a double-double stands for, and what a directed operation on it must return. *)
From Coq Require Import Reals.
From Flocq Require Import Core BinarySingleNaN.
From Verif Require Import Ext Scalar Fp64 DdModel.
Open Scope R_scope.

(* the unevaluated sum; an infinite first component is the infinity itself *)
Definition ddval (x : dd) : ext :=
  match v64 (a1 x), v64 (a2 x) with
  | XR r, XR s => XR (r + s)
  | Xp, XR _ => Xp
  | Xm, XR _ => Xm
  | _, _ => Xn
  end.

(* normalised: a1 is the sum rounded to nearest, or a1 is infinite and a2 is zero *)
Definition ddok (x : dd) : Prop :=
  match v64 (a1 x), v64 (a2 x) with
  | XR r, XR s => rnd mode_NE (r + s) = r
  | Xp, XR s | Xm, XR s => s = 0
  | _, _ => False
  end.

(* z is a normalised result, on the right side of e; when e is undefined (inf - inf, 0 * inf, ...)
   there is nothing to enclose *)
Definition bounds (d : bool) (e : ext) (z : dd) : Prop :=
  e <> Xn -> ddok z /\ (if d then xup e (ddval z) else xdown e (ddval z)).

(* The scope of the division theorem: either the dividend is at most 2^1022 in magnitude, or halving
   the low parts of both operands is exact. *)
Definition div_scope (x y : dd) : Prop :=
  (forall r, v64 (a1 x) = XR r -> Rabs r <= bpow radix2 1022) \/
  (forall s, v64 (a2 x) = XR s \/ v64 (a2 y) = XR s -> generic_format radix2 FX (s / 2)).
