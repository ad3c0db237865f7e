(* Model of besselj(int n, interval<T> x) in kv/bessel.hpp (17-34), T = double: defint_autostep of DefintAuto.v on the function object
   Besselj_i, whose data members are n, an int, and x.  In the expression the variable 0 is s and the variable 1 is x; n * s is the product
   of an int and a psa.  n is unbounded here, the theorems ask for |n| <= 2^31.  The static const p is constants< interval<T> >::pi().
   The rest of bessel.hpp (36-78) is not modelled. *)
From Coq Require Import ZArith Bool List Arith.
From Verif Require Import Ext Scalar IntervalModel ElemModel ADModel ADInst PsaModel PsaHist OdeModel DefintAuto.
Import ListNotations.

(* 24-26: cos(x * sin(s) - n * s) *)
Definition bessel_e (n : Z) : aexpr := XFun Acos (XSub (XMul (XVar 1) (XFun Asin (XVar 0))) (XSc SOmulr n 0 (XVar 0))).
Section Bessel.
Context {S : scal} (P : elemp S) (fuel : nat).
Notation B := (Ibase P fuel).
Variable root : S -> nat -> S.
(* 29-33; epsilon is numeric_limits<double>::epsilon().  With the value come the lines of DEFINT_SHOW_STEPSIZE *)
Definition besselj (g : nat) (fast : bool) (n : Z) (x : iv S) : hM B (iv S * list (iv S * iv S * iv S)) :=
  dh r <- defint_autostep_par P fuel root (bessel_e n) [x] g fast (ipt s0) (c_pi P) 12 (sdy 1 (-52));
  dh q <- hlift (idiv (fst r) (c_pi P));
  hret (q, snd r).
End Bessel.
