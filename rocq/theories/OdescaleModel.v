(* Model of kv/odescale.hpp, class Odescale, with T = interval (the solvers also call it with psa and autodif: not modelled).  f is the function object passed to the constructor.  Reading past
   the end of the vector f returns is Err EUB, as is an argument of size 0 (tx.resize(-1)). *)
From Coq Require Import ZArith Bool List Arith.
From Verif Require Import Ext Scalar IntervalModel.
Import ListNotations.

Section Odescale.
Context {S : scal}.
Notation I := (iv S).
(* 20 *)
Variable f : list I -> I -> res (list I).
(* ty(0), ..., ty(k-1), as read in 31-33, 38-40 and 43-45 *)
Fixpoint read (k : nat) (ty : list I) : res (list I) :=
  match k with
  | O => Ok []
  | Datatypes.S k' => match ty with [] => Err EUB | y :: r => do q <- read k' r; Ok (y :: q) end
  end.
(* 37-40 *)
Definition scale_sum (ty : list I) : I := fold_left (fun g0 y => iadd g0 (imul y y)) ty (ipt s1).
(* 41 *)
Definition scale_g0 (ty : list I) : res I := do r <- isqrt (scale_sum ty); iSdiv s1 r.
(* 22-49 *)
Definition odescale (x : list I) (t : I) : res (list I) :=
  match length x with
  | O => Err EUB
  | Datatypes.S s1 =>
      do tx <- read s1 x;
      match nth_error x s1 with
      | None => Err EUB
      | Some last =>
          do fy <- f tx last;
          do ty <- read s1 fy;
          do g0 <- scale_g0 ty;
          Ok (map (fun y => imul y g0) ty ++ [g0])
      end
  end.
End Odescale.
