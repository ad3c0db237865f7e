(* Initial value problems x'(t) = f(x(t), t): what a solution is, stated with the meaning of expressions only. *)
From Coq Require Import Reals List Arith.
From Verif Require Import ADModel ADReal.
Open Scope R_scope.

(* the variables of f: x_0 .. x_(n-1) and the time as variable n *)
Definition at_time (n : nat) (x : nat -> R) (t : R) : nat -> R := fun i => if (i <? n)%nat then x i else t.
(* phi solves x' = f(x, t), x(t0) = x0 on the closed interval from t0 to t1; f is defined along phi *)
Definition solution (n : nat) (es : nat -> aexpr) (t0 t1 : R) (x0 : nat -> R) (phi : nat -> R -> R) : Prop :=
  (forall i, (i < n)%nat -> phi i t0 = x0 i) /\
  (forall i t, (i < n)%nat -> t0 <= t <= t1 -> adom (es i) (at_time n (fun j => phi j t) t)) /\
  (forall i t, (i < n)%nat -> t0 < t < t1 -> derivable_pt_lim (phi i) t (rval (es i) (at_time n (fun j => phi j t) t))) /\
  (forall i t, (i < n)%nat -> t0 <= t <= t1 -> forall e, 0 < e -> exists d, 0 < d /\ forall s, t0 <= s <= t1 -> Rabs (s - t) < d -> Rabs (phi i s - phi i t) < e).
(* the only solution, on the whole interval and on every part of it that begins at t0 *)
Definition unique_solution (n : nat) (es : nat -> aexpr) (t0 t1 : R) (x0 : nat -> R) (phi : nat -> R -> R) : Prop :=
  solution n es t0 t1 x0 phi /\
  forall t' psi, t0 <= t' <= t1 -> solution n es t0 t' x0 psi -> forall i t, (i < n)%nat -> t0 <= t <= t' -> psi i t = phi i t.
