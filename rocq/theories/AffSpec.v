(* What an affine form denotes: under an assignment e of values in [-1,1] to the noise symbols
   1, 2, ..., a form represents every real within er of a(0) + a(1)*e(1) + a(2)*e(2) + ... *)
From Coq Require Import Reals List.
From Verif Require Import Ext Scalar IntervalModel IntervalSpec AffModel.
Import ListNotations.
Open Scope R_scope.

Section Spec.
Context {S : scal}.
Definition fin (x : S) : Prop := is_fin (sval x).
Definition rv (x : S) : R := match sval x with XR r => r | _ => 0 end.
Definition assignment (e : nat -> R) : Prop := forall i, -1 <= e i <= 1.
(* sum of the coefficients times the symbols k, k+1, ... *)
Fixpoint lsum (e : nat -> R) (k : nat) (l : list S) : R :=
  match l with [] => 0 | a :: l => rv a * e k + lsum e (1 + k) l end.
(* all numbers in the form are finite *)
Definition ffin (x : form S) : Prop := fin (f0 x) /\ Forall fin (fs x) /\ fin (fe x).
Definition frep (e : nat -> R) (x : form S) (r : R) : Prop :=
  ffin x /\ Rabs (r - (rv (f0 x) + lsum e 1 (fs x))) <= rv (fe x).
(* only symbols 1..m occur *)
Definition over (m : nat) (x : form S) : Prop := (length (fs x) <= m)%nat.
(* e' gives the symbols 1..m the same values as e *)
Definition extends (m : nat) (e e' : nat -> R) : Prop := assignment e' /\ forall i, (i <= m)%nat -> e' i = e i.
(* the range computed by to_interval is finite *)
Definition frange (x : form S) : Prop := fin (lo (to_iv x)) /\ fin (hi (to_iv x)).
End Spec.
