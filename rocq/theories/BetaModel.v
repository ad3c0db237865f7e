(* Model of kv/beta.hpp (13-81), T = double: defint_power_autostep and defint_power_autostep_r (SingAuto.v) on the function objects Beta, Beta_s1 and
   Beta_s2, whose data members are x and y.  In the expressions the variable 0 is t, the others are the data members in their order.  The two
   integrals of beta_r are computed in the order in which they are written; each comes with its lines of DEFINT_SHOW_STEPSIZE.  toint is the
   conversion of a double to int; ints are unbounded here, the theorems ask for arguments below 2^30.  BETA_ORDER is 18 by default. *)
From Coq Require Import ZArith Bool List Arith.
From Verif Require Import Ext Scalar IntervalModel ElemModel ADModel ADInst PsaModel PsaHist OdeModel DefintAuto SingAuto.
Import ListNotations.

(* 17-19: x is the variable 1, y the variable 2 *)
Definition beta_e : aexpr := XMul (XPow (XVar 0) (XSc SOsub 1 0 (XVar 1))) (XPow (XSc SOsubr 1 0 (XVar 0)) (XSc SOsub 1 0 (XVar 2))).
(* 26-28: y is the variable 1 *)
Definition beta_s1_e : aexpr := XPow (XSc SOsubr 1 0 (XVar 0)) (XSc SOsub 1 0 (XVar 1)).
(* 35-37: x is the variable 1 *)
Definition beta_s2_e : aexpr := XPow (XVar 0) (XSc SOsub 1 0 (XVar 1)).
Section Beta.
Context {S : scal} (P : elemp S) (fuel : nat).
Notation B := (Ibase P fuel).
Notation I := (iv S).
Notation lines := (list (I * I * I)).
Variable root : S -> nat -> S.
Variable proot : S -> S -> nat -> S.
Variable toint : S -> Z.
Variable order : Z.
(* the bound on the number of steps, and DEFINT_FAST *)
Variables (n : nat) (fast : bool).
(* 44-48 *)
Definition beta_r (x y : I) : hM B (I * (lines * lines)) :=
  dh a <- power_autostep P fuel root proot (ipowI S P fuel) n fast (pobj [(x : bT B); (y : bT B)] beta_e) (pobj [(y : bT B)] beta_s1_e)
    (ipt s0) (ipt (sdy 1 (-1))) order (isubS x s1) (sdy 1 (-52));
  dh c <- power_autostep_r P fuel root proot (ipowI S P fuel) n fast (pobj [(x : bT B); (y : bT B)] beta_e) (pobj [(x : bT B)] beta_s2_e)
    (ipt (sdy 1 (-1))) (ipt s1) order (isubS y s1) (sdy 1 (-52));
  hret (iadd (fst a) (fst c), (snd a, snd c)).
(* r *= z - i and r /= z - i in a loop: k turns are left, i is the value of i *)
Fixpoint b_mul (z : I) (k : nat) (i : Z) (r : I) : I :=
  match k with O => r | Datatypes.S k' => b_mul z k' (i + 1) (imul r (isubS z (sdy i 0))) end.
Fixpoint b_div (z : I) (k : nat) (i : Z) (r : I) : res I :=
  match k with O => Ok r | Datatypes.S k' => do q <- idiv r (isubS z (sdy i 0)); b_div z k' (i + 1) q end.
(* 62-66 and 74-78 *)
Definition b_times (z : I) (m : S) (r : I) : res I :=
  if sle s1 m then Ok (b_mul z (Z.to_nat (toint m)) 1 r)
  else let i := toint (nadd m s1) in b_div z (Z.to_nat (1 - i)) i r.
(* 68-72 *)
Definition b_over (z : I) (m : S) (r : I) : res I :=
  if sle s1 m then b_div z (Z.to_nat (toint m)) 1 r
  else let i := toint (nadd m s1) in Ok (b_mul z (Z.to_nat (1 - i)) i r).
(* 50-81 *)
Definition beta (x y : I) : hM B (I * (lines * lines)) :=
  let n_x := nsub (sfloor (lo x)) s1 in
  let n_y := nsub (sfloor (lo y)) s1 in
  dh r <- beta_r (isubS x n_x) (isubS y n_y);
  dh q <- hlift (b_times x n_x (fst r));
  dh q <- hlift (b_over (iadd x y) (nadd n_x n_y) q);
  dh q <- hlift (b_times y n_y q);
  hret (q, snd r).
End Beta.
