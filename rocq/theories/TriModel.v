(* Model of trigamma_plus, trigamma_point, trigamma in kv/gamma.hpp (444-531), T = double: defint_singular_autostep (kv/defint-singular.hpp 624-744,
   SingAuto.v) on the function objects Trigamma and Trigamma_0, whose data member is x.  -x * t is (-x) * t, the product of an interval and a
   psa: in the expressions the variable 0 is t and the variable 1 is -x.  th is the double 53 * std::log(2.), toint the conversion of a
   double to int, both of the C++ implementation.  ints are unbounded here, the theorems ask for arguments below 2^31.  TRIGAMMA_ORDER is 14 by
   default.  With the value come the lines of DEFINT_SHOW_STEPSIZE. *)
From Coq Require Import ZArith Bool List Arith.
From Verif Require Import Ext Scalar IntervalModel ElemModel ADModel ADInst PsaModel PsaHist OdeModel SingModel DefintAuto SingAuto.
Import ListNotations.

(* exp(-x * t) and 1 - exp(-t) *)
Definition tri_num_e : aexpr := XFun Aexp (XMul (XVar 1) (XVar 0)).
Definition tri_den_e : aexpr := XSc SOsubr 1 0 (XFun Aexp (XNeg (XVar 0))).
(* 458-461 *)
Definition trigamma_e : aexpr := XDiv tri_num_e (XDiv tri_den_e (XVar 0)).
(* g(t) / div_tn(f(t), n); the operands of / are evaluated from left to right *)
Definition hdivcut {B : base} (g f : hfn B) (n : Z) : hfn B := fun x => dh p <- g x; dh q <- f x; dh d <- hlift (div_tn q n); hps_div p d.
(* 450-452, nx is -x *)
Definition trigamma_0 {B : base} (nx : B) : hfn B := hdivcut (pobj [nx] tri_num_e) (hobj tri_den_e) 1.
Section Trigamma.
Context {S : scal} (P : elemp S) (fuel : nat).
Notation B := (Ibase P fuel).
Notation I := (iv S).
Notation lines := (list (I * I * I)).
Variable root : S -> nat -> S.
Variable toint : S -> Z.
Variable th : S.
Variable order : Z.
(* the bound on the number of steps, and DEFINT_FAST *)
Variables (n : nat) (fast : bool).
(* defint_singular_autostep (SingAuto.v) for any function object h *)
Definition singular_autostep (h f : hfn B) (start end_ : I) (eps : S) :=
  sa_run P fuel root n fast h (order - 1) (sg_body P fuel f) (fun y => Ok (ndiv (root eps (Z.to_nat order)) (au_rad P fuel root y (Z.to_nat order) s0 0)))
    (sg_body P fuel f) (fun y step => Ok (ps_eval (B:=B) y (step : bT B))) (fun m => root m (Z.to_nat order)) start end_ order eps.
(* 472-488 *)
Definition trigamma_plus (x : I) : hM B (I * lines) :=
  dh r <- singular_autostep (pobj [(ineg x : bT B)] trigamma_e) (trigamma_0 (ineg x : bT B)) (ipt s0) (ipt th) (sdy 1 (-52));
  let tmp := imul (ipt th) x in
  dh e <- hlift (iexp S P fuel (ineg tmp));
  dh f <- hlift (iexp S P fuel (ineg (ipt th)));
  dh q <- hlift (idiv (imul e (iaddS tmp s1)) (imul (imul x x) (iSsub s1 f)));
  hret (iadd (fst r) (hullSI s0 q), snd r).
(* 1. / ((x - i) * (x - i)) *)
Definition inv_sq (x : I) (i : Z) : res I := let d := isubS x (sdy i 0) in iSdiv s1 (imul d d).
(* 508-510: k is the value of i *)
Fixpoint tp_up (x : I) (k : nat) (r : I) : res I :=
  match k with O => Ok r | Datatypes.S k' => do q <- inv_sq x (Z.of_nat k); tp_up x k' (isub r q) end.
(* 512-514: k turns are left, i is the value of i *)
Fixpoint tp_down (x : I) (k : nat) (i : Z) (r : I) : res I :=
  match k with O => Ok r | Datatypes.S k' => do q <- inv_sq x i; tp_down x k' (i - 1) (iadd r q) end.
(* 494-518 *)
Definition trigamma_point (x : I) : hM B (I * lines) :=
  let y := sfloor (lo x) in
  if seqb y s1 then trigamma_plus x
  else
    dh r <- trigamma_plus (isubS x (nsub y s1));
    dh q <- hlift (if slt s1 y then tp_up x (Z.to_nat (toint (nsub y s1))) (fst r) else tp_down x (Z.to_nat (1 - toint y)) 0 (fst r));
    hret (q, snd r).
(* 520-531 *)
Definition trigamma (x : I) : hM B (I * lines) :=
  if slt s0 (lo x) then
    dh a <- trigamma_point (ipt (hi x)); dh c <- trigamma_point (ipt (lo x)); hret (hull (fst a) (fst c), snd a ++ snd c)
  else if negb (seqb (sfloor (lo x)) (sfloor (hi x))) then hret (mkiv s0 spinf, [])
  else if seqb (sfloor (lo x)) (lo x) then hret (mkiv smax spinf, [])
  else trigamma_point x.
End Trigamma.
