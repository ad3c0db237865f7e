(* Model of gamma_r, gamma_point, gamma, lgamma_point, lgamma in kv/gamma.hpp (15-215), T = double: defint_power_autostep (SingAuto.v) on the
   function objects Gamma, whose data member is x, and Gamma_nopower.  In the expressions the variable 0 is t and the variable 1 is x.
   th is the double 53 * std::log(2.), toint the conversion of a double to int, both of the C++ implementation; digamma_zero (540-597) and
   m2, read from two decimal literals, are parameters.  ints are unbounded here, the theorems ask for arguments below 2^31.
   GAMMA_ORDER is 18 by default.  With the value come the lines of DEFINT_SHOW_STEPSIZE.  trigamma is in TriModel.v; the rest of gamma.hpp (217-443) is not modelled,
   except the alpha functions of SeriesModel.v. *)
From Coq Require Import ZArith Bool List Arith.
From Verif Require Import Ext Scalar IntervalModel ElemModel ADModel ADInst PsaModel PsaHist OdeModel DefintAuto SingAuto.
Import ListNotations.

(* 21-23 *)
Definition gamma_e : aexpr := XMul (XPow (XVar 0) (XSc SOsub 1 0 (XVar 1))) (XFun Aexp (XNeg (XVar 0))).
(* 28-30 *)
Definition gamma_nopower_e : aexpr := XFun Aexp (XNeg (XVar 0)).
Section Gamma.
Context {S : scal} (P : elemp S) (fuel : nat).
Notation B := (Ibase P fuel).
Notation I := (iv S).
Notation lines := (list (I * I * I)).
Variable root : S -> nat -> S.
Variable proot : S -> S -> nat -> S.
Variable toint : S -> Z.
Variable th : S.
Variable order : Z.
(* the bound on the number of steps, and DEFINT_FAST *)
Variables (n : nat) (fast : bool).
(* 41-57 *)
Definition gamma_r (x : I) : hM B (I * lines) :=
  dh r <- power_autostep P fuel root proot (ipowI S P fuel) n fast (pobj [(x : bT B)] gamma_e) (pobj [] gamma_nopower_e) (ipt s0) (ipt th) order (isubS x s1) (sdy 1 (-52));
  dh e <- hlift (iexp S P fuel (ineg (ipt th)));
  hret (iadd (fst r) (mkiv s0 (hi (imul e (iaddS (ipt th) s1)))), snd r).
(* 72-74: k is the value of i *)
Fixpoint gp_up (x : I) (k : nat) (r : I) : I :=
  match k with O => r | Datatypes.S k' => gp_up x k' (imul r (isubS x (sdy (Z.of_nat k) 0))) end.
(* 76-78: k turns are left, i is the value of i *)
Fixpoint gp_down (x : I) (k : nat) (i : Z) (r : I) : res I :=
  match k with O => Ok r | Datatypes.S k' => do r <- idiv r (isubS x (sdy i 0)); gp_down x k' (i - 1) r end.
(* 59-83 *)
Definition gamma_point (x : I) : hM B (I * lines) :=
  let y := sfloor (lo x) in
  if seqb y s1 then gamma_r x
  else
    dh r <- gamma_r (isubS x (nsub y s1));
    if slt s1 y then hret (gp_up x (Z.to_nat (toint (nsub y s1))) (fst r), snd r)
    else dh q <- hlift (gp_down x (Z.to_nat (1 - toint y)) 0 (fst r)); hret (q, snd r).
(* 139-141 and 143-145 *)
Fixpoint lp_up (x : I) (k : nat) (r : I) : res I :=
  match k with O => Ok r | Datatypes.S k' => do l <- ilog S P fuel (isubS x (sdy (Z.of_nat k) 0)); lp_up x k' (iadd r l) end.
Fixpoint lp_down (x : I) (k : nat) (i : Z) (r : I) : res I :=
  match k with O => Ok r | Datatypes.S k' => do l <- ilog S P fuel (iabs (isubS x (sdy i 0))); lp_down x k' (i - 1) (isub r l) end.
(* 125-150 *)
Definition lgamma_point (x : I) : hM B (I * lines) :=
  let y := sfloor (lo x) in
  if seqb y s1 then dh r <- gamma_r x; dh q <- hlift (ilog S P fuel (fst r)); hret (q, snd r)
  else
    dh r <- gamma_r (isubS x (nsub y s1));
    dh l <- hlift (ilog S P fuel (fst r));
    if slt s1 y then dh q <- hlift (lp_up x (Z.to_nat (toint (nsub y s1))) l); hret (q, snd r)
    else dh q <- hlift (lp_down x (Z.to_nat (1 - toint y)) 0 l); hret (q, snd r).
(* gamma and lgamma in terms of gamma_point or lgamma_point *)
Variable gp : I -> hM B (I * lines).
Variable digamma_zero : S -> hM B I.
Variable m2 : I.
(* hull(f(interval(x.lower())), f(interval(x.upper()))) *)
Definition ends (x : I) : hM B (I * lines) :=
  dh a <- gp (ipt (lo x)); dh c <- gp (ipt (hi x)); hret (hull (fst a) (fst c), snd a ++ snd c).
(* if (overlap(x, m)) tmp = hull(tmp, f(m)) *)
Definition with_min (x m : I) (t : I * lines) : hM B (I * lines) :=
  if overlap x m then dh q <- gp m; hret (hull (fst t) (fst q), snd t ++ snd q) else hret t.
(* 93-104 and 158-169: x.lower() > 0 *)
Definition positive (x : I) : hM B (I * lines) :=
  dh m <- digamma_zero (lo x);
  let m := if zero_in m then m2 else m in
  dh t <- ends x; with_min x m t.
(* 113-122 and 205-214 *)
Definition negative (x : I) : hM B (I * lines) :=
  dh m <- digamma_zero (lo x);
  if zero_in m then gp x else dh t <- ends x; with_min x m t.
(* 88-123 *)
Definition gamma_of (x : I) : hM B (I * lines) :=
  if slt s0 (lo x) then positive x
  else if negb (seqb (sfloor (lo x)) (sfloor (hi x))) then hret (iwhole, [])
  else if seqb (sfloor (lo x)) (lo x) then hret (iwhole, [])
  else negative x.
(* 171-199 *)
Definition across (x : I) : hM B (I * lines) :=
  dh m <- digamma_zero (lo x);
  if zero_in m then hret (iwhole, [])
  else
    dh t <- ends x; dh t <- with_min x m t;
    dh m <- digamma_zero (lo (iaddS x s1));
    if zero_in m then hret (iwhole, snd t)
    else
      dh t' <- ends x; dh t' <- with_min x m t';
      dh t'' <- (if slt s0 (hi x) then
                   dh m <- digamma_zero (sdy 3 (-1));
                   with_min x (if zero_in m then m2 else m) t'
                 else hret t');
      hret (mkiv (lo (fst t'')) spinf, snd t ++ snd t'').
(* 153-215 *)
Definition lgamma_of (x : I) : hM B (I * lines) :=
  if slt s0 (lo x) then positive x
  else if negb (seqb (sfloor (lo x)) (sfloor (hi x))) then across x
  else if seqb (sfloor (lo x)) (lo x) then hret (mkiv smax spinf, [])
  else negative x.
End Gamma.
Definition gamma {S : scal} (P : elemp S) fuel root proot toint th order n fast digamma_zero m2 :=
  gamma_of P fuel (gamma_point P fuel root proot toint th order n fast) digamma_zero m2.
Definition lgamma {S : scal} (P : elemp S) fuel root proot toint th order n fast digamma_zero m2 :=
  lgamma_of P fuel (lgamma_point P fuel root proot toint th order n fast) digamma_zero m2.
