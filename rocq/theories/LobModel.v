(* Model of kv/lobachevsky.hpp, T = double: defint_log2_autostep (kv/defint-singular.hpp 611-621, SingLog.v) on the function objects
   Lobachevsky and Lobachevsky_nolog.  LOBACHEVSKY_ORDER is 14 by default; mult is 1 and the tolerance 2^-52, the default arguments.  root and lgc are as in
   SingLog.v.  The recursion of lobachevsky_point is cut off after g calls.  With the value come the lines of DEFINT_SHOW_STEPSIZE, one list for
   every call of lobachevsky_origin; the two arguments of hull are evaluated from left to right. *)
From Coq Require Import ZArith Bool List Arith.
From Verif Require Import Ext Scalar IntervalModel ElemModel ADModel ADInst PsaModel PsaHist OdeModel SingModel DefintAuto SingAuto SingLog.
Import ListNotations.

(* 22-27 *)
Definition lob_nolog_e : aexpr := XSc SOmulr 2 0 (XFun Asin (XVar 0)).
(* 15-19 *)
Definition lob_e : aexpr := XFun Alog lob_nolog_e.
Section Lobachevsky.
Context {S : scal} (P : elemp S) (fuel : nat).
Notation B := (Ibase P fuel).
Notation I := (iv S).
Notation lines := (list (I * I * I)).
Variable root : S -> nat -> S.
Variable lgc : nat -> S.
Variable order : Z.
(* the bound on the number of steps, and DEFINT_FAST *)
Variables (n : nat) (fast : bool).
(* 35-48 *)
Definition lobachevsky_origin (x : I) : hM B (I * lines) :=
  if ieqS x s0 then hret (ipt s0, [])
  else dh r <- defint_log2_autostep P fuel root lgc n fast lob_e (hobj lob_nolog_e) (ipt s0) x order 1 (sdy 1 (-52)); hret (ineg (fst r), snd r).
(* 51-66 *)
Fixpoint lobachevsky_point (g : nat) (x : I) : hM B (I * list lines) :=
  match g with O => hlift (Err EFuel) | Datatypes.S g' =>
    if sle (hi (imulS (c_pi P) shalf)) (lo x) then lobachevsky_point g' (isub x (c_pi P))
    else if zero_in x then
      dh r1 <- lobachevsky_origin (mkiv s0 (sneg (lo x)));
      dh r2 <- lobachevsky_origin (mkiv s0 (hi x));
      hret (hull (ineg (fst r1)) (fst r2), [snd r1; snd r2])
    else if slt s0 (lo x) then dh r <- lobachevsky_origin x; hret (fst r, [snd r])
    else dh r <- lobachevsky_origin (ineg x); hret (ineg (fst r), [snd r])
  end.
(* 77-92; the loop of 79-82 is the one of the tangent (ElemModel.v) *)
Definition lob_pi16 : res I := idivS (c_pi P) (sdy 6 0).
Definition lob_reduced (f : nat) (x : I) : res I := reduce S f (hi (imulS (c_pi P) shalf)) (c_pi P) x.
(* if (subset(c, x2)) r = hull(r, m) *)
Definition lob_with (c x2 m r : I) : I := if isubset c x2 then hull r m else r.
(* 68-104; f bounds the turns of the loop, g the recursion of lobachevsky_point *)
Definition lobachevsky (f g : nat) (x : I) : hM B (I * list (list lines)) :=
  dh pi16 <- hlift lob_pi16;
  let pi56 := imulS pi16 (sdy 5 0) in
  let pi76 := imulS pi16 (sdy 7 0) in
  dh m <- lobachevsky_point g pi16;
  dh x2 <- hlift (lob_reduced f x);
  if igeS (isubS (ipt (hi x2)) (lo x2)) (hi (c_pi P)) then hret (mkiv (sneg (hi (fst m))) (hi (fst m)), [snd m])
  else
    dh a <- lobachevsky_point g (ipt (lo x2));
    dh c <- lobachevsky_point g (ipt (hi x2));
    let r := hull (fst a) (fst c) in
    let r := lob_with (ineg pi16) x2 (ineg (fst m)) r in
    let r := lob_with pi16 x2 (fst m) r in
    let r := lob_with pi56 x2 (ineg (fst m)) r in
    let r := lob_with pi76 x2 (fst m) r in
    hret (r, [snd m; snd a; snd c]).
End Lobachevsky.
