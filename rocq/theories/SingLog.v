(* Model of defint_log3_autostep, defint_log_autostep, defint_log2_autostep (kv/defint-singular.hpp 471-621) and of the right-hand versions of all
   the integrators with step size control (793-838), with the conventions of SingAuto.v.  Defint_Reverse applied to the first function object,
   which SingAuto.v takes as an expression, is the expression with -x for x (arev). *)
From Coq Require Import ZArith Bool List Arith.
From Verif Require Import Ext Scalar IntervalModel ElemModel ADModel ADInst PsaModel PsaHist OdeModel SingModel DefintAuto SingAuto.
Import ListNotations.

Fixpoint arev (e : aexpr) : aexpr :=
  match e with
  | XVar n => XNeg (XVar n)
  | XCst m k => XCst m k
  | XAdd a b => XAdd (arev a) (arev b)
  | XSub a b => XSub (arev a) (arev b)
  | XMul a b => XMul (arev a) (arev b)
  | XDiv a b => XDiv (arev a) (arev b)
  | XSc o m k a => XSc o m k (arev a)
  | XNeg a => XNeg (arev a)
  | XPowZ a n => XPowZ (arev a) n
  | XPow a b => XPow (arev a) (arev b)
  | XFun f a => XFun f (arev a)
  end.

Section Log.
Context {S : scal} (P : elemp S) (fuel : nat).
Notation B := (Ibase P fuel).
Notation I := (iv S).
Notation psa := (list (bT B)).
(* (T)std::pow((double)m, 1./j), (T)std::pow((double)m, 1./((double)mid(power)+j+1)) and (i+1)*std::log(0.1)-1. of the C library *)
Variable root : S -> nat -> S.
Variable proot : S -> S -> nat -> S.
Variable lgc : nat -> S.
Variable bpow : I -> I -> res I.

(* 517-532, from i = k down to 1; y is the integral, y2 the series multiplied by log x *)
Fixpoint lg_rad (y y2 : psa) (k : nat) (radius : S) (nrad : nat) : res S :=
  match k with
  | O => Ok radius
  | Datatypes.S k' =>
      let j := sdy (Z.of_nat (k + 1)) 0 in
      do q <- idivS (imulS (at_ (B:=B) y2 k : I) (lgc k)) j;
      do q <- idivS q j;
      let m := smaxS (mig q) (mig (at_ (B:=B) y (k + 1) : I)) in
      if seqb m s0 then lg_rad y y2 k' radius nrad
      else let r := root m (k + 1) in
        let radius := if slt radius r then r else radius in
        if (nrad + 1 =? 2)%nat then Ok radius else lg_rad y y2 k' radius (nrad + 1)
  end.
Section Body.
Variables (f g : hfn B) (order mult : Z).
(* 505-508 without the setorder of y, and 565-566 *)
Definition lg_first (y : psa) (x : psa) : hM B psa :=
  dh d <- hlift (div_tn y mult); dh l <- hps_log d; dh gx <- g x; dh q <- hps_mul l gx; hlift (ps_integrate (B:=B) q).
(* 511 and 568 *)
Definition lg_second (x : psa) : hM B psa := dh gx <- g x; hps_sc SOmulr mult 0 gx.
(* 564-569, the try block: x as it is left, and what happened *)
Definition lg_try (x : psa) : hM B (psa * res (psa * psa)) := fun s =>
  match ps_setorder (B:=B) (p_mode s) (p_dom s) x (order + mult) with
  | Err er => (Ok (x, Err er), s)
  | Ok xa =>
      match (dh y <- f xa; lg_first y xa) s with
      | (Err er, s) => (Ok (xa, Err er), s)
      | (Ok J, s) =>
          match ps_setorder (B:=B) (p_mode s) (p_dom s) xa order with
          | Err er => (Ok (xa, Err er), s)
          | Ok xb => match lg_second xb s with (Err er, s) => (Ok (xb, Err er), s) | (Ok y, s) => (Ok (xb, Ok (J, y)), s) end
          end
      end
  end.
(* 541-601 *)
Fixpoint la_loop (start end_ : I) (eps : S) (n : nat) (x : psa) (radius : S) (restart : nat) (resized : bool) : hM B (I * I * I * bool) :=
  match n with
  | O => hlift (Err EFuel)
  | Datatypes.S n =>
      let '(t1, radius, flag, resized, step) := au_next start end_ radius resized in
      dh _ <- hmod (set_dom (hullSI s0 step : bT B));
      dh r <- lg_try x;
      let '(x, o) := r in
      match o with
      | Err EDomain =>
          if (restart <? restart_max)%nat then fun s => la_loop start end_ eps n x (nmul radius shalf) (restart + 1) resized (set_uh false s)
          else hlift (Err EDomain)
      | Err er => hlift (Err er)
      | Ok (J, y) =>
          dh logx <- hlift (bfun (b:=B) Alog (step : bT B));
          dh z <- hlift (lg_loop (B:=B) (step : bT B) logx (step : bT B) y 0 (ps_eval (B:=B) J (step : bT B)));
          if resized then hret ((z : I), t1, step, flag)
          else
            let m := root (ndiv (rad (z : I)) eps) (Z.to_nat order + 1) in
            let radius := if (0 <? restart)%nat then ndiv radius (if slt s1 m then m else s1) else ndiv radius m in
            la_loop start end_ eps n x radius restart true
      end
  end.
End Body.
(* 471-608 *)
Definition defint_log3_autostep (n : nat) (fast : bool) (h : aexpr) (f g : hfn B) (start end_ : I) (order mult : Z) (eps : S) : hM B (I * list (I * I * I)) := fun st0 =>
  (dh _ <- hmod (fun s => set_rh false (set_uh false s));
   dh _ <- hmod (fun s => set_mode 1 (if fast then set_hist [] (set_rh true (set_uh false s)) else s));
   dh x <- hget (fun m D => hlift (ps_setorder (B:=B) m D [(start : bT B); t1] (order + mult)));
   dh y <- f x;
   dh y <- hget (fun m D => hlift (ps_setorder (B:=B) m D y (order + mult)));
   dh y <- lg_first g mult y x;
   dh x <- hget (fun m D => hlift (ps_setorder (B:=B) m D x order));
   dh y2 <- lg_second g mult x;
   dh y2 <- hget (fun m D => hlift (ps_setorder (B:=B) m D y2 order));
   dh r <- hlift (lg_rad y y2 (Z.to_nat order) s0 0);
   let radius := ndiv (root eps (Z.to_nat order + 1)) r in
   dh _ <- hmod (fun s => set_mode 2 (if fast then set_uh true s else s));
   dh q <- la_loop f g order mult start end_ eps (restart_max + 3) x radius 0 false;
   let '(z, t1, step, flag) := q in
   dh _ <- hmod (ode_leave P fuel st0);
   if flag then hret (z, [(start, t1, step)])
   else dh r <- defint_autostep P fuel root h n fast t1 end_ order eps; hret (iadd z (fst r), (start, t1, step) :: snd r)) st0.
(* 611-621 *)
Definition defint_log_autostep n fast h g start end_ order eps := defint_log3_autostep n fast h hDx g start end_ order 1 eps.
Definition defint_log2_autostep n fast h f start end_ order mult eps := defint_log3_autostep n fast h f hD1 start end_ order mult eps.
(* 793-838 *)
Definition defint_power3_autostep_r n fast h f g start end_ order power mult eps :=
  defint_power3_autostep P fuel root proot bpow n fast (arev h) (hRev f) (hRev g) (ineg end_) (ineg start) order power mult eps.
Definition defint_power_autostep_r n fast h g start end_ order power eps :=
  defint_power3_autostep P fuel root proot bpow n fast (arev h) hDx (hRev g) (ineg end_) (ineg start) order power 1 eps.
Definition defint_power2_autostep_r n fast h f start end_ order power mult eps :=
  defint_power3_autostep P fuel root proot bpow n fast (arev h) (hRev f) hD1 (ineg end_) (ineg start) order power mult eps.
Definition defint_log3_autostep_r n fast h f g start end_ order mult eps :=
  defint_log3_autostep n fast (arev h) (hRev f) (hRev g) (ineg end_) (ineg start) order mult eps.
Definition defint_log_autostep_r n fast h g start end_ order eps :=
  defint_log3_autostep n fast (arev h) hDx (hRev g) (ineg end_) (ineg start) order 1 eps.
Definition defint_log2_autostep_r n fast h f start end_ order mult eps :=
  defint_log3_autostep n fast (arev h) (hRev f) hD1 (ineg end_) (ineg start) order mult eps.
Definition defint_singular_autostep_r n fast h f start end_ order eps :=
  defint_singular_autostep P fuel root n fast (arev h) (hRev f) (ineg end_) (ineg start) order eps.
End Log.
