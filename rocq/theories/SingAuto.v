(* Model of defint_power3_autostep, defint_power_autostep, defint_power2_autostep, defint_singular_autostep in kv/defint-singular.hpp
   (330-468, 624-744) for interval<T>, with DEFINT_FAST == 1 (fast = true: the default) or 0,
   RESTART_MAX == 10 and DEFINT_STEPSIZE_MAG not defined.  A function object on psa is a computation on the static members of psa
   (PsaHist.v); the first function object, which is only passed to defint_autostep (DefintAuto.v), is an expression except in power3_autostep, power_autostep and power_autostep_r.  The line printed
   with DEFINT_SHOW_STEPSIZE (start, t1, step) and those of defint_autostep are part of the result.  An exception leaves the static members
   as they are.  The operands of * are evaluated from left to right.  ints are unbounded.  defint_log3_autostep (471-621) and the right-hand versions (793-838) are in SingLog.v. *)
From Coq Require Import ZArith Bool List Arith.
From Verif Require Import Ext Scalar IntervalModel ElemModel ADModel ADInst PsaModel PsaHist OdeModel SingModel DefintAuto.
Import ListNotations.

(* Defint_x, Defint_1, Defint_Reverse (66-98); div_tn(f(x), n) *)
Definition hDx {B : base} : hfn B := fun x => hret x.
Definition hD1 {B : base} : hfn B := fun _ => hret [t1].
Definition hRev {B : base} (f : hfn B) : hfn B := fun x => f (ps_neg x).
Definition hcut {B : base} (f : hfn B) (n : Z) : hfn B := fun x => dh p <- f x; hlift (div_tn p n).
Definition hreduced {B : base} (f g : hfn B) (n : Z) : hfn B := fun x => dh p <- f x; dh q <- g x; dh p <- hlift (div_tn p n); dh q <- hlift (div_tn q n); hps_div p q.
(* div_tn(f(x), n) * g(x): the shape of Digamma2r::operator() in kv/gamma.hpp 267-269 *)
Definition hcutmul {B : base} (f g : hfn B) (n : Z) : hfn B := fun x => dh p <- f x; dh d <- hlift (div_tn p n); dh q <- g x; hps_mul d q.

Section Auto.
Context {S : scal} (P : elemp S) (fuel : nat).
Notation B := (Ibase P fuel).
Notation I := (iv S).
Notation psa := (list (bT B)).
(* (T)std::pow((double)m, 1./j), and (T)std::pow((double)m, 1./((double)mid(power)+j+1)), of the C library *)
Variable root : S -> nat -> S.
Variable proot : S -> S -> nat -> S.
Variable bpow : I -> I -> res I.

(* 388-443 and 682-732: body is the statement in the try block, post the rest of the turn, rt the root used to correct the radius *)
Section Loop.
Variable body : hM B psa.
Variable post : psa -> I -> res I.
Variable rt : S -> S.
Variables (start end_ : I) (eps : S).
Fixpoint sa_loop (f : nat) (radius : S) (restart : nat) (resized : bool) : hM B (I * I * I * bool) :=
  match f with
  | O => hlift (Err EFuel)
  | Datatypes.S f =>
      let '(t1, radius, flag, resized, step) := au_next start end_ radius resized in
      dh _ <- hmod (set_dom (hullSI s0 step : bT B));
      fun s => match body s with
      | (Err EDomain, s) =>
          if (restart <? restart_max)%nat then sa_loop f (nmul radius shalf) (restart + 1) resized (set_uh false s)
          else (Err EDomain, s)
      | (Err er, s) => (Err er, s)
      | (Ok y, s) =>
          match post y step with
          | Err er => (Err er, s)
          | Ok z =>
              if resized then (Ok (z, t1, step, flag), s)
              else
                let m := rt (ndiv (rad z) eps) in
                let radius := if (0 <? restart)%nat then ndiv radius (if slt s1 m then m else s1) else ndiv radius m in
                sa_loop f radius restart true s
          end
      end
  end.
End Loop.
(* 344-353 + 355-364 + 380-386 + 388-443 + 445-456, and the same of singular: o is the order of x, first the statement before the radius is
   computed, rad0 that computation; h is the integrand away from start *)
Definition sa_run (g : nat) (fast : bool) (h : hfn B) (o : Z) (first : psa -> hM B psa) (rad0 : psa -> res S) (body : psa -> hM B psa)
    (post : psa -> I -> res I) (rt : S -> S) (start end_ : I) (order : Z) (eps : S) : hM B (I * list (I * I * I)) := fun st0 =>
  (dh _ <- hmod (fun s => set_rh false (set_uh false s));
   dh x <- hget (fun m D => hlift (ps_setorder (B:=B) m D [(start : bT B); t1] o));
   dh _ <- hmod (fun s => set_mode 1 (if fast then set_hist [] (set_rh true (set_uh false s)) else s));
   dh y <- first x;
   dh y <- hget (fun m D => hlift (ps_setorder (B:=B) m D y order));
   dh radius <- hlift (rad0 y);
   dh _ <- hmod (fun s => set_mode 2 (if fast then set_uh true s else s));
   dh q <- sa_loop (body x) post rt start end_ eps (restart_max + 3) radius 0 false;
   let '(z, t1, step, flag) := q in
   dh _ <- hmod (ode_leave P fuel st0);
   if flag then hret (z, [(start, t1, step)])
   else dh r <- autostep P fuel root h g fast t1 end_ order eps; hret (iadd z (fst r), (start, t1, step) :: snd r)) st0.

(* 366-379 *)
Fixpoint pw_rad (power : I) (y : psa) (k : nat) (radius : S) (nrad : nat) : res S :=
  match k with
  | O => Ok radius
  | Datatypes.S k' =>
      do q <- idivS (at_ (B:=B) y k : I) (nadd (nadd (mid power) (sdy (Z.of_nat k) 0)) s1);
      let m := mig q in
      if seqb m s0 then pw_rad power y k' radius nrad
      else let r := proot (mid power) m k in
        let radius := if slt radius r then r else radius in
        if (nrad + 1 =? 2)%nat then Ok radius else pw_rad power y k' radius (nrad + 1)
  end.
(* 362 and 412 *)
Definition pw_body (f g : hfn B) (power : I) (mult : Z) (x : psa) : hM B psa :=
  dh fx <- f x; dh d <- hlift (div_tn fx mult); dh p <- hps_pow d [power : bT B]; dh gx <- g x; hps_mul p gx.
(* 425-432 *)
Definition pw_post (power : I) (mult : Z) (y : psa) (step : I) : res I :=
  let tp := baddS (b:=B) (bmulS (b:=B) power mult 0) 1 0 in
  do tx <- bpow step tp; pw_loop (B:=B) step tp tx y t0.
(* 330-456, for any function objects *)
Definition power3_autostep (n : nat) (fast : bool) (h f g : hfn B) (start end_ : I) (order : Z) (power : I) (mult : Z) (eps : S) :=
  sa_run n fast h order (pw_body f g power mult) (fun y => do r <- pw_rad power y (Z.to_nat order) s0 0; Ok (ndiv (proot (mid power) eps (Z.to_nat order)) r))
    (pw_body f g power mult) (pw_post power mult) (fun m => proot (mid power) m (Z.to_nat order)) start end_ order eps.
Definition defint_power3_autostep (n : nat) (fast : bool) (h : aexpr) := power3_autostep n fast (hobj h).
(* 458-468 and 799-803 for any function objects *)
Definition power_autostep n fast (h g : hfn B) start end_ order power eps := power3_autostep n fast h hDx g start end_ order power 1 eps.
Definition power_autostep_r n fast (h g : hfn B) start end_ order power eps := power3_autostep n fast (hRev h) hDx (hRev g) (ineg end_) (ineg start) order power 1 eps.
Definition defint_power_autostep n fast h g start end_ order power eps := defint_power3_autostep n fast h hDx g start end_ order power 1 eps.
Definition defint_power2_autostep n fast h f start end_ order power mult eps := defint_power3_autostep n fast h f hD1 start end_ order power mult eps.
(* 655 and 706 *)
Definition sg_body (f : hfn B) (x : psa) : hM B psa := dh y <- f x; hlift (ps_integrate (B:=B) y).
(* 624-744 *)
Definition defint_singular_autostep (n : nat) (fast : bool) (h : aexpr) (f : hfn B) (start end_ : I) (order : Z) (eps : S) :=
  sa_run n fast (hobj h) (order - 1) (sg_body f) (fun y => Ok (ndiv (root eps (Z.to_nat order)) (au_rad P fuel root y (Z.to_nat order) s0 0)))
    (sg_body f) (fun y step => Ok (ps_eval (B:=B) y (step : bT B))) (fun m => root m (Z.to_nat order)) start end_ order eps.
End Auto.
