(* Model of defint_autostep in kv/defint.hpp (86-215) for interval<T>, with DEFINT_FAST == 1 (fast = true: the default) or 0, RESTART_MAX == 10
   and DEFINT_STEPSIZE_MAG not defined.  f is a function object on psa, a computation on the static members of psa; in defint_autostep it is
   written as an expression in the variable 0, in defint_autostep_par as an expression in the variable 0 and the constants 1, 2, ... that the
   function object keeps as data members of type interval<T>.  The static members of psa are the state of PsaHist.v;
   a C++ exception that leaves defint_autostep leaves that state as it is.  The lines printed with DEFINT_SHOW_STEPSIZE are part of the
   result: t, t1 and step of every step.  while (1) has a bound g on the number of its turns: EFuel; the inner loop has at most
   RESTART_MAX + 2 turns, its bound is never reached (PropsDefint.v).  ints are unbounded. *)
From Coq Require Import ZArith Bool List Arith.
From Verif Require Import Ext Scalar IntervalModel ElemModel ADModel ADInst PsaModel PsaHist OdeModel.
Import ListNotations.

(* a function object on psa; the function written as an expression *)
Definition hfn (B : base) : Type := list B -> hM B (list B).
Definition hobj {B : base} (e : aexpr) : hfn B := fun x => hpseval (fun _ => x) e.
(* with the data members cs: variable i + 1 is the psa of size 1 made from the data member i, as T(c) makes it; c * x for an interval c and a psa
   x (psa.hpp 384-418) does what psa(c) * x does (260-279), so that is how it is written too.  The other operators with an operand of type
   interval<T> are not covered: with + and - they do not use the history list while those on two psa do. *)
Definition penv {B : base} (cs : list B) (x : list B) (i : nat) : list B :=
  match i with O => x | Datatypes.S j => match nth_error cs j with Some c => [c] | None => x end end.
Definition pobj {B : base} (cs : list B) (e : aexpr) : hfn B := fun x => hpseval (penv cs x) e.

Section Auto.
Context {S : scal} (P : elemp S) (fuel : nat).
Notation B := (Ibase P fuel).
Notation I := (iv S).
Notation psa := (list (bT B)).
(* (T)std::pow((double)m, 1./j) of the C library *)
Variable root : S -> nat -> S.
Variable fe : hfn B.
Definition restart_max : nat := 10.

(* 132-144, from i = k down to 1 *)
Fixpoint au_rad (y : psa) (k : nat) (radius : S) (nrad : nat) : S :=
  match k with
  | O => radius
  | Datatypes.S k' =>
      let m := mig (at_ (B:=B) y k : I) in
      if seqb m s0 then au_rad y k' radius nrad
      else let r := root m k in
        let radius := if slt radius r then r else radius in
        if (nrad + 1 =? 2)%nat then radius else au_rad y k' radius (nrad + 1)
  end.
(* 156-173: t1, radius, flag, resized and step *)
Definition au_next (t end_ : I) (radius : S) (resized : bool) : I * S * bool * bool * I :=
  let step := isub end_ t in
  if isubset step (mkiv (sneg radius) radius) then (end_, mag step, true, true, step)
  else
    let t1 := if slt s0 (lo step) then ipt (mid (iaddS t radius)) else ipt (mid (isubS t radius)) in
    (t1, radius, false, resized, isub t1 t).
(* 155-200; ord1 is order + 1; the result is z, t1, step and flag *)
Fixpoint au_inner (f : nat) (x : psa) (t end_ : I) (ord1 : nat) (tol radius : S) (restart : nat) (resized : bool) : hM B (I * I * I * bool) :=
  match f with
  | O => hlift (Err EFuel)
  | Datatypes.S f =>
      let '(t1, radius, flag, resized, step) := au_next t end_ radius resized in
      dh _ <- hmod (set_dom (hullSI s0 step : bT B));
      fun s => match (dh y <- fe x; hlift (ps_integrate (B:=B) y)) s with
      | (Err EDomain, s) =>
          if (restart <? restart_max)%nat then au_inner f x t end_ ord1 tol (nmul radius shalf) (restart + 1) resized (set_uh false s)
          else (Err EDomain, s)
      | (Err er, s) => (Err er, s)
      | (Ok y, s) =>
          let z := ps_eval (B:=B) y (step : bT B) : I in
          if resized then (Ok (z, t1, step, flag), s)
          else
            let m := root (ndiv (rad z) tol) ord1 in
            let radius := if (0 <? restart)%nat then ndiv radius (if slt s1 m then m else s1) else ndiv radius m in
            au_inner f x t end_ ord1 tol radius restart true s
      end
  end.
(* 116-207; xs is x without its first coefficient *)
Fixpoint au_outer (g : nat) (fast : bool) (xs : psa) (end_ : I) (order : Z) (eps : S) (t result : I) : hM B (I * list (I * I * I)) :=
  match g with
  | O => hlift (Err EFuel)
  | Datatypes.S g =>
      let tol := nmul (smaxS s1 (mag result)) eps in
      let x := (t : bT B) :: xs in
      dh _ <- hmod (fun s => set_mode 1 (if fast then set_hist [] (set_rh true (set_uh false s)) else s));
      dh y <- fe x;
      dh y <- hlift (ps_integrate (B:=B) y);
      dh y <- hget (fun m D => hlift (ps_setorder (B:=B) m D y (order + 1)));
      let ord1 := Z.to_nat (order + 1) in
      let radius := ndiv (root tol ord1) (au_rad y ord1 s0 0) in
      dh _ <- hmod (fun s => set_mode 2 (if fast then set_uh true s else s));
      dh q <- au_inner (restart_max + 3) x t end_ ord1 tol radius 0 false;
      let '(z, t1, step, flag) := q in
      let result := iadd result z in
      if flag then hret (result, [(t, t1, step)])
      else dh r <- au_outer g fast xs end_ order eps t1 result; hret (fst r, (t, t1, step) :: snd r)
  end.
(* 88-115, 209-214 *)
Definition autostep (g : nat) (fast : bool) (start end_ : I) (order : Z) (eps : S) : hM B (I * list (I * I * I)) := fun st0 =>
  (dh _ <- hmod (fun s => set_rh false (set_uh false s));
   dh x <- hget (fun m D => hlift (ps_setorder (B:=B) m D [t0; t1] order));
   match x with
   | [] => hlift (Err EUB)
   | _ :: xs =>
       dh r <- au_outer g fast xs end_ order eps start (ipt s0);
       dh _ <- hmod (ode_leave P fuel st0);
       hret r
   end) st0.
End Auto.
Definition defint_autostep {S : scal} (P : elemp S) (fuel : nat) (root : S -> nat -> S) (e : aexpr) := autostep P fuel root (hobj e).
Definition defint_autostep_par {S : scal} (P : elemp S) (fuel : nat) (root : S -> nat -> S) (e : aexpr) (cs : list (iv S)) := autostep P fuel root (pobj (cs : list (bT (Ibase P fuel))) e).
