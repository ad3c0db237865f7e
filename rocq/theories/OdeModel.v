(* Model of kv/ode.hpp (ode, odelong) and kv/make-candidate.hpp for interval<T>, with ODE_FAST == 1 (fast = true: the default; the series of
   the intermediate results are kept in the history list of psa) or 0 (fast = false), ODE_STEP_COMPONENT == 0, ODE_RESTART_RATIO == 1,
   ODE_COEF_MID == 0, NEWTON_TWICE not defined.  f is given by n expressions over the variables 0 .. n-1 (the components of x) and n
   (the time t), evaluated in this order.  Vectors of size n are functions on nat used below n.  The static members of psa are the state
   of PsaHist.v; a C++ exception that leaves ode leaves that state as it is.  The verbose output is left out.  ints are unbounded; p.order,
   p.iteration and p.restart_max are natural numbers. *)
From Coq Require Import ZArith Bool List Arith.
From Verif Require Import Ext Scalar IntervalModel ElemModel ADModel ADInst ADSys PsaModel PsaHist.
Import ListNotations.

(* ode-param.hpp: the fields that ode uses *)
Record ode_param (S : scal) := mkop { op_order : nat; op_auto : bool; op_iter : nat; op_rmax : nat; op_eps : S }.
Arguments op_order {S}. Arguments op_auto {S}. Arguments op_iter {S}. Arguments op_rmax {S}. Arguments op_eps {S}.

(* k results, computed in the order 0, 1, ... *)
Fixpoint hvecM {B A} (k : nat) (d : nat -> A) (g : nat -> hM B A) : hM B (nat -> A) :=
  match k with
  | O => hret d
  | S k => dh v <- hvecM k d g; dh y <- g k; hret (fun i => if Nat.eqb i k then y else v i)
  end.
Section Ode.
Context {S : scal} (P : elemp S) (fuel : nat).
Notation B := (Ibase P fuel).
Notation I := (iv S).
Notation psa := (list (bT B)).
(* (T)std::pow((double)m, 1./j) of the C library *)
Variable root : S -> nat -> S.
Variable n : nat.
Variable es : nat -> aexpr.

Definition smaxS (a b : S) : S := if slt a b then b else a.   (* std::max *)
Definition sminS (a b : S) : S := if slt b a then b else a.   (* std::min *)
(* std::max over i = 0 .. k-1 *)
Fixpoint maxover (k : nat) (m : S) (g : nat -> S) : S := match k with O => m | Datatypes.S k => smaxS (maxover k m g) (g k) end.

(* the variables of f(x, t) *)
Definition oenv (x : nat -> psa) (t : psa) : nat -> psa := fun i => if (i <? n)%nat then x i else t.
(* y = f(x, t); y(i) = setorder(integrate(y(i)), ord); init + y: lines 117-123, 196 and 215-219, 252-257, 292-297 *)
Definition ode_f (x : nat -> psa) (t : psa) : hM B (nat -> psa) := hvecM n (fun _ => []) (fun i => hpseval (oenv x t) (es i)).
Definition ode_int (init : nat -> I) (ord : Z) (y : nat -> psa) : hM B (nat -> psa) := hget (fun m D =>
  hlift (vecM n (fun _ => []) (fun i => do w <- ps_integrate (B:=B) (y i); do w <- ps_setorder (B:=B) m D w ord; ps_addT (B:=B) w (init i)))).
Definition ode_pic (init : nat -> I) (ord : Z) (x : nat -> psa) (t : psa) : hM B (nat -> psa) := dh y <- ode_f x t; ode_int init ord y.
(* 99-100 *)
Definition torg (start : I) : psa := [start : bT B; t1].
Definition ode_t (start : I) (ord : nat) : hM B psa := hget (fun m D => hlift (ps_setorder (B:=B) m D (torg start) (Z.of_nat ord))).
(* 112-124 *)
Fixpoint ode_taylor (fast : bool) (init : nat -> I) (start : I) (k j : nat) (x : nat -> psa) : hM B (nat -> psa) :=
  match k with
  | O => hret x
  | Datatypes.S k =>
      dh _ <- hmod (fun s => if fast && (j =? 1)%nat then set_uh true s else s);
      dh t <- ode_t start j;
      dh x <- ode_pic init (Z.of_nat (j + 1)) x t;
      ode_taylor fast init start k (j + 1) x
  end.
(* 91-95 *)
Definition ode_tol (p : ode_param S) (init : nat -> I) : S := nmul (maxover n s1 (fun i => mag (init i))) (op_eps p).
(* 150-164, from j = k down to 1 *)
Fixpoint ode_rad (x : nat -> psa) (k : nat) (radius : S) (nrad : nat) : S :=
  match k with
  | O => radius
  | Datatypes.S k' =>
      let m := maxover n s0 (fun i => mag (at_ (B:=B) (x i) k)) in
      if seqb m s0 then ode_rad x k' radius nrad
      else let radius := smaxS radius (root m k) in
        if (nrad + 1 =? 2)%nat then radius else ode_rad x k' radius (nrad + 1)
  end.
(* 148, 165 *)
Definition ode_radius (p : ode_param S) (tol : S) (x : nat -> psa) : S := ndiv (root tol (op_order p)) (ode_rad x (op_order p) s0 0).
(* make-candidate.hpp 28-34 *)
Fixpoint sumS (k : nat) (g : nat -> S) : S := match k with O => s0 | Datatypes.S k => nadd (sumS k g) (g k) end.
Definition make_candidate (x : nat -> S) : nat -> S := let av := ndiv (sumS n x) (sdy (Z.of_nat n) 0) in fun i => nadd (x i) av.
(* a change of the coefficient of order k *)
Definition setco (x : psa) (k : nat) (v : I) : psa := firstn k x ++ (v : bT B) :: skipn (k + 1) x.
(* interval<T>(-1., 1.) *)
Definition iunit : I := mkiv (sdy (-1) 0) (sdy 1 0).
Fixpoint allb (k : nat) (g : nat -> bool) : bool := match k with O => true | Datatypes.S k => allb k g && g k end.

(* 174-287; the result is w, the series t, deltat, end2 and ret_val *)
Fixpoint ode_while (f : nat) (p : ode_param S) (init : nat -> I) (start end_ : I) (x : nat -> psa) (tol radius : S) (restart : nat) (resized : bool)
  : hM B ((nat -> psa) * psa * I * I * Z) :=
  match f with
  | O => hlift (Err EFuel)
  | Datatypes.S f =>
      let ord := Z.of_nat (op_order p) in
      (* 175-187 *)
      let '(end2, radius, ret) :=
        if op_auto p then
          let e2 := ipt (mid (iaddS start radius)) in
          if igeS e2 (lo end_) then (end_, mid (isub end_ start), 2%Z) else (e2, radius, 1%Z)
        else (end_, radius, 2%Z) in
      let deltat := isub end2 start in
      let z := x in
      dh _ <- hmod (set_dom (mkiv s0 (hi deltat) : bT B));
      dh t <- ode_t start (op_order p);
      fun s => match ode_f z t s with
      | (Err EDomain, s) =>
          if op_auto p && (restart <? op_rmax p)%nat
          then ode_while f p init start end_ x tol (nmul radius (sdy 1 (-1))) (restart + 1) resized (set_uh false s)
          else (Err EDomain, s)
      | (Err e, s) => (Err e, s)
      | (Ok y, s) =>
          (dh w <- ode_int init ord y;
          (* 221-228 *)
          let ns := make_candidate (fun i => mag (isub (at_ (B:=B) (w i) (op_order p)) (at_ (B:=B) (z i) (op_order p)))) in
          let z := fun i => setco (z i) (op_order p) (iadd (at_ (B:=B) (z i) (op_order p)) (iSmul (ns i) iunit)) in
          let rest :=
            (* 252-287 *)
            dh w <- ode_pic init ord z t;
            let ratio := maxover n s0 (fun i => ndiv (width (at_ (B:=B) (w i) (op_order p))) (width (at_ (B:=B) (z i) (op_order p)))) in
            if allb n (fun i => isubset (at_ (B:=B) (w i) (op_order p)) (at_ (B:=B) (z i) (op_order p))) then hret (w, t, deltat, end2, ret)
            else if negb (op_auto p) || (op_rmax p <=? restart)%nat then hret (w, t, deltat, end2, 0%Z)
            else ode_while f p init start end_ x tol (nmul radius (smaxS (sminS (sdy 1 (-1)) (ndiv (sdy 1 (-1)) ratio)) (sdy 1 (-3)))) (restart + 1) resized in
          (* 230-250 *)
          if op_auto p && negb (ret =? 2)%Z && negb resized then
            let m := ndiv (maxover n (sdy 1 (-1022)) (fun i => nsub (rad (ps_eval (B:=B) (z i) deltat)) (rad (init i)))) tol in
            let rt := ndiv radius (root m (op_order p)) in
            if sle radius rt && (0 <? restart)%nat then rest
            else ode_while f p init start end_ x tol rt restart true
          else rest) s
      end
  end.
(* 290-301 *)
Fixpoint ode_refine (k : nat) (p : ode_param S) (init : nat -> I) (t : psa) (w : nat -> psa) : hM B (nat -> psa) :=
  match k with
  | O => hret w
  | Datatypes.S k =>
      let z := w in
      dh w <- ode_pic init (Z.of_nat (op_order p)) z t;
      ode_refine k p init t (fun i => setco (w i) (op_order p) (intersect (at_ (B:=B) (w i) (op_order p)) (at_ (B:=B) (z i) (op_order p))))
  end.
(* 102-111; 313-315, where the mode has been saved in a bool *)
Definition ode_enter (fast : bool) (s : pst B) : pst B := mkpst 1 (p_dom s) false fast (if fast then [] else p_hist s).
Definition ode_leave (s0 s : pst B) : pst B := set_rh (p_rh s0) (set_uh (p_uh s0) (set_mode (if (p_mode s0 =? 0)%Z then 0 else 1) s)).
(* 45-318: the return value, init, end, and the series for *result_psa *)
Definition ode (fast : bool) (f : nat) (p : ode_param S) (init : nat -> I) (start end_ : I) : hM B (Z * (nat -> I) * I * (nat -> psa)) := fun s0 =>
  let tol := ode_tol p init in
  (dh _ <- hmod (ode_enter fast);
   dh x <- ode_taylor fast init start (op_order p) 0 (fun i => [init i : bT B]);
   dh _ <- hmod (set_mode 2);
   dh q <- ode_while f p init start end_ x tol (ode_radius p tol x) 0 false;
   let '(w, t, deltat, end2, ret) := q in
   dh r <- (if (ret =? 0)%Z then hret (0%Z, init, end_, w)
            else dh w <- ode_refine (op_iter p) p init t w;
                 hret (ret, (fun i => ps_eval (B:=B) (w i) deltat), (if (ret =? 1)%Z then end2 else end_), w));
   dh _ <- hmod (ode_leave s0);
   hret r) s0.
(* 320-354: the return value, init and end; ret is ret_val, x and t the current values *)
Fixpoint odelong_loop (fast : bool) (g f : nat) (p : ode_param S) (init : nat -> I) (end_ : I) (ret : Z) (x : nat -> I) (t : I) : hM B (Z * (nat -> I) * I) :=
  match g with
  | O => hlift (Err EFuel)
  | Datatypes.S g =>
      dh q <- ode fast f p x t end_;
      let '(r, x', t1, _) := q in
      if (r =? 0)%Z then hret (if (ret =? 1)%Z then (ret, x, t) else (ret, init, end_))
      else if (r =? 2)%Z then hret (2%Z, x', end_)
      else odelong_loop fast g f p init end_ 1 x' t1
  end.
Definition odelong (fast : bool) (g f : nat) (p : ode_param S) (init : nat -> I) (start end_ : I) : hM B (Z * (nat -> I) * I) :=
  odelong_loop fast g f (mkop S (op_order p) true (op_iter p) (op_rmax p) (op_eps p)) init end_ 0 init start.
End Ode.
