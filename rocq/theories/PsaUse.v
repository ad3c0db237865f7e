(* Models of kv/highderiv.hpp and of defint in kv/defint.hpp with the global state of psa: mode(), use_history(), record_history(),
   domain() (psa.hpp 47-66), over any base type T.  The function f reads mode and domain; it is given as a function of them and
   of a series.  An exception leaves through the function without restoring anything, as in the code.  ints are unbounded. *)
From Coq Require Import ZArith Bool List Arith.
From Verif Require Import Ext ADModel PsaModel.
Import ListNotations.

Section Use.
Variable B : base.
Notation psa := (list B).
Record gst := mkgst { g_mode : Z; g_uh : bool; g_rh : bool; g_dom : B }.
(* highderiv.hpp 26-29, 49 and defint.hpp 33, 44, 78: mode(), an int, is saved in a bool *)
Definition saved_mode (m : Z) : Z := if (m =? 0)%Z then 0%Z else 1%Z.
Definition fn := Z -> B -> psa -> res psa.

(* 41-47: fact = 1; p.v(i) *= (fact *= i) *)
Fixpoint factmul (i : Z) (fact : B) (p : psa) : psa :=
  match p with
  | [] => []
  | c :: p => let fact := bmulS fact i 0 in bmul c fact :: factmul (i + 1) fact p
  end.
Definition hd_fact (p : psa) : psa := match p with [] => [] | c :: p => c :: factmul 1 t1 p end.
(* 35-47 *)
Definition hd_run (D : B) (f : fn) (x : B) (n : Z) (divfact : bool) : res psa :=
  do p <- ps_setorder 1 D [x; t1] n;
  do p <- f 1%Z D p;
  do p <- ps_setorder 1 D p n;
  Ok (if divfact then p else hd_fact p).
(* 21-55 *)
Definition highderiv (st : gst) (f : fn) (x : B) (n : Z) (divfact : bool) : res psa * gst :=
  match hd_run (g_dom st) f x n divfact with
  | Ok v => (Ok v, mkgst (saved_mode (g_mode st)) (g_uh st) (g_rh st) (g_dom st))
  | Err e => (Err e, mkgst 1 false false (g_dom st))
  end.

(* defint.hpp 28-84; hull is interval<T>::hull *)
Variable hull : B -> B -> B.
(* 55-75, the loop over i *)
Fixpoint di_loop (D : B) (f : fn) (start step r : B) (x : psa) (cnt : nat) (i : Z) (acc : B) : res B :=
  match cnt with
  | O => Ok acc
  | S cnt =>
      let c := badd (badd start (bSmul i 0 step)) r in
      match x with
      | [] => Err EUB
      | _ :: xs =>
          do y <- f 2%Z D (c :: xs);
          do y <- ps_integrate y;
          let z := bsub (ps_eval y r) (ps_eval y (bneg r)) in
          di_loop D f start step r x cnt (i + 1) (badd acc z)
      end
  end.
Definition defint (st : gst) (f : fn) (start end_ : B) (order n : Z) : res B * gst :=
  match (do step <- bdivS (bsub end_ start) n 0; do x <- ps_setorder (g_mode st) (g_dom st) [t0; t1] order; Ok (step, x)) with
  | Err e => (Err e, st)
  | Ok (step, x) =>
      let r := bmulS step 1 (-1) in
      let D := hull (bneg r) r in
      match di_loop D f start step r x (Z.to_nat n) 0 t0 with
      | Err e => (Err e, mkgst 2 false false D)
      | Ok v => (Ok v, mkgst (saved_mode (g_mode st)) (g_uh st) (g_rh st) D)
      end
  end.
End Use.
Arguments mkgst {B}. Arguments g_mode {B}. Arguments g_uh {B}. Arguments g_rh {B}. Arguments g_dom {B}. Arguments hd_fact {B}. Arguments factmul {B}.
Arguments hd_run {B}. Arguments highderiv {B}. Arguments di_loop {B}. Arguments defint {B}.
(* the function written as the expression e in one variable *)
Definition psafun (B : base) (e : aexpr) : fn B := fun m D x => pseval m D (fun _ => x) e.
