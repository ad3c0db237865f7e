(* Model of the fixed-step integrators of kv/defint-singular.hpp (20-324) and of their right-hand versions (751-791), over any base type
   T, with the global state of psa as in PsaUse.v.  hull0 x is interval<T>::hull(0, x) and bpow is pow(interval, interval); a function
   object is given by what it computes on a series for a mode and a domain.  ints are unbounded. *)
From Coq Require Import ZArith Bool List Arith.
From Verif Require Import Ext ADModel PsaModel PsaUse.
Import ListNotations.

Section Sing.
Variable B : base.
Notation psa := (list B).
Variable hull0 : B -> B.
Variable bpow : B -> B -> res B.

(* 20-35 div_tn: drops the first n coefficients; with n < 0 or n > size the loops leave the vector *)
Definition div_tn (x : psa) (n : Z) : res psa :=
  if (n <? 0)%Z || (Z.of_nat (length x) <? n)%Z then Err EUB
  else Ok (skipn (Z.to_nat n) x ++ repeat t0 (Z.to_nat n)).
(* 41-64 div_reduce *)
Definition div_reduce (m : Z) (D : B) (x y : psa) (n : Z) : res psa :=
  do nx <- div_tn x n; do ny <- div_tn y n; ps_div m D nx ny.

(* 167-173: the loop of defint_power3 over the coefficients *)
Fixpoint pw_loop (step tp tx : B) (y : psa) (acc : B) : res B :=
  match y with
  | [] => Ok acc
  | c :: y => do q <- bdiv (bmul c tx) tp; pw_loop step (baddS tp 1 0) (bmul tx step) y (badd acc q)
  end.
(* 155-173 *)
Definition power3_run (D : B) (f g : fn B) (start step : B) (order : Z) (power : B) (mult : Z) : res B :=
  do x <- ps_setorder 2 D [start; t1] order;
  do fx <- f 2%Z D x;
  do d <- div_tn fx mult;
  do p <- ps_pow 2 D d [power];
  do gx <- g 2%Z D x;
  do y <- ps_mul 2 D p gx;
  do y <- ps_setorder 2 D y order;
  let tp := baddS (bmulS power mult 0) 1 0 in
  do tx <- bpow step tp;
  pw_loop step tp tx y t0.
(* 238-253: the loop of defint_log3; i counts from 0 *)
Fixpoint lg_loop (step logx xn : B) (y : psa) (i : Z) (acc : B) : res B :=
  match y with
  | [] => Ok acc
  | c :: y => do q <- bdivS (bmul (bmul c xn) (bsubS (bSmul (i + 1) 0 logx) 1 0)) ((i + 1) * (i + 1)) 0;
      lg_loop step logx (bmul xn step) y (i + 1) (badd acc q)
  end.
(* 231-253 *)
Definition log3_run (D : B) (f g : fn B) (start step : B) (order : Z) (mult : Z) : res B :=
  do x <- ps_setorder 2 D [start; t1] (order + mult);
  do y <- f 2%Z D x;
  do y <- ps_setorder 2 D y (order + mult);
  do d <- div_tn y mult;
  do l <- ps_log 2 D d;
  do gx <- g 2%Z D x;
  do q <- ps_mul 2 D l gx;
  do J <- ps_integrate q;
  do x <- ps_setorder 2 D x order;
  do gx <- g 2%Z D x;
  do y <- ps_sc SOmulr mult 0 2 D gx;
  do y <- ps_setorder 2 D y order;
  do logx <- bfun Alog step;
  lg_loop step logx step y 0 (ps_eval J step).
(* 311-317 *)
Definition singular_run (D : B) (f : fn B) (start step : B) (order : Z) : res B :=
  do x <- ps_setorder 2 D [start; t1] order;
  do y <- f 2%Z D x;
  do J <- ps_integrate y;
  Ok (ps_eval J step).
(* 144-155 and 175-179, and the same lines of the two others: mode, flags and domain are set; mode and flags are restored on return,
   the mode through a bool; an exception leaves them *)
Definition with_state (st : gst B) (start end_ : B) (run : B -> B -> res B) : res B * gst B :=
  let step := bsub end_ start in
  let D := hull0 step in
  match run D step with
  | Err e => (Err e, mkgst 2 false false D)
  | Ok v => (Ok v, mkgst (saved_mode (g_mode st)) (g_uh st) (g_rh st) D)
  end.
Definition defint_power3 st f g start end_ order power mult :=
  with_state st start end_ (fun D step => power3_run D f g start step order power mult).
Definition defint_log3 st f g start end_ order mult := with_state st start end_ (fun D step => log3_run D f g start step order mult).
Definition defint_singular st f start end_ order := with_state st start end_ (fun D step => singular_run D f start step order).

(* 66-71 Defint_x, 83-88 Defint_1, 91-98 Defint_Reverse *)
Definition Defint_x : fn B := fun _ _ x => Ok x.
Definition Defint_1 : fn B := fun _ _ _ => Ok [t1].
Definition Defint_Reverse (f : fn B) : fn B := fun m D x => f m D (ps_neg x).
(* 185-189, 197-201, 267-271, 280-284 *)
Definition defint_power st f start end_ order power := defint_power3 st Defint_x f start end_ order power 1.
Definition defint_power2 st f start end_ order power mult := defint_power3 st f Defint_1 start end_ order power mult.
Definition defint_log st f start end_ order := defint_log3 st Defint_x f start end_ order 1.
Definition defint_log2 st f start end_ order mult := defint_log3 st f Defint_1 start end_ order mult.
(* 751-791 *)
Definition defint_power3_r st f g start end_ order power mult :=
  defint_power3 st (Defint_Reverse f) (Defint_Reverse g) (bneg end_) (bneg start) order power mult.
Definition defint_power_r st f start end_ order power := defint_power3 st Defint_x (Defint_Reverse f) (bneg end_) (bneg start) order power 1.
Definition defint_power2_r st f start end_ order power mult :=
  defint_power3 st (Defint_Reverse f) Defint_1 (bneg end_) (bneg start) order power mult.
Definition defint_log3_r st f g start end_ order mult :=
  defint_log3 st (Defint_Reverse f) (Defint_Reverse g) (bneg end_) (bneg start) order mult.
Definition defint_log_r st f start end_ order := defint_log3 st Defint_x (Defint_Reverse f) (bneg end_) (bneg start) order 1.
Definition defint_log2_r st f start end_ order mult := defint_log3 st (Defint_Reverse f) Defint_1 (bneg end_) (bneg start) order mult.
Definition defint_singular_r st f start end_ order := defint_singular st (Defint_Reverse f) (bneg end_) (bneg start) order.
End Sing.
Arguments div_tn {B}. Arguments div_reduce {B}. Arguments pw_loop {B}. Arguments power3_run {B}. Arguments lg_loop {B}. Arguments log3_run {B}.
Arguments singular_run {B}. Arguments with_state {B}. Arguments defint_power3 {B}. Arguments defint_log3 {B}. Arguments defint_singular {B}.
Arguments Defint_x {B}. Arguments Defint_1 {B}. Arguments Defint_Reverse {B}. Arguments defint_power {B}. Arguments defint_power2 {B}.
Arguments defint_log {B}. Arguments defint_log2 {B}. Arguments defint_power3_r {B}. Arguments defint_power_r {B}. Arguments defint_power2_r {B}.
Arguments defint_log3_r {B}. Arguments defint_log_r {B}. Arguments defint_log2_r {B}. Arguments defint_singular_r {B}.
(* the function object computing div_tn(f(x), n), as in test/test-defint-singular.cc 17-22 *)
Definition cut {B} (f : fn B) (n : Z) : fn B := fun m D x => do p <- f m D x; div_tn p n.
(* the function object computing div_reduce(f(x), g(x), n), as in test/test-defint-singular.cc 38-42 *)
Definition reduced {B} (f g : fn B) (n : Z) : fn B := fun m D x => do p <- f m D x; do q <- g m D x; div_reduce m D p q n.
