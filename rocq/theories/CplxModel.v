(* Model of kv/complex.hpp for complex< interval<T> >.  Numbers C are modelled as T (a double) where the
   file or its users pass one, and as interval where they pass an interval.  `int y` is an unbounded integer
   (-y does not wrap at INT_MIN).  The order of evaluation of the arguments of complex(a, b) is
   taken from left to right. *)
From Coq Require Import ZArith Bool.
From Verif Require Import Ext Scalar IntervalModel ElemModel.
Open Scope Z_scope.

Section Cplx.
Variable S : scal.
Variable P : elemp S.
Variable fuel : nat.
Notation iv := (iv S).

(* 25-27 *)
Record cx := mkcx { re : iv; im : iv }.
(* 38-41, 54-58 constructors from a number *)
Definition cofI (x : iv) : cx := mkcx x (ipt s0).
Definition cofS (x : S) : cx := mkcx (ipt x) (ipt s0).
(* 281-283 i() *)
Definition cxi : cx := mkcx (ipt s0) (ipt s1).
(* 67-92 operator+ *)
Definition cadd (x y : cx) : cx := mkcx (iadd (re x) (re y)) (iadd (im x) (im y)).
Definition caddS (x : cx) (y : S) : cx := mkcx (iaddS (re x) y) (im x).
Definition cSadd (x : S) (y : cx) : cx := mkcx (iSadd x (re y)) (im y).
Definition caddI (x : cx) (y : iv) : cx := mkcx (iadd (re x) y) (im x).
Definition cIadd (x : iv) (y : cx) : cx := mkcx (iadd x (re y)) (im y).
(* 104-129 operator- *)
Definition csub (x y : cx) : cx := mkcx (isub (re x) (re y)) (isub (im x) (im y)).
Definition csubS (x : cx) (y : S) : cx := mkcx (isubS (re x) y) (im x).
Definition cSsub (x : S) (y : cx) : cx := mkcx (iSsub x (re y)) (ineg (im y)).
Definition csubI (x : cx) (y : iv) : cx := mkcx (isub (re x) y) (im x).
Definition cIsub (x : iv) (y : cx) : cx := mkcx (isub x (re y)) (ineg (im y)).
(* 141-148 unary minus *)
Definition cneg (x : cx) : cx := mkcx (ineg (re x)) (ineg (im x)).
(* 150-175 operator* *)
Definition cmul (x y : cx) : cx :=
  mkcx (isub (imul (re x) (re y)) (imul (im x) (im y))) (iadd (imul (re x) (im y)) (imul (im x) (re y))).
Definition cmulS (x : cx) (y : S) : cx := mkcx (imulS (re x) y) (imulS (im x) y).
Definition cSmul (x : S) (y : cx) : cx := mkcx (iSmul x (re y)) (iSmul x (im y)).
Definition cmulI (x : cx) (y : iv) : cx := mkcx (imul (re x) y) (imul (im x) y).
Definition cImul (x : iv) (y : cx) : cx := mkcx (imul x (re y)) (imul x (im y)).
(* 188-194 operator/ *)
Definition cdiv (x y : cx) : res cx :=
  let tmp := iadd (imul (re y) (re y)) (imul (im y) (im y)) in
  do a <- idiv (iadd (imul (re y) (re x)) (imul (im y) (im x))) tmp;
  do b <- idiv (isub (imul (re y) (im x)) (imul (re x) (im y))) tmp;
  Ok (mkcx a b).
(* 214-221 operator/(complex, C) *)
Definition cdivS (x : cx) (y : S) : res cx := do a <- idivS (re x) y; do b <- idivS (im x) y; Ok (mkcx a b).
Definition cdivI (x : cx) (y : iv) : res cx := do a <- idiv (re x) y; do b <- idiv (im x) y; Ok (mkcx a b).
(* 223-229 operator/(C, complex) *)
Definition cSdiv (x : S) (y : cx) : res cx :=
  let tmp := iadd (imul (re y) (re y)) (imul (im y) (im y)) in
  do a <- idiv (imulS (re y) x) tmp;
  do b <- idiv (iSmul (sneg x) (im y)) tmp;
  Ok (mkcx a b).
Definition cIdiv (x : iv) (y : cx) : res cx :=
  let tmp := iadd (imul (re y) (re y)) (imul (im y) (im y)) in
  do a <- idiv (imul (re y) x) tmp;
  do b <- idiv (imul (ineg x) (im y)) tmp;
  Ok (mkcx a b).

(* 286-290 abs *)
Definition cabs (x : cx) : res iv := do a <- ipow (re x) 2; do b <- ipow (im x) 2; isqrt (iadd a b).
(* 292-295 arg *)
Definition carg (x : cx) : res iv := iatan2 S P fuel (im x) (re x).
(* 297-299 conj *)
Definition cconj (x : cx) : cx := mkcx (re x) (ineg (im x)).
(* 301-309 sqrt *)
Definition csqrt (x : cx) : res cx :=
  do m <- cabs x; do r <- isqrt m; do g <- carg x;
  let a := imulS g shalf in
  do c <- icos S P fuel a; do s <- isin_ S P fuel a;
  Ok (mkcx (imul r c) (imul r s)).
(* 319-327: the loop of pow(complex, int); the last xp * xp, whose value is not used, is left out *)
Fixpoint cpow_loop (k : positive) (r xp : cx) : cx :=
  match k with
  | xH => cmul r xp
  | xO k => cpow_loop k r (cmul xp xp)
  | xI k => cpow_loop k (cmul r xp) (cmul xp xp)
  end.
(* 311-333 pow(complex, int) *)
Definition cpowi (x : cx) (y : Z) : res cx :=
  match y with
  | Z0 => Ok (cofS s1)
  | Zpos k => Ok (cpow_loop k (cofS s1) x)
  | Zneg k => cSdiv s1 (cpow_loop k (cofS s1) x)
  end.
(* 347-354 exp *)
Definition cexp (x : cx) : res cx :=
  do t <- iexp S P fuel (re x); do c <- icos S P fuel (im x); do s <- isin_ S P fuel (im x);
  Ok (mkcx (imul t c) (imul t s)).
(* 356-359 log *)
Definition clog (x : cx) : res cx :=
  do m <- cabs x; do l <- ilog S P fuel m; do g <- carg x; Ok (mkcx l g).
(* 335-337 pow(complex, complex); 339-345 convert the number and call this *)
Definition cpow (x y : cx) : res cx := do l <- clog x; cexp (cmul y l).
Definition cpowI (x : cx) (y : iv) : res cx := cpow x (cofI y).
(* 361-375 sin, cos *)
Definition csin (x : cx) : res cx :=
  do s <- isin_ S P fuel (re x); do ch <- icosh S P fuel (im x);
  do c <- icos S P fuel (re x); do sh <- isinh S P fuel (im x);
  Ok (mkcx (imul s ch) (imul c sh)).
Definition ccos (x : cx) : res cx :=
  do c <- icos S P fuel (re x); do ch <- icosh S P fuel (im x);
  do s <- isin_ S P fuel (re x); do sh <- isinh S P fuel (im x);
  Ok (mkcx (imul c ch) (imul (ineg s) sh)).
(* 377-387 tan *)
Definition ctan (x : cx) : res cx :=
  let tx := iSmul (sint S 2) (re x) in
  let ty := iSmul (sint S 2) (im x) in
  do c <- icos S P fuel tx; do ch <- icosh S P fuel ty;
  let tmp := iadd c ch in
  do s <- isin_ S P fuel tx; do a <- idiv s tmp;
  do sh <- isinh S P fuel ty; do b <- idiv sh tmp;
  Ok (mkcx a b).
(* 389-399 asin, acos, atan *)
Definition casin (x : cx) : res cx :=
  do s <- csqrt (cSsub s1 (cmul x x)); do l <- clog (cadd (cmul cxi x) s); Ok (cmul (cneg cxi) l).
Definition cacos (x : cx) : res cx :=
  do s <- csqrt (cSsub s1 (cmul x x)); do l <- clog (cadd x (cmul cxi s)); Ok (cmul (cneg cxi) l).
Definition catan (x : cx) : res cx :=
  do q <- cdiv (cadd cxi x) (csub cxi x); do l <- clog q; Ok (cmul (cmulS cxi shalf) l).
(* 401-415 sinh, cosh *)
Definition csinh (x : cx) : res cx :=
  do sh <- isinh S P fuel (re x); do c <- icos S P fuel (im x);
  do ch <- icosh S P fuel (re x); do s <- isin_ S P fuel (im x);
  Ok (mkcx (imul sh c) (imul ch s)).
Definition ccosh (x : cx) : res cx :=
  do ch <- icosh S P fuel (re x); do c <- icos S P fuel (im x);
  do sh <- isinh S P fuel (re x); do s <- isin_ S P fuel (im x);
  Ok (mkcx (imul ch c) (imul sh s)).
(* 417-427 tanh *)
Definition ctanh (x : cx) : res cx :=
  let tx := iSmul (sint S 2) (re x) in
  let ty := iSmul (sint S 2) (im x) in
  do ch <- icosh S P fuel tx; do c <- icos S P fuel ty;
  let tmp := iadd ch c in
  do sh <- isinh S P fuel tx; do a <- idiv sh tmp;
  do s <- isin_ S P fuel ty; do b <- idiv s tmp;
  Ok (mkcx a b).
(* 429-439 asinh, acosh, atanh *)
Definition casinh (x : cx) : res cx := do s <- csqrt (caddS (cmul x x) s1); clog (cadd x s).
Definition cacosh (x : cx) : res cx := do s <- csqrt (csubS (cmul x x) s1); clog (cadd x s).
Definition catanh (x : cx) : res cx :=
  do q <- cdiv (cSadd s1 x) (cSsub s1 x); do l <- clog q; Ok (cSmul shalf l).
End Cplx.
Arguments mkcx {S}. Arguments re {S}. Arguments im {S}. Arguments cofI {S}. Arguments cofS {S}. Arguments cxi {S}.
Arguments cadd {S}. Arguments caddS {S}. Arguments cSadd {S}. Arguments caddI {S}. Arguments cIadd {S}.
Arguments csub {S}. Arguments csubS {S}. Arguments cSsub {S}. Arguments csubI {S}. Arguments cIsub {S}. Arguments cneg {S}.
Arguments cmul {S}. Arguments cmulS {S}. Arguments cSmul {S}. Arguments cmulI {S}. Arguments cImul {S}.
Arguments cdiv {S}. Arguments cdivS {S}. Arguments cdivI {S}. Arguments cSdiv {S}. Arguments cIdiv {S}.
Arguments cabs {S}. Arguments cconj {S}. Arguments cpow_loop {S}. Arguments cpowi {S}.
