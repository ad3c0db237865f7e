(* Model of kv/autodif.hpp over any base type T (exact reals, interval<...>).  ub::vector<T> d is a
   list; d.size()==0 marks a constant.  Element-wise vector expressions of different sizes are undefined
   behaviour (the BOOST_UBLAS size checks are a build option): EUB.  ublas evaluates scalar factors once,
   before the elements.  The overloads with a plain number C are modelled for C a double m*2^e.
   int exponents are unbounded integers (y - 1 does not wrap). *)
From Coq Require Import ZArith Bool List Arith.
From Verif Require Import Ext.
Import ListNotations.

(* unary functions of autodif.hpp *)
Inductive afun := Aexp | Alog | Asqrt | Asin | Acos | Atan_ | Aasin | Aacos | Aatan
  | Asinh | Acosh_ | Atanh_ | Aasinh | Aacosh | Aatanh.

(* operations of the base type used by autodif.hpp *)
Record base := mkbase {
  bT :> Type;
  bcst : Z -> Z -> bT;                       (* T(m * 2^e) *)
  badd : bT -> bT -> bT; bsub : bT -> bT -> bT; bmul : bT -> bT -> bT; bneg : bT -> bT;
  bdiv : bT -> bT -> res bT;
  (* operators with a double m*2^e on one side *)
  baddS : bT -> Z -> Z -> bT; bSadd : Z -> Z -> bT -> bT;
  bsubS : bT -> Z -> Z -> bT; bSsub : Z -> Z -> bT -> bT;
  bmulS : bT -> Z -> Z -> bT; bSmul : Z -> Z -> bT -> bT;   (* bSmul y 0 is also int * T *)
  bdivS : bT -> Z -> Z -> res bT; bSdiv : Z -> Z -> bT -> res bT;
  bpowi : bT -> Z -> res bT;                  (* pow(T, int) *)
  bfun : afun -> bT -> res bT
}.
Arguments bcst {b}. Arguments badd {b}. Arguments bsub {b}. Arguments bmul {b}. Arguments bneg {b}. Arguments bdiv {b}.
Arguments baddS {b}. Arguments bSadd {b}. Arguments bsubS {b}. Arguments bSsub {b}.
Arguments bmulS {b}. Arguments bSmul {b}. Arguments bdivS {b}. Arguments bSdiv {b}. Arguments bpowi {b}. Arguments bfun {b}.

(* operators between an autodif and a number C: the suffix r puts the number on the left *)
Inductive scop := SOadd | SOaddr | SOsub | SOsubr | SOmul | SOmulr | SOdiv | SOdivr.

(* a function written with autodif *)
Inductive aexpr :=
| XVar (n : nat) | XCst (m e : Z)
| XAdd (a b : aexpr) | XSub (a b : aexpr) | XMul (a b : aexpr) | XDiv (a b : aexpr)
| XSc (o : scop) (m e : Z) (a : aexpr)
| XNeg (a : aexpr) | XPowZ (a : aexpr) (n : Z) | XPow (a b : aexpr) | XFun (f : afun) (a : aexpr).

Section AD.
Variable B : base.
(* 33-38 *)
Record ad := mkad { av : B; adv : list B }.

Fixpoint mapM (f : B -> res B) (l : list B) : res (list B) :=
  match l with [] => Ok [] | x :: l => do y <- f x; do r <- mapM f l; Ok (y :: r) end.
Fixpoint zipM (f : B -> B -> res B) (a b : list B) : res (list B) :=
  match a, b with
  | [], [] => Ok []
  | x :: a, y :: b => do z <- f x y; do r <- zipM f a b; Ok (z :: r)
  | _, _ => Err EUB
  end.
(* 45-54 constants *)
Definition ad_cst (c : B) : ad := mkad c [].
(* 56-70 operator+ *)
Definition ad_add (a b : ad) : res ad :=
  let v := badd (av a) (av b) in
  match adv a, adv b with
  | [], d => Ok (mkad v d)
  | d, [] => Ok (mkad v d)
  | da, db => do d <- zipM (fun x y => Ok (badd x y)) da db; Ok (mkad v d)
  end.
(* 100-114 operator- *)
Definition ad_sub (a b : ad) : res ad :=
  let v := bsub (av a) (av b) in
  match adv a, adv b with
  | [], d => Ok (mkad v (map bneg d))
  | d, [] => Ok (mkad v d)
  | da, db => do d <- zipM (fun x y => Ok (bsub x y)) da db; Ok (mkad v d)
  end.
(* 144-151 unary minus *)
Definition ad_neg (a : ad) : ad := mkad (bneg (av a)) (map bneg (adv a)).
(* 153-167 operator* *)
Definition ad_mul (a b : ad) : res ad :=
  let v := bmul (av a) (av b) in
  match adv a, adv b with
  | [], d => Ok (mkad v (map (bmul (av a)) d))
  | d, [] => Ok (mkad v (map (bmul (av b)) d))
  | da, db => do d <- zipM (fun x y => Ok (badd (bmul (av b) x) (bmul (av a) y))) da db; Ok (mkad v d)
  end.
(* 201-215 operator/ *)
Definition ad_div (a b : ad) : res ad :=
  do v <- bdiv (av a) (av b);
  match adv a, adv b with
  | [], d => do k <- bdiv (bneg (av a)) (bmul (av b) (av b)); Ok (mkad v (map (fun y => bmul y k) d))
  | d, [] => do d <- mapM (fun x => bdiv x (av b)) d; Ok (mkad v d)
  | da, db => do k <- bdiv (bneg (av a)) (bmul (av b) (av b));
      do d <- zipM (fun x y => do q <- bdiv x (av b); Ok (badd q (bmul y k))) da db; Ok (mkad v d)
  end.
(* 72-88, 116-132, 169-187, 217-234 with a number; 95-98, 139-142, 194-199, 241-246 are the compound forms *)
Definition ad_sc (o : scop) (m e : Z) (a : ad) : res ad :=
  match o with
  | SOadd => Ok (mkad (baddS (av a) m e) (adv a))
  | SOaddr => Ok (mkad (bSadd m e (av a)) (adv a))
  | SOsub => Ok (mkad (bsubS (av a) m e) (adv a))
  | SOsubr => Ok (mkad (bSsub m e (av a)) (map bneg (adv a)))
  | SOmul => Ok (mkad (bmulS (av a) m e) (map (bmul (bcst m e)) (adv a)))
  | SOmulr => Ok (mkad (bSmul m e (av a)) (map (bmul (bcst m e)) (adv a)))
  | SOdiv => do v <- bdivS (av a) m e; do d <- mapM (fun x => bdiv x (bcst m e)) (adv a); Ok (mkad v d)
  | SOdivr => do v <- bSdiv m e (av a); do k <- bSdiv (- m) e (bmul (av a) (av a));
      Ok (mkad v (map (fun y => bmul y k) (adv a)))
  end.
(* 263-274 pow(autodif, int) *)
Definition ad_powz (x : ad) (y : Z) : res ad :=
  do v <- bpowi (av x) y;
  if (y =? 0)%Z then Ok (mkad v (map (bmul (bcst 0 0)) (adv x)))
  else do p <- bpowi (av x) (y - 1); let k := bSmul y 0 p in Ok (mkad v (map (bmul k) (adv x))).
(* 288-455: r.v = f(x.v); r.d = factor * x.d, or x.d / divisor *)
Definition ad_scale (v : B) (x : ad) (k : B) : res ad := Ok (mkad v (map (bmul k) (adv x))).
Definition ad_fun (f : afun) (x : ad) : res ad :=
  let X := av x in
  do v <- bfun f X;
  match f with
  | Aexp => ad_scale v x v
  | Alog => do d <- mapM (fun y => bdiv y X) (adv x); Ok (mkad v d)
  | Asqrt => let k := bSmul 2 0 v in do d <- mapM (fun y => bdiv y k) (adv x); Ok (mkad v d)
  | Asin => do k <- bfun Acos X; ad_scale v x k
  | Acos => do s <- bfun Asin X; ad_scale v x (bneg s)
  | Atan_ => do c <- bfun Acos X; do k <- bSdiv 1 0 (bmul c c); ad_scale v x k
  | Aasin => do s <- bfun Asqrt (bSsub 1 0 (bmul X X)); do k <- bSdiv 1 0 s; ad_scale v x k
  | Aacos => do s <- bfun Asqrt (bSsub 1 0 (bmul X X)); do k <- bSdiv (-1) 0 s; ad_scale v x k
  | Aatan => do k <- bSdiv 1 0 (bSadd 1 0 (bmul X X)); ad_scale v x k
  | Asinh => do k <- bfun Acosh_ X; ad_scale v x k
  | Acosh_ => do k <- bfun Asinh X; ad_scale v x k
  | Atanh_ => do c <- bfun Acosh_ X; do k <- bSdiv 1 0 (bmul c c); ad_scale v x k
  | Aasinh => do s <- bfun Asqrt (baddS (bmul X X) 1 0); do k <- bSdiv 1 0 s; ad_scale v x k
  | Aacosh => do s <- bfun Asqrt (bsubS (bmul X X) 1 0); do k <- bSdiv 1 0 s; ad_scale v x k
  | Aatanh => do k <- bSdiv 1 0 (bSsub 1 0 (bmul X X)); ad_scale v x k
  end.
(* 276-278 pow(autodif, autodif); 280-286 convert the number to autodif and call this *)
Definition ad_pow (x y : ad) : res ad :=
  do l <- ad_fun Alog x; do p <- ad_mul y l; ad_fun Aexp p.

(* 457-472 init, n-dimensional *)
Definition ad_unit (n i : nat) : list B := map (fun j => if Nat.eq_dec i j then bcst 1 0 else bcst 0 0) (seq 0 n).
Definition ad_init (n : nat) (X : nat -> B) (i : nat) : ad := mkad (X i) (ad_unit n i).
(* 487-510 split, R^n -> R^m: n is the largest gradient size; shorter gradients are padded with 0 *)
Definition ad_size (m : nat) (in_ : nat -> ad) : nat := fold_right Nat.max 0%nat (map (fun i => length (adv (in_ i))) (seq 0 m)).
Definition ad_row (x : ad) (j : nat) : B := nth j (adv x) (bcst 0 0).
(* None: the output arguments are left untouched (491) *)
Definition ad_split (m : nat) (in_ : nat -> ad) : option ((nat -> B) * (nat * (nat -> nat -> B))) :=
  if (m =? 0)%nat then None else Some (fun i => av (in_ i), (ad_size m in_, fun i j => ad_row (in_ i) j)).
(* 546-578 compress: values with unit gradients; save is the n x m Jacobian matrix.  in(0) is read first: EUB if empty *)
Definition ad_compress (n : nat) (in_ : nat -> ad) : res ((nat -> ad) * (nat * (nat -> nat -> B))) :=
  if (n =? 0)%nat then Err EUB
  else Ok (fun i => mkad (av (in_ i)) (ad_unit n i), (ad_size n in_, fun i j => ad_row (in_ i) j)).
(* 580-588 expand: ublas prod(in.d, save), save of size n x m; without size checks the product sums over the
   elements of in.d, so a constant gets a zero gradient of length m *)
Fixpoint bdot (d : list B) (k : nat) (save : nat -> nat -> B) (j : nat) (acc : B) : B :=
  match d with [] => acc | x :: d => bdot d (S k) save j (badd acc (bmul x (save k j))) end.
Definition ad_expand (x : ad) (m : nat) (save : nat -> nat -> B) : ad :=
  mkad (av x) (map (fun j => bdot (adv x) 0 save j (bcst 0 0)) (seq 0 m)).

Fixpoint aeval (env : nat -> ad) (e : aexpr) : res ad :=
  match e with
  | XVar n => Ok (env n)
  | XCst m x => Ok (ad_cst (bcst m x))
  | XAdd a b => do x <- aeval env a; do y <- aeval env b; ad_add x y
  | XSub a b => do x <- aeval env a; do y <- aeval env b; ad_sub x y
  | XMul a b => do x <- aeval env a; do y <- aeval env b; ad_mul x y
  | XDiv a b => do x <- aeval env a; do y <- aeval env b; ad_div x y
  | XSc o m x a => do y <- aeval env a; ad_sc o m x y
  | XNeg a => do x <- aeval env a; Ok (ad_neg x)
  | XPowZ a n => do x <- aeval env a; ad_powz x n
  | XPow a b => do x <- aeval env a; do y <- aeval env b; ad_pow x y
  | XFun f a => do x <- aeval env a; ad_fun f x
  end.
End AD.
Arguments mkad {B}. Arguments av {B}. Arguments adv {B}. Arguments mapM {B}. Arguments zipM {B}.
Arguments ad_cst {B}. Arguments ad_add {B}. Arguments ad_sub {B}. Arguments ad_neg {B}. Arguments ad_mul {B}. Arguments ad_div {B}.
Arguments ad_sc {B}. Arguments ad_powz {B}. Arguments ad_scale {B}. Arguments ad_fun {B}. Arguments ad_pow {B}. Arguments ad_unit {B}. Arguments ad_init {B}.
Arguments ad_size {B}. Arguments ad_row {B}. Arguments ad_split {B}. Arguments ad_compress {B}. Arguments bdot {B}. Arguments ad_expand {B}.
Arguments aeval {B}.
