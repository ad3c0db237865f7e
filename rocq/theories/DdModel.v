(* Model of kv/dd.hpp (the double-double type and its comparisons), of rop<dd> in
   kv/rdd-hwround.hpp, kv/rdd-nohwround.hpp and kv/rdd-avx512.hpp (directed add, sub, mul, div,
   sqrt; DD_NEW_SQRT == 1) and of the double/dd conversions in kv/interval-conv.hpp.

   Simplifications.  The up and down versions of each operation are the same text with the
   directions exchanged, so each is written once with a direction d (true = up).  A `volatile`
   stretch between roundup() and roundnear() is modelled by giving each operation its rounding mode.
   dd::twosum and dd::split (dd.hpp 65-86) are the text of rop<double>'s (NohwModel).
   print/fromstring, the round-to-nearest operators and DD_NEW_SQRT == 0 are not modelled here. *)
From Coq Require Import ZArith Bool.
From Flocq Require Import Core BinarySingleNaN.
From Verif Require Import Ext Scalar Fp64 RDoubleHw NohwModel.

(* kv/dd.hpp 53-56: double a1, a2 *)
Record dd := mkdd { a1 : b64; a2 : b64 }.

(* dd.hpp, std::numeric_limits<kv::dd>::max: a1 = DBL_MAX, a2 = ldexp(DBL_MAX, -54) *)
Definition ddmax1 : b64 := bmax.
Definition ddmax2 : b64 := bdy (2 ^ 53 - 1) 917.

(* The arithmetic a back end of rop<dd> uses: the ten directed double operations, the rounding mode
   in force for the plain multiplications by 0.5, 0.25 and 2. in a stretch of direction d, and
   whether twoproduct is computed with fma. *)
Record dops := mkdops {
  o_au : b64 -> b64 -> b64; o_ad : b64 -> b64 -> b64; o_su : b64 -> b64 -> b64; o_sd : b64 -> b64 -> b64;
  o_mu : b64 -> b64 -> b64; o_md : b64 -> b64 -> b64; o_du : b64 -> b64 -> b64; o_dd : b64 -> b64 -> b64;
  o_qu : b64 -> b64; o_qd : b64 -> b64;
  o_mode : bool -> mode;
  o_fma : bool }.

Definition dmode (d : bool) : mode := if d then mode_UP else mode_DN.

(* rdd-hwround.hpp: the mode is switched with hwround; fma = (KV_USE_TPFMA == 1) *)
Definition ops_hw (fma : bool) : dops :=
  mkdops (Bplus mode_UP) (Bplus mode_DN) (Bminus mode_UP) (Bminus mode_DN) (Bmult mode_UP) (Bmult mode_DN)
         (Bdiv mode_UP) (Bdiv mode_DN) (Bsqrt mode_UP) (Bsqrt mode_DN) dmode fma.
(* rdd-nohwround.hpp: rop<double> by emulation; fma is the one used inside rop<double> *)
Definition ops_nohw (fma : bool) : dops :=
  mkdops nh_add_up nh_add_down nh_sub_up nh_sub_down (nh_mul_up fma) (nh_mul_down fma)
         (nh_div_up fma) (nh_div_down fma) (nh_sqrt_up fma) (nh_sqrt_down fma) (fun _ => mode_NE) false.

Section Dd.
Variable O : dops.
Implicit Types x y : dd.
Implicit Types d : bool.

Definition add_ d := if d then o_au O else o_ad O.
Definition sub_ d := if d then o_su O else o_sd O.
Definition mul_ d := if d then o_mu O else o_md O.
Definition div_ d := if d then o_du O else o_dd O.
Definition sqrt_ d := if d then o_qu O else o_qd O.
Definition half d (x : b64) : b64 := Bmult (o_mode O d) x (bdy 1 (-1)).
Definition quarter d (x : b64) : b64 := Bmult (o_mode O d) x (bdy 1 (-2)).
Definition dbl d (x : b64) : b64 := Bmult (o_mode O d) x (bdy 2 0).
(* the infinity in direction d *)
Definition inf_ d : b64 := if d then bpinf else bninf.
(* c when rounding down, -c when rounding up *)
Definition far d (c : b64) : b64 := if d then Bopp c else c.

(* rdd-hwround.hpp 25-128, rdd-nohwround.hpp 19-77: twoproduct_up, twoproduct_down *)
Definition tpd d (a b : b64) : b64 * b64 :=
  let x := a *. b in
  if o_fma O then (x, Bfma (dmode d) a b (Bopp x))
  else
    let '(na, nb) :=
      if p2 996 <. Babs a then (a *. p2 (-28), b *. p2 28)
      else if p2 996 <. Babs b then (a *. p2 28, b *. p2 (-28))
      else (a, b) in
    let '(u1, u2) := split na in
    let '(v1, v2) := split nb in
    if p2 1023 <. Babs x then
      (x, add_ d (add_ d (add_ d (dbl d (sub_ d (mul_ d (half d u1) v1) (half d x))) (mul_ d u2 v1)) (mul_ d u1 v2)) (mul_ d u2 v2))
    else
      (x, add_ d (add_ d (add_ d (sub_ d (mul_ d u1 v1) x) (mul_ d u2 v1)) (mul_ d u1 v2)) (mul_ d u2 v2)).

(* the common tail: twosum(z1, z2, z3, z4) and its overflow handling
   (nohwround 98-107, 129-137, 159-168, 190-198, 220-229, 251-259, 326-335, 401-410) *)
Definition fin d (z1 z2 : b64) : dd :=
  let '(z3, z4) := twosum z1 z2 in
  if z3 ==. inf_ d then mkdd z3 b0
  else if z3 ==. inf_ (negb d) then mkdd (far d ddmax1) (far d ddmax2)
  else mkdd z3 z4.

Definition isinf (x : b64) : bool := Babs x ==. bpinf.

(* hwround 130-198, nohwround 79-138: add_up, add_down *)
Definition dd_add d x y : dd :=
  if isinf (a1 x) || isinf (a1 y) then mkdd (a1 x +. a1 y) b0
  else
    let '(z1, z2) := twosum (a1 x) (a1 y) in
    if z1 ==. inf_ d then mkdd z1 b0
    else
      let '(z1, z2) := if z1 ==. inf_ (negb d) then (far d ddmax1, far d ddmax2) else (z1, z2) in
      fin d z1 (add_ d z2 (add_ d (a2 x) (a2 y))).

(* hwround 200-268, nohwround 140-199: sub_up, sub_down *)
Definition dd_sub d x y : dd :=
  if isinf (a1 x) || isinf (a1 y) then mkdd (a1 x -. a1 y) b0
  else
    let '(z1, z2) := twosum (a1 x) (Bopp (a1 y)) in
    if z1 ==. inf_ d then mkdd z1 b0
    else
      let '(z1, z2) := if z1 ==. inf_ (negb d) then (far d ddmax1, far d ddmax2) else (z1, z2) in
      fin d z1 (add_ d z2 (sub_ d (a2 x) (a2 y))).

(* hwround 270-338, nohwround 201-261: mul_up, mul_down *)
Definition dd_mul d x y : dd :=
  if isinf (a1 x) || isinf (a1 y) then mkdd (a1 x *. a1 y) b0
  else
    let '(z1, z2) := tpd d (a1 x) (a1 y) in
    if z1 ==. inf_ d then mkdd z1 b0
    else
      let '(z1, z2) := if z1 ==. inf_ (negb d) then (far d ddmax1, far d ddmax2) else (z1, z2) in
      fin d z1 (add_ d z2 (add_ d (add_ d (mul_ d (a1 x) (a2 y)) (mul_ d (a2 x) (a1 y))) (mul_ d (a2 x) (a2 y)))).

(* the remainder divided by y, rounded in direction d (nohwround 285-290 and its seven copies):
   the divisor is rounded so that the quotient errs in direction d *)
Definition quot d (v u w : b64) : b64 :=
  let tmp := if b0 <. v then add_ (negb d) u w else add_ d u w in
  div_ d v tmp.

(* hwround 340-530, nohwround 263-412: div_up, div_down; the remainder is computed in direction d
   when y.a1 >= 0 and in the other direction otherwise *)
Definition dd_div d x y : dd :=
  if isinf (a1 x) || isinf (a1 y) then mkdd (a1 x /. a1 y) b0
  else
    let z1 := a1 x /. a1 y in
    if z1 ==. inf_ d then mkdd z1 b0
    else
      let z1 := if z1 ==. inf_ (negb d) then far d ddmax1 else z1 in
      let e := if b0 <=. a1 y then d else negb d in
      let '(z3, z4) := tpd e (Bopp z1) (a1 y) in
      if isinf z3 then
        let '(z3, z4) := tpd e (Bopp z1) (a1 y *. bdy 1 (-1)) in
        let v := add_ e (add_ e (add_ e (add_ e z3 (half e (a1 x))) (mul_ e (Bopp z1) (half e (a2 y)))) (half e (a2 x))) z4 in
        fin d z1 (quot d v (half e (a1 y)) (half e (a2 y)))
      else
        let v := add_ e (add_ e (add_ e (add_ e z3 (a1 x)) (mul_ e (Bopp z1) (a2 y))) (a2 x)) z4 in
        fin d z1 (quot d v (a1 y) (a2 y)).

(* hwround 532-612, nohwround 414-480: sqrt_up, sqrt_down (DD_NEW_SQRT == 1) *)
Definition dd_sqrt d x : dd :=
  if (a1 x ==. b0) && (a2 x ==. b0) then mkdd b0 b0
  else if a1 x ==. bpinf then mkdd (a1 x) b0
  else
    let z1 := Bsqrt mode_NE (a1 x) in
    let '(z3, z4) := tpd d (Bopp z1) z1 in
    let v := add_ d (add_ d (add_ d z3 (a1 x)) (a2 x)) z4 in
    let tmp :=
      if Bool.eqb (b0 <. v) d then add_ false (sqrt_ false (add_ false (a1 x) (a2 x))) z1
      else if a1 x ==. bmax then
        add_ true (dbl true (sqrt_ true (add_ true (quarter true (a1 x)) (mul_ true (a2 x) (bdy 1 (-2)))))) z1
      else add_ true (sqrt_ true (add_ true (a1 x) (a2 x))) z1 in
    let '(z3, z4) := twosum z1 (div_ d v tmp) in
    mkdd z3 z4.

(* interval-conv.hpp 95-109: ddtodouble with rnd = 1 (d = true) and rnd = -1 (d = false) *)
Definition ddtodouble d x : b64 := add_ d (a1 x) (a2 x).
(* 111-115; an interval<dd> is given by its two ends *)
Definition iddtoidouble (l u : dd) : b64 * b64 := (ddtodouble false l, ddtodouble true u).
End Dd.

(* dd.hpp: dd(const C& x) for a double: a1 = x; a2 = 0. *)
Definition dd_of (x : b64) : dd := mkdd x b0.
(* interval-conv.hpp 117-121 *)
Definition idoubletoidd (l u : b64) : dd * dd := (dd_of l, dd_of u).

(* dd.hpp 556-560, 584-588, 612-616, 640-644, 668-670, 678-680 *)
Definition dd_lt (x y : dd) : bool := if a1 x <. a1 y then true else if a1 y <. a1 x then false else a2 x <. a2 y.
Definition dd_le (x y : dd) : bool := if a1 x <. a1 y then true else if a1 y <. a1 x then false else a2 x <=. a2 y.
Definition dd_gt (x y : dd) : bool := if a1 y <. a1 x then true else if a1 x <. a1 y then false else a2 y <. a2 x.
Definition dd_ge (x y : dd) : bool := if a1 y <. a1 x then true else if a1 x <. a1 y then false else a2 y <=. a2 x.
Definition dd_eq (x y : dd) : bool := (a1 x ==. a1 y) && (a2 x ==. a2 y).
Definition dd_ne (x y : dd) : bool := negb (a1 x ==. a1 y) || negb (a2 x ==. a2 y).
(* the mixed forms with a double, e.g. 562-566, 572-576 *)
Definition dd_lt_d (x : dd) (c : b64) : bool := if a1 x <. c then true else if c <. a1 x then false else a2 x <. b0.
Definition d_lt_dd (c : b64) (y : dd) : bool := if c <. a1 y then true else if a1 y <. c then false else b0 <. a2 y.
Definition dd_le_d (x : dd) (c : b64) : bool := if a1 x <. c then true else if c <. a1 x then false else a2 x <=. b0.
Definition d_le_dd (c : b64) (y : dd) : bool := if c <. a1 y then true else if a1 y <. c then false else b0 <=. a2 y.
Definition dd_eq_d (x : dd) (c : b64) : bool := (a1 x ==. c) && (a2 x ==. b0).
Definition dd_ne_d (x : dd) (c : b64) : bool := negb (a1 x ==. c) || negb (a2 x ==. b0).
(* dd.hpp, unary minus: dd(-x.a1, -x.a2) *)
Definition dd_neg (x : dd) : dd := mkdd (Bopp (a1 x)) (Bopp (a2 x)).

(* rdd-avx512.hpp 42-88: add_up, add_down (the overflow tests of add_down are those of add_up) *)
Definition avx512_add (d : bool) (x y : dd) : dd :=
  let '(z1, z2) := twosum (a1 x) (a1 y) in
  if z1 ==. bpinf then mkdd z1 b0
  else if z1 ==. bninf then mkdd (Bopp ddmax1) (Bopp ddmax2)
  else
    let m := dmode d in
    let z2 := Bplus m z2 (Bplus m (a2 x) (a2 y)) in
    let '(z3, z4) := twosum z1 z2 in mkdd z3 z4.
(* rdd-avx512.hpp 90-136: sub_up, sub_down *)
Definition avx512_sub (d : bool) (x y : dd) : dd :=
  let '(z1, z2) := twosum (a1 x) (Bopp (a1 y)) in
  if z1 ==. bpinf then mkdd z1 b0
  else if z1 ==. bninf then mkdd (Bopp ddmax1) (Bopp ddmax2)
  else
    let m := dmode d in
    let z2 := Bplus m z2 (Bminus m (a2 x) (a2 y)) in
    let '(z3, z4) := twosum z1 z2 in mkdd z3 z4.
(* rdd-avx512.hpp 21-40, 138-194: mul_up, mul_down *)
Definition avx512_mul (d : bool) (x y : dd) : dd :=
  let m := dmode d in
  let z1 := a1 x *. a1 y in
  let z2 := Bfma m (a1 x) (a1 y) (Bopp z1) in
  if z1 ==. inf_ d then mkdd z1 b0
  else if z1 ==. inf_ (negb d) then mkdd (far d ddmax1) (far d ddmax2)
  else
    let z2 := Bfma m (a1 x) (a2 y) z2 in
    let z2 := Bfma m (a2 x) (a1 y) z2 in
    let z2 := Bfma m (a2 x) (a2 y) z2 in
    let '(z3, z4) := twosum z1 z2 in mkdd z3 z4.
