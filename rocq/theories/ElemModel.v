(* Model of the elementary functions of kv/interval.hpp (1017-1844) and of the constants computed
   by series (1847-1936).  Written for an arbitrary scalar type, with the parameters below; the
   literals that the code computes in double (std::sqrt(2.) and so on) are computed with T's own
   operations, which is the same thing for T = double, the instance the theorems are about.
   Loops without a static bound take `fuel`; running out is Err EFuel.  A counter `int i` that
   would pass INT_MAX is Err EUB. *)
From Coq Require Import ZArith Bool.
From Verif Require Import Ext Scalar IntervalModel.
Open Scope Z_scope.

(* what the elementary functions use besides rop<T>: constants<interval>::e(), pi(), ln2()
   (kv/rdouble.hpp 20-42), the exponent returned by std::frexp, std::sqrt *)
Record elemp (S : scal) := mkelemp {
  c_e : iv S; c_pi : iv S; c_ln2 : iv S; frexp_e : S -> Z; nsqrt : S -> S }.
Arguments c_e {S}. Arguments c_pi {S}. Arguments c_ln2 {S}. Arguments frexp_e {S}. Arguments nsqrt {S}.

Section Elem.
Variable S : scal.
Variable P : elemp S.
Notation iv := (iv S).

Definition sint (i : Z) : S := sdy i 0.          (* (T)i and the literals 2., 3., ... *)
Definition squart : S := sdy 1 (-2).             (* 0.25 *)
Definition ipm1 : iv := mkiv (sneg s1) s1.       (* interval(-1., 1.) *)
Definition intmax : Z := 2147483647.

(* 1038-1057 ipower *)
Fixpoint ipower_loop (fuel : nat) (i : S) (r xp : iv) : res iv :=
  if seqb i s0 then Ok r
  else match fuel with
  | O => Err EFuel
  | Datatypes.S f =>
    let i := nmul i shalf in
    let tmp := sfloor i in
    if negb (seqb tmp i) then ipower_loop f tmp (imul r xp) (imul xp xp)
    else ipower_loop f i r (imul xp xp)
  end.
Definition ipower (fuel : nat) (x : iv) (i : S) : res iv :=
  if negb (seqb i i) then Ok (ipt i) else ipower_loop fuel i (ipt s1) x.

(* 1071 = 1122: remainder *)
Definition exp_rem : res iv :=
  do s <- isqrt (c_e P);
  do a <- iSdiv s1 s;
  do b <- isqrt (c_e P);
  Ok (mkiv (lo a) (hi b)).

(* 1092-1102 = 1126-1136: the Taylor loop of exp_point and expm1_origin *)
Fixpoint exp_loop (fuel : nat) (x : S) (rem : iv) (i : Z) (r y : iv) : res iv :=
  match fuel with
  | O => Err EFuel
  | Datatypes.S f =>
    if intmax <? i then Err EUB else
    let y := imulS y x in
    do y <- idivS y (sint i);
    if slt (nmul (mag y) (hi rem)) seps then Ok (iadd r (imul y rem))
    else exp_loop f x rem (i + 1) (iadd r y) y
  end.

(* 1073-1089: x = x_i + x_f *)
Definition exp_split (x : S) : S * S :=
  if sle s0 x then
    let x_i := sfloor x in
    let x_f := nsub x x_i in
    if sle shalf x_f then (nadd x_i s1, nsub x_f s1) else (x_i, x_f)
  else
    let x_i := sneg (sfloor (sneg x)) in
    let x_f := nsub x x_i in
    if sle x_f (sneg shalf) then (nsub x_i s1, nadd x_f s1) else (x_i, x_f).

(* 1059-1112 exp_point *)
Definition exp_point (fuel : nat) (x : S) : res iv :=
  if seqb x spinf then Ok (mkiv smax spinf)
  else if seqb x sninf then Ok (mkiv s0 sdmin)
  else
    do rem <- exp_rem;
    let (x_i, x_f) := exp_split x in
    do r <- exp_loop fuel x_f rem 1 (ipt s1) (ipt s1);
    if sle s0 x_i then do p <- ipower fuel (c_e P) x_i; Ok (imul r p)
    else do p <- ipower fuel (c_e P) (sneg x_i); idiv r p.

(* functions of the form interval(f(I.lower()).lower(), f(I.upper()).upper()) *)
Definition by_ends (f : S -> res iv) (X : iv) : res iv :=
  do a <- f (lo X); do b <- f (hi X); Ok (mkiv (lo a) (hi b)).

(* 1114-1116 exp *)
Definition iexp (fuel : nat) : iv -> res iv := by_ends (exp_point fuel).
(* 1118-1138 expm1_origin *)
Definition expm1_origin (fuel : nat) (x : S) : res iv :=
  do rem <- exp_rem; exp_loop fuel x rem 1 (ipt s0) (ipt s1).
(* 1140-1146 expm1_point *)
Definition expm1_point (fuel : nat) (x : S) : res iv :=
  if sle (sneg shalf) x && sle x shalf then expm1_origin fuel x
  else do r <- exp_point fuel x; Ok (isubS r s1).
(* 1148-1150 expm1 *)
Definition iexpm1 (fuel : nat) : iv -> res iv := by_ends (expm1_point fuel).

(* the double literals of 1187-1202, 1267 *)
Definition sqrt2d : S := nsqrt P (sint 2).
Definition th1 : S := nsub (nmul (sint 4) sqrt2d) (sint 4).
Definition th2 : S := nsub (sint 4) (nmul (sint 2) sqrt2d).
Definition th3 : S := nsub (sint 2) sqrt2d.
Definition th4 : S := nsub (nmul (sint 2) sqrt2d) (sint 2).
Definition th5 : S := nsub (sint 3) (nmul (sint 2) sqrt2d).

(* .lower() if round == -1, .upper() otherwise; up = (round == 1) *)
Definition pick (up : bool) (x : iv) : S := if up then hi x else lo x.

(* 1187-1190 *)
Fixpoint log_l1 (fuel : nat) (x2 p : S) : res (S * S) :=
  if slt th1 x2 then
    match fuel with
    | O => Err EFuel
    | Datatypes.S f => log_l1 f (nmul x2 shalf) (nadd p s1)
    end
  else Ok (x2, p).
(* 1191-1196 *)
Fixpoint log_l2 (fuel : nat) (up : bool) (sqrt2 : iv) (x2 p : S) : res (S * S) :=
  if slt th2 x2 then
    match fuel with
    | O => Err EFuel
    | Datatypes.S f => do t <- iSdiv x2 sqrt2; log_l2 f up sqrt2 (pick up t) (nadd p shalf)
    end
  else Ok (x2, p).
(* 1197-1200 *)
Fixpoint log_l3 (fuel : nat) (x2 p : S) : res (S * S) :=
  if slt x2 th3 then
    match fuel with
    | O => Err EFuel
    | Datatypes.S f => log_l3 f (nmul x2 (sint 2)) (nsub p s1)
    end
  else Ok (x2, p).
(* 1201-1206 *)
Fixpoint log_l4 (fuel : nat) (up : bool) (sqrt2 : iv) (x2 p : S) : res (S * S) :=
  if slt x2 th4 then
    match fuel with
    | O => Err EFuel
    | Datatypes.S f => log_l4 f up sqrt2 (pick up (iSmul x2 sqrt2)) (nsub p shalf)
    end
  else Ok (x2, p).

(* 1213-1223 = 1249-1259 (x2m1 is a T there): the series loop *)
Fixpoint log_loop (fuel : nat) (xm : S) (cinv : iv) (i : Z) (r xn xn2 : iv) : res iv :=
  match fuel with
  | O => Err EFuel
  | Datatypes.S f =>
    if intmax <? i then Err EUB else
    let xn := imulS (ineg xn) xm in
    let xn2 := imulS (imul (ineg xn2) cinv) xm in
    do tmp <- idivS xn2 (sint i);
    if slt (mag tmp) seps then Ok (iadd r tmp)
    else do t <- idivS xn (sint i); log_loop f xm cinv (i + 1) (iadd r t) xn xn2
  end.

(* 1152-1229 log_point; `round == 1` is up = true, the call sites pass -1 or 1 *)
Definition log_point (fuel : nat) (x : S) (up : bool) : res S :=
  do sqrt2 <- isqrt (ipt (sint 2));
  if seqb x spinf then Ok (if up then spinf else smax)
  else if seqb x s0 then Ok (if up then sneg smax else sninf)
  else
    let p_i := frexp_e P x in
    do q <- ipow (ipt (sint 2)) (- p_i);
    let x2 := pick up (iSmul x q) in
    do a <- log_l1 fuel x2 (sint p_i);
    do a <- log_l2 fuel up sqrt2 (fst a) (snd a);
    do a <- log_l3 fuel (fst a) (snd a);
    do a <- log_l4 fuel up sqrt2 (fst a) (snd a);
    let (x2, p) := a : S * S in
    let x2m1 := nsub x2 s1 in
    do cinv <- iSdiv s1 (hullSS x2 s1);
    do r <- log_loop fuel x2m1 cinv 1 (ipt s0) (ipt (sneg s1)) (ipt (sneg s1));
    Ok (pick up (iadd r (imulS (c_ln2 P) p))).

(* 1231-1236 log *)
Definition ilog (fuel : nat) (X : iv) : res iv :=
  if slt (lo X) s0 then Err EDomain
  else do a <- log_point fuel (lo X) false; do b <- log_point fuel (hi X) true; Ok (mkiv a b).

(* 1238-1262 log1p_origin *)
Definition log1p_origin (fuel : nat) (x : S) : res iv :=
  do cinv <- iSdiv s1 (hullIS (iSadd x (ipt s1)) s1);
  log_loop fuel x cinv 1 (ipt s0) (ipt (sneg s1)) (ipt (sneg s1)).
(* 1264-1279 log1p_point *)
Definition log1p_point (fuel : nat) (x : S) (up : bool) : res S :=
  if sle (sneg th5) x && sle x th5 then do t <- log1p_origin fuel x; Ok (pick up t)
  else log_point fuel (pick up (iSadd x (ipt s1))) up.
(* 1281-1286 log1p *)
Definition ilog1p (fuel : nat) (X : iv) : res iv :=
  if slt (lo X) (sneg s1) then Err EDomain
  else do a <- log1p_point fuel (lo X) false; do b <- log1p_point fuel (hi X) true; Ok (mkiv a b).

(* 1017-1019 pow(interval, interval) *)
Definition ipowI (fuel : nat) (X Y : iv) : res iv :=
  do l <- ilog fuel X; iexp fuel (imul Y l).

(* 1288-1312 sin_origin, 1314-1338 cos_origin: the flag selects the odd / even terms *)
Fixpoint sc_loop (fuel : nat) (odd : bool) (X : iv) (i : Z) (r y : iv) : res iv :=
  match fuel with
  | O => Err EFuel
  | Datatypes.S f =>
    if intmax <? i then Err EUB else
    let y := imul y X in
    do y <- idivS y (sint i);
    if slt (mag y) seps then Ok (iadd r (imul y ipm1))
    else
      let r := if odd then
                 if negb (i mod 2 =? 0) then (if i mod 4 =? 1 then iadd r y else isub r y) else r
               else
                 if i mod 2 =? 0 then (if i mod 4 =? 0 then iadd r y else isub r y) else r in
      sc_loop f odd X (i + 1) r y
  end.
Definition sin_origin (fuel : nat) (X : iv) : res iv := sc_loop fuel true X 1 (ipt s0) (ipt s1).
Definition cos_origin (fuel : nat) (X : iv) : res iv := sc_loop fuel false X 1 (ipt s1) (ipt s1).

Definition mpi : S := mid (c_pi P).
Definition rneg (x : res iv) : res iv := do t <- x; Ok (ineg t).

(* 1340-1370 sin_point *)
Fixpoint sin_point (fuel : nat) (X : iv) : res iv :=
  let pi := c_pi P in
  if sle mpi (lo X) then
    match fuel with O => Err EFuel | Datatypes.S f => sin_point f (isub X (imulS pi (sint 2))) end
  else if sle (hi X) (ndiv (nmul (sneg mpi) (sint 3)) (sint 4)) then rneg (sin_origin fuel (iadd X pi))
  else if sle (hi X) (nmul (sneg mpi) shalf) then rneg (cos_origin fuel (isub (imulS (ineg pi) shalf) X))
  else if sle (hi X) (nmul (sneg mpi) squart) then rneg (cos_origin fuel (iadd X (imulS pi shalf)))
  else if sle (hi X) s0 then rneg (sin_origin fuel (ineg X))
  else if sle (hi X) (nmul mpi squart) then sin_origin fuel X
  else if sle (hi X) (nmul mpi shalf) then cos_origin fuel (isub (imulS pi shalf) X)
  else if sle (hi X) (ndiv (nmul mpi (sint 3)) (sint 4)) then cos_origin fuel (isub X (imulS pi shalf))
  else sin_origin fuel (isub pi X).
(* 1372-1402 cos_point *)
Fixpoint cos_point (fuel : nat) (X : iv) : res iv :=
  let pi := c_pi P in
  if sle mpi (lo X) then
    match fuel with O => Err EFuel | Datatypes.S f => cos_point f (isub X (imulS pi (sint 2))) end
  else if sle (hi X) (ndiv (nmul (sneg mpi) (sint 3)) (sint 4)) then rneg (cos_origin fuel (iadd X pi))
  else if sle (hi X) (nmul (sneg mpi) shalf) then rneg (sin_origin fuel (isub (imulS (ineg pi) shalf) X))
  else if sle (hi X) (nmul (sneg mpi) squart) then sin_origin fuel (iadd X (imulS pi shalf))
  else if sle (hi X) s0 then cos_origin fuel (ineg X)
  else if sle (hi X) (nmul mpi squart) then cos_origin fuel X
  else if sle (hi X) (nmul mpi shalf) then sin_origin fuel (isub (imulS pi shalf) X)
  else if sle (hi X) (ndiv (nmul mpi (sint 3)) (sint 4)) then rneg (sin_origin fuel (isub X (imulS pi shalf)))
  else rneg (cos_origin fuel (isub pi X)).

(* 1420-1424 = 1467-1471, and 1522-1526 with other arguments: reduce I2 until I2.lower() is inside
   (-b, b); per is the period *)
Fixpoint reduce (fuel : nat) (b : S) (per : iv) (X : iv) : res iv :=
  if sle (lo X) (sneg b) || sle b (lo X) then
    match fuel with
    | O => Err EFuel
    | Datatypes.S f =>
      let n := sfloor (nadd (ndiv (lo X) (lo per)) shalf) in
      reduce f b per (isub X (iSmul n per))
    end
  else Ok X.

Definition inf_end (X : iv) : bool := seqb (sabs (lo X)) spinf || seqb (sabs (hi X)) spinf.
(* if (subset(c, I2)) r = hull(r, v) *)
Definition ext_if (b : bool) (r : iv) (v : S) : iv := if b then hullIS r v else r.

(* 1404-1449 sin *)
Definition isin_ (fuel : nat) (X : iv) : res iv :=
  let pi := c_pi P in
  let pi2 := imulS pi (sint 2) in
  if inf_end X then Ok (hullSS (sneg s1) s1)
  else
    do I2 <- reduce fuel (hi pi) pi2 X;
    if sle (hi pi2) (lo (isubS (ipt (hi I2)) (lo I2))) then Ok ipm1
    else
      do a <- sin_point fuel (ipt (lo I2));
      do b <- sin_point fuel (ipt (hi I2));
      let r := hull a b in
      let r := ext_if (isubset (imulS pi shalf) I2) r s1 in
      let r := ext_if (isubset (imulS pi (sdy 5 (-1))) I2) r s1 in
      let r := ext_if (isubset (imulS (ineg pi) shalf) I2) r (sneg s1) in
      let r := ext_if (isubset (imulS pi (sdy 3 (-1))) I2) r (sneg s1) in
      Ok (intersect r ipm1).
(* 1451-1500 cos *)
Definition icos (fuel : nat) (X : iv) : res iv :=
  let pi := c_pi P in
  let pi2 := imulS pi (sint 2) in
  if inf_end X then Ok (hullSS (sneg s1) s1)
  else
    do I2 <- reduce fuel (hi pi) pi2 X;
    if sle (hi pi2) (lo (isubS (ipt (hi I2)) (lo I2))) then Ok ipm1
    else
      do a <- cos_point fuel (ipt (lo I2));
      do b <- cos_point fuel (ipt (hi I2));
      let r := hull a b in
      let r := ext_if (iin s0 I2) r s1 in
      let r := ext_if (isubset pi2 I2) r s1 in
      let r := ext_if (isubset (ineg pi) I2) r (sneg s1) in
      let r := ext_if (isubset pi I2) r (sneg s1) in
      let r := ext_if (isubset (imulS pi (sint 3)) I2) r (sneg s1) in
      Ok (intersect r ipm1).

(* 1502-1504 tan_point *)
Definition tan_point (fuel : nat) (x : S) : res iv :=
  do a <- sin_point fuel (ipt x); do b <- cos_point fuel (ipt x); idiv a b.
(* 1506-1533 tan *)
Definition itan (fuel : nat) (X : iv) : res iv :=
  let pi := c_pi P in
  let pih := imulS pi shalf in
  if inf_end X then Ok (hullSS sninf spinf)
  else
    do I2 <- reduce fuel (hi pih) pi X;
    if sle (hi pih) (hi I2) then Ok iwhole
    else by_ends (tan_point fuel) I2.

(* 1535-1560 atan_origin *)
Fixpoint atan_loop (fuel : nat) (X : iv) (i : Z) (r y : iv) : res iv :=
  match fuel with
  | O => Err EFuel
  | Datatypes.S f =>
    if intmax <? i then Err EUB else
    let y := imul y X in
    do tmp <- idivS (imul y ipm1) (sint i);
    if slt (mag tmp) seps then Ok (iadd r tmp)
    else if negb (i mod 2 =? 0) then
      do t <- idivS y (sint i);
      atan_loop f X (i + 1) (if i mod 4 =? 1 then iadd r t else isub r t) y
    else atan_loop f X (i + 1) r y
  end.
Definition atan_origin (fuel : nat) (X : iv) : res iv := atan_loop fuel X 1 (ipt s0) (ipt s1).

Definition sq2p1 : S := nadd sqrt2d s1.
Definition sq2m1 : S := nsub sqrt2d s1.

(* 1562-1580 atan_point *)
Definition atan_point (fuel : nat) (x : S) : res iv :=
  let pi := c_pi P in
  let X := ipt x in
  if slt x (sneg sq2p1) then
    do q <- iSdiv s1 X; do t <- atan_origin fuel q; Ok (isub (imulS (ineg pi) shalf) t)
  else if slt x (sneg sq2m1) then
    do q <- idiv (iSadd s1 X) (iSsub s1 X); do t <- atan_origin fuel q; Ok (iadd (imulS (ineg pi) squart) t)
  else if slt x sq2m1 then atan_origin fuel X
  else if slt x sq2p1 then
    do q <- idiv (isubS X s1) (iaddS X s1); do t <- atan_origin fuel q; Ok (iadd (imulS pi squart) t)
  else do q <- iSdiv s1 X; do t <- atan_origin fuel q; Ok (isub (imulS pi shalf) t).
(* 1582-1584 atan *)
Definition iatan (fuel : nat) : iv -> res iv := by_ends (atan_point fuel).

(* std::sqrt(6.) / 3. *)
Definition sq6d3 : S := ndiv (nsqrt P (sint 6)) (sint 3).
(* the argument x / sqrt(...) of 1595-1603 = 1637-1645 *)
Definition asin_arg (x : S) : res iv :=
  if slt (sabs x) sq6d3 then
    do s <- isqrt (iSsub s1 (imulS (ipt x) x)); iSdiv x s
  else if slt s0 x then
    do s <- isqrt (imulS (iSadd s1 (ipt x)) (nsub s1 x)); iSdiv x s
  else
    do s <- isqrt (iSmul (nadd s1 x) (iSsub s1 (ipt x))); iSdiv x s.
(* 1586-1604 asin_point *)
Definition asin_point (fuel : nat) (x : S) : res iv :=
  let pih := imulS (c_pi P) shalf in
  if slt x (sneg s1) || slt s1 x then Err EDomain
  else if seqb x s1 then Ok pih
  else if seqb x (sneg s1) then Ok (ineg pih)
  else do q <- asin_arg x; iatan fuel q.
(* 1606-1608 asin *)
Definition iasin (fuel : nat) : iv -> res iv := by_ends (asin_point fuel).

(* 1610-1626 pih_m_atan_point *)
Definition pih_m_atan_point (fuel : nat) (X : iv) : res iv :=
  let pi := c_pi P in
  if slt (lo X) (sneg sq2p1) then
    do q <- iSdiv s1 X; do t <- atan_origin fuel q; Ok (iadd pi t)
  else if slt (lo X) (sneg sq2m1) then
    do q <- idiv (iSadd s1 X) (iSsub s1 X); do t <- atan_origin fuel q; Ok (isub (imulS pi (sdy 3 (-2))) t)
  else if slt (lo X) sq2m1 then
    do t <- atan_origin fuel X; Ok (isub (imulS pi shalf) t)
  else if slt (lo X) sq2p1 then
    do q <- idiv (isubS X s1) (iaddS X s1); do t <- atan_origin fuel q; Ok (isub (imulS pi squart) t)
  else do q <- iSdiv s1 X; atan_origin fuel q.
(* 1628-1646 acos_point *)
Definition acos_point (fuel : nat) (x : S) : res iv :=
  if slt x (sneg s1) || slt s1 x then Err EDomain
  else if seqb x s1 then Ok (ipt s0)
  else if seqb x (sneg s1) then Ok (c_pi P)
  else do q <- asin_arg x; pih_m_atan_point fuel q.
(* 1648-1650 acos: decreasing *)
Definition iacos (fuel : nat) (X : iv) : res iv :=
  do a <- acos_point fuel (hi X); do b <- acos_point fuel (lo X); Ok (mkiv (lo a) (hi b)).

(* 1652-1672 atan2_point *)
Definition atan2_point (fuel : nat) (y x : S) : res iv :=
  let pi := c_pi P in
  let Ix := ipt x in
  let Iy := ipt y in
  if sle y x && slt (sneg x) y then do q <- idiv Iy Ix; iatan fuel q
  else if slt x y && slt (sneg x) y then
    do q <- idiv Ix Iy; do t <- iatan fuel q; Ok (isub (imulS pi shalf) t)
  else if slt x y && sle y (sneg x) then
    do q <- idiv Iy Ix; do t <- iatan fuel q;
    if sle s0 y then Ok (iadd pi t) else Ok (iadd (ineg pi) t)
  else do q <- idiv Ix Iy; do t <- iatan fuel q; Ok (isub (imulS (ineg pi) shalf) t).
(* interval(a.lower(), b.upper()) *)
Definition glue (a b : res iv) : res iv := do x <- a; do y <- b; Ok (mkiv (lo x) (hi y)).
(* 1674-1714 atan2 *)
Definition iatan2 (fuel : nat) (Y X : iv) : res iv :=
  let pi := c_pi P in
  let pt := atan2_point fuel in
  if zero_in X then
    if zero_in Y then Ok (mkiv (sneg (hi pi)) (hi pi))
    else if igtS Y s0 then glue (pt (lo Y) (hi X)) (pt (lo Y) (lo X))
    else glue (pt (hi Y) (lo X)) (pt (hi Y) (hi X))
  else if zero_in Y then
    if igtS X s0 then glue (pt (lo Y) (lo X)) (pt (hi Y) (lo X))
    else if slt (lo Y) s0 then
      glue (pt (hi Y) (hi X)) (do t <- pt (lo Y) (hi X); Ok (iadd (imulS pi (sint 2)) t))
    else glue (pt (hi Y) (hi X)) (pt (lo Y) (hi X))
  else if igtS X s0 then
    if igtS Y s0 then glue (pt (lo Y) (hi X)) (pt (hi Y) (lo X))
    else glue (pt (lo Y) (lo X)) (pt (hi Y) (hi X))
  else
    if igtS Y s0 then glue (pt (hi Y) (hi X)) (pt (lo Y) (lo X))
    else glue (pt (hi Y) (lo X)) (pt (lo Y) (hi X)).

(* 1716-1742 sinh_origin *)
Definition coshh : res iv :=
  do h <- isqrt (c_e P); do q <- iSdiv s1 h; Ok (imulS (iadd h q) shalf).
Fixpoint sinh_loop (fuel : nat) (x : S) (rem : iv) (i : Z) (r y : iv) : res iv :=
  match fuel with
  | O => Err EFuel
  | Datatypes.S f =>
    if intmax <? i then Err EUB else
    let y := imulS y x in
    do y <- idivS y (sint i);
    let tmp := imul y rem in
    if slt (mag tmp) seps then Ok (iadd r tmp)
    else sinh_loop f x rem (i + 1) (if negb (i mod 2 =? 0) then iadd r y else r) y
  end.
Definition sinh_origin (fuel : nat) (x : S) : res iv :=
  do c <- coshh; sinh_loop fuel x (mkiv (sneg (hi c)) (hi c)) 1 (ipt s0) (ipt s1).
(* 1744-1755 sinh_point *)
Definition sinh_point (fuel : nat) (x : S) : res iv :=
  if sle (sneg shalf) x && sle x shalf then sinh_origin fuel x
  else if slt s0 x then
    do t <- exp_point fuel x; do q <- iSdiv s1 t; Ok (imulS (isub t q) shalf)
  else
    do t <- exp_point fuel (sneg x); do q <- iSdiv s1 t; Ok (imulS (isub q t) shalf).
(* 1757-1759 sinh *)
Definition isinh (fuel : nat) : iv -> res iv := by_ends (sinh_point fuel).
(* 1761-1770 cosh_point *)
Definition cosh_point (fuel : nat) (x : S) : res iv :=
  if sle s0 x then
    do t <- exp_point fuel x; do q <- iSdiv s1 t; Ok (imulS (iadd t q) shalf)
  else
    do t <- exp_point fuel (sneg x); do q <- iSdiv s1 t; Ok (imulS (iadd q t) shalf).
(* 1772-1779 cosh *)
Definition icosh (fuel : nat) (X : iv) : res iv :=
  do a <- cosh_point fuel (lo X); do b <- cosh_point fuel (hi X);
  Ok (ext_if (zero_in X) (hull a b) s1).
(* 1781-1789 tanh_point *)
Definition tanh_point (fuel : nat) (x : S) : res iv :=
  if slt shalf x then
    do t <- exp_point fuel (nmul (sint 2) x); do q <- iSdiv (sint 2) (iSadd s1 t); Ok (iSsub s1 q)
  else if slt x (sneg shalf) then
    do t <- exp_point fuel (nmul (sint (-2)) x); do q <- iSdiv (sint 2) (iSadd s1 t); Ok (isubS q s1)
  else do a <- sinh_origin fuel x; do b <- cosh_point fuel x; idiv a b.
(* 1791-1793 tanh *)
Definition itanh (fuel : nat) : iv -> res iv := by_ends (tanh_point fuel).

(* 1795-1803 asinh_point *)
Definition asinh_point (fuel : nat) (x : S) : res iv :=
  if slt x (sneg shalf) then
    do s <- isqrt (iSadd s1 (imulS (ipt x) x)); rneg (ilog fuel (iSadd (sneg x) s))
  else if sle x shalf then
    do s <- isqrt (iSadd s1 (imulS (ipt x) x));
    do q <- iSdiv x (iSadd s1 s);
    ilog1p fuel (imulS (iSadd s1 q) x)
  else
    do s <- isqrt (iSadd s1 (imulS (ipt x) x)); ilog fuel (iSadd x s).
(* 1805-1807 asinh *)
Definition iasinh (fuel : nat) : iv -> res iv := by_ends (asinh_point fuel).
(* 1809-1821 acosh_point *)
Definition acosh_point (fuel : nat) (x : S) : res iv :=
  if slt x s1 then Err EDomain
  else if seqb x s1 then Ok (ipt s0)
  else if sle x (sdy 3 (-1)) then
    let y := ipt (nsub x s1) in
    do s <- isqrt (imul y (iaddS (ipt x) s1)); ilog1p fuel (iadd y s)
  else
    do s <- isqrt (isubS (imulS (ipt x) x) s1); ilog fuel (iSadd x s).
(* 1823-1825 acosh *)
Definition iacosh (fuel : nat) : iv -> res iv := by_ends (acosh_point fuel).
(* 1827-1840 atanh_point *)
Definition atanh_point (fuel : nat) (x : S) : res iv :=
  if slt x (sneg s1) || slt s1 x then Err EDomain
  else if seqb x (sneg s1) then Ok (mkiv sninf (sneg smax))
  else if seqb x s1 then Ok (mkiv smax spinf)
  else if slt x (sneg shalf) then
    do q <- iSdiv (nadd s1 x) (iSsub s1 (ipt x)); do l <- ilog fuel q; Ok (iSmul shalf l)
  else if sle x shalf then
    do q <- iSdiv (nmul (sint 2) x) (iSsub s1 (ipt x)); do l <- ilog1p fuel q; Ok (iSmul shalf l)
  else
    do q <- idivS (iSadd s1 (ipt x)) (nsub s1 x); do l <- ilog fuel q; Ok (iSmul shalf l).
(* 1842-1844 atanh *)
Definition iatanh (fuel : nat) : iv -> res iv := by_ends (atanh_point fuel).

(* constants< interval<T> > computed by series; the static caching of the result is not modelled *)
(* 1849-1861 pi *)
Definition ser_pi (fuel : nat) : res iv :=
  do q5 <- iSdiv s1 (ipt (sint 5)); do a <- atan_origin fuel q5;
  do q239 <- iSdiv s1 (ipt (sint 239)); do b <- atan_origin fuel q239;
  Ok (isub (iSmul (sint 16) a) (iSmul (sint 4) b)).
(* 1863-1891 e; rem = interval("1", "2.71828182845904524") *)
Fixpoint ser_e_loop (fuel : nat) (rem : iv) (i : Z) (tmp y : iv) : res iv :=
  match fuel with
  | O => Err EFuel
  | Datatypes.S f =>
    if intmax <? i then Err EUB else
    do y <- idivS y (sint i);
    if slt (nmul (mag y) (hi rem)) seps then Ok (iadd tmp (imul y rem))
    else ser_e_loop f rem (i + 1) (iadd tmp y) y
  end.
Definition ser_e (fuel : nat) (rem : iv) : res iv := ser_e_loop fuel rem 1 (ipt s1) (ipt s1).
(* 1893-1927 ln2: the loop is the one of log_point with an interval x2m1 *)
Fixpoint ser_ln2_loop (fuel : nat) (xm cinv : iv) (i : Z) (r xn xn2 : iv) : res iv :=
  match fuel with
  | O => Err EFuel
  | Datatypes.S f =>
    if intmax <? i then Err EUB else
    let xn := imul (ineg xn) xm in
    let xn2 := imul (imul (ineg xn2) cinv) xm in
    do t <- idivS xn2 (sint i);
    if slt (mag t) seps then Ok (iadd r t)
    else do u <- idivS xn (sint i); ser_ln2_loop f xm cinv (i + 1) (iadd r u) xn xn2
  end.
Definition ser_ln2 (fuel : nat) : res iv :=
  do s <- isqrt (ipt (sint 2)); do x2 <- isqrt s;
  let x2m1 := isubS x2 s1 in
  do cinv <- iSdiv s1 (hullIS x2 s1);
  do r <- ser_ln2_loop fuel x2m1 cinv 1 (ipt s0) (ipt (sneg s1)) (ipt (sneg s1));
  Ok (imulS r (sint 4)).
End Elem.
