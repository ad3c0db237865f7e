(* Model of kv/affine.hpp with the default settings AFFINE_SIMPLE = 1, AFFINE_MULT = 0.
   A form is the vector a and the number er; a(0) is kept apart from a(1), a(2), ...  Forms made
   by the default constructor (an empty vector, whose a(0) must not be read) are not represented.
   The static counter maxnum() is an argument and, where the function changes it, a result. *)
From Coq Require Import ZArith Bool List Permutation Arith.
From Verif Require Import Ext Scalar IntervalModel ElemModel.
Import ListNotations.
Open Scope nat_scope.

Record form (S : scal) := mkform { f0 : S; fs : list S; fe : S }.
Arguments mkform {S}. Arguments f0 {S}. Arguments fs {S}. Arguments fe {S}.

Section Affine.
Variable S : scal.
Variable P : elemp S.
Variables nexp nlog : S -> S.      (* std::exp, std::log of T *)
Variable fuel : nat.
Notation iv := (iv S).
Notation form := (form S).

(* 101-118 rad *)
Definition frad (x : form) : S := addu (fold_left (fun r a => addu r (sabs a)) (fs x) s0) (fe x).
(* 120-129 to_interval *)
Definition to_iv (x : form) : iv := let t1 := frad x in mkiv (subd (f0 x) t1) (addu (f0 x) t1).

(* 135-141 affine(T); 162-170 operator=(T) *)
Definition of_T (x : S) : form := mkform x [] s0.
(* 143-160 affine(interval); 172-190 operator=(interval) *)
Definition of_iv (m : nat) (I : iv) : nat * form :=
  let a0 := mulu (addu (hi I) (lo I)) shalf in
  (1 + m, mkform a0 (repeat s0 m ++ [subu a0 (lo I)]) s0).

(* 209-272 operator+(affine, affine): coefficients and rounding error; the vectors may have
   different lengths *)
Fixpoint ladd (x y : list S) : list S :=
  match x, y with
  | a :: x, b :: y => addd a b :: ladd x y
  | [], _ => y
  | _, [] => x
  end.
Fixpoint ladd_err (e : S) (x y : list S) : S :=
  match x, y with
  | a :: x, b :: y => ladd_err (addu e (subu (addu a b) (addd a b))) x y
  | _, _ => e
  end.
Definition aadd (x y : form) : form :=
  mkform (addd (f0 x) (f0 y)) (ladd (fs x) (fs y))
    (addu (addu (fe x) (fe y)) (ladd_err s0 (f0 x :: fs x) (f0 y :: fs y))).
(* 309-344 operator+(affine, T) *)
Definition aaddT (x : form) (y : S) : form :=
  let r0 := addd (f0 x) y in
  mkform r0 (fs x) (addu (fe x) (subu (addu (f0 x) y) r0)).
(* 346-381 operator+(T, affine) *)
Definition aTadd (x : S) (y : form) : form :=
  let r0 := addd x (f0 y) in
  mkform r0 (fs y) (addu (fe y) (subu (addu x (f0 y)) r0)).

(* 406-469 operator-(affine, affine) *)
Fixpoint lsub (x y : list S) : list S :=
  match x, y with
  | a :: x, b :: y => subd a b :: lsub x y
  | [], _ => map sneg y
  | _, [] => x
  end.
Fixpoint lsub_err (e : S) (x y : list S) : S :=
  match x, y with
  | a :: x, b :: y => lsub_err (addu e (subu (subu a b) (subd a b))) x y
  | _, _ => e
  end.
Definition asub (x y : form) : form :=
  mkform (subd (f0 x) (f0 y)) (lsub (fs x) (fs y))
    (addu (addu (fe x) (fe y)) (lsub_err s0 (f0 x :: fs x) (f0 y :: fs y))).
(* 471-506 operator-(affine, T) *)
Definition asubT (x : form) (y : S) : form :=
  let r0 := subd (f0 x) y in
  mkform r0 (fs x) (addu (fe x) (subu (subu (f0 x) y) r0)).
(* 508-543 operator-(T, affine) *)
Definition aTsub (x : S) (y : form) : form :=
  let r0 := subd x (f0 y) in
  mkform r0 (map sneg (fs y)) (addu (fe y) (subu (subu x (f0 y)) r0)).
(* 568-576 unary - *)
Definition aneg (x : form) : form := mkform (sneg (f0 x)) (map sneg (fs x)) (fe x).

(* 578-614 operator*(affine, T) *)
Definition amulT (x : form) (y : S) : form :=
  mkform (muld (f0 x) y) (map (fun a => muld a y) (fs x))
    (addu (mulu (fe x) (sabs y))
       (fold_left (fun e a => addu e (subu (mulu a y) (muld a y))) (f0 x :: fs x) s0)).
(* 616-652 operator*(T, affine) *)
Definition aTmul (x : S) (y : form) : form :=
  mkform (muld x (f0 y)) (map (fun a => muld x a) (fs y))
    (addu (mulu (fe y) (sabs x))
       (fold_left (fun e a => addu e (subu (mulu x a) (muld x a))) (f0 y :: fs y) s0)).
(* 957-994 operator/(affine, T) *)
Definition adivT (x : form) (y : S) : form :=
  mkform (divd (f0 x) y) (map (fun a => divd a y) (fs x))
    (addu (fold_left (fun e a => addu e (subu (divu a y) (divd a y))) (f0 x :: fs x) s0)
       (divu (fe x) (sabs y))).

(* the end of operator*, inv, sqrt, square, exp, log, abs: r.a has size maxnum()+1 after the
   increment of maxnum(), the computed coefficients l are stored from index 1, the entries up to
   maxnum()-1 not written yet are set to 0, and r.a(maxnum()) = err.  A coefficient beyond the
   size of r.a is an out-of-bounds write. *)
Definition close (m : nat) (l : list S) (err : S) : res (list S) :=
  if length l <=? m then Ok (l ++ repeat s0 (m - length l) ++ [err])
  else if length l =? 1 + m then Ok (firstn m l ++ [err])
  else Err EUB.

(* 760-861 operator*(affine, affine) *)
Fixpoint lmul (x0 y0 : S) (x y : list S) : list S :=
  match x, y with
  | a :: x, b :: y => addd (muld y0 a) (muld x0 b) :: lmul x0 y0 x y
  | [], _ => map (fun b => muld x0 b) y
  | _, [] => map (fun a => muld y0 a) x
  end.
Fixpoint lmul_err (e x0 y0 : S) (x y : list S) : S :=
  match x, y with
  | a :: x, b :: y =>
      lmul_err (addu e (subu (addu (mulu y0 a) (mulu x0 b)) (addd (muld y0 a) (muld x0 b)))) x0 y0 x y
  | [], _ => fold_left (fun e b => addu e (subu (mulu x0 b) (muld x0 b))) y e
  | _, [] => fold_left (fun e a => addu e (subu (mulu y0 a) (muld y0 a))) x e
  end.
Definition amul (m : nat) (x y : form) : res (nat * form) :=
  let r0 := muld (f0 x) (f0 y) in
  let err := subu (mulu (f0 x) (f0 y)) r0 in
  let err := lmul_err err (f0 x) (f0 y) (fs x) (fs y) in
  let err := addu err (mulu (frad x) (frad y)) in
  let err := addu err (addu (mulu (sabs (f0 y)) (fe x)) (mulu (sabs (f0 x)) (fe y))) in
  do l <- close m (lmul (f0 x) (f0 y) (fs x) (fs y)) err;
  Ok (1 + m, mkform r0 l s0).

(* the part common to inv (914-946), sqrt (1053-1085), square (1117-1149), exp (1182-1214),
   log (1251-1283) and abs (1319-1351): the form a*x + [range] *)
Definition linfin (m : nat) (x : form) (a : S) (range : iv) : res (nat * form) :=
  let b := mulu (addu (hi range) (lo range)) shalf in
  let err := subu b (lo range) in
  let err := fold_left (fun e c => addu e (subu (mulu c a) (muld c a))) (fs x) err in
  let l := addd (muld (f0 x) a) b in
  let u := addu (mulu (f0 x) a) b in
  let r0 := mulu (addu l u) shalf in
  let err := addu err (subu r0 l) in
  let err := addu err (mulu (sabs a) (fe x)) in
  do l <- close m (map (fun c => muld c a) (fs x)) err;
  Ok (1 + m, mkform r0 l s0).

(* 879-947 inv *)
Definition ainv (m : nat) (x : form) : res (nat * form) :=
  let I := to_iv x in
  let l := lo I in let u := hi I in
  if slt l s0 && slt s0 u then Err EDomain
  else
    let a := ndiv (sneg s1) (nmul l u) in
    do q <- isqrt (ineg (ipt a));
    let range := if slt s0 u then iSmul (sint S 2) q else iSmul (sneg (sint S 2)) q in
    do q <- iSdiv s1 (ipt l);
    let range := hull range (isub q (iSmul a (ipt l))) in
    do q <- iSdiv s1 (ipt u);
    let range := hull range (isub q (iSmul a (ipt u))) in
    linfin m x a range.
(* 949-951 operator/(affine, affine) *)
Definition adiv (m : nat) (x y : form) : res (nat * form) :=
  do r <- ainv m y; amul (fst r) x (snd r).
(* 953-955 operator/(T, affine) *)
Definition aTdiv (m : nat) (x : S) (y : form) : res (nat * form) :=
  do r <- ainv m y; Ok (fst r, aTmul x (snd r)).

(* 1020-1086 sqrt *)
Definition asqrt (m : nat) (x : form) : res (nat * form) :=
  let I := to_iv x in
  let l := lo I in let u := hi I in
  if slt l s0 then Err EDomain
  else
    let a := ndiv s1 (nadd (nsqrt P l) (nsqrt P u)) in
    do range <- iSdiv s1 (iSmul (sint S 4) (ipt a));
    do q <- isqrt (ipt l);
    let range := hull range (isub q (iSmul a (ipt l))) in
    do q <- isqrt (ipt u);
    let range := hull range (isub q (iSmul a (ipt u))) in
    linfin m x a range.
(* 1088-1150 square *)
Definition asquare (m : nat) (x : form) : res (nat * form) :=
  let I := to_iv x in
  let l := lo I in let u := hi I in
  let a := nadd l u in
  let range := imulS (imul (ineg (ipt a)) (ipt a)) (squart S) in
  let range := hull range (imul (ipt l) (isubS (ipt l) a)) in
  let range := hull range (imul (ipt u) (isubS (ipt u) a)) in
  linfin m x a range.
(* 1152-1215 exp *)
Definition aexp (m : nat) (x : form) : res (nat * form) :=
  let I := to_iv x in
  let l := lo I in let u := hi I in
  let a := if seqb u l then nexp u else ndiv (nsub (nexp u) (nexp l)) (nsub u l) in
  do q <- ilog S P fuel (ipt a);
  let range := imul (ipt a) (iSsub s1 q) in
  do q <- iexp S P fuel (ipt l);
  let range := hull range (isub q (iSmul a (ipt l))) in
  do q <- iexp S P fuel (ipt u);
  let range := hull range (isub q (iSmul a (ipt u))) in
  linfin m x a range.
(* 1217-1284 log *)
Definition alog (m : nat) (x : form) : res (nat * form) :=
  let I := to_iv x in
  let l := lo I in let u := hi I in
  if sle l s0 then Err EDomain
  else
    let a := if seqb u l then ndiv s1 u else ndiv (nsub (nlog u) (nlog l)) (nsub u l) in
    do q <- iSdiv s1 (ipt a);
    do q <- ilog S P fuel q;
    let range := isubS q s1 in
    do q <- ilog S P fuel (ipt l);
    let range := hull range (isub q (iSmul a (ipt l))) in
    do q <- ilog S P fuel (ipt u);
    let range := hull range (isub q (iSmul a (ipt u))) in
    linfin m x a range.
(* 1286-1352 abs.  The ends of the range are computed in T. *)
Definition aabs (m : nat) (x : form) : res (nat * form) :=
  let I := to_iv x in
  let l := lo I in let u := hi I in
  if sle s0 l then Ok (m, x)
  else if sle u s0 then Ok (m, aneg x)
  else
    let a := ndiv (nadd u l) (nsub u l) in
    let range := hullIS (ipt s0) (nsub u (nmul a u)) in
    let range := hullIS range (nsub (sneg l) (nmul a l)) in
    linfin m x a range.

(* 1402-1417 sin and the functions after it, which differ in the two interval functions: the value
   F at the point a(0) and the slope D over to_interval(x) *)
Definition meanv (F D : iv -> res iv) (m : nat) (x : form) : res (nat * form) :=
  let tmp := mkform s0 (fs x) (fe x) in
  do r <- F (ipt (f0 x));
  do r2 <- D (to_iv x);
  let mm := mid r2 in
  let r := iadd r (imul (isubS r2 mm) (to_iv tmp)) in
  let (m', f) := of_iv m r in
  Ok (m', aadd f (aTmul mm tmp)).
(* 1402-1417 *)
Definition asin_ := meanv (isin_ S P fuel) (icos S P fuel).
(* 1420-1435: r2 = -sin(to_interval(x)) *)
Definition acos_ := meanv (icos S P fuel) (fun I => do s <- isin_ S P fuel I; Ok (ineg s)).
(* 1438-1453: pow(cos(to_interval(x)), -2) *)
Definition atan_ := meanv (itan S P fuel) (fun I => do c <- icos S P fuel I; ipow c (-2)).
(* 1456-1471: 1. / sqrt(1. - pow(to_interval(x), 2)) *)
Definition aasin := meanv (iasin S P fuel)
  (fun I => do p <- ipow I 2; do q <- isqrt (iSsub s1 p); iSdiv s1 q).
(* 1474-1489: - 1. / sqrt(1. - pow(to_interval(x), 2)) *)
Definition aacos := meanv (iacos S P fuel)
  (fun I => do p <- ipow I 2; do q <- isqrt (iSsub s1 p); iSdiv (sneg s1) q).
(* 1492-1507: 1. / sqrt(1. + pow(to_interval(x), 2)) *)
Definition aatan := meanv (iatan S P fuel)
  (fun I => do p <- ipow I 2; do q <- isqrt (iSadd s1 p); iSdiv s1 q).
(* 1510-1525 *)
Definition asinh_ := meanv (isinh S P fuel) (icosh S P fuel).
(* 1528-1543 *)
Definition acosh_ := meanv (icosh S P fuel) (isinh S P fuel).
(* 1546-1561: pow(cosh(to_interval(x)), -2) *)
Definition atanh_ := meanv (itanh S P fuel) (fun I => do c <- icosh S P fuel I; ipow c (-2)).
(* 1564-1579: 1 / sqrt(pow(to_interval(x), 2) + 1) *)
Definition aasinh := meanv (iasinh S P fuel)
  (fun I => do p <- ipow I 2; do q <- isqrt (iaddS p s1); iSdiv s1 q).
(* 1582-1597: 1 / sqrt(pow(to_interval(x), 2) - 1) *)
Definition aacosh := meanv (iacosh S P fuel)
  (fun I => do p <- ipow I 2; do q <- isqrt (isubS p s1); iSdiv s1 q).
(* 1600-1615: 1 / (1 - pow(to_interval(x), 2)) *)
Definition aatanh := meanv (iatanh S P fuel)
  (fun I => do p <- ipow I 2; iSdiv s1 (iSsub s1 p)).

(* 1355-1379 pow(affine, int); y = INT_MIN negates out of range *)
Fixpoint apow_loop (m : nat) (r xp : form) (y : positive) : res (nat * form) :=
  match y with
  | xH => do r <- amul m r xp; do q <- amul (fst r) xp xp; Ok (fst q, snd r)
  | xO y' => do q <- amul m xp xp; apow_loop (fst q) r (snd q) y'
  | xI y' => do r <- amul m r xp; do q <- amul (fst r) xp xp; apow_loop (fst q) (snd r) (snd q) y'
  end.
Definition apow (m : nat) (x : form) (y : Z) : res (nat * form) :=
  match y with
  | Z0 => Ok (m, of_T s1)
  | Zpos p => apow_loop m (of_T s1) x p
  | Zneg p =>
      if Z.eqb y (-2147483648) then Err EUB
      else do r <- apow_loop m (of_T s1) x p; aTdiv (fst r) s1 (snd r)
  end.
(* 1381-1383 pow(affine, affine) *)
Definition apowA (m : nat) (x y : form) : res (nat * form) :=
  do r <- alog m x; do q <- amul (fst r) y (snd r); aexp (fst q) (snd q).

(* 1632-1650 split; index n beyond the vector is an out-of-bounds access *)
Definition asplit (n : nat) (x : form) : res (form * form) :=
  if length (fs x) <? n then Err EUB
  else Ok (mkform (f0 x) (firstn n (fs x) ++ repeat s0 (length (fs x) - n)) s0,
           mkform s0 (repeat s0 n ++ skipn n (fs x)) (fe x)).

(* 1733-1801 epsilon_reduce(x, n, n_limit).  std::partial_sort arranges the m columns by a score
   that involves no directed rounding; the arrangement is the argument perm, of which only being a
   permutation of 1..m matters. *)
Definition nthc (x : form) (i : nat) : S := nth (i - 1) (fs x) s0.   (* x(j).a(i) or 0, i >= 1 *)
Definition reduce1 (s n m : nat) (perm : list nat) (i : nat) (x : form) : form :=
  let tmp := fold_left (fun t j => addu t (sabs (nthc x j))) (skipn (n - s) perm) s0 in
  let tmp := addu tmp (fe x) in
  mkform (f0 x) (map (nthc x) (firstn (n - s) perm) ++ repeat s0 i ++ [tmp] ++ repeat s0 (s - 1 - i)) s0.
Fixpoint mapi {A B} (f : nat -> A -> B) (i : nat) (l : list A) : list B :=
  match l with [] => [] | a :: l => f i a :: mapi f (1 + i) l end.
Definition epsilon_reduce (m : nat) (perm : list nat) (n n_limit : nat) (x : list form) : nat * list form :=
  let n_limit := Nat.max n n_limit in
  if m <=? n_limit then (m, x)
  else if n <? length x then (m, x)
  else (n, mapi (reduce1 (length x) n m perm) 0 x).

(* 1808-1836 epsilon_reduce2 *)
Definition reduce2 (n i : nat) (x : form) : form :=
  let tmp := fold_left (fun t a => addu t (sabs a)) (skipn n (fs x)) s0 in
  let tmp := addu tmp (fe x) in
  mkform (f0 x) (firstn n (fs x) ++ repeat s0 (n - length (fs x)) ++ repeat s0 i ++ [tmp]) s0.
Definition epsilon_reduce2 (n : nat) (x : list form) : nat * list form :=
  (n + length x, mapi (reduce2 n) 0 x).
End Affine.
Arguments frad {S}. Arguments to_iv {S}. Arguments of_T {S}. Arguments of_iv {S}.
Arguments ladd {S}. Arguments ladd_err {S}. Arguments aadd {S}. Arguments aaddT {S}. Arguments aTadd {S}.
Arguments lsub {S}. Arguments lsub_err {S}. Arguments asub {S}. Arguments asubT {S}. Arguments aTsub {S}.
Arguments aneg {S}. Arguments amulT {S}. Arguments aTmul {S}. Arguments adivT {S}. Arguments close {S}.
Arguments lmul {S}. Arguments lmul_err {S}. Arguments amul {S}. Arguments linfin {S}. Arguments ainv {S}.
Arguments adiv {S}. Arguments aTdiv {S}. Arguments asqrt {S}. Arguments asquare {S}. Arguments aexp {S}.
Arguments alog {S}. Arguments aabs {S}. Arguments meanv {S}. Arguments asin_ {S}. Arguments acos_ {S}.
Arguments atan_ {S}. Arguments aasin {S}. Arguments aacos {S}. Arguments aatan {S}. Arguments asinh_ {S}.
Arguments acosh_ {S}. Arguments atanh_ {S}. Arguments aasinh {S}. Arguments aacosh {S}. Arguments aatanh {S}.
Arguments apow_loop {S}. Arguments apow {S}. Arguments apowA {S}. Arguments asplit {S}. Arguments nthc {S}.
Arguments reduce1 {S}. Arguments epsilon_reduce {S}. Arguments reduce2 {S}. Arguments epsilon_reduce2 {S}.
