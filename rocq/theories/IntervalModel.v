(* Model of kv/interval.hpp: class interval<T>, arithmetic and set-like operations.
   rop<T>::begin()/end() only switch the FPU mode and are part of the scalar operations here. *)
From Coq Require Import ZArith Bool.
From Verif Require Import Ext Scalar.

Section Model.
Variable S : scal.

(* kv/interval.hpp 102-106: class interval { T inf; T sup; } *)
Record iv := mkiv { lo : S; hi : S }.

(* 118-121: interval(x) *)
Definition ipt (x : S) : iv := mkiv x x.
Definition i0 : iv := mkiv s0 s0.

(* 157-166 operator+(interval, interval) *)
Definition iadd (x y : iv) : iv := mkiv (addd (lo x) (lo y)) (addu (hi x) (hi y)).
(* 168-176, 202-210 operator+(interval, T) and += *)
Definition iaddS (x : iv) (y : S) : iv := mkiv (addd (lo x) y) (addu (hi x) y).
(* 182-191 operator+(T, interval) *)
Definition iSadd (x : S) (y : iv) : iv := mkiv (addd x (lo y)) (addu x (hi y)).
(* 217-226 operator-(interval, interval) *)
Definition isub (x y : iv) : iv := mkiv (subd (lo x) (hi y)) (subu (hi x) (lo y)).
(* 228-237, 263-271 operator-(interval, T) and -= *)
Definition isubS (x : iv) (y : S) : iv := mkiv (subd (lo x) y) (subu (hi x) y).
(* 243-252 operator-(T, interval) *)
Definition iSsub (x : S) (y : iv) : iv := mkiv (subd x (hi y)) (subu x (lo y)).
(* 278-285 unary minus *)
Definition ineg (x : iv) : iv := mkiv (sneg (hi x)) (sneg (lo x)).

(* 287-351 operator*(interval, interval) *)
Definition imul (x y : iv) : iv :=
  if sle s0 (lo x) then
    if seqb (hi x) s0 then i0
    else if sle s0 (lo y) then
      if seqb (hi y) s0 then i0
      else mkiv (muld (lo x) (lo y)) (mulu (hi x) (hi y))
    else if sle (hi y) s0 then mkiv (muld (hi x) (lo y)) (mulu (lo x) (hi y))
    else mkiv (muld (hi x) (lo y)) (mulu (hi x) (hi y))
  else if sle (hi x) s0 then
    if sle s0 (lo y) then
      if seqb (hi y) s0 then i0
      else mkiv (muld (lo x) (hi y)) (mulu (hi x) (lo y))
    else if sle (hi y) s0 then mkiv (muld (hi x) (hi y)) (mulu (lo x) (lo y))
    else mkiv (muld (lo x) (hi y)) (mulu (lo x) (lo y))
  else
    if sle s0 (lo y) then
      if seqb (hi y) s0 then i0
      else mkiv (muld (lo x) (hi y)) (mulu (hi x) (hi y))
    else if sle (hi y) s0 then mkiv (muld (hi x) (lo y)) (mulu (lo x) (lo y))
    else
      let r1 := muld (lo x) (hi y) in
      let t1 := muld (hi x) (lo y) in
      let r1 := if slt t1 r1 then t1 else r1 in
      let r2 := mulu (lo x) (lo y) in
      let t2 := mulu (hi x) (hi y) in
      let r2 := if slt r2 t2 then t2 else r2 in
      mkiv r1 r2.

(* 353-371, 406-409 operator*(interval, T) and *= *)
Definition imulS (x : iv) (y : S) : iv :=
  if slt s0 y then mkiv (muld (lo x) y) (mulu (hi x) y)
  else if slt y s0 then mkiv (muld (hi x) y) (mulu (lo x) y)
  else i0.
(* 377-395 operator*(T, interval) *)
Definition iSmul (x : S) (y : iv) : iv :=
  if slt s0 x then mkiv (muld x (lo y)) (mulu x (hi y))
  else if slt x s0 then mkiv (muld x (hi y)) (mulu x (lo y))
  else i0.

(* 416-449 operator/(interval, interval) *)
Definition idiv (x y : iv) : res iv :=
  if slt s0 (lo y) then
    Ok (if sle s0 (lo x) then mkiv (divd (lo x) (hi y)) (divu (hi x) (lo y))
        else if sle (hi x) s0 then mkiv (divd (lo x) (lo y)) (divu (hi x) (hi y))
        else mkiv (divd (lo x) (lo y)) (divu (hi x) (lo y)))
  else if slt (hi y) s0 then
    Ok (if sle s0 (lo x) then mkiv (divd (hi x) (hi y)) (divu (lo x) (lo y))
        else if sle (hi x) s0 then mkiv (divd (hi x) (lo y)) (divu (lo x) (hi y))
        else mkiv (divd (hi x) (hi y)) (divu (lo x) (hi y)))
  else Err EDomain.
(* 451-468, 504-507 operator/(interval, T) and /= *)
Definition idivS (x : iv) (y : S) : res iv :=
  if slt s0 y then Ok (mkiv (divd (lo x) y) (divu (hi x) y))
  else if slt y s0 then Ok (mkiv (divd (hi x) y) (divu (lo x) y))
  else Err EDomain.
(* 474-493 operator/(T, interval) *)
Definition iSdiv (x : S) (y : iv) : res iv :=
  if slt s0 (lo y) || slt (hi y) s0 then
    Ok (if sle s0 x then mkiv (divd x (hi y)) (divu x (lo y))
        else mkiv (divd x (lo y)) (divu x (hi y)))
  else Err EDomain.

(* 523-536 sqrt *)
Definition isqrt (x : iv) : res iv :=
  if slt (lo x) s0 then Err EDomain else Ok (mkiv (sqrd (lo x)) (sqru (hi x))).

(* 556-559 whole *)
Definition iwhole : iv := mkiv sninf spinf.
(* 561-564 hull(T, T) *)
Definition hullSS (x y : S) : iv := if slt x y then mkiv x y else mkiv y x.
(* 566-573 hull(interval, interval) *)
Definition hull (x y : iv) : iv :=
  mkiv (if slt (lo y) (lo x) then lo y else lo x) (if slt (hi x) (hi y) then hi y else hi x).
(* 575-582 hull(interval, T) *)
Definition hullIS (x : iv) (y : S) : iv :=
  mkiv (if slt y (lo x) then y else lo x) (if slt (hi x) y then y else hi x).
(* 584-591 hull(T, interval) *)
Definition hullSI (x : S) (y : iv) : iv :=
  mkiv (if slt (lo y) x then lo y else x) (if slt x (hi y) then hi y else x).

Definition shalf : S := sdy 1 (-1).
(* 594-602 width *)
Definition width (x : iv) : S := subu (hi x) (lo x).
(* 604-612 rad *)
Definition rad (x : iv) : S := mulu (subu (hi x) (lo x)) shalf.
(* 615-622 mid; 624-626 median is the same *)
Definition mid (x : iv) : S :=
  if slt s1 (sabs (lo x)) && slt s1 (sabs (hi x))
  then nadd (nmul (lo x) shalf) (nmul (hi x) shalf)
  else nmul (nadd (lo x) (hi x)) shalf.
(* 628-636 midrad: (m, r) *)
Definition midrad (x : iv) : S * S :=
  let m := mid x in
  let r := subu (hi x) m in
  let t := subu m (lo x) in
  (m, if slt r t then t else r).
(* 638-648 norm, mag *)
Definition mag (x : iv) : S :=
  if sle s0 (lo x) then hi x
  else if sle (hi x) s0 then sneg (lo x)
  else let t := sneg (lo x) in if slt t (hi x) then hi x else t.
(* 696-698 zero_in *)
Definition zero_in (x : iv) : bool := sle (lo x) s0 && sle s0 (hi x).
(* 650-654 mig *)
Definition mig (x : iv) : S :=
  if zero_in x then s0 else if slt s0 (lo x) then lo x else sneg (hi x).
(* 656-662 abs *)
Definition iabs (x : iv) : iv :=
  if sle s0 (lo x) then x
  else if sle (hi x) s0 then ineg x
  else let t := sneg (lo x) in mkiv s0 (if slt t (hi x) then hi x else t).
(* 664-671 max *)
Definition imax (x y : iv) : iv :=
  mkiv (if slt (lo x) (lo y) then lo y else lo x) (if slt (hi x) (hi y) then hi y else hi x).
(* 673-680 min *)
Definition imin (x y : iv) : iv :=
  mkiv (if slt (lo y) (lo x) then lo y else lo x) (if slt (hi y) (hi x) then hi y else hi x).
(* 682-685 floor *)
Definition ifloor (x : iv) : iv := mkiv (sfloor (lo x)) (sfloor (hi x)).
(* 687-690 ceil *)
Definition iceil (x : iv) : iv := mkiv (sceil (lo x)) (sceil (hi x)).
(* 692-694 in *)
Definition iin (a : S) (x : iv) : bool := sle (lo x) a && sle a (hi x).
(* 700-702 subset *)
Definition isubset (x y : iv) : bool := sle (lo y) (lo x) && sle (hi x) (hi y).
(* 704-706 proper_subset *)
Definition iproper (x y : iv) : bool := isubset x y && (slt (lo y) (lo x) || slt (hi x) (hi y)).
(* 717-724 intersect *)
Definition intersect (x y : iv) : iv :=
  mkiv (if slt (lo x) (lo y) then lo y else lo x) (if slt (hi y) (hi x) then hi y else hi x).
(* 708-715 overlap *)
Definition overlap (x y : iv) : bool :=
  sle (if slt (lo x) (lo y) then lo y else lo x) (if slt (hi y) (hi x) then hi y else hi x).

(* 727-729, 748-750, 769-771, 790-792: < <= > >= *)
Definition ilt (x y : iv) : bool := slt (hi x) (lo y).
Definition ile (x y : iv) : bool := sle (hi x) (lo y).
Definition igt (x y : iv) : bool := slt (hi y) (lo x).
Definition ige (x y : iv) : bool := sle (hi y) (lo x).
(* 731-733, 752-754, 773-775, 794-796: interval against T *)
Definition iltS (x : iv) (y : S) : bool := slt (hi x) y.
Definition ileS (x : iv) (y : S) : bool := sle (hi x) y.
Definition igtS (x : iv) (y : S) : bool := slt y (lo x).
Definition igeS (x : iv) (y : S) : bool := sle y (lo x).
(* 739-741, 760-762, 781-783, 802-804: T against interval *)
Definition iSlt (x : S) (y : iv) : bool := slt x (lo y).
Definition iSle (x : S) (y : iv) : bool := sle x (lo y).
Definition iSgt (x : S) (y : iv) : bool := slt (hi y) x.
Definition iSge (x : S) (y : iv) : bool := sle (hi y) x.
(* 811-813 == ; 815-817, 824-826 == with T *)
Definition ieq (x y : iv) : bool :=
  seqb (lo x) (hi x) && seqb (hi x) (lo y) && seqb (lo y) (hi y).
Definition ieqS (x : iv) (y : S) : bool := seqb (lo x) (hi x) && seqb (hi x) y.
(* 834-836 != ; 838-840, 846-848 != with T *)
Definition ineqb (x y : iv) : bool := negb (overlap x y).
Definition ineqS (x : iv) (y : S) : bool := negb (overlap x (ipt y)).

Definition seq0 (x : S) := seqb x s0.

(* 855-917 division_part1: the interval and the flag `parted` *)
Definition division_part1 (x y : iv) : res (iv * bool) :=
  if slt s0 (lo y) || slt (hi y) s0 then do r <- idiv x y; Ok (r, false)
  else if seq0 (lo y) && seq0 (hi y) then Err EDomain
  else if slt (lo y) s0 && seq0 (hi y) then
    Ok (if seq0 (lo x) && seq0 (hi x) then i0
        else if sle s0 (lo x) then mkiv sninf (divu (lo x) (lo y))
        else if sle (hi x) s0 then mkiv (divd (hi x) (lo y)) spinf
        else iwhole, false)
  else if seq0 (lo y) && slt s0 (hi y) then
    Ok (if seq0 (lo x) && seq0 (hi x) then i0
        else if sle s0 (lo x) then mkiv (divd (lo x) (hi y)) spinf
        else if sle (hi x) s0 then mkiv sninf (divu (hi x) (hi y))
        else iwhole, false)
  else
    Ok (if seq0 (lo x) && seq0 (hi x) then (i0, false)
        else if slt s0 (lo x) then (mkiv sninf (divu (lo x) (lo y)), true)
        else if slt (hi x) s0 then (mkiv sninf (divu (hi x) (hi y)), true)
        else (iwhole, false)).

(* 919-977 division_part2 (the parameter `parted` is not used by the code) *)
Definition division_part2 (x y : iv) : res iv :=
  if slt s0 (lo y) || slt (hi y) s0 then idiv x y
  else if seq0 (lo y) && seq0 (hi y) then Err EDomain
  else if slt (lo y) s0 && seq0 (hi y) then
    Ok (if seq0 (lo x) && seq0 (hi x) then i0
        else if sle s0 (lo x) then mkiv sninf (divu (lo x) (lo y))
        else if sle (hi x) s0 then mkiv (divd (hi x) (lo y)) spinf
        else iwhole)
  else if seq0 (lo y) && slt s0 (hi y) then
    Ok (if seq0 (lo x) && seq0 (hi x) then i0
        else if sle s0 (lo x) then mkiv (divd (lo x) (hi y)) spinf
        else if sle (hi x) s0 then mkiv sninf (divu (hi x) (hi y))
        else iwhole)
  else
    Ok (if seq0 (lo x) && seq0 (hi x) then i0
        else if slt s0 (lo x) then mkiv (divd (lo x) (hi y)) spinf
        else if slt (hi x) s0 then mkiv (divd (hi x) (lo y)) spinf
        else iwhole).

(* 979-994 pow_point, for y >= 0 (the only call site passes |y|): square-and-multiply.
   Recursion on the binary digits of y; xp is squared once more after the last digit in the
   code, which has no effect on r. *)
Fixpoint pow_loop (r xp : iv) (y : positive) : iv :=
  match y with
  | xH => imul r xp
  | xO y' => pow_loop r (imul xp xp) y'
  | xI y' => pow_loop (imul r xp) (imul xp xp) y'
  end.
Definition pow_point (x : S) (y : Z) : iv :=
  match y with
  | Zpos p => pow_loop (ipt s1) (ipt x) p
  | _ => ipt s1
  end.
(* 996-1015 pow(interval, int).  -y for y = INT_MIN is signed overflow. *)
Definition ipow (x : iv) (y : Z) : res iv :=
  if Z.eqb y 0 then Ok (ipt s1)
  else if Z.eqb y (-2147483648) then Err EUB
  else
    let a := Z.abs y in
    let r := if Z.even a && iin s0 x then hullSI s0 (pow_point (mag x) a)
             else hull (pow_point (lo x) a) (pow_point (hi x) a) in
    if Z.ltb y 0 then iSdiv s1 r else Ok r.
End Model.

Arguments mkiv {S}. Arguments lo {S}. Arguments hi {S}. Arguments ipt {S}. Arguments i0 {S}.
Arguments iadd {S}. Arguments iaddS {S}. Arguments iSadd {S}.
Arguments isub {S}. Arguments isubS {S}. Arguments iSsub {S}. Arguments ineg {S}.
Arguments imul {S}. Arguments imulS {S}. Arguments iSmul {S}.
Arguments idiv {S}. Arguments idivS {S}. Arguments iSdiv {S}. Arguments isqrt {S}.
Arguments iwhole {S}. Arguments hullSS {S}. Arguments hull {S}. Arguments hullIS {S}. Arguments hullSI {S}.
Arguments shalf {S}. Arguments width {S}. Arguments rad {S}. Arguments mid {S}. Arguments midrad {S}.
Arguments mag {S}. Arguments mig {S}. Arguments zero_in {S}. Arguments iabs {S}. Arguments imax {S}.
Arguments imin {S}. Arguments ifloor {S}. Arguments iceil {S}. Arguments iin {S}. Arguments isubset {S}. Arguments iproper {S}.
Arguments intersect {S}. Arguments overlap {S}. Arguments ilt {S}. Arguments ile {S}.
Arguments igt {S}. Arguments ige {S}. Arguments iltS {S}. Arguments ileS {S}. Arguments igtS {S}.
Arguments igeS {S}. Arguments iSlt {S}. Arguments iSle {S}. Arguments iSgt {S}. Arguments iSge {S}.
Arguments ieq {S}. Arguments ieqS {S}. Arguments ineqb {S}. Arguments ineqS {S}. Arguments seq0 {S}.
Arguments division_part1 {S}. Arguments division_part2 {S}.
Arguments pow_loop {S}. Arguments pow_point {S}. Arguments ipow {S}.
