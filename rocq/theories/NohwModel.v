(* Model of kv/rdouble-nohwround.hpp: rop<double> by emulation in round-to-nearest.
   The parameter `fma` is KV_USE_TPFMA == 1. *)
From Coq Require Import ZArith Bool.
From Flocq Require Import Core BinarySingleNaN.
From Verif Require Import Ext Scalar Fp64 RDoubleHw.

Notation "x +. y" := (Bplus mode_NE x y) (at level 50, left associativity).
Notation "x -. y" := (Bminus mode_NE x y) (at level 50, left associativity).
Notation "x *. y" := (Bmult mode_NE x y) (at level 40, left associativity).
Notation "x /. y" := (Bdiv mode_NE x y) (at level 40, left associativity).
Notation "x <. y" := (Bltb x y) (at level 70).
Notation "x <=. y" := (Bleb x y) (at level 70).
Notation "x ==. y" := (Beqb x y) (at level 70).

Section Nohw.
Variable fma : bool.
Implicit Types a b x y : b64.

(* ldexp(1., e) *)
Definition p2 (e : Z) : b64 := bdy 1 e.
Definition bmaxneg : b64 := Bopp bmax.

(* kv/rdouble-nohwround.hpp 28-33 *)
Definition fasttwosum a b : b64 * b64 :=
  let x := a +. b in let tmp := x -. a in (x, b -. tmp).

(* 35-46 *)
Definition twosum a b : b64 * b64 :=
  let x := a +. b in
  if Babs b <. Babs a then let tmp := x -. a in (x, b -. tmp)
  else let tmp := x -. b in (x, a -. tmp).

(* 48-55; sigma = 2^27 + 1 *)
Definition split a : b64 * b64 :=
  let tmp := a *. bdy (2 ^ 27 + 1) 0 in
  let x := tmp -. (tmp -. a) in
  (x, a -. x).

(* 57-95 *)
Definition twoproduct a b : b64 * b64 :=
  if fma then let x := a *. b in (x, Bfma mode_NE a b (Bopp x))
  else
    let x := a *. b in
    let '(na, nb) :=
      if p2 996 <. Babs a then (a *. p2 (-28), b *. p2 28)
      else if p2 996 <. Babs b then (a *. p2 28, b *. p2 (-28))
      else (a, b) in
    let '(a1, a2) := split na in
    let '(b1, b2) := split nb in
    if p2 1023 <. Babs x then
      (x, (((((a1 *. bdy 1 (-1)) *. b1) -. (x *. bdy 1 (-1))) *. bdy 2 0 +. a2 *. b1) +. a1 *. b2) +. a2 *. b2)
    else
      (x, (((a1 *. b1 -. x) +. a2 *. b1) +. a1 *. b2) +. a2 *. b2).

Definition sc1 : b64 := bdy (2 ^ 52 + 1) (-105).   (* ldexp(1., -53) + ldexp(1., -105) *)

(* 100-116 *)
Definition succ64 x : b64 :=
  let a := Babs x in
  if p2 (-969) <=. a then x +. a *. sc1
  else if a <. p2 (-1021) then x +. p2 (-1074)
  else let c := p2 53 *. x in let e := sc1 *. Babs c in (c +. e) *. p2 (-53).
(* 118-134 *)
Definition pred64 x : b64 :=
  let a := Babs x in
  if p2 (-969) <=. a then x -. a *. sc1
  else if a <. p2 (-1021) then x -. p2 (-1074)
  else let c := p2 53 *. x in let e := sc1 *. Babs c in (c -. e) *. p2 (-53).

(* 137-156 *)
Definition nh_add_up x y : b64 :=
  let '(r, r2) := twosum x y in
  if r ==. bpinf then r
  else if r ==. bninf then (if (x ==. bninf) || (y ==. bninf) then r else bmaxneg)
  else if b0 <. r2 then succ64 r else r.
(* 158-177 *)
Definition nh_add_down x y : b64 :=
  let '(r, r2) := twosum x y in
  if r ==. bpinf then (if (x ==. bpinf) || (y ==. bpinf) then r else bmax)
  else if r ==. bninf then r
  else if r2 <. b0 then pred64 r else r.
(* 179-198 *)
Definition nh_sub_up x y : b64 :=
  let '(r, r2) := twosum x (Bopp y) in
  if r ==. bpinf then r
  else if r ==. bninf then (if (x ==. bninf) || (y ==. bpinf) then r else bmaxneg)
  else if b0 <. r2 then succ64 r else r.
(* 200-219 *)
Definition nh_sub_down x y : b64 :=
  let '(r, r2) := twosum x (Bopp y) in
  if r ==. bpinf then (if (x ==. bpinf) || (y ==. bninf) then r else bmax)
  else if r ==. bninf then r
  else if r2 <. b0 then pred64 r else r.

(* 221-252 *)
Definition nh_mul_up x y : b64 :=
  let '(r, r2) := twoproduct x y in
  if r ==. bpinf then r
  else if r ==. bninf then (if (Babs x ==. bpinf) || (Babs y ==. bpinf) then r else bmaxneg)
  else if p2 (-969) <=. Babs r then (if b0 <. r2 then succ64 r else r)
  else
    let '(s, s2) := twoproduct (x *. p2 537) (y *. p2 537) in
    let t := (r *. p2 537) *. p2 537 in
    if (t <. s) || ((t ==. s) && (b0 <. s2)) then succ64 r else r.
(* 254-285 *)
Definition nh_mul_down x y : b64 :=
  let '(r, r2) := twoproduct x y in
  if r ==. bpinf then (if (Babs x ==. bpinf) || (Babs y ==. bpinf) then r else bmax)
  else if r ==. bninf then r
  else if p2 (-969) <=. Babs r then (if r2 <. b0 then pred64 r else r)
  else
    let '(s, s2) := twoproduct (x *. p2 537) (y *. p2 537) in
    let t := (r *. p2 537) *. p2 537 in
    if (s <. t) || ((t ==. s) && (s2 <. b0)) then pred64 r else r.

(* 294-296, 339-341 *)
Definition div_special x y : bool :=
  (x ==. b0) || (y ==. b0) || (Babs x ==. bpinf) || (Babs y ==. bpinf) || negb (x ==. x) || negb (y ==. y).
(* 287-330 *)
Definition nh_div_up x y : b64 :=
  if div_special x y then x /. y
  else
    let '(xn, yn) := if y <. b0 then (Bopp x, Bopp y) else (x, y) in
    let body xn yn :=
      let d := xn /. yn in
      if d ==. bpinf then d
      else if d ==. bninf then bmaxneg
      else
        let '(r, r2) := twoproduct d yn in
        if (r <. xn) || ((r ==. xn) && (r2 <. b0)) then succ64 d else d in
    if Babs xn <. p2 (-969) then
      if Babs yn <. p2 918 then body (xn *. p2 105) (yn *. p2 105)
      else if xn <. b0 then b0 else p2 (-1074)
    else body xn yn.
(* 332-375 *)
Definition nh_div_down x y : b64 :=
  if div_special x y then x /. y
  else
    let '(xn, yn) := if y <. b0 then (Bopp x, Bopp y) else (x, y) in
    let body xn yn :=
      let d := xn /. yn in
      if d ==. bpinf then bmax
      else if d ==. bninf then d
      else
        let '(r, r2) := twoproduct d yn in
        if (xn <. r) || ((r ==. xn) && (b0 <. r2)) then pred64 d else d in
    if Babs xn <. p2 (-969) then
      if Babs yn <. p2 918 then body (xn *. p2 105) (yn *. p2 105)
      else if xn <. b0 then Bopp (p2 (-1074)) else b0
    else body xn yn.

(* 377-401 *)
Definition nh_sqrt_up x : b64 :=
  let d := Bsqrt mode_NE x in
  if x <. p2 (-969) then
    let x2 := x *. p2 106 in
    let d2 := d *. p2 53 in
    let '(r, r2) := twoproduct d2 d2 in
    if (r <. x2) || ((r ==. x2) && (r2 <. b0)) then succ64 d else d
  else
    let '(r, r2) := twoproduct d d in
    if (r <. x) || ((r ==. x) && (r2 <. b0)) then succ64 d else d.
(* 403-427 *)
Definition nh_sqrt_down x : b64 :=
  let d := Bsqrt mode_NE x in
  if x <. p2 (-969) then
    let x2 := x *. p2 106 in
    let d2 := d *. p2 53 in
    let '(r, r2) := twoproduct d2 d2 in
    if (x2 <. r) || ((r ==. x2) && (b0 <. r2)) then pred64 d else d
  else
    let '(r, r2) := twoproduct d d in
    if (x <. r) || ((r ==. x) && (b0 <. r2)) then pred64 d else d.

Definition D_nohw : scal := mk64
  nh_add_up nh_add_down nh_sub_up nh_sub_down nh_mul_up nh_mul_down
  nh_div_up nh_div_down nh_sqrt_up nh_sqrt_down.
End Nohw.
