(* Model of kv/kkt.hpp for T = interval<T>: the autodif versions of alpha_plus, alpha_minus (the interval versions are in SeriesModel.v) and KKT_equation.
   The objective f and the functions g (inequalities) and h (equalities) are given by expressions in the variables 0 .. sf-1.
   A function of which autodif reports no dependence on the variables has an empty gradient; the later sums and element accesses
   are then out of range: EUB. *)
From Coq Require Import ZArith Bool List Arith.
From Verif Require Import Ext Scalar IntervalModel ElemModel SeriesModel ADModel ADInst ADSys VecModel.
Import ListNotations.

Section Kkt.
Context {S : scal} (P : elemp S) (fuel : nat).
Notation I := (iv S).
Notation B := (Ibase P fuel).
(* 132-152 for autodif<interval<T> > *)
Definition alpha_plus_ad (x : ad B) : res (ad B) := do v <- alpha_plus S P fuel (av x); do d <- alpha_plus_d S P fuel (av x); Ok (mkad (B:=B) v (map (fun y : I => imul d y) (adv x))).
Definition alpha_minus_ad (x : ad B) : res (ad B) := do v <- alpha_minus S (av x); do d <- alpha_minus_d S (av x); Ok (mkad (B:=B) v (map (fun y : I => imul d y) (adv x))).

Variables (sf sg sh : nat) (f : aexpr) (g h : nat -> aexpr).
(* split(g(init(xx)), gv, gm) *)
Definition kkt_split (m : nat) (es : nat -> aexpr) (xx : nat -> I) : res ((nat -> I) * (nat -> nat -> I)) :=
  do r <- vecM m (@ad_init B sf xx) (fun k => aeval (@ad_init B sf xx) (es k));
  if Nat.eqb m 0 || Nat.eqb (ad_size m r) sf then Ok (fun k => av (r k), fun k j => ad_row (r k) j) else Err EUB.
(* 164-206: r(0), ..., r(sf+sg+sh-1) *)
Definition kkt (x : nat -> I) : res (nat -> I) :=
  do fd <- aeval (@ad_init B sf x) f;
  if negb (Nat.eqb (length (adv fd)) sf) then Err EUB
  else
    do gg <- kkt_split sg g x;
    do b <- vecM sg x (fun i => alpha_plus S P fuel (x (sf + i)%nat));
    do am <- vecM sg x (fun i => alpha_minus S (x (sf + i)%nat));
    let gv := fun i => iadd (fst gg i) (am i) in
    let fv := (fun k => ad_row fd k) : nat -> I in
    let fv := if Nat.eqb sg 0 then fv else fun k => iadd (fv k) (isum sg (fun j => imul (snd gg j k) (b j))) in
    do hh <- kkt_split sh h x;
    let fv := if Nat.eqb sh 0 then fv else fun k => iadd (fv k) (isum sh (fun j => imul (snd hh j k) (x (sf + sg + j)%nat))) in
    Ok (fun k => if (k <? sf)%nat then fv k else if (k <? sf + sg)%nat then gv (k - sf)%nat else fst hh (k - sf - sg)%nat).
End Kkt.
