(* Model of kv/doubleintegral.hpp: doubleintegral and doubleintegral_triangle, over any base type T.  psa< psa<T> > is PsaModel.v used
   with the base Pbase: the operations of psa<T> in mode 2 with domain D.  x1 is XVar 0 and x2 is XVar 1 of the function.
   The static members are represented by the two mode() only; use_history() and record_history() are false during the run and
   restored exactly; the two domain() are left changed.  ints are unbounded. *)
From Coq Require Import ZArith Bool List Arith.
From Verif Require Import Ext ADModel ADReal PsaModel PsaUse.
Import ListNotations.

(* an operation of psa that cannot fail on vectors whose sizes are 1 or a common s; elsewhere (undefined behaviour) the empty vector,
   on which every operation that uses an element is EUB or empty *)
Definition tot {A} (r : res (list A)) : list A := match r with Ok x => x | Err _ => [] end.
(* psa.hpp 42-1400 as the element type of another psa, mode() = 2, domain() = D.  asin, acos, atan, asinh, acosh, atanh are left out *)
Definition Pbase (B : base) (D : B) : base := {|
  bT := list B;
  bcst := fun m e => [bcst m e];
  badd := fun a b => tot (ps_add a b); bsub := fun a b => tot (ps_sub a b); bmul := fun a b => tot (ps_mul 2 D a b); bneg := ps_neg;
  bdiv := ps_div 2 D;
  baddS := fun a m e => tot (ps_sc SOadd m e 2 D a); bSadd := fun m e a => tot (ps_sc SOaddr m e 2 D a);
  bsubS := fun a m e => tot (ps_sc SOsub m e 2 D a); bSsub := fun m e a => tot (ps_sc SOsubr m e 2 D a);
  bmulS := fun a m e => tot (ps_sc SOmul m e 2 D a); bSmul := fun m e a => tot (ps_sc SOmulr m e 2 D a);
  bdivS := fun a m e => ps_sc SOdiv m e 2 D a; bSdiv := fun m e a => ps_sc SOdivr m e 2 D a;
  bpowi := ps_powi 2 D;
  bfun := fun f a => match f with Aasin | Aacos | Aatan | Aasinh | Aacosh | Aatanh => Err EDomain | _ => ps_fun f 2 D a end
|}.

Section Dbl.
Variable B : base.
(* f(x1, x2): D1 is the domain of psa< psa<T> >, D2 that of psa<T> *)
Definition fn2 := list B -> B -> list (list B) -> list (list B) -> res (list (list B)).
(* interval<T>(-r.upper(), r.upper()) *)
Variable symd : B -> B.
(* 31-38, 77-78: x1.v(0).v(0) = c1, x1.v(1).v(0) = 1, the rest 0 *)
Definition dbl_x1 (c1 : B) (ord : nat) : list (list B) :=
  (c1 :: repeat t0 ord) :: (t1 :: repeat t0 ord) :: repeat (t0 :: repeat t0 ord) (ord - 1).
(* 40-47, 73-74: x2.v(0).v(0) = c2, x2.v(0).v(1) = 1, the rest 0 *)
Definition dbl_x2 (c2 : B) (ord : nat) : list (list B) :=
  (c2 :: t1 :: repeat t0 (ord - 1)) :: repeat (t0 :: repeat t0 ord) ord.
(* 79-85: one cell; up is the upper bound of x1 - c1: r1 or upper_bound *)
Definition dbl_cell (D1 : list B) (D2 : B) (f : fn2) (c1 c2 r1 r2 : B) (up : list B) (ord : nat) : res B :=
  do y <- f D1 D2 (dbl_x1 c1 ord) (dbl_x2 c2 ord);
  do y <- ps_integrate (B:=Pbase B D2) y;
  do z <- ps_sub (ps_eval (B:=Pbase B D2) y up) (ps_eval (B:=Pbase B D2) y [bneg r1]);
  do z <- ps_integrate z;
  Ok (bsub (ps_eval z r2) (ps_eval z (bneg r2))).
(* 75-87: the loop over j *)
Fixpoint dbl_row (D1 : list B) (D2 : B) (f : fn2) (start1 step1 r1 c2 r2 : B) (tri : option (list B)) (ord : nat) (n i : Z) (cnt : nat) (j : Z) (acc : B) : res B :=
  match cnt with
  | O => Ok acc
  | S cnt =>
      match tri with
      | Some ub =>
          if (n - 1 <? i + j)%Z then dbl_row D1 D2 f start1 step1 r1 c2 r2 tri ord n i cnt (j + 1) acc
          else
            do w <- dbl_cell D1 D2 f (badd (badd start1 (bSmul j 0 step1)) r1) c2 r1 r2 (if (i + j =? n - 1)%Z then ub else [r1]) ord;
            dbl_row D1 D2 f start1 step1 r1 c2 r2 tri ord n i cnt (j + 1) (badd acc w)
      | None =>
          do w <- dbl_cell D1 D2 f (badd (badd start1 (bSmul j 0 step1)) r1) c2 r1 r2 [r1] ord;
          dbl_row D1 D2 f start1 step1 r1 c2 r2 tri ord n i cnt (j + 1) (badd acc w)
      end
  end.
(* 72-88: the loop over i *)
Fixpoint dbl_rows (D1 : list B) (D2 : B) (f : fn2) (start1 step1 r1 start2 step2 r2 : B) (tri : option (list B)) (ord : nat) (n : Z) (cnt : nat) (i : Z) (acc : B) : res B :=
  match cnt with
  | O => Ok acc
  | S cnt =>
      do acc <- dbl_row D1 D2 f start1 step1 r1 (badd (badd start2 (bSmul i 0 step2)) r2) r2 tri ord n i (Z.to_nat n) 0 acc;
      dbl_rows D1 D2 f start1 step1 r1 start2 step2 r2 tri ord n cnt (i + 1) acc
  end.
(* 26-29; step / 2. *)
Definition dbl_steps (start1 end1 start2 end2 : B) (n : Z) : res (B * B * B * B) :=
  do step1 <- bdivS (bsub end1 start1) n 0;
  do step2 <- bdivS (bsub end2 start2) n 0;
  do r1 <- bdivS step1 2 0;
  do r2 <- bdivS step2 2 0;
  Ok (step1, step2, r1, r2).
(* 65-68: upper_bound is a default psa, 0, resized, then v(1) is set *)
Definition dbl_ub (start1 end1 start2 end2 : B) (ord : nat) (triangle : bool) : res (option (list B)) :=
  if triangle then do q <- bdiv (bneg (bsub end1 start1)) (bsub end2 start2); Ok (Some (t0 :: q :: repeat t0 (ord - 1))) else Ok None.
(* 14-98; order < 1 writes outside the vectors.  49-60, 90-95: both mode(), ints, are saved in bools; an exception leaves them at 2 *)
Definition doubleintegral (md : Z * Z) (f : fn2) (start1 end1 start2 end2 : B) (order n : Z) (triangle : bool) : res B * (Z * Z) :=
  match dbl_steps start1 end1 start2 end2 n with
  | Err e => (Err e, md)
  | Ok (step1, step2, r1, r2) =>
      if (order <? 1)%Z then (Err EUB, md) else
      let ord := Z.to_nat order in
      match (do tri <- dbl_ub start1 end1 start2 end2 ord triangle;
             dbl_rows [symd r1] (symd r2) f start1 step1 r1 start2 step2 r2 tri ord n (Z.to_nat n) 0 t0) with
      | Ok v => (Ok v, (saved_mode (fst md), saved_mode (snd md)))
      | Err e => (Err e, (2, 2)%Z)
      end
  end.
End Dbl.
Arguments dbl_x1 {B}. Arguments dbl_x2 {B}. Arguments dbl_cell {B}. Arguments dbl_row {B}. Arguments dbl_rows {B}. Arguments dbl_steps {B}. Arguments dbl_ub {B}. Arguments doubleintegral {B}.
(* the function written as the expression e in two variables *)
Definition psafun2 (B : base) (e : aexpr) : fn2 B := fun D1 D2 x1 x2 => pseval (B:=Pbase B D2) 2 D1 (fun i => match i with O => x1 | _ => x2 end) e.

(* 100-120: DoubleIntegralTriangleConv and doubleintegral_triangle; babs is abs of interval *)
Section Tri.
Variable B : base.
Variables (symd babs : B -> B).
(* a + b * u + c * v for u, v of type psa< psa<T> > and a, b, c of type T *)
Definition tri_aff (D2 : B) (a b c : B) (u v : list (list B)) : res (list (list B)) :=
  do p <- head (B:=Pbase B D2) (fun w => tot (ps_addT w a)) (ps_Tmul (B:=Pbase B D2) [b] u);
  ps_add (B:=Pbase B D2) p (ps_Tmul (B:=Pbase B D2) [c] v).
Definition tri_fn (e : aexpr) (x1 y1 x2 y2 x3 y3 : B) : fn2 B := fun D1 D2 u v =>
  let x2x1 := bsub x2 x1 in let x3x1 := bsub x3 x1 in let y2y1 := bsub y2 y1 in let y3y1 := bsub y3 y1 in
  let J := babs (bsub (bmul x2x1 y3y1) (bmul x3x1 y2y1)) in
  do X <- tri_aff D2 x1 x2x1 x3x1 u v;
  do Y <- tri_aff D2 y1 y2y1 y3y1 u v;
  do r <- psafun2 B e D1 D2 X Y;
  Ok (ps_mulT (B:=Pbase B D2) r [J]).
Definition doubleintegral_triangle (md : Z * Z) (e : aexpr) (x1 y1 x2 y2 x3 y3 : B) (order n : Z) : res B * (Z * Z) :=
  doubleintegral symd md (tri_fn e x1 y1 x2 y2 x3 y3) t0 t1 t0 t1 order n true.
End Tri.
Arguments tri_aff {B}. Arguments tri_fn {B}. Arguments doubleintegral_triangle {B}.
