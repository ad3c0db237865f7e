(* Model of defint_newtoncotes in kv/defint-newtoncotes.hpp 15-112, for a function given as an expression.
   - the number m estimated in lines 62-92 (when the argument m is 0) is a parameter `est`: it only selects the number of steps;
     a call of f there that throws is not modelled;
   - limit is what minimize(x, f, int n) computes from errorterm_div, pow(width / n, 1): kv/optimize.hpp 325-340, a parameter;
   - fD is the evaluation of HighDeriv on autodif<interval<T>>, that is f on psa<autodif<interval<T>>>: a parameter;
   - D is psa's domain() at the time of the call; mode() is set by highderiv.  ints are unbounded. *)
From Coq Require Import ZArith Bool List Arith.
From Verif Require Import Ext Scalar IntervalModel VecModel ElemModel ADModel ADSys ADInst PsaModel PsaExpr PsaUse OptModel OptInst.
Import ListNotations.

(* 21-30; (p, 1) stands for interval<T>(p), the others for interval<T>(p)/q *)
Definition nc_coeff : list (list (Z * Z)) := [
  [(0, 1)];
  [(1, 2); (1, 1)];
  [(1, 3); (4, 3); (2, 3)];
  [(3, 8); (9, 8); (9, 8); (3, 4)];
  [(14, 45); (64, 45); (8, 15); (64, 45); (28, 45)];
  [(95, 288); (125, 96); (125, 144); (125, 144); (125, 96); (95, 144)];
  [(41, 140); (54, 35); (27, 140); (68, 35); (27, 140); (54, 35); (41, 70)];
  [(5257, 17280); (25039, 17280); (343, 640); (20923, 17280); (20923, 17280); (343, 640); (25039, 17280); (5257, 8640)]]%Z.
(* 31-40 *)
Definition nc_err : list (Z * Z) := [(0, 1); (-1, 12); (-1, 180); (-3, 80); (-2, 945); (-275, 12096); (-3, 2800); (-8183, 518400)]%Z.
(* 41-50 *)
Definition nc_ord : list Z := [0; 2; 4; 4; 6; 6; 8; 8]%Z.
Definition nc_row (n : nat) : list (Z * Z) := nth n nc_coeff [].
Definition nc_d (n : nat) : Z := nth n nc_ord 0%Z.
(* 94: while (m % n != 0) m++ *)
Definition nc_round (n m : Z) : Z := (m + (- m) mod n)%Z.
(* 101-103: the index into coeff[n] *)
Definition nc_idx (n m i : Z) : nat :=
  Z.to_nat (if (i =? 0) || (i =? m) then 0 else if i mod n =? 0 then n else i mod n)%Z.

Section Nc.
Variable B : base.
Variables (row : list (Z * Z)) (err : Z * Z) (ord : Z).    (* coeff[n], errterm[n], errord[n] *)
Definition frac (p : Z * Z) : res B := if (snd p =? 1)%Z then Ok (bcst (fst p) 0) else bdivS (bcst (fst p) 0) (snd p) 0.
(* 99-105 *)
Fixpoint nc_loop (f : B -> res B) (start h : B) (n m : Z) (cnt : nat) (i : Z) (r : B) : res B :=
  match cnt with
  | O => Ok r
  | S cnt =>
      let x := badd start (bSmul i 0 h) in
      do k <- frac (nth (nc_idx n m i) row (0, 1)%Z);
      do y <- f x;
      nc_loop f start h n m cnt (i + 1) (badd r (bmul k y))
  end.
(* 94-110 *)
Definition nc_sum (f : B -> res B) (start end_ hd : B) (n m : Z) : res B :=
  let w := bsub end_ start in
  let m := nc_round n m in
  do h <- bdivS w m 0;
  do r <- nc_loop f start h n m (Z.to_nat (m + 1)) 0 t0;
  let r := bmul r h in
  do q <- bpowi h ord;
  do et <- frac err;
  Ok (badd r (bmul (bmul (bmul hd w) q) et)).
End Nc.
Arguments frac {B}. Arguments nc_loop {B}. Arguments nc_sum {B}.

Section NcI.
Context {S : scal} (P : elemp S).
Variables (fuel : nat) (e : aexpr).
Notation B := (Ibase P fuel).
(* kv/highderiv.hpp 62-64 *)
Definition nc_hd (D : B) (n : Z) (X : nat -> iv S) : res (iv S) :=
  do v <- hd_run (B := B) D (psafun B e) (X O) n false; Ok (nth (Z.to_nat n) v (t0 : B)).
(* Opt_MakeMinus: kv/optimize.hpp 43-50 *)
Definition negr (g : (nat -> iv S) -> res (iv S)) (X : nat -> iv S) : res (iv S) := do y <- g X; Ok (ineg y).
Definition negd (g : (nat -> iv S) -> res (nat -> iv S)) (X : nat -> iv S) : res (nat -> iv S) := do y <- g X; Ok (fun i => ineg (y i)).
(* 56-60 *)
Definition nc_range (D : B) (fD : (nat -> iv S) -> res (nat -> iv S)) (limit : S) (ofuel : nat) (v : iv S) (d : Z) : res (iv S) :=
  do lo_ <- minimize_value 1 (nc_hd D d) fD (fun _ => v) limit ofuel;
  do hi_ <- minimize_value 1 (negr (nc_hd D d)) (negd fD) (fun _ => v) limit ofuel;
  Ok (hull lo_ (ineg hi_)).
Definition newtoncotes_tab (err : Z * Z) (D : B) (fD : (nat -> iv S) -> res (nat -> iv S)) (limit : S) (ofuel : nat) (est : Z)
    (start end_ : iv S) (n m : Z) : res (iv S) :=
  let d := nc_d (Z.to_nat n) in
  do hd <- nc_range D fD limit ofuel (hull start end_) d;
  nc_sum (B := B) (nc_row (Z.to_nat n)) err d (fun X => optI P fuel e (fun _ => X)) start end_ hd n (if (m =? 0)%Z then est else m).
(* 15-112 *)
Definition newtoncotes (D : B) (fD : (nat -> iv S) -> res (nat -> iv S)) (limit : S) (ofuel : nat) (est : Z)
    (start end_ : iv S) (n m : Z) : res (iv S) :=
  if (n <? 1)%Z || (7 <? n)%Z then Err EDomain
  else newtoncotes_tab (nth (Z.to_nat n) nc_err (0, 1)%Z) D fD limit ofuel est start end_ n m.
End NcI.
