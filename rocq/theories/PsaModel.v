(* Model of kv/psa.hpp over any base type T (exact reals, interval<...>), with use_history() and record_history() false:
   the recording and reuse of intermediate results is in PsaHist.v.  mode() and domain() are the arguments m and D.
   ub::vector<T> v is a list, never empty in the code; an access outside a vector and an element-wise operation on vectors of
   different sizes is undefined behaviour: EUB.  Numbers C are doubles m*2^e.  ints are unbounded. *)
From Coq Require Import ZArith Bool List Arith.
From Verif Require Import Ext ADModel.
Import ListNotations.

Section Psa.
Variable B : base.
Notation psa := (list B).
Definition t0 : B := bcst 0 0.
Definition t1 : B := bcst 1 0.
(* 1384-1399 polyrange(p, x, y, d) for the elements x .. y = p.size()-1 given as a list *)
Fixpoint hornerT (p : list B) (d : B) : B :=
  match p with
  | [] => t0
  | [c] => c
  | c :: p' => badd (bmul (hornerT p' d) d) c
  end.
(* 1372-1376 evalrange, 1378-1382 eval *)
Definition ps_eval (x : psa) (d : B) : B := hornerT x d.
(* add to the constant term *)
Definition head (f : B -> B) (x : psa) : res psa := match x with [] => Err EUB | c :: x => Ok (f c :: x) end.

(* 110-151 operator+ *)
Definition ps_add (a b : psa) : res psa :=
  match a, b with
  | [], _ | _, [] => Err EUB
  | [x], b => head (fun y => badd y x) b
  | a, [y] => head (fun x => badd x y) a
  | a, b => zipM (fun x y => Ok (badd x y)) a b
  end.
(* 181-222 operator- *)
Definition ps_sub (a b : psa) : res psa :=
  match a, b with
  | [], _ | _, [] => Err EUB
  | [x], b => head (fun y => badd y x) (map bneg b)
  | a, [y] => head (fun x => bsub x y) a
  | a, b => zipM (fun x y => Ok (bsub x y)) a b
  end.
(* 252-258 unary minus *)
Definition ps_neg (a : psa) : psa := map bneg a.
(* 153-169 operator+(psa, C), operator+(C, psa), for C = T *)
Definition ps_addT (a : psa) (b : B) : res psa := head (fun x => badd x b) a.
(* 348-418 operator*(psa, C) and operator*(C, psa) after conversion of C to T; 434-441 operator/(psa, C) *)
Definition ps_mulT (a : psa) (b : B) : psa := map (fun x => bmul x b) a.
Definition ps_Tmul (a : B) (b : psa) : psa := map (bmul a) b.
Definition ps_divT (a : psa) (b : B) : res psa := mapM (fun x => bdiv x b) a.

(* sum = 0; for (j = j0; j < j0 + cnt; j++) sum += f(j) *)
Definition sumT (f : nat -> B) (j0 cnt : nat) : B := fold_left (fun acc j => badd acc (f j)) (seq j0 cnt) t0.
Definition at_ (a : psa) (i : nat) : B := nth i a t0.
(* 308-314 *)
Definition conv (a b : psa) (i : nat) : B := sumT (fun j => bmul (at_ a j) (at_ b (i - j))) 0 (i + 1).
(* 319-326 *)
Definition conv_hi (a b : psa) (s i : nat) : B := sumT (fun j => bmul (at_ a j) (at_ b (i + (s - 1) - j))) i (s - i).
(* 260-346 operator* *)
Definition ps_mul (m : Z) (D : B) (a b : psa) : res psa :=
  match a, b with
  | [], _ | _, [] => Err EUB
  | [x], b => Ok (ps_Tmul x b)
  | a, [y] => Ok (ps_mulT a y)
  | a, b =>
      let s := length a in
      if (s <=? length b)%nat then
        let low := map (conv a b) (seq 0 (s - 1)) in
        let last := conv a b (s - 1) in
        if (m =? 2)%Z then Ok (low ++ [hornerT (last :: map (conv_hi a b s) (seq 1 (s - 1))) D])
        else Ok (low ++ [last])
      else Err EUB
  end.

(* The loop shared by inv, sin, cos, exp, sqrt, log, sinh, cosh: hn *= g; k is the factor of this turn (computed by step
   from i, from whether this is the last turn in mode 2, and from a state); r += k * hn. *)
Section Loop.
Variable St : Type.
Variable step : nat -> bool -> St -> res (B * St).
Variables (m : Z) (D : B) (s : nat) (g : psa).
Fixpoint tay (cnt i : nat) (hn r : psa) (st : St) : res psa :=
  match cnt with
  | O => Ok r
  | S cnt =>
      do hn <- ps_mul m D hn g;
      do q <- step i ((m =? 2)%Z && (i =? s - 1)%nat) st;
      do r <- ps_add r (ps_Tmul (fst q) hn);
      tay cnt (S i) hn r (snd q)
  end.
End Loop.
(* h = x; h.v(0) = 0; r = r0; hn = 1; the loop i = 1 .. x.v.size()-1; return r * 1. *)
Definition ps_tay {St} step m D (x : psa) (g : psa) (r0 : B) (st : St) : res psa :=
  do r <- tay St step m D (length x) g (length x - 1) 1 [t1] [r0] st; Ok (ps_mulT r t1).
Definition ps_h (x : psa) : psa := match x with [] => [] | _ :: x => t0 :: x end.

(* 457-513 inv; h / a is computed in every turn, once here *)
Definition step_inv (m : Z) (a range : B) (i : nat) (last : bool) (st : B * B) : res (B * (B * B)) :=
  let (xn, xn2) := st in
  let nx2 := do q <- bdiv (bneg xn2) range; Ok (bmul q a) in
  if last then do x2 <- nx2; Ok (x2, (xn, x2))
  else let xn := bneg xn in
    do x2 <- if (m =? 2)%Z then nx2 else Ok xn2;
    Ok (xn, (xn, x2)).
Definition ps_inv (m : Z) (D : B) (x : psa) : res psa :=
  match x with
  | [] => Err EUB
  | a :: _ =>
      do ia <- bSdiv 1 0 a;
      let range := ps_eval x D in
      do x2 <- if (m =? 2)%Z then bSdiv 1 0 range else Ok t0;
      do g <- ps_divT (ps_h x) a;
      ps_tay (step_inv m a range) m D x g ia (ia, x2)
  end.
(* 430-432 operator/, 443-445 operator/(C, psa) for C converted to T *)
Definition ps_div (m : Z) (D : B) (a b : psa) : res psa := do i <- ps_inv m D b; ps_mul m D a i.
Definition ps_Tdiv (m : Z) (D : B) (a : B) (b : psa) : res psa := do i <- ps_inv m D b; Ok (ps_Tmul a i).

(* 515-573 sin, 575-633 cos, 635-683 exp, 794-848 sinh, 850-904 cosh: factor 1/i! times a value table, at x.v(0), or at the range of x *)
Definition step_fact (x : psa) (D : B) (tab : nat -> B -> res B) (tabv : nat -> B) (i : nat) (last : bool) (fact : B) : res (B * B) :=
  do f <- bdivS fact (Z.of_nat i) 0;
  if last then do v <- tab i (ps_eval x D); Ok (bmul f v, f)
  else Ok (bmul f (tabv i), f).
Definition tab_sin (i : nat) (v : B) : res B :=
  match (i mod 4)%nat with
  | 0 => bfun Asin v | 1 => bfun Acos v
  | 2 => do s <- bfun Asin v; Ok (bneg s)
  | _ => do c <- bfun Acos v; Ok (bneg c)
  end.
Definition tab_cos (i : nat) (v : B) : res B :=
  match (i mod 4)%nat with
  | 0 => bfun Acos v
  | 1 => do s <- bfun Asin v; Ok (bneg s)
  | 2 => do c <- bfun Acos v; Ok (bneg c)
  | _ => bfun Asin v
  end.
Definition tab_sinh (i : nat) (v : B) : res B := if Nat.even i then bfun Asinh v else bfun Acosh_ v.
Definition tab_cosh (i : nat) (v : B) : res B := if Nat.even i then bfun Acosh_ v else bfun Asinh v.
Definition tab4 (a b c d : B) (i : nat) : B := match (i mod 4)%nat with 0 => a | 1 => b | 2 => c | _ => d end.
Definition tab2 (a b : B) (i : nat) : B := if Nat.even i then a else b.
Definition ps_sin m D (x : psa) : res psa :=
  match x with
  | [] => Err EUB
  | a :: _ => do s <- bfun Asin a; do c <- bfun Acos a;
      ps_tay (step_fact x D tab_sin (tab4 s c (bneg s) (bneg c))) m D x (ps_h x) s t1
  end.
(* table[1] = -sin(a), table[3] = -table[1] *)
Definition ps_cos m D (x : psa) : res psa :=
  match x with
  | [] => Err EUB
  | a :: _ => do c <- bfun Acos a; do s <- bfun Asin a;
      ps_tay (step_fact x D tab_cos (tab4 c (bneg s) (bneg c) (bneg (bneg s)))) m D x (ps_h x) c t1
  end.
Definition ps_exp m D (x : psa) : res psa :=
  match x with
  | [] => Err EUB
  | a :: _ => do e <- bfun Aexp a;
      ps_tay (step_fact x D (fun _ => bfun Aexp) (fun _ => e)) m D x (ps_h x) e t1
  end.
Definition ps_sinh m D (x : psa) : res psa :=
  match x with
  | [] => Err EUB
  | a :: _ => do s <- bfun Asinh a; do c <- bfun Acosh_ a;
      ps_tay (step_fact x D tab_sinh (tab2 s c)) m D x (ps_h x) s t1
  end.
Definition ps_cosh m D (x : psa) : res psa :=
  match x with
  | [] => Err EUB
  | a :: _ => do c <- bfun Acosh_ a; do s <- bfun Asinh a;
      ps_tay (step_fact x D tab_cosh (tab2 c s)) m D x (ps_h x) c t1
  end.
(* 685-738 sqrt; 1./2. - i is (1 - 2i) * 2^-1 *)
Definition step_sqrt (m : Z) (a range : B) (i : nat) (last : bool) (st : B * B) : res (B * (B * B)) :=
  let (xn, xn2) := st in
  if last then Ok (xn2, st)
  else
    let next := fun x c => do q <- bSdiv (1 - 2 * Z.of_nat i) (-1) c; do q <- bdivS q (Z.of_nat i + 1) 0; Ok (bmul x q) in
    do n <- next xn a;
    do n2 <- if (m =? 2)%Z then next xn2 range else Ok xn2;
    Ok (xn, (n, n2)).
Definition ps_sqrt m D (x : psa) : res psa :=
  match x with
  | [] => Err EUB
  | a :: _ =>
      do sa <- bfun Asqrt a;
      do xn <- bSdiv 1 0 (bSmul 2 0 sa);
      let range := ps_eval x D in
      do x2 <- if (m =? 2)%Z then do sr <- bfun Asqrt range; bSdiv 1 0 (bSmul 2 0 sr) else Ok t0;
      ps_tay (step_sqrt m a range) m D x (ps_h x) sa (xn, x2)
  end.
(* 740-792 log *)
Definition step_log (m : Z) (a range : B) (i : nat) (last : bool) (st : B * B) : res (B * (B * B)) :=
  let (xn, xn2) := st in
  if last then do x2 <- bdiv (bneg xn2) range; do k <- bdivS x2 (Z.of_nat i) 0; Ok (k, (xn, x2))
  else
    do x1 <- bdiv (bneg xn) a;
    do x2 <- if (m =? 2)%Z then bdiv (bneg xn2) range else Ok xn2;
    do k <- bdivS x1 (Z.of_nat i) 0;
    Ok (k, (x1, x2)).
Definition ps_log m D (x : psa) : res psa :=
  match x with
  | [] => Err EUB
  | a :: _ => do l <- bfun Alog a;
      ps_tay (step_log m a (ps_eval x D)) m D x (ps_h x) l (bneg t1, bneg t1)
  end.

(* 1335-1347 integrate *)
Fixpoint integ (i : Z) (l : psa) : res psa :=
  match l with
  | [] => Ok []
  | c :: l => do q <- bdivS c i 0; do r <- integ (i + 1) l; Ok (q :: r)
  end.
Definition ps_integrate (x : psa) : res psa := do r <- integ 1 x; Ok (t0 :: r).
(* 1349-1370 setorder *)
Definition ps_setorder (m : Z) (D : B) (x : psa) (n : Z) : res psa :=
  if (n <? 0)%Z then Err EUB else
  let k := Z.to_nat n in
  let s := length x in
  if (s <=? k + 1)%nat then Ok (x ++ repeat t0 (k + 1 - s))
  else Ok (firstn k x ++ [if (m =? 1)%Z then at_ x k else hornerT (skipn k x) D]).

(* 906-966 asin, 968-1028 acos, 1030-1089 atan, 1091-1151 asinh, 1153-1213 acosh, 1215-1274 atanh: the Taylor coefficients come from
   integrating a psa in the variable of the domain evalrange(x); der builds 1/sqrt(1-taylor*taylor) etc. *)
Definition step_tab (tay : psa) (i : nat) (last : bool) (st : unit) : res (B * unit) :=
  if (i <? length tay)%nat then Ok (at_ tay i, st) else Err EUB.
Definition ps_der (f : afun) (m : Z) (D : B) (t : psa) : res psa :=
  do q <- ps_mul m D t t;
  match f with
  | Aasin => do d <- head (fun c => baddS c 1 0) (map bneg q); do s <- ps_sqrt m D d; ps_Tdiv m D t1 s
  | Aacos => do d <- head (fun c => baddS c 1 0) (map bneg q); do s <- ps_sqrt m D d; ps_Tdiv m D (bcst (-1) 0) s
  | Aatan => do d <- head (fun c => baddS c 1 0) q; ps_Tdiv m D t1 d
  | Aasinh => do d <- head (fun c => baddS c 1 0) q; do s <- ps_sqrt m D d; ps_Tdiv m D t1 s
  | Aacosh => do d <- head (fun c => bsubS c 1 0) q; do s <- ps_sqrt m D d; ps_Tdiv m D t1 s
  | _ => do d <- head (fun c => baddS c 1 0) (map bneg q); ps_Tdiv m D t1 d
  end.
Definition ps_arc (f : afun) (m : Z) (D : B) (x : psa) : res psa :=
  match x with
  | [] => Err EUB
  | a :: _ =>
      let D' := if (m =? 2)%Z then ps_eval x D else D in
      do t <- ps_setorder m D' [a; t1] (Z.of_nat (length x) - 2);
      do v <- bfun f a;
      do d <- ps_der f m D' t;
      do I <- ps_integrate d;
      do T <- ps_addT I v;
      ps_tay (step_tab T) m D x (ps_h x) (at_ T 0) tt
  end.

(* 1293-1302: the loop of pow(psa, int); the last xp * xp, whose value is not used, is left out *)
Fixpoint ps_pow_loop m D (k : positive) (r xp : psa) : res psa :=
  match k with
  | xH => ps_mul m D r xp
  | xO k => do x2 <- ps_mul m D xp xp; ps_pow_loop m D k r x2
  | xI k => do r <- ps_mul m D r xp; do x2 <- ps_mul m D xp xp; ps_pow_loop m D k r x2
  end.
(* 1284-1308 pow(psa, int) *)
Definition ps_powi m D (x : psa) (y : Z) : res psa :=
  match y with
  | Z0 => Ok [t1]
  | Zpos k => ps_pow_loop m D k [t1] x
  | Zneg k => do r <- ps_pow_loop m D k [t1] x; ps_Tdiv m D t1 r
  end.
(* 1314-1320 tan, tanh *)
Definition ps_fun (f : afun) m D (x : psa) : res psa :=
  match f with
  | Aexp => ps_exp m D x | Alog => ps_log m D x | Asqrt => ps_sqrt m D x
  | Asin => ps_sin m D x | Acos => ps_cos m D x
  | Atan_ => do s <- ps_sin m D x; do c <- ps_cos m D x; ps_div m D s c
  | Asinh => ps_sinh m D x | Acosh_ => ps_cosh m D x
  | Atanh_ => do s <- ps_sinh m D x; do c <- ps_cosh m D x; ps_div m D s c
  | f => ps_arc f m D x
  end.
(* 1310-1312 pow(psa, psa); 1276-1282 convert the number and call this *)
Definition ps_pow m D (x y : psa) : res psa := do l <- ps_log m D x; do p <- ps_mul m D y l; ps_exp m D p.
(* 153-169, 224-240, 348-418, 434-445 operators with a number C = k*2^e: + and - act on the constant term, * and / convert C to T *)
Definition ps_sc (o : scop) (k e : Z) m D (a : psa) : res psa :=
  match o with
  | SOadd | SOaddr => head (fun c => baddS c k e) a
  | SOsub => head (fun c => bsubS c k e) a
  | SOsubr => head (fun c => baddS c k e) (map bneg a)
  | SOmul => Ok (ps_mulT a (bcst k e))
  | SOmulr => Ok (ps_Tmul (bcst k e) a)
  | SOdiv => ps_divT a (bcst k e)
  | SOdivr => ps_Tdiv m D (bcst k e) a
  end.

(* a function written with psa *)
Fixpoint pseval m D (env : nat -> psa) (e : aexpr) : res psa :=
  match e with
  | XVar n => Ok (env n)
  | XCst k x => Ok [bcst k x]
  | XAdd a b => do x <- pseval m D env a; do y <- pseval m D env b; ps_add x y
  | XSub a b => do x <- pseval m D env a; do y <- pseval m D env b; ps_sub x y
  | XMul a b => do x <- pseval m D env a; do y <- pseval m D env b; ps_mul m D x y
  | XDiv a b => do x <- pseval m D env a; do y <- pseval m D env b; ps_div m D x y
  | XSc o k x a => do y <- pseval m D env a; ps_sc o k x m D y
  | XNeg a => do x <- pseval m D env a; Ok (ps_neg x)
  | XPowZ a n => do x <- pseval m D env a; ps_powi m D x n
  | XPow a b => do x <- pseval m D env a; do y <- pseval m D env b; ps_pow m D x y
  | XFun f a => do x <- pseval m D env a; ps_fun f m D x
  end.
End Psa.
Arguments t0 {B}. Arguments t1 {B}. Arguments hornerT {B}. Arguments ps_eval {B}. Arguments head {B}. Arguments ps_add {B}. Arguments ps_sub {B}. Arguments 
ps_neg {B}. Arguments ps_addT {B}. Arguments ps_mulT {B}. Arguments ps_Tmul {B}. Arguments ps_divT {B}. Arguments sumT {B}. Arguments at_ {B}. Arguments conv 
{B}. Arguments conv_hi {B}. Arguments ps_mul {B}. Arguments tay {B St}. Arguments ps_tay {B St}. Arguments ps_h {B}. Arguments step_inv {B}. Arguments ps_inv 
{B}. Arguments ps_div {B}. Arguments ps_Tdiv {B}. Arguments step_fact {B}. Arguments tab_sin {B}. Arguments tab_cos {B}. Arguments tab_sinh {B}. Arguments 
tab_cosh {B}. Arguments tab4 {B}. Arguments tab2 {B}. Arguments ps_sin {B}. Arguments ps_cos {B}. Arguments ps_exp {B}. Arguments ps_sinh {B}. Arguments 
ps_cosh {B}. Arguments step_sqrt {B}. Arguments ps_sqrt {B}. Arguments step_log {B}. Arguments ps_log {B}. Arguments integ {B}. Arguments ps_integrate {B}. 
Arguments ps_setorder {B}. Arguments step_tab {B}. Arguments ps_der {B}. Arguments ps_arc {B}. Arguments ps_pow_loop {B}. Arguments ps_powi {B}. Arguments 
ps_fun {B}. Arguments ps_pow {B}. Arguments ps_sc {B}. Arguments pseval {B}. 
