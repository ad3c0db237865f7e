(* Model of kv/psa.hpp with its static state: mode(), domain(), use_history(), record_history() and history().
   The arithmetic is that of PsaModel.v; here every operator that reads or writes the history list is modelled together with it.
   history().front() and pop_front() on an empty list are undefined behaviour: EUB.  A C++ exception leaves the state as it is at the
   throw.  An operation that is undefined for the sizes of its operands is EUB even if the history supplies the coefficients concerned.
   In inv the quotient h / a is computed once, before the loop.  The operands of an operator are evaluated from left to right. *)
From Coq Require Import ZArith Bool List Arith.
From Verif Require Import Ext ADModel PsaModel.
Import ListNotations.

Section Hist.
Variable B : base.
Notation psa := (list B).
(* 31-77 the static members *)
Record pst := mkpst { p_mode : Z; p_dom : B; p_uh : bool; p_rh : bool; p_hist : list psa }.
Definition set_mode (m : Z) (s : pst) : pst := mkpst m (p_dom s) (p_uh s) (p_rh s) (p_hist s).
Definition set_dom (D : B) (s : pst) : pst := mkpst (p_mode s) D (p_uh s) (p_rh s) (p_hist s).
Definition set_uh (b : bool) (s : pst) : pst := mkpst (p_mode s) (p_dom s) b (p_rh s) (p_hist s).
Definition set_rh (b : bool) (s : pst) : pst := mkpst (p_mode s) (p_dom s) (p_uh s) b (p_hist s).
Definition set_hist (l : list psa) (s : pst) : pst := mkpst (p_mode s) (p_dom s) (p_uh s) (p_rh s) l.
(* a computation: result or exception, and the new state *)
Definition hM (A : Type) : Type := pst -> res A * pst.
Definition hlift {A} (r : res A) : hM A := fun s => (r, s).
Definition hret {A} (a : A) : hM A := hlift (Ok a).
Definition hbind {A A'} (x : hM A) (f : A -> hM A') : hM A' := fun s => match x s with (Ok a, s) => f a s | (Err e, s) => (Err e, s) end.
(* read mode() and domain() *)
Definition hget {A} (f : Z -> B -> hM A) : hM A := fun s => f (p_mode s) (p_dom s) s.
Definition hmod (f : pst -> pst) : hM unit := fun s => (Ok tt, f s).
Local Notation "'dh' x <- m ; k" := (hbind m (fun x => k)) (at level 200, x name, m at level 100, k at level 200).

(* 121-131 and alike: the coefficients below old_size are those of front(), the others are new *)
Definition reuse (m : Z) (h V : psa) : psa := let o := Nat.min (length h) (if (m =? 2)%Z then length V - 1 else length V) in firstn o h ++ skipn o V.
(* 141-149 and alike *)
Definition recd (m : Z) (U : psa) : psa := if (m =? 1)%Z then U else removelast U.
Definition record (U : psa) (s : pst) : pst := if p_rh s then set_hist (p_hist s ++ [recd (p_mode s) U]) s else s.
(* V is the result computed from the operands; front is whether this operator takes coefficients from front() *)
Definition hfin (front : bool) (V : psa) : hM psa := fun s =>
  if p_uh s then
    match p_hist s with
    | [] => (Err EUB, s)
    | h :: l => let U := if front then reuse (p_mode s) h V else V in (Ok U, record U (set_hist l s))
    end
  else (Ok V, record V s).
Definition two (a : psa) : bool := (2 <=? length a)%nat.
(* 110-151, 181-222, 260-346 *)
Definition hps_add (a b : psa) : hM psa := dh V <- hlift (ps_add a b); hfin (two a && two b) V.
Definition hps_sub (a b : psa) : hM psa := dh V <- hlift (ps_sub a b); hfin (two a && two b) V.
Definition hps_mul (a b : psa) : hM psa := hget (fun m D => dh V <- hlift (ps_mul m D a b); hfin true V).
(* 348-418 for C = T *)
Definition hps_Tmul (a : B) (b : psa) : hM psa := hfin true (ps_Tmul a b).
(* 348-418 for a number C = k*2^e: with history the number itself is the factor, without it is converted to T first *)
Definition hps_mulC (a : psa) (k e : Z) : hM psa := fun s => hfin true (if p_uh s then map (fun x => bmulS x k e) a else ps_mulT a (bcst k e)) s.
Definition hps_Cmul (k e : Z) (a : psa) : hM psa := fun s => hfin true (if p_uh s then map (bSmul k e) a else ps_Tmul (bcst k e) a) s.

(* the loop of inv, sin, ... (see PsaModel.tay), with the switching of the two flags; old is old_size *)
Section Loop.
Variable St : Type.
Variable step : nat -> bool -> St -> res (B * St).
Variables (n : nat) (g : psa) (old : nat).
Definition hturn (i : nat) (last : bool) (hn r : psa) (st : St) : hM (psa * psa * St) :=
  dh hn <- hps_mul hn g;
  dh q <- hlift (step i last st);
  dh kh <- hps_Tmul (fst q) hn;
  dh r <- hps_add r kh;
  hret (hn, r, snd q).
Fixpoint hloop (cnt i : nat) (hn r : psa) (st : St) : hM psa :=
  match cnt with
  | O => hret r
  | S cnt => fun s =>
      let s := if p_uh s && (old <=? i)%nat then set_uh false s else s in
      let last := (p_mode s =? 2)%Z && (i =? n - 1)%nat in
      let s := if last then set_rh false s else s in
      hbind (hturn i last hn r st) (fun q => hloop cnt (S i) (fst (fst q)) (snd (fst q)) (snd q)) s
  end.
End Loop.
(* the flags are put back after the loop; then r * 1. *)
Definition htay {St} (step : nat -> bool -> St -> res (B * St)) (x g : psa) (r0 : B) (st : St) : hM psa := fun s =>
  match (if p_uh s then match p_hist s with [] => None | h :: _ => Some (length h) end else Some O) with
  | None => (Err EUB, s)
  | Some old =>
      (dh r <- hloop St step (length x) g old (length x - 1) 1 [t1] [r0] st;
       dh _ <- hmod (fun s' => set_rh (p_rh s) (set_uh (p_uh s) s'));
       hps_mulC r 1 0) s
  end.
(* 457-513 inv *)
Definition hps_inv (x : psa) : hM psa :=
  match x with
  | [] => hlift (Err EUB)
  | a :: _ => hget (fun m D =>
      dh ia <- hlift (bSdiv 1 0 a);
      dh x2 <- hlift (if (m =? 2)%Z then bSdiv 1 0 (ps_eval x D) else Ok t0);
      dh g <- hlift (ps_divT (ps_h x) a);
      htay (step_inv m a (ps_eval x D)) x g ia (ia, x2))
  end.
(* 430-432, 443-445 *)
Definition hps_div (a b : psa) : hM psa := dh i <- hps_inv b; hps_mul a i.
Definition hps_Cdiv (k e : Z) (b : psa) : hM psa := dh i <- hps_inv b; hps_Cmul k e i.
(* 515-573 sin, 575-633 cos, 635-683 exp, 794-848 sinh, 850-904 cosh *)
Definition hps_sin (x : psa) : hM psa :=
  match x with
  | [] => hlift (Err EUB)
  | a :: _ => hget (fun m D => dh s <- hlift (bfun Asin a); dh c <- hlift (bfun Acos a);
      htay (step_fact x D tab_sin (tab4 s c (bneg s) (bneg c))) x (ps_h x) s t1)
  end.
Definition hps_cos (x : psa) : hM psa :=
  match x with
  | [] => hlift (Err EUB)
  | a :: _ => hget (fun m D => dh c <- hlift (bfun Acos a); dh s <- hlift (bfun Asin a);
      htay (step_fact x D tab_cos (tab4 c (bneg s) (bneg c) (bneg (bneg s)))) x (ps_h x) c t1)
  end.
Definition hps_exp (x : psa) : hM psa :=
  match x with
  | [] => hlift (Err EUB)
  | a :: _ => hget (fun m D => dh e <- hlift (bfun Aexp a); htay (step_fact x D (fun _ => bfun Aexp) (fun _ => e)) x (ps_h x) e t1)
  end.
Definition hps_sinh (x : psa) : hM psa :=
  match x with
  | [] => hlift (Err EUB)
  | a :: _ => hget (fun m D => dh s <- hlift (bfun Asinh a); dh c <- hlift (bfun Acosh_ a);
      htay (step_fact x D tab_sinh (tab2 s c)) x (ps_h x) s t1)
  end.
Definition hps_cosh (x : psa) : hM psa :=
  match x with
  | [] => hlift (Err EUB)
  | a :: _ => hget (fun m D => dh c <- hlift (bfun Acosh_ a); dh s <- hlift (bfun Asinh a);
      htay (step_fact x D tab_cosh (tab2 c s)) x (ps_h x) c t1)
  end.
(* 685-738 sqrt *)
Definition hps_sqrt (x : psa) : hM psa :=
  match x with
  | [] => hlift (Err EUB)
  | a :: _ => hget (fun m D =>
      dh sa <- hlift (bfun Asqrt a);
      dh xn <- hlift (bSdiv 1 0 (bSmul 2 0 sa));
      dh x2 <- hlift (if (m =? 2)%Z then do sr <- bfun Asqrt (ps_eval x D); bSdiv 1 0 (bSmul 2 0 sr) else Ok t0);
      htay (step_sqrt m a (ps_eval x D)) x (ps_h x) sa (xn, x2))
  end.
(* 740-792 log *)
Definition hps_log (x : psa) : hM psa :=
  match x with
  | [] => hlift (Err EUB)
  | a :: _ => hget (fun m D => dh l <- hlift (bfun Alog a); htay (step_log m a (ps_eval x D)) x (ps_h x) l (bneg t1, bneg t1))
  end.
(* 906-1274: the inner series is computed with both flags false and, in mode 2, with the domain evalrange(x); the three are put back before the loop *)
Definition hps_arc (f : afun) (x : psa) : hM psa :=
  match x with
  | [] => hlift (Err EUB)
  | a :: _ => fun s0 =>
      let m := p_mode s0 in
      let D' := if (m =? 2)%Z then ps_eval x (p_dom s0) else p_dom s0 in
      (dh _ <- hmod (fun s => set_dom D' (set_rh false (set_uh false s)));
       dh t <- hlift (ps_setorder m D' [a; t1] (Z.of_nat (length x) - 2));
       dh v <- hlift (bfun f a);
       dh d <- hlift (ps_der f m D' t);
       dh I <- hlift (ps_integrate d);
       dh T <- hlift (ps_addT I v);
       dh _ <- hmod (fun s => set_dom (p_dom s0) (set_rh (p_rh s0) (set_uh (p_uh s0) s)));
       htay (step_tab T) x (ps_h x) (at_ T 0) tt) s0
  end.
(* 1284-1308 pow(psa, int), with the last xp * xp *)
Fixpoint hps_pow_loop (k : positive) (r xp : psa) : hM psa :=
  match k with
  | xH => dh r <- hps_mul r xp; dh _ <- hps_mul xp xp; hret r
  | xO k => dh x2 <- hps_mul xp xp; hps_pow_loop k r x2
  | xI k => dh r <- hps_mul r xp; dh x2 <- hps_mul xp xp; hps_pow_loop k r x2
  end.
Definition hps_powi (x : psa) (y : Z) : hM psa :=
  match y with
  | Z0 => hret [t1]
  | Zpos k => hps_pow_loop k [t1] x
  | Zneg k => dh r <- hps_pow_loop k [t1] x; hps_Cdiv 1 0 r
  end.
(* 1310-1320 *)
Definition hps_pow (x y : psa) : hM psa := dh l <- hps_log x; dh p <- hps_mul y l; hps_exp p.
Definition hps_fun (f : afun) (x : psa) : hM psa :=
  match f with
  | Aexp => hps_exp x | Alog => hps_log x | Asqrt => hps_sqrt x
  | Asin => hps_sin x | Acos => hps_cos x
  | Atan_ => dh s <- hps_sin x; dh c <- hps_cos x; hps_div s c
  | Asinh => hps_sinh x | Acosh_ => hps_cosh x
  | Atanh_ => dh s <- hps_sinh x; dh c <- hps_cosh x; hps_div s c
  | f => hps_arc f x
  end.
(* 153-169, 224-240, 348-418, 434-445 *)
Definition hps_sc (o : scop) (k e : Z) (a : psa) : hM psa :=
  match o with
  | SOadd | SOaddr => hlift (head (fun c => baddS c k e) a)
  | SOsub => hlift (head (fun c => bsubS c k e) a)
  | SOsubr => hlift (head (fun c => baddS c k e) (map bneg a))
  | SOmul => hps_mulC a k e
  | SOmulr => hps_Cmul k e a
  | SOdiv => hlift (ps_divT a (bcst k e))
  | SOdivr => hps_Cdiv k e a
  end.
(* a function written with psa *)
Fixpoint hpseval (env : nat -> psa) (e : aexpr) : hM psa :=
  match e with
  | XVar n => hret (env n)
  | XCst k x => hret [bcst k x]
  | XAdd a b => dh x <- hpseval env a; dh y <- hpseval env b; hps_add x y
  | XSub a b => dh x <- hpseval env a; dh y <- hpseval env b; hps_sub x y
  | XMul a b => dh x <- hpseval env a; dh y <- hpseval env b; hps_mul x y
  | XDiv a b => dh x <- hpseval env a; dh y <- hpseval env b; hps_div x y
  | XSc o k x a => dh y <- hpseval env a; hps_sc o k x y
  | XNeg a => dh x <- hpseval env a; hret (ps_neg x)
  | XPowZ a n => dh x <- hpseval env a; hps_powi x n
  | XPow a b => dh x <- hpseval env a; dh y <- hpseval env b; hps_pow x y
  | XFun f a => dh x <- hpseval env a; hps_fun f x
  end.
End Hist.
Arguments mkpst {B}. Arguments p_mode {B}. Arguments p_dom {B}. Arguments p_uh {B}. Arguments p_rh {B}. Arguments p_hist {B}. Arguments set_mode {B}. Arguments
set_dom {B}. Arguments set_uh {B}. Arguments set_rh {B}. Arguments set_hist {B}. Arguments hlift {B A}. Arguments hret {B A}. Arguments hbind {B A A'}. Arguments
hget {B A}. Arguments hmod {B}. Arguments reuse {B}. Arguments recd {B}. Arguments record {B}. Arguments hfin {B}. Arguments two {B}. Arguments hps_add {B}. Arguments
hps_sub {B}. Arguments hps_mul {B}. Arguments hps_Tmul {B}. Arguments hps_mulC {B}. Arguments hps_Cmul {B}. Arguments hturn {B St}. Arguments hloop {B St}. Arguments
htay {B St}. Arguments hps_inv {B}. Arguments hps_div {B}. Arguments hps_Cdiv {B}. Arguments hps_sin {B}. Arguments hps_cos {B}. Arguments hps_exp {B}. Arguments
hps_sinh {B}. Arguments hps_cosh {B}. Arguments hps_sqrt {B}. Arguments hps_log {B}. Arguments hps_arc {B}. Arguments hps_pow_loop {B}. Arguments hps_powi {B}. Arguments
hps_pow {B}. Arguments hps_fun {B}. Arguments hps_sc {B}. Arguments hpseval {B}.
Notation "'dh' x <- m ; k" := (hbind m (fun x => k)) (at level 200, x name, m at level 100, k at level 200).
