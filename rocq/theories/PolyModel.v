(* Models of kv/cardano-ferrari.hpp and of smith_error and vdka in kv/dka.hpp.  A ublas vector is a list.  A function that
   returns bool and writes `out` is modelled as an option: None for `return false`. *)
From Coq Require Import ZArith Bool List.
From Verif Require Import Ext Scalar IntervalModel ElemModel CplxModel.
Open Scope Z_scope.

Section Poly.
Variable S : scal.
Variable P : elemp S.
Variable fuel : nat.
Notation iv := (iv S).
Notation cx := (cx S).
Notation num := (sint S).

(* zero_in(x.real()) && zero_in(x.imag()) *)
Definition czero (x : cx) : bool := zero_in (re x) && zero_in (im x).
(* cardano-ferrari.hpp 48-56, 105-113: one candidate nt for nn; None is flag == false *)
Definition keep (t : cx) (nn : option cx) (nt : cx) : option cx :=
  if czero t then
    match nn with
    | None => Some nt
    | Some h => Some (mkcx (hull (re h) (re nt)) (hull (im h) (im nt)))
    end
  else nn.
(* complex() *)
Definition cx0 : cx := mkcx (ipt s0) (ipt s0).
Definition or0 (nn : option cx) : cx := match nn with None => cx0 | Some h => h end.
(* 46-58 the loop over i = 0, 1, 2 *)
Fixpoint pick_nn (k : nat) (m w p : cx) (nn : option cx) (nt : cx) : res (option cx) :=
  match k with
  | O => Ok nn
  | Datatypes.S k =>
      do p3 <- cdivS p (num 3);
      pick_nn k m w p (keep (cadd (cmul m nt) p3) nn nt) (cmul w nt)
  end.
(* cardano-ferrari.hpp 22-66 *)
Definition cardano (inp : list cx) : res (option (list cx)) :=
  match inp with
  | c0 :: c1 :: c2 :: c3 :: nil =>
      if czero c3 then Ok None else
      do a <- cdiv c2 c3;
      do b <- cdiv c1 c3;
      do c <- cdiv c0 c3;
      do a2 <- cpowi a 2; do t <- cdivS a2 (num 3);
      let p := csub b t in
      do a3 <- cpowi a 3; do t1 <- cdivS (cSmul (num 2) a3) (num 27); do t2 <- cdivS (cmul a b) (num 3);
      let q := cadd (csub t1 t2) c in
      do s3 <- isqrt (ipt (num 3));
      do w <- cdivS (mkcx (ipt (num (-1))) s3) (num 2);
      do q2 <- cpowi q 2; do q4 <- cdivS q2 (num 4); do p3 <- cpowi p 3; do p27 <- cdivS p3 (num 27);
      do tmp <- csqrt S P fuel (cadd q4 p27);
      do h <- cdivS (cneg q) (num 2);
      do third <- iSdiv s1 (ipt (num 3));
      do m <- cpowI S P fuel (cadd h tmp) third;
      do n <- cpowI S P fuel (csub h tmp) third;
      do nn <- pick_nn 3 m w p None n;
      let nn := or0 nn in
      do a3 <- cdivS a (num 3);
      Ok (Some (csub (cadd m nn) a3
             :: csub (cadd (cmul w m) (cmul (cmul w w) nn)) a3
             :: csub (cadd (cmul (cmul w w) m) (cmul w nn)) a3 :: nil))
  | _ => Ok None
  end.
(* cardano-ferrari.hpp 68-124.  The test on line 77 reads in(3).imag(); the result of cardano(ci, co) on line 94 is
   ignored, and co(0) of an empty vector would be undefined behaviour *)
Definition ferrari (inp : list cx) : res (option (list cx)) :=
  match inp with
  | c0 :: c1 :: c2 :: c3 :: c4 :: nil =>
      if zero_in (re c4) && zero_in (im c3) then Ok None else
      do a <- cdiv c3 c4;
      do b <- cdiv c2 c4;
      do c <- cdiv c1 c4;
      do d <- cdiv c0 c4;
      do a2 <- cpowi a 2; do t <- cdivS (cmulS a2 (num 3)) (num 8);
      let p := csub b t in
      do t <- cdivS (cmul b a) (num 2); do a3 <- cpowi a 3; do t1 <- cdivS a3 (num 8);
      let q := cadd (csub c t) t1 in
      do t <- cdivS (cmul c a) (num 4); do t1 <- cdivS (cmul b a2) (num 16); do a4 <- cpowi a 4; do t2 <- cdivS (cmulS a4 (num 3)) (num 256);
      let r := csub (cadd (csub d t) t1) t2 in
      do c2' <- cdivS (cneg p) (num 2);
      do t <- cdivS (cmul r p) (num 2); do q2 <- cpowi q 2; do t1 <- cdivS q2 (num 8);
      do co <- cardano (csub t t1 :: cneg r :: c2' :: cofS s1 :: nil);
      do l <- match co with Some (l :: _) => Ok l | _ => Err EUB end;
      do m <- csqrt S P fuel (csub (cSmul (num 2) l) p);
      do l2 <- cpowi l 2;
      do n <- csqrt S P fuel (csub l2 r);
      let test := fun nt => cadd (cmul (cSmul (num 2) m) nt) q in
      let nn := keep (test n) None n in
      let nn := or0 (keep (test (cneg n)) nn (cneg n)) in
      do m2 <- cpowi m 2;
      do s1' <- csqrt S P fuel (csub m2 (cSmul (num 4) (csub l nn)));
      do s2' <- csqrt S P fuel (csub m2 (cSmul (num 4) (cadd l nn)));
      do a4 <- cdivS a (num 4);
      do x0 <- cdivS (cadd m s1') (num 2);
      do x1 <- cdivS (csub m s1') (num 2);
      do x2 <- cdivS (cadd (cneg m) s2') (num 2);
      do x3 <- cdivS (csub (cneg m) s2') (num 2);
      Ok (Some (csub x0 a4 :: csub x1 a4 :: csub x2 a4 :: csub x3 a4 :: nil))
  | _ => Ok None
  end.

(* dka.hpp 20-33: p(s-1) of an empty vector is undefined behaviour *)
Fixpoint horner (p : list cx) (x : cx) : res cx :=
  match p with
  | nil => Err EUB
  | c :: nil => Ok c
  | c :: p' => do r <- horner p' x; Ok (cadd (cmul r x) c)
  end.
(* dka.hpp 159-163 *)
Fixpoint sm_df (i j : nat) (xi : cx) (xs : list cx) (df : cx) : cx :=
  match xs with
  | nil => df
  | xj :: xs' => sm_df i (Datatypes.S j) xi xs' (if Nat.eqb j i then df else cmul df (csub xi xj))
  end.
(* dka.hpp 164-168 *)
Definition sm_err (n : nat) (f df : cx) : res S :=
  if zero_in (iadd (imul (re df) (re df)) (imul (im df) (im df))) then Ok spinf
  else do q <- cdiv (cSmul (num (Z.of_nat n)) f) df; do a <- cabs q; Ok (hi a).
(* dka.hpp 169-170 *)
Definition sm_box (x : cx) (err : S) : cx :=
  let e := iSmul err (mkiv (num (-1)) (num 1)) in mkcx (iadd (re x) e) (iadd (im x) e).
(* dka.hpp 157-171; n = p.size() - 1 *)
Fixpoint sm_boxes (p : list cx) (lead : cx) (n : nat) (all : list cx) (i : nat) (xs : list cx) : res (list cx) :=
  match xs with
  | nil => Ok nil
  | x :: xs' =>
      do f <- horner p x;
      do err <- sm_err n f (sm_df i 0 x all lead);
      do rest <- sm_boxes p lead n all (Datatypes.S i) xs';
      Ok (sm_box x err :: rest)
  end.

(* dka.hpp 175-192: the arrays x3 and unified.  An entry of unified is None for -1. *)
Definition uni := list (cx * option nat).
Definition ov (x y : cx) : bool := overlap (re x) (re y) && overlap (im x) (im y).
Definition chull (x y : cx) : cx := mkcx (hull (re x) (re y)) (hull (im x) (im y)).
Definition dflt : cx * option nat := (cx0, None).
Fixpoint set {A} (l : list A) (i : nat) (a : A) : list A :=
  match l, i with
  | nil, _ => nil
  | _ :: l', O => a :: l'
  | b :: l', Datatypes.S i => b :: set l' i a
  end.
(* 181-189: the loop over j, cnt values from j on; the flag is false once something was unified *)
Fixpoint un_in (i j cnt : nat) (u : uni) (flag : bool) : uni * bool :=
  match cnt with
  | O => (u, flag)
  | Datatypes.S cnt =>
      let '(xj, uj) := nth j u dflt in
      match uj with
      | Some _ => un_in i (Datatypes.S j) cnt u flag
      | None =>
          let '(xi, ui) := nth i u dflt in
          if ov xi xj then
            let u1 := set u i (chull xi xj, ui) in
            let u2 := set u1 j (fst (nth j u1 dflt), Some i) in
            un_in i (Datatypes.S j) cnt u2 false
          else un_in i (Datatypes.S j) cnt u flag
      end
  end.
(* 179-190: the loop over i = 0 .. n-2 *)
Fixpoint un_out (i cnt n : nat) (u : uni) (flag : bool) : uni * bool :=
  match cnt with
  | O => (u, flag)
  | Datatypes.S cnt =>
      match snd (nth i u dflt) with
      | Some _ => un_out (Datatypes.S i) cnt n u flag
      | None => let '(u, flag) := un_in i i (n - i) u flag in un_out (Datatypes.S i) cnt n u flag
      end
  end.
(* 177-192 *)
Fixpoint un_loop (f n : nat) (u : uni) : res uni :=
  match f with
  | O => Err EFuel
  | Datatypes.S f =>
      let '(u, flag) := un_out 0 (n - 1) n u true in
      if flag then Ok u else un_loop f n u
  end.
(* 194-196 *)
Fixpoint un_fin (i cnt : nat) (u : uni) : uni :=
  match cnt with
  | O => u
  | Datatypes.S cnt =>
      let '(x, r) := nth i u dflt in
      match r with
      | Some k => un_fin (Datatypes.S i) cnt (set u i (fst (nth k u dflt), r))
      | None => un_fin (Datatypes.S i) cnt u
      end
  end.
Definition unify (f : nat) (xs : list cx) : res (list cx) :=
  let n := length xs in
  do u <- un_loop f n (map (fun x => (x, None)) xs);
  Ok (map fst (un_fin 0 n u)).
(* dka.hpp 143-199; x has at least n elements in the code, exactly n here *)
Definition smith_error (f : nat) (p : list cx) (x : list (S * S)) : res (list cx) :=
  match p with
  | nil => Err EUB
  | _ =>
    let n := (length p - 1)%nat in
    if Nat.eqb (length x) n then
      let x2 := map (fun z : S * S => mkcx (ipt (fst z)) (ipt (snd z))) x in
      do b <- sm_boxes p (last p cx0) n x2 0 x2;
      unify f b
    else Err EUB
  end.
(* dka.hpp 203-224; dka is the unverified floating-point iteration, an arbitrary function here *)
Definition vdka (f : nat) (dka : list (S * S) -> list (S * S)) (p : list cx) : res (option (list cx)) :=
  match p with
  | nil => Err EUB
  | _ =>
    let l := last p cx0 in
    if zero_in (iadd (imul (re l) (re l)) (imul (im l) (im l))) then Ok None
    else do r <- smith_error f p (dka (map (fun c => (mid (re c), mid (im c))) p)); Ok (Some r)
  end.
End Poly.
Arguments czero {S}. Arguments keep {S}. Arguments cx0 {S}. Arguments or0 {S}. Arguments pick_nn {S}.
Arguments horner {S}. Arguments sm_df {S}. Arguments sm_err {S}. Arguments sm_box {S}. Arguments sm_boxes {S}.
Arguments ov {S}. Arguments chull {S}. Arguments un_in {S}. Arguments un_out {S}. Arguments un_loop {S}. Arguments un_fin {S}. Arguments unify {S}.
Arguments smith_error {S}. Arguments vdka {S}. Arguments dflt {S}.
