(* Model of kv/eig.hpp: house, hess, francisQR, lu_factorize_comp, lu_substitute_comp, eig2by2, eig, veig (both overloads).
   A matrix is a list of rows.  T is double: + - * / and sqrt round to nearest; std::pow(x, 2), atan2, cos and sin of the C library are parameters
   (used by abs and sqrt of kv/complex.hpp 286-310 for complex<T>).  invert of matrix-inversion.hpp (boost's LU) is a parameter.
   fmax/fmin of small ints are exact.  Matrices are square (the test n != A.size2() fails).  ublas: prod(a,b)(i,j) is t = 0; t += a(i,k)*b(k,j); an
   assignment of an expression goes through a temporary.  Reading an uninitialised int as an index is EUB. *)
From Coq Require Import ZArith Bool List Arith.
From Verif Require Import Ext Scalar IntervalModel ElemModel CplxModel VecModel.
Import ListNotations.
Open Scope nat_scope.

(* the C library for double *)
Record libm (S : scal) := mklibm { lpow2 : S -> S; latan2 : S -> S -> S; lcos : S -> S; lsin : S -> S }.
Arguments lpow2 {S}. Arguments latan2 {S}. Arguments lcos {S}. Arguments lsin {S}.

Definition mtab {A} (m n : nat) (f : nat -> nat -> A) : list (list A) := map (fun i => map (f i) (seq 0 n)) (seq 0 m).
Definition mget {A} (d : A) (M : list (list A)) (i j : nat) : A := nth j (nth i M []) d.
Definition inrng (a b i : nat) : bool := (a <=? i) && (i <? b).

Section Eig.
Context {S : scal} (P : elemp S) (L : libm S).
Notation mS := (list (list S)).
Notation "M .( i , j )" := (mget s0 M i j) (at level 1, i at level 200, j at level 200, format "M .( i , j )").
Definition mset {A} (d : A) (n m : nat) (M : list (list A)) (i0 j0 : nat) (v : A) : list (list A) := mtab n m (fun i j => if Nat.eqb i i0 && Nat.eqb j j0 then v else mget d M i j).

(* eig.hpp 33-75; x is a column of length n, the result v too *)
Definition house (x : list S) : list S * S :=
  let n := length x in
  let x0 := nth 0 x s0 in
  let sigma := fold_left (fun s i => nadd s (nmul (nth i x s0) (nth i x s0))) (seq 1 (n - 1)) s0 in
  let v := s1 :: tl x in
  if seqb sigma s0 then (v, s0)
  else
    let mu := nsqrt P (nadd (nmul x0 x0) sigma) in
    let v0 := if sle x0 s0 then nsub x0 mu else ndiv (sneg sigma) (nadd x0 mu) in
    (map (fun y => ndiv y v0) (v0 :: tl x), ndiv (nmul (nmul (sdy 2 0) v0) v0) (nadd sigma (nmul v0 v0))).
(* identity_matrix(m) - beta*prod(v,trans(v)) *)
Definition reflector (m : nat) (v : list S) (beta : S) : mS :=
  mtab m m (fun i j => nsub (if Nat.eqb i j then s1 else s0) (nmul beta (nadd s0 (nmul (nth i v s0) (nth j v s0))))).
(* project(H,range(a,a+m),range(c,e)) = prod(T, project(H,range(a,a+m),range(c,e))) *)
Definition lmul (n m : nat) (T H : mS) (a c e : nat) : mS :=
  mtab n n (fun i j => if inrng a (a + m) i && inrng c e j then nsum m (fun k => nmul T.(i - a, k) H.(a + k, j)) else H.(i, j)).
(* project(H,range(c,e),range(a,a+m)) = prod(project(H,range(c,e),range(a,a+m)), T) *)
Definition rmul (n m : nat) (H T : mS) (c e a : nat) : mS :=
  mtab n n (fun i j => if inrng c e i && inrng a (a + m) j then nsum m (fun k => nmul H.(i, a + k) T.(k, j - a)) else H.(i, j)).

(* 92-110: one step of hess *)
Definition hess_step (n k : nat) (Q H : mS) : mS * mS :=
  let m := (n - k - 1)%nat in
  let '(v, beta) := house (map (fun i => H.(k + 1 + i, k)) (seq 0 m)) in
  let T := reflector m v beta in
  let h := nsum m (fun i => nmul T.(0, i) H.(k + 1 + i, k)) in
  let H := mtab n n (fun i j => if Nat.eqb j k && inrng (k + 1) n i then (if Nat.eqb i (k + 1) then h else s0) else H.(i, j)) in
  let H := lmul n m T H (k + 1) (k + 1) n in
  let H := rmul n m H T 0 n (k + 1) in
  (rmul n m Q T 0 n (k + 1), H).
(* 77-112 *)
Definition hess (n : nat) (A : mS) : mS * mS :=
  fold_left (fun QH k => hess_step n k (fst QH) (snd QH)) (seq 0 (n - 2)) (mtab n n (fun i j => if Nat.eqb i j then s1 else s0), A).

(* 132-159: the sweep k = 0 .. p-3; the reflectors (first row, matrix) are collected and applied to Q below *)
Fixpoint sweep (todo n p k : nat) (x y z : S) (H : mS) (acc : list (nat * mS)) : S * S * mS * list (nat * mS) :=
  match todo with
  | O => (x, y, H, acc)
  | Datatypes.S todo =>
    let '(v, beta) := house [x; y; z] in
    let T := reflector 3 v beta in
    let H := lmul n 3 T H k (Nat.max 1 k - 1) n in
    let H := rmul n 3 H T 0 (Nat.min (k + 4) p) k in
    sweep todo n p (k + 1) H.(k + 1, k) H.(k + 2, k) (if (k <? p - 3)%nat then H.(k + 3, k) else z) H (acc ++ [(k, T)])
  end.
(* 124-182: one pass of the while loop, on H and p *)
Definition fran_step (n : nat) (H : mS) (p : nat) : mS * nat * list (nat * mS) * (nat * mS) :=
  let q := (p - 1)%nat in
  let s := nadd H.(q - 1, q - 1) H.(p - 1, p - 1) in
  let t := nsub (nmul H.(q - 1, q - 1) H.(p - 1, p - 1)) (nmul H.(q - 1, p - 1) H.(p - 1, q - 1)) in
  let x := nadd (nsub (nadd (nmul H.(0, 0) H.(0, 0)) (nmul H.(0, 1) H.(1, 0))) (nmul s H.(0, 0))) t in
  let y := nmul H.(1, 0) (nsub (nadd H.(0, 0) H.(1, 1)) s) in
  let z := nmul H.(1, 0) H.(2, 1) in
  let '(x, y, H, acc) := sweep (p - 2) n p 0 x y z H [] in
  let '(v, beta) := house [x; y] in
  let T := reflector 2 v beta in
  let H := lmul n 2 T H (q - 1) (p - 3) n in
  let H := rmul n 2 H T 0 p (p - 2) in
  let '(H, p') :=
    if slt (sabs H.(p - 1, q - 1)) (nmul seps (sabs (nadd H.(q - 1, q - 1) (sabs H.(p - 1, p - 1))))) then (mset s0 n n H (p - 1) (q - 1) s0, (p - 1)%nat)
    else if slt (sabs H.(p - 2, q - 2)) (nmul seps (nadd (sabs H.(q - 2, q - 2)) (sabs H.(q - 1, q - 1)))) then (mset s0 n n H (p - 2) (q - 2) s0, (p - 2)%nat)
    else (H, p) in
  (H, p', acc, ((q - 1)%nat, T)).
(* 114-184 *)
Fixpoint francisQR (fuel n : nat) (Q H : mS) (p : nat) : res (mS * mS) :=
  if (2 <? p)%nat then
    match fuel with
    | O => Err EFuel
    | Datatypes.S fuel =>
      let '(H, p', acc, (q, T)) := fran_step n H p in
      let Q := fold_left (fun Q kT => rmul n 3 Q (snd kT) 0 n (fst kT)) acc Q in
      francisQR fuel n (rmul n 2 Q T 0 n q) H p'
    end
  else Ok (Q, H).

(* complex<T>: complex.hpp 67-256 *)
Record cs := mkcs { cre : S; cim : S }.
Definition z0 : cs := mkcs s0 s0.
Definition z1 : cs := mkcs s1 s0.
Definition zadd (x y : cs) := mkcs (nadd (cre x) (cre y)) (nadd (cim x) (cim y)).
Definition zsub (x y : cs) := mkcs (nsub (cre x) (cre y)) (nsub (cim x) (cim y)).
Definition zSadd (x : S) (y : cs) := mkcs (nadd x (cre y)) (cim y).
Definition zSsub (x : S) (y : cs) := mkcs (nsub x (cre y)) (sneg (cim y)).
Definition zneg (x : cs) := mkcs (sneg (cre x)) (sneg (cim x)).
Definition zmul (x y : cs) := mkcs (nsub (nmul (cre x) (cre y)) (nmul (cim x) (cim y))) (nadd (nmul (cre x) (cim y)) (nmul (cim x) (cre y))).
Definition zSmul (x : S) (y : cs) := mkcs (nmul x (cre y)) (nmul x (cim y)).
Definition zdiv (x y : cs) :=
  let t := nadd (nmul (cre y) (cre y)) (nmul (cim y) (cim y)) in
  mkcs (ndiv (nadd (nmul (cre y) (cre x)) (nmul (cim y) (cim x))) t) (ndiv (nsub (nmul (cre y) (cim x)) (nmul (cre x) (cim y))) t).
Definition zdivS (x : cs) (y : S) := mkcs (ndiv (cre x) y) (ndiv (cim x) y).
Definition zSdiv (x : S) (y : cs) :=
  let t := nadd (nmul (cre y) (cre y)) (nmul (cim y) (cim y)) in mkcs (ndiv (nmul (cre y) x) t) (ndiv (nmul (sneg x) (cim y)) t).
(* 286-290, 301-310 *)
Definition zabs (x : cs) : S := nsqrt P (nadd (lpow2 L (cre x)) (lpow2 L (cim x))).
Definition zsqrt (x : cs) : cs := let r := nsqrt P (zabs x) in let a := nmul (latan2 L (cim x) (cre x)) shalf in mkcs (nmul r (lcos L a)) (nmul r (lsin L a)).
Notation mC := (list (list cs)).
Notation "M .[ i , j ]" := (mget z0 M i j) (at level 1, i at level 200, j at level 200, format "M .[ i , j ]").
Definition sneqb (x y : S) : bool := negb (seqb x y).

(* 186-254; the pivot list p holds None where p(j) has not been written.  false: a singular matrix was reported (the callers ignore it) *)
Definition lu_row_scale (n : nat) (A : mC) (i : nat) : S := fold_left (fun big j => let t := zabs A.[i, j] in if slt big t then t else big) (seq 0 n) s0.
Definition zsumsub (A : mC) (i j c : nat) : cs := fold_left (fun s k => zsub s (zmul A.[i, k] A.[k, j])) (seq 0 c) A.[i, j].
Fixpoint lu_cols (todo n j : nat) (A : mC) (vv : list S) (p : list (option nat)) (imax : option nat) : res (mC * list (option nat)) :=
  match todo with
  | O => Ok (A, p)
  | Datatypes.S todo =>
    let A := fold_left (fun A i => mset z0 n n A i j (zsumsub A i j i)) (seq 0 j) A in
    let '(A, big, imax) := fold_left (fun st i => let '(A, big, imax) := st in
      let s := zsumsub A i j j in let t := nmul (nth i vv s0) (zabs s) in
      (mset z0 n n A i j s, if sle big t then t else big, if sle big t then Some i else imax)) (seq j (n - j)) (A, s0, imax) in
    match imax with
    | None => Err EUB
    | Some im =>
      let A := if Nat.eqb j im then A else mtab n n (fun i k => if Nat.eqb i im then A.[j, k] else if Nat.eqb i j then A.[im, k] else A.[i, k]) in
      let vv := if Nat.eqb j im then vv else map (fun i => if Nat.eqb i im then nth j vv s0 else nth i vv s0) (seq 0 n) in
      let p := map (fun i => if Nat.eqb i j then Some im else nth i p None) (seq 0 n) in
      if seqb (zabs A.[j, j]) s0 then Ok (A, p)
      else
        let dum := zSdiv s1 A.[j, j] in
        lu_cols todo n (j + 1) (mtab n n (fun i k => if (j <? i)%nat && Nat.eqb k j then zmul A.[i, j] dum else A.[i, k])) vv p imax
    end
  end.
Definition lu_factorize_comp (n : nat) (A : mC) : res (mC * list (option nat)) :=
  let big := map (lu_row_scale n A) (seq 0 n) in
  let p0 := map (fun _ => None) (seq 0 n) in
  if existsb (fun b => seqb b s0) big then Ok (A, p0) else lu_cols n n 0 A (map (fun b => ndiv s1 b) big) p0 None.
(* 256-285; ii stays 0 *)
Fixpoint lu_fwd (todo i : nat) (A : mC) (p : list (option nat)) (b : list cs) : res (list cs) :=
  match todo with
  | O => Ok b
  | Datatypes.S todo =>
    match nth i p None with
    | None => Err EUB
    | Some ip =>
      let sum := nth ip b z0 in
      let b := map (fun k => if Nat.eqb k ip then nth i b z0 else nth k b z0) (seq 0 (length b)) in
      let sum := fold_left (fun s j => zsub s (zmul A.[i, j] (nth j b z0))) (seq 0 i) sum in
      lu_fwd todo (i + 1) A p (map (fun k => if Nat.eqb k i then sum else nth k b z0) (seq 0 (length b)))
    end
  end.
Fixpoint lu_bwd (n i1 : nat) (A : mC) (b : list cs) : list cs :=
  match i1 with
  | O => b
  | Datatypes.S i =>
    let sum := fold_left (fun s j => zsub s (zmul A.[i, j] (nth j b z0))) (seq (i + 1) (n - (i + 1))) (nth i b z0) in
    lu_bwd n i A (map (fun k => if Nat.eqb k i then zdiv sum A.[i, i] else nth k b z0) (seq 0 (length b)))
  end.
Definition lu_substitute_comp (n : nat) (A : mC) (p : list (option nat)) (b : list cs) : res (list cs) := do b <- lu_fwd n 0 A p b; Ok (lu_bwd n n A b).

(* 304-334: the eigenvalues D(i,i); i counts from 1.  With n = 1 j has no value when A(j-1,i-1) is read. *)
Fixpoint eigvals (todo n i : nat) (A : mS) (D : list cs) : res (list cs) :=
  match todo with
  | O => Ok D
  | Datatypes.S todo =>
    if (n <? i)%nat then Ok D
    else if Nat.eqb n 1 then Err EUB
    else
      let j := if Nat.eqb i n then n else (i + 1)%nat in
      let put k v D := map (fun a => if Nat.eqb a k then v else nth a D z0) (seq 0 n) in
      if seqb A.(j - 1, i - 1) s0 || Nat.eqb i n then eigvals todo n (i + 1) A (put (i - 1)%nat (mkcs A.(i - 1, i - 1) s0) D)
      else
        let tra := nadd A.(i - 1, i - 1) A.(j - 1, j - 1) in
        let det := nsub (nmul A.(i - 1, i - 1) A.(j - 1, j - 1)) (nmul A.(i - 1, j - 1) A.(j - 1, i - 1)) in
        let tmp1 := zsqrt (mkcs (nsub (nmul tra tra) (nmul (sdy 4 0) det)) s0) in
        let am := zSmul shalf (zSadd tra tmp1) in
        let ap := zSmul shalf (zSsub tra tmp1) in
        let b := slt (ndiv (zabs (zSsub A.(i - 1, i - 1) am)) (zabs am)) s1 in
        eigvals todo n (i + 2) A (put (j - 1)%nat (if b then ap else am) (put (i - 1)%nat (if b then am else ap) D))
  end.

(* 345-413: the while loop for column i (from 1); returns X and flag *)
Definition xput (n : nat) (X : mC) (r c : nat) (v : cs) : mC := mset z0 n n X r c v.
Fixpoint eigvec (todo n i j : nat) (A : mS) (D : list cs) (X : mC) (flag : bool) : res (mC * bool) :=
  match todo with
  | O => Ok (X, flag)
  | Datatypes.S todo =>
    if Nat.eqb j 0 then Ok (X, flag)
    else
      let k := Nat.min n (j + 1) in
      let l := Nat.max 1 (j - 1) in
      let Di := nth (i - 1) D z0 in
      let conj := negb (seqb (cim (nth (j - 1) D z0)) (sneg (cim (nth (j - 1) D z0)))) in
      if Nat.eqb i j then
        if sneqb A.(k - 1, j - 1) s0 && negb (Nat.eqb k j) then
          let v := if slt (sabs A.(j - 1, j)) (zabs (zSsub A.(j, j) Di)) then zSdiv (sneg A.(j, j - 1)) (zSsub A.(j, j) Di)
                   else zdivS (zneg (zSsub A.(j - 1, j - 1) Di)) A.(j - 1, j) in
          eigvec todo n i (j - 1) A D (xput n X j (i - 1) v) (if conj then false else flag)
        else if sneqb A.(j - 1, l - 1) s0 && negb (Nat.eqb l j) then
          let v := if slt (sabs A.(j - 1, j - 2)) (zabs (zSsub A.(j - 2, j - 2) Di)) then zSdiv (sneg A.(j - 2, j - 1)) (zSsub A.(j - 2, j - 2) Di)
                   else zdivS (zneg (zSsub A.(j - 1, j - 1) Di)) A.(j - 1, j - 2) in
          eigvec todo n i (j - 2) A D (xput n X (j - 2) (i - 1) v) (if conj then false else flag)
        else eigvec todo n i (j - 1) A D X flag
      else
        let ks := seq (j + 1) (Nat.min (i + 1) n - j) in
        if sneqb A.(j - 1, l - 1) s0 && negb (Nat.eqb l j) then
          let b1 := fold_left (fun s k => zadd s (zSmul A.(j - 2, k - 1) X.[k - 1, i - 1])) ks z0 in
          let b2 := fold_left (fun s k => zadd s (zSmul A.(j - 1, k - 1) X.[k - 1, i - 1])) ks z0 in
          do f <- lu_factorize_comp 2 [[zSsub A.(j - 2, j - 2) Di; mkcs A.(j - 2, j - 1) s0]; [mkcs A.(j - 1, j - 2) s0; zSsub A.(j - 1, j - 1) Di]];
          do b <- lu_substitute_comp 2 (fst f) (snd f) [b1; b2];
          eigvec todo n i (j - 2) A D (xput n (xput n X (j - 2) (i - 1) (nth 0 b z0)) (j - 1) (i - 1) (nth 1 b z0)) flag
        else
          let x := fold_left (fun s k => zadd s (zSmul A.(j - 1, k - 1) X.[k - 1, i - 1])) ks X.[j - 1, i - 1] in
          let d := zsub (nth (j - 1) D z0) Di in
          let v := if seqb (cre d) s0 && seqb (cim d) s0 && seqb (cre x) s0 && seqb (cim x) s0 then z0 else zdiv (zneg x) d in
          eigvec todo n i (j - 1) A D (xput n X (j - 1) (i - 1) v) flag
  end.
(* 343-438 *)
Fixpoint eigvecs (todo n i : nat) (A : mS) (D : list cs) (X : mC) (flag : bool) : res mC :=
  match todo with
  | O => Ok X
  | Datatypes.S todo =>
    if flag then
      do r <- eigvec n n i i A D X flag;
      let X := fst r in
      let nrm := nsqrt P (fold_left (fun s k => nadd s (nmul (zabs X.[k, i - 1]) (zabs X.[k, i - 1]))) (seq 0 n) s0) in
      eigvecs todo n (i + 1) A D (mtab n n (fun k c => if Nat.eqb c (i - 1) then zdivS X.[k, c] nrm else X.[k, c])) (snd r)
    else eigvecs todo n (i + 1) A D (mtab n n (fun k c => if Nat.eqb c (i - 1) then mkcs (cre X.[k, i - 2]) (sneg (cim X.[k, i - 2])) else X.[k, c])) true
  end.
(* 287-444 *)
Definition eig2by2 (n : nat) (Q A : mS) : res (mC * list cs) :=
  do D <- eigvals n n 1 A (map (fun _ => z0) (seq 0 n));
  do X <- eigvecs n n 1 A D (mtab n n (fun i j => if Nat.eqb i j then z1 else z0)) true;
  Ok (mtab n n (fun i j => fold_left (fun s k => zadd s (zSmul Q.(i, k) X.[k, j])) (seq 0 n) z0), D).
(* 446-462 *)
Definition eig (fuel n : nat) (A : mS) : res (mC * list cs) :=
  let '(Q, H) := hess n A in do QH <- francisQR fuel n Q H n; eig2by2 n (fst QH) (snd QH).

(* 464-537 and 539-612.  C = prod(A,X) on complex<interval>; prodA x y is A(i,k)*X(k,j) *)
Variable invert : mS -> option mS.
Definition veig_X (V : mC) (i j : nat) : cx S := mkcx (ipt (cre V.[i, j])) (ipt (cim V.[i, j])).
Definition csum (n : nat) (f : nat -> cx S) : cx S := fold_left (fun s k => cadd s (f k)) (seq 0 n) (cofS s0).
Definition veig_BA (n : nat) (V : mC) (i j : nat) : iv S :=
  if (i <? n)%nat then (if (j <? n)%nat then re (veig_X V i j) else ineg (im (veig_X V i (j - n))))
  else (if (j <? n)%nat then im (veig_X V (i - n) j) else re (veig_X V (i - n) (j - n))).
Definition veig_BC (n : nat) (C : nat -> nat -> cx S) (i j : nat) : iv S := if (i <? n)%nat then re (C i j) else im (C (i - n)%nat j).
(* the result of vleq is ignored; G stays zero if it fails *)
Definition veig_G (n : nat) (V : mC) (C : nat -> nat -> cx S) : nat -> nat -> iv S :=
  let BA := veig_BA n V in
  let R := match invert (mtab (2 * n) (2 * n) (mmid BA)) with None => None | Some R => Some (mget s0 R) end in
  match vleq_mat (2 * n) BA (veig_BC n C) R with None => fun _ _ => i0 | Some G => G end.
(* 512-536 *)
Definition veig_row (n : nat) (G : nat -> nat -> iv S) (r i : nat) : iv S :=
  let d := ipt (mid (G r i)) in
  iadd d (fold_left (fun s j => iadd s (if Nat.eqb j i then isub (G r i) d else G r j)) (seq 0 n) i0).
Definition veig_out (n : nat) (G : nat -> nat -> iv S) : list (cx S) := map (fun i => mkcx (veig_row n G i i) (veig_row n G (i + n) i)) (seq 0 n).
Definition veig (fuel n : nat) (A : mS) : res (list (cx S)) :=
  do VD <- eig fuel n A;
  let V := fst VD in
  Ok (veig_out n (veig_G n V (fun i j => csum n (fun k => cSmul A.(i, k) (veig_X V k j))))).
Definition veigI (fuel n : nat) (A : list (list (iv S))) : res (list (cx S)) :=
  do VD <- eig fuel n (mtab n n (fun i j => mid (mget i0 A i j)));
  let V := fst VD in
  Ok (veig_out n (veig_G n V (fun i j => csum n (fun k => cImul (mget i0 A i k) (veig_X V k j))))).
End Eig.
