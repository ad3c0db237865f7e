(* Straight-line programs over affine<T>: every value computed is kept in a new register.  The
   functions atan and abs are left out (they do not enclose, see PropsAff.v). *)
From Coq Require Import Reals ZArith Bool List Arith Permutation.
From Verif Require Import Ext Scalar IntervalModel IntervalSpec RealFun RealInv ElemModel ElemLog AffModel AffSpec.
Import ListNotations.

Inductive afn := Fsqrt | Fsquare | Fexp | Flog | Fsin | Fcos | Ftan | Fasin | Facos | Fsinh | Fcosh | Ftanh | Fasinh | Facosh | Fatanh.
Inductive instr (S : scal) :=
  | JIn (I : iv S)                       (* a new variable, independent of the others *)
  | JT (c : S)
  | JAdd (i j : nat) | JSub (i j : nat) | JMul (i j : nat) | JDiv (i j : nat)
  | JAddT (i : nat) (c : S) | JTAdd (c : S) (i : nat) | JSubT (i : nat) (c : S) | JTSub (c : S) (i : nat)
  | JMulT (i : nat) (c : S) | JTMul (c : S) (i : nat) | JDivT (i : nat) (c : S) | JTDiv (c : S) (i : nat)
  | JNeg (i : nat) | JPow (i : nat) (n : Z) | JFun (f : afn) (i : nat)
  | JReduce (perm : nat -> list (form S) -> list nat) (n nl : nat)     (* epsilon_reduce of all registers *)
  | JReduce2 (n : nat).                                                (* epsilon_reduce2 of all registers *)
Arguments JIn {S}. Arguments JT {S}. Arguments JAdd {S}. Arguments JSub {S}. Arguments JMul {S}. Arguments JDiv {S}.
Arguments JAddT {S}. Arguments JTAdd {S}. Arguments JSubT {S}. Arguments JTSub {S}. Arguments JMulT {S}. Arguments JTMul {S}.
Arguments JDivT {S}. Arguments JTDiv {S}. Arguments JNeg {S}. Arguments JPow {S}. Arguments JFun {S}. Arguments JReduce {S}. Arguments JReduce2 {S}.

Section Lang.
Context {S : scal} (P : elemp S) (nexp nlog : S -> S) (fuel : nat).
Notation form := (form S).

(* ---- the program run with affine forms ---- *)
Definition rg {A} (l : list A) (i : nat) : res A := match nth_error l i with Some a => Ok a | None => Err EUB end.
Definition afun (f : afn) (m : nat) (x : form) : res (nat * form) :=
  match f with
  | Fsqrt => asqrt P m x | Fsquare => asquare m x | Fexp => aexp P nexp fuel m x | Flog => alog P nlog fuel m x
  | Fsin => asin_ P fuel m x | Fcos => acos_ P fuel m x | Ftan => atan_ P fuel m x
  | Fasin => aasin P fuel m x | Facos => aacos P fuel m x
  | Fsinh => asinh_ P fuel m x | Fcosh => acosh_ P fuel m x | Ftanh => atanh_ P fuel m x
  | Fasinh => aasinh P fuel m x | Facosh => aacosh P fuel m x | Fatanh => aatanh P fuel m x
  end.
Definition st : Type := nat * list form.
Definition push (s : st) (r : nat * form) : st := (fst r, snd s ++ [snd r]).
Definition astep (i : instr S) (s : st) : res st :=
  let m := fst s in let l := snd s in
  match i with
  | JIn X => Ok (push s (of_iv m X))
  | JT c => Ok (push s (m, of_T c))
  | JAdd i j => do x <- rg l i; do y <- rg l j; Ok (push s (m, aadd x y))
  | JSub i j => do x <- rg l i; do y <- rg l j; Ok (push s (m, asub x y))
  | JMul i j => do x <- rg l i; do y <- rg l j; do r <- amul m x y; Ok (push s r)
  | JDiv i j => do x <- rg l i; do y <- rg l j; do r <- adiv m x y; Ok (push s r)
  | JAddT i c => do x <- rg l i; Ok (push s (m, aaddT x c))
  | JTAdd c i => do x <- rg l i; Ok (push s (m, aTadd c x))
  | JSubT i c => do x <- rg l i; Ok (push s (m, asubT x c))
  | JTSub c i => do x <- rg l i; Ok (push s (m, aTsub c x))
  | JMulT i c => do x <- rg l i; Ok (push s (m, amulT x c))
  | JTMul c i => do x <- rg l i; Ok (push s (m, aTmul c x))
  | JDivT i c => do x <- rg l i; Ok (push s (m, adivT x c))
  | JTDiv c i => do x <- rg l i; do r <- aTdiv m c x; Ok (push s r)
  | JNeg i => do x <- rg l i; Ok (push s (m, aneg x))
  | JPow i n => do x <- rg l i; do r <- apow m x n; Ok (push s r)
  | JFun f i => do x <- rg l i; do r <- afun f m x; Ok (push s r)
  | JReduce perm n nl => Ok (epsilon_reduce m (perm m l) n nl l)
  | JReduce2 n => Ok (epsilon_reduce2 n l)
  end.
Fixpoint arun (p : list (instr S)) (s : st) : res st :=
  match p with [] => Ok s | i :: p => do s <- astep i s; arun p s end.

(* nothing overflows: the forms have finite entries and finite ranges, scalars are finite, scalar divisors
   are not zero; epsilon_reduce2 keeps no more symbols than there are; the arrangement passed to
   epsilon_reduce is one *)
Definition isafe (i : instr S) (s : st) : Prop :=
  match i with
  | JT c | JAddT _ c | JTAdd c _ | JSubT _ c | JTSub c _ | JMulT _ c | JTMul c _ | JTDiv c _ => fin c
  | JDivT _ c => fin c /\ rv c <> 0%R
  | JPow i n => (n < 0)%Z -> forall x q, rg (snd s) i = Ok x -> apow (fst s) x (- n) = Ok q -> frange (snd q)
  | JReduce perm _ _ => Permutation (perm (fst s) (snd s)) (seq 1 (fst s))
  | _ => True
  end.
Fixpoint safe (p : list (instr S)) (s : st) : Prop :=
  match p with
  | [] => True
  | i :: p => isafe i s /\ forall s', astep i s = Ok s' -> Forall ffin (snd s') /\ Forall frange (snd s') /\ safe p s'
  end.

(* ---- the same program over the reals; inp gives the value of the k-th register if it is a variable ---- *)
Open Scope R_scope.
Definition rfn (f : afn) (x : R) : R :=
  match f with
  | Fsqrt => sqrt x | Fsquare => x * x | Fexp => exp x | Flog => ln x | Fsin => sin x | Fcos => cos x | Ftan => tan x
  | Fasin => asin x | Facos => acos x | Fsinh => sinh x | Fcosh => cosh x | Ftanh => tanh x
  | Fasinh => rasinh x | Facosh => racosh x | Fatanh => ratanh x
  end.
Definition rfdom (f : afn) (x : R) : Prop :=
  match f with
  | Fsqrt => 0 <= x | Flog => 0 < x | Ftan => cos x <> 0 | Fasin | Facos => -1 <= x <= 1
  | Facosh => 1 <= x | Fatanh => -1 < x < 1 | _ => True
  end.
Variable inp : nat -> R.
Definition rval (i : instr S) (v : list R) : R :=
  match i with
  | JIn _ => inp (length v)
  | JT c => rv c
  | JAdd i j => nth i v 0 + nth j v 0 | JSub i j => nth i v 0 - nth j v 0
  | JMul i j => nth i v 0 * nth j v 0 | JDiv i j => nth i v 0 / nth j v 0
  | JAddT i c => nth i v 0 + rv c | JTAdd c i => rv c + nth i v 0
  | JSubT i c => nth i v 0 - rv c | JTSub c i => rv c - nth i v 0
  | JMulT i c => nth i v 0 * rv c | JTMul c i => rv c * nth i v 0
  | JDivT i c => nth i v 0 / rv c | JTDiv c i => rv c / nth i v 0
  | JNeg i => - nth i v 0 | JPow i n => powerRZ (nth i v 0) n | JFun f i => rfn f (nth i v 0)
  | JReduce _ _ _ | JReduce2 _ => 0
  end.
Definition rstep (i : instr S) (v : list R) : list R :=
  match i with JReduce _ _ _ | JReduce2 _ => v | _ => v ++ [rval i v] end.
Fixpoint rrun (p : list (instr S)) (v : list R) : list R :=
  match p with [] => v | i :: p => rrun p (rstep i v) end.
(* the value of every variable lies in its interval *)
Fixpoint inputs (p : list (instr S)) (v : list R) : Prop :=
  match p with
  | [] => True
  | i :: p => match i with JIn X => isin X (inp (length v)) | _ => True end /\ inputs p (rstep i v)
  end.
(* every operation of the real program is defined *)
Definition rdom (i : instr S) (v : list R) : Prop :=
  match i with
  | JDiv _ j => nth j v 0 <> 0 | JTDiv _ j => nth j v 0 <> 0
  | JPow i n => (n < 0)%Z -> nth i v 0 <> 0 | JFun f i => rfdom f (nth i v 0)
  | _ => True
  end.
Fixpoint rdefined (p : list (instr S)) (v : list R) : Prop :=
  match p with [] => True | i :: p => rdom i v /\ rdefined p (rstep i v) end.
End Lang.
