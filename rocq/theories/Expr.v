(* Expressions over interval operations: the code a user writes with kv::interval<T> is a
   composition of the operations below.  `ieval` runs it with the interval model; `eev` is its
   real meaning (a relation, undefined outside the natural domain).  Unary elementary functions
   are a parameter; they are instantiated in Elem*.v. *)
From Coq Require Import Reals Lra Lia ZArith Bool.
From Flocq Require Import Core.
From Verif Require Import Ext Scalar IntervalModel IntervalSpec IntervalProofs IntervalEncl IntervalSets
  IntervalDivPow IntervalMore IntervalParam Fp64 RDoubleHw.
Open Scope R_scope.

Section Expr.
Variable F : Type.
Inductive expr :=
| EVar (n : nat) | ECst (m e : Z)
| EAdd (a b : expr) | ESub (a b : expr) | EMul (a b : expr) | EDiv (a b : expr)
| ENeg (a : expr) | ESqrt (a : expr) | EPow (a : expr) (n : Z)
| EAbs (a : expr) | EMax (a b : expr) | EMin (a b : expr)
| EFun (f : F) (a : expr).

(* literals m*2^e that the scalar type represents exactly *)
Fixpoint cst_ok (e : expr) : Prop :=
  match e with
  | EVar _ => True
  | ECst m x => (Z.abs m <= 2 ^ 53)%Z /\ (-900 <= x <= 900)%Z
  | EAdd a b | ESub a b | EMul a b | EDiv a b | EMax a b | EMin a b => cst_ok a /\ cst_ok b
  | ENeg a | ESqrt a | EPow a _ | EAbs a | EFun _ a => cst_ok a
  end.

Section Ieval.
Context {S : scal}.
Variable fi : F -> iv S -> res (iv S).
Variable env : nat -> iv S.
Fixpoint ieval (e : expr) : res (iv S) :=
  match e with
  | EVar n => Ok (env n)
  | ECst m x => Ok (ipt (sdy m x))
  | EAdd a b => do x <- ieval a; do y <- ieval b; Ok (iadd x y)
  | ESub a b => do x <- ieval a; do y <- ieval b; Ok (isub x y)
  | EMul a b => do x <- ieval a; do y <- ieval b; Ok (imul x y)
  | EDiv a b => do x <- ieval a; do y <- ieval b; idiv x y
  | ENeg a => do x <- ieval a; Ok (ineg x)
  | ESqrt a => do x <- ieval a; isqrt x
  | EPow a n => do x <- ieval a; ipow x n
  | EAbs a => do x <- ieval a; Ok (iabs x)
  | EMax a b => do x <- ieval a; do y <- ieval b; Ok (imax x y)
  | EMin a b => do x <- ieval a; do y <- ieval b; Ok (imin x y)
  | EFun f a => do x <- ieval a; fi f x
  end.
End Ieval.

(* fr f x y: the function f is defined at x with value y *)
Section Reval.
Variable fr : F -> R -> R -> Prop.
Variable env : nat -> R.
Inductive eev : expr -> R -> Prop :=
| ev_var n : eev (EVar n) (env n)
| ev_cst m x : eev (ECst m x) (IZR m * bpow radix2 x)
| ev_add a b x y : eev a x -> eev b y -> eev (EAdd a b) (x + y)
| ev_sub a b x y : eev a x -> eev b y -> eev (ESub a b) (x - y)
| ev_mul a b x y : eev a x -> eev b y -> eev (EMul a b) (x * y)
| ev_div a b x y : eev a x -> eev b y -> y <> 0 -> eev (EDiv a b) (x / y)
| ev_neg a x : eev a x -> eev (ENeg a) (- x)
| ev_sqrt a x : eev a x -> 0 <= x -> eev (ESqrt a) (sqrt x)
| ev_pow a x n : eev a x -> ((n < 0)%Z -> x <> 0) -> eev (EPow a n) (powerRZ x n)
| ev_abs a x : eev a x -> eev (EAbs a) (Rabs x)
| ev_max a b x y : eev a x -> eev b y -> eev (EMax a b) (Rmax x y)
| ev_min a b x y : eev a x -> eev b y -> eev (EMin a b) (Rmin x y)
| ev_fun f a x y : eev a x -> fr f x y -> eev (EFun f a) y.
End Reval.

Section Encl.
Context {S : scal} (OK : scal_ok S).
Variable fi : F -> iv S -> res (iv S).
Variable fr : F -> R -> R -> Prop.
Hypothesis fi_encl : forall f X Q x, fi f X = Ok Q -> isin X x -> exists y, fr f x y /\ isin Q y.
Lemma ieval_encl envI env e Q : (forall n, isin (envI n) (env n)) -> cst_ok e ->
  ieval fi envI e = Ok Q -> exists v, eev fr env e v /\ isin Q v.
Proof.
  intros HE. revert Q. induction e; simpl; intros Q C H.
  - injection H as <-. eexists; split; [constructor|auto].
  - injection H as <-. destruct (ok_dy _ OK m e) as [W E]; try tauto.
    eexists; split; [constructor|]. apply isin_pt; auto.
  - destruct C as [C1 C2]. apply bind_ok in H as (X & HX & H). apply bind_ok in H as (Y & HY & H). injection H as <-.
    destruct (IHe1 X C1 HX) as (x & Ex & Ix), (IHe2 Y C2 HY) as (y & Ey & Iy).
    eexists; split; [constructor; eauto|apply (isin_add OK); auto].
  - destruct C as [C1 C2]. apply bind_ok in H as (X & HX & H). apply bind_ok in H as (Y & HY & H). injection H as <-.
    destruct (IHe1 X C1 HX) as (x & Ex & Ix), (IHe2 Y C2 HY) as (y & Ey & Iy).
    eexists; split; [constructor; eauto|apply (isin_sub OK); auto].
  - destruct C as [C1 C2]. apply bind_ok in H as (X & HX & H). apply bind_ok in H as (Y & HY & H). injection H as <-.
    destruct (IHe1 X C1 HX) as (x & Ex & Ix), (IHe2 Y C2 HY) as (y & Ey & Iy).
    eexists; split; [constructor; eauto|apply (isin_mul OK); auto].
  - destruct C as [C1 C2]. apply bind_ok in H as (X & HX & H). apply bind_ok in H as (Y & HY & H).
    destruct (IHe1 X C1 HX) as (x & Ex & Ix), (IHe2 Y C2 HY) as (y & Ey & Iy).
    destruct (isin_div OK X Y Q x y H Ix Iy) as [N I].
    exists (x / y); split; [constructor; eauto|auto].
  - apply bind_ok in H as (X & HX & H). injection H as <-. destruct (IHe X C HX) as (x & Ex & Ix).
    eexists; split; [constructor; eauto|apply (isin_neg OK); auto].
  - apply bind_ok in H as (X & HX & H). destruct (IHe X C HX) as (x & Ex & Ix).
    destruct (isin_sqrt OK X Q x H Ix). exists (sqrt x); split; [constructor; auto|auto].
  - apply bind_ok in H as (X & HX & H). destruct (IHe X C HX) as (x & Ex & Ix).
    destruct (ipow_encl OK X n Q x H Ix). exists (powerRZ x n); split; [constructor; auto|auto].
  - apply bind_ok in H as (X & HX & H). injection H as <-. destruct (IHe X C HX) as (x & Ex & Ix).
    exists (Rabs x); split; [constructor; auto|]. apply (isin_abs OK); [eapply isin_valid; eauto|eauto].
  - destruct C as [C1 C2]. apply bind_ok in H as (X & HX & H). apply bind_ok in H as (Y & HY & H). injection H as <-.
    destruct (IHe1 X C1 HX) as (x & Ex & Ix), (IHe2 Y C2 HY) as (y & Ey & Iy).
    exists (Rmax x y); split; [constructor; auto|]. apply (isin_max OK); try (eapply isin_valid; eauto). eauto.
  - destruct C as [C1 C2]. apply bind_ok in H as (X & HX & H). apply bind_ok in H as (Y & HY & H). injection H as <-.
    destruct (IHe1 X C1 HX) as (x & Ex & Ix), (IHe2 Y C2 HY) as (y & Ey & Iy).
    exists (Rmin x y); split; [constructor; auto|]. apply (isin_min OK); try (eapply isin_valid; eauto). eauto.
  - apply bind_ok in H as (X & HX & H). destruct (IHe X C HX) as (x & Ex & Ix).
    destruct (fi_encl f X Q x H Ix) as (y & Fy & Iy). exists y; split; [econstructor; eauto|auto].
Qed.
Lemma ieval_valid envI e Q : (forall n, ivalid (envI n)) -> cst_ok e -> ieval fi envI e = Ok Q -> ivalid Q.
Proof.
  intros HE C H.
  revert Q C H. induction e; simpl; intros Q C H.
  - injection H as <-. auto.
  - injection H as <-. destruct (ok_dy _ OK m e) as [W E]; try tauto. eapply isin_valid, isin_pt; eauto.
  - destruct C as [C1 C2]. apply bind_ok in H as (X & HX & H). apply bind_ok in H as (Y & HY & H). injection H as <-.
    apply (valid_add OK); auto.
  - destruct C as [C1 C2]. apply bind_ok in H as (X & HX & H). apply bind_ok in H as (Y & HY & H). injection H as <-.
    apply (valid_sub OK); auto.
  - destruct C as [C1 C2]. apply bind_ok in H as (X & HX & H). apply bind_ok in H as (Y & HY & H). injection H as <-.
    apply (valid_mul OK); auto.
  - destruct C as [C1 C2]. apply bind_ok in H as (X & HX & H). apply bind_ok in H as (Y & HY & H).
    eapply (valid_div OK X Y); eauto.
  - apply bind_ok in H as (X & HX & H). injection H as <-. apply (valid_neg OK); auto.
  - apply bind_ok in H as (X & HX & H). eapply (valid_sqrt OK X); eauto.
  - apply bind_ok in H as (X & HX & H). eapply (valid_pow OK X); eauto.
  - apply bind_ok in H as (X & HX & H). injection H as <-. apply (valid_abs OK); auto.
  - destruct C as [C1 C2]. apply bind_ok in H as (X & HX & H). apply bind_ok in H as (Y & HY & H). injection H as <-.
    apply (valid_max OK); auto.
  - destruct C as [C1 C2]. apply bind_ok in H as (X & HX & H). apply bind_ok in H as (Y & HY & H). injection H as <-.
    apply (valid_min OK); auto.
  - apply bind_ok in H as (X & HX & H). destruct (valid_isin X (IHe X C HX)) as [x Ix].
    destruct (fi_encl f X Q x H Ix) as (y & Fy & Iy). eapply isin_valid; eauto.
Qed.
End Encl.

(* Two scalar types related by R give related results. *)
Section Rel.
Variables A B : scal.
Variable R : A -> B -> Prop.
Variable P : srel A B R.
Variable OK : scal_ok A.
Variable fa : F -> iv A -> res (iv A).
Variable fb : F -> iv B -> res (iv B).
Variable fr : F -> Rdefinitions.R -> Rdefinitions.R -> Prop.
Hypothesis fa_encl : forall f X Q x, fa f X = Ok Q -> isin X x -> exists y, fr f x y /\ isin Q y.
Hypothesis fab : forall f X X', ivalid X -> RI A B R X X' -> Rres (RI A B R) (fa f X) (fb f X').
Lemma rres_bind {T T' U U' : Type} (Q : T -> T' -> Prop) (Q' : U -> U' -> Prop) x x' f f' :
  Rres Q x x' -> (forall a a', x = Ok a -> Q a a' -> Rres Q' (f a) (f' a')) -> Rres Q' (bind x f) (bind x' f').
Proof. destruct x, x'; simpl; intros; auto; contradiction. Qed.
Lemma ieval_rel ea eb e : (forall n, ivalid (ea n)) -> (forall n, RI A B R (ea n) (eb n)) -> cst_ok e ->
  Rres (RI A B R) (ieval fa ea e) (ieval fb eb e).
Proof.
  intros V HE.
  assert (VV : forall e Q, cst_ok e -> ieval fa ea e = Ok Q -> ivalid Q)
    by (intros; eapply (ieval_valid OK fa fr fa_encl ea); eauto).
  induction e; simpl; intros C.
  - apply HE.
  - apply p_ipt; auto. apply P.
  - destruct C as [C1 C2]. eapply rres_bind; [apply IHe1; auto|intros X X' EX HX].
    eapply rres_bind; [apply IHe2; auto|intros Y Y' EY HY]. apply p_add; auto.
  - destruct C as [C1 C2]. eapply rres_bind; [apply IHe1; auto|intros X X' EX HX].
    eapply rres_bind; [apply IHe2; auto|intros Y Y' EY HY]. apply p_sub; auto.
  - destruct C as [C1 C2]. eapply rres_bind; [apply IHe1; auto|intros X X' EX HX].
    eapply rres_bind; [apply IHe2; auto|intros Y Y' EY HY]. apply p_mul; auto.
  - destruct C as [C1 C2]. eapply rres_bind; [apply IHe1; auto|intros X X' EX HX].
    eapply rres_bind; [apply IHe2; auto|intros Y Y' EY HY]. apply p_div; eauto.
  - eapply rres_bind; [apply IHe; auto|intros X X' EX HX]. apply p_neg; auto.
  - eapply rres_bind; [apply IHe; auto|intros X X' EX HX]. apply p_sqrt; auto.
  - eapply rres_bind; [apply IHe; auto|intros X X' EX HX]. apply p_pow; eauto.
  - eapply rres_bind; [apply IHe; auto|intros X X' EX HX]. apply p_abs; auto.
  - destruct C as [C1 C2]. eapply rres_bind; [apply IHe1; auto|intros X X' EX HX].
    eapply rres_bind; [apply IHe2; auto|intros Y Y' EY HY]. apply p_max; auto.
  - destruct C as [C1 C2]. eapply rres_bind; [apply IHe1; auto|intros X X' EX HX].
    eapply rres_bind; [apply IHe2; auto|intros Y Y' EY HY]. apply p_min; auto.
  - eapply rres_bind; [apply IHe; auto|intros X X' EX HX]. apply fab; eauto.
Qed.
End Rel.
End Expr.
Arguments EVar {F}. Arguments ECst {F}. Arguments EAdd {F}. Arguments ESub {F}. Arguments EMul {F}. Arguments EDiv {F}.
Arguments ENeg {F}. Arguments ESqrt {F}. Arguments EPow {F}. Arguments EAbs {F}. Arguments EMax {F}. Arguments EMin {F}.
Arguments EFun {F}. Arguments cst_ok {F}. Arguments ieval {F S}. Arguments eev {F}.
