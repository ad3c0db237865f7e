(* Expressions with elementary functions: enclosure at every point where the real expression is
   defined. *)
From Coq Require Import Reals Lra Lia ZArith Bool.
From Flocq Require Import Core.
From Verif Require Import Ext Scalar IntervalModel IntervalSpec IntervalProofs IntervalEncl IntervalSets
  IntervalDivPow IntervalMore Expr.
From Verif Require Import ElemModel RealFun RealConst RealInv ElemGen ElemExp ElemLog ElemTrig ElemAtan2 ElemConst ElemMore.
Open Scope R_scope.

Section EnclAll.
Context {F : Type} {S : scal} (OK : scal_ok S).
Variable fi : F -> iv S -> res (iv S).
Variable fr : F -> R -> R -> Prop.
Hypothesis fi_encl : forall f X Q x y, fi f X = Ok Q -> isin X x -> fr f x y -> isin Q y.
Lemma ieval_all envI env (e : expr F) v : (forall n, isin (envI n) (env n)) -> eev fr env e v ->
  cst_ok e -> forall Q, ieval fi envI e = Ok Q -> isin Q v.
Proof.
  intros HE EV. induction EV; simpl; intros C Q HH.
  - injection HH as <-. auto.
  - injection HH as <-. destruct (ok_dy _ OK m x) as [W E]; try tauto. apply isin_pt; auto.
  - destruct C as [C1 C2]. apply bind_ok in HH as (X & HX & HH). apply bind_ok in HH as (Y & HY & HH). injection HH as <-.
    apply (isin_add OK); auto.
  - destruct C as [C1 C2]. apply bind_ok in HH as (X & HX & HH). apply bind_ok in HH as (Y & HY & HH). injection HH as <-.
    apply (isin_sub OK); auto.
  - destruct C as [C1 C2]. apply bind_ok in HH as (X & HX & HH). apply bind_ok in HH as (Y & HY & HH). injection HH as <-.
    apply (isin_mul OK); auto.
  - destruct C as [C1 C2]. apply bind_ok in HH as (X & HX & HH). apply bind_ok in HH as (Y & HY & HH).
    apply (isin_div OK X Y Q x y HH); auto.
  - apply bind_ok in HH as (X & HX & HH). injection HH as <-. apply (isin_neg OK); auto.
  - apply bind_ok in HH as (X & HX & HH). apply (isin_sqrt OK X Q x HH); auto.
  - apply bind_ok in HH as (X & HX & HH). apply (ipow_encl OK X n Q x HH); auto.
  - apply bind_ok in HH as (X & HX & HH). injection HH as <-. specialize (IHEV C X HX).
    apply (isin_abs OK); [eapply isin_valid; eauto|eauto].
  - destruct C as [C1 C2]. apply bind_ok in HH as (X & HX & HH). apply bind_ok in HH as (Y & HY & HH). injection HH as <-.
    specialize (IHEV1 C1 X HX). specialize (IHEV2 C2 Y HY).
    apply (isin_max OK); try (eapply isin_valid; eauto). eauto.
  - destruct C as [C1 C2]. apply bind_ok in HH as (X & HX & HH). apply bind_ok in HH as (Y & HY & HH). injection HH as <-.
    specialize (IHEV1 C1 X HX). specialize (IHEV2 C2 Y HY).
    apply (isin_min OK); try (eapply isin_valid; eauto). eauto.
  - apply bind_ok in HH as (X & HX & HH). eapply fi_encl; eauto.
Qed.
End EnclAll.

(* the elementary functions of interval.hpp *)
Inductive ufun := Fexp | Fexpm1 | Flog | Flog1p | Fsin | Fcos | Ftan | Fatan | Fasin | Facos
  | Fsinh | Fcosh | Ftanh | Fasinh | Facosh | Fatanh.
Definition ufun_i {S : scal} (P : elemp S) (fuel : nat) (f : ufun) : iv S -> res (iv S) :=
  match f with
  | Fexp => iexp S P fuel | Fexpm1 => iexpm1 S P fuel | Flog => ilog S P fuel | Flog1p => ilog1p S P fuel
  | Fsin => isin_ S P fuel | Fcos => icos S P fuel | Ftan => itan S P fuel
  | Fatan => iatan S P fuel | Fasin => iasin S P fuel | Facos => iacos S P fuel
  | Fsinh => isinh S P fuel | Fcosh => icosh S P fuel | Ftanh => itanh S P fuel
  | Fasinh => iasinh S P fuel | Facosh => iacosh S P fuel | Fatanh => iatanh S P fuel
  end.
(* y is the value at x; the inverse functions are described by the functions they invert *)
Definition ufun_r (f : ufun) (x y : R) : Prop :=
  match f with
  | Fexp => y = exp x | Fexpm1 => y = exp x - 1 | Flog => x = exp y | Flog1p => 1 + x = exp y
  | Fsin => y = sin x | Fcos => y = cos x | Ftan => cos x <> 0 /\ y = sin x / cos x
  | Fatan => - (PI / 2) < y < PI / 2 /\ x = tan y
  | Fasin => - (PI / 2) <= y <= PI / 2 /\ x = sin y
  | Facos => 0 <= y <= PI /\ x = cos y
  | Fsinh => y = (exp x - exp (- x)) / 2 | Fcosh => y = (exp x + exp (- x)) / 2
  | Ftanh => y = (exp x - exp (- x)) / (exp x + exp (- x))
  | Fasinh => x = sinh y | Facosh => 0 <= y /\ x = cosh y | Fatanh => x = tanh y
  end.
Section UEncl.
Context {S : scal} (OK : scal_ok S) (P : elemp S) (LE : exp_laws S P) (LL : log_laws S P) (LT : trig_laws S P).
Lemma ufun_encl fuel f X Q x y : ufun_i P fuel f X = Ok Q -> isin X x -> ufun_r f x y -> isin Q y.
Proof.
  destruct f; cbn [ufun_i ufun_r]; intros H HX HR.
  - subst y. eapply (iexp_encl OK P LE); eauto.
  - subst y. eapply (iexpm1_encl OK P LE); eauto.
  - rewrite <- (ln_exp y), <- HR. eapply (ilog_encl OK P LL); eauto. rewrite HR. apply exp_pos.
  - rewrite <- (ln_exp y), <- HR. eapply (ilog1p_encl OK P LL); eauto. pose proof (exp_pos y). lra.
  - subst y. eapply (sin_encl OK P LT); eauto.
  - subst y. eapply (cos_encl OK P LT); eauto.
  - destruct HR as [_ ->]. eapply (tan_encl OK P LT); eauto.
  - destruct HR as [HR ->]. rewrite <- (atan_tan y) by lra. eapply (iatan_encl OK P LT); eauto.
  - destruct HR as [HR ->]. rewrite <- (asin_sin y) by lra. eapply (iasin_encl OK P LT); eauto.
  - destruct HR as [HR ->]. rewrite <- (acos_cos y) by lra. eapply (iacos_encl OK P LT); eauto.
  - subst y. eapply (isinh_encl OK P LE); eauto.
  - subst y. eapply (icosh_encl OK P LE); eauto.
  - subst y. replace ((exp x - exp (- x)) / (exp x + exp (- x))) with (tanh x). eapply (itanh_encl OK P LE); eauto.
    unfold tanh, sinh, cosh. pose proof (exp_pos x). pose proof (exp_pos (- x)). field. lra.
  - subst x. rewrite <- (rasinh_sinh y). eapply (iasinh_encl OK P LL); eauto.
  - destruct HR as [HR ->]. rewrite (acosh_ln y HR). eapply (iacosh_encl OK P LL); eauto.
  - subst x. pose proof (iatanh_encl OK P LL _ _ _ _ H HX (tanh_bound y)) as K. unfold ratanh in K. rewrite <- atanh_ln in K. exact K.
Qed.
End UEncl.
