(* optimize.hpp applied to a function given as an expression: what f(I) and the autodif evaluation compute, and the
   hypotheses of OptProofs.v for it. *)
From Coq Require Import Reals Lra Lia ZArith Bool Arith List.
From Flocq Require Import Core BinarySingleNaN.
From Verif Require Import Ext Scalar IntervalModel IntervalSpec IntervalProofs IntervalEncl ElemModel ElemGen ElemExp ElemLog ElemTrig.
From Verif Require Import LinAlg RealRn VecModel VecProofs KrawProofs ADModel ADReal ADProofs ADOpen ADInst ADSys OptModel OptProofs.
From Verif Require Import Fp64 Backends.
Import ListNotations.
Open Scope R_scope.

Section OptExpr.
Context {S : scal} (P : elemp S).
Variables (fuel n : nat) (e : aexpr).
Notation B := (Ibase P fuel).
(* kv/optimize.hpp 95 f(I), 108 f(C), 150 f(C2) *)
Definition optI (X : nat -> iv S) : res (iv S) := peval (B := B) X e.
(* 109, 116: autodif::split(f(autodif::init(I)), fi, fdi) of kv/autodif.hpp 513-523; fdi.resize(s) fills with interval<T>() *)
Definition optD (X : nat -> iv S) : res (nat -> iv S) :=
  do r <- aeval (@ad_init B n X) e; Ok (force n (ad_row (B := B) r)).
End OptExpr.

Section OptExprOk.
Context {S : scal} (OK : scal_ok S) (P : elemp S) (LE : exp_laws S P) (LL : log_laws S P) (LT : trig_laws S P).
Variables (fuel n : nat) (e : aexpr).
Hypotheses (WF : awf n e) (CL : clog e).
Notation B := (Ibase P fuel).
Let BOK := Ibase_ok OK P LE LL LT fuel.

Lemma optI_ok X Y x : optI P fuel e X = Ok Y -> vin n X x -> adom e x -> isin Y (rval e x).
Proof using OK LE LL LT WF. intros H HX D. exact (peval_rel B (@isin S) BOK n X x e Y HX WF D H). Qed.
Lemma optD_dom X G x : optD P fuel n e X = Ok G -> vin n X x -> adom e x.
Proof using OK LE LL LT WF CL.
  intros H HX. apply bind_ok in H as (r & E & _). exact (proj1 (ad_value_gradient B (@isin S) BOK n X x e r HX WF CL E)).
Qed.
Lemma optD_grad X G x : optD P fuel n e X = Ok G -> vin n X x -> exists g, (forall i, (i < n)%nat -> isin (G i) (g i)) /\ grad n (rval e) x g.
Proof using OK LE LL LT WF CL.
  intros H HX. apply bind_ok in H as (r & E & H). rewrite force_ext in H. assert (Q : forall A (x y : A), Ok x = Ok y -> x = y) by congruence.
  apply Q in H. subst G.
  destruct (ad_value_gradient B (@isin S) BOK n X x e r HX WF CL E) as (_ & _ & G & HG & GR). eauto.
Qed.
Lemma optD_open X G x i s : optD P fuel n e X = Ok G -> vin n X x -> (i < n)%nat ->
  exists d, 0 < d /\ forall t, Rabs t < d -> adom e (along i s x t).
Proof using OK LE LL LT WF CL.
  intros H HX Hi. apply bind_ok in H as (r & E & _).
  apply (aeval_open B (@isin S) BOK n (@ad_init B n X) x (along i s x) (fun j => s * dlt i j) e r); auto.
  2: apply along_curve.
  intros j Hj. split; [|apply (init_inv B (@isin S) BOK n X x j Hj HX)].
  unfold ad_init. simpl. intros EQ. pose proof (unit_len B n j) as L. rewrite EQ in L. simpl in L. lia.
Qed.
End OptExprOk.

(* std::numeric_limits<double>::max() is the largest finite double *)
Lemma bscal_max b (a : bscal b) q r : sval a = XR q -> sval (@smax (bscal b)) = XR r -> q <= r.
Proof.
  destruct (bscal_ideal b) as (au & ad & su & sd & mu & md & du & dd & qu & qd & _ & E). revert a. rewrite E. clear E b.
  intros a. change (v64 a = XR q -> v64 bmax = XR r -> q <= r). rewrite bmax_v. intros H [= <-].
  apply v64_XR in H as [_ <-]. eapply Rle_trans; [apply Rle_abs|]. apply B2R_le_max.
Qed.
