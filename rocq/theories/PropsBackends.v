(* Property theorems: C06 with the elementary functions.  Two back ends started on equal boxes return
   equal endpoints, or fail in the same way. *)
From Coq Require Import Reals Lra Lia ZArith Bool.
From Flocq Require Import Core BinarySingleNaN.
From Verif Require Import Fp64 RDoubleHw NohwModel NohwDiv Ext Scalar IntervalModel IntervalSpec IntervalProofs IntervalEncl IntervalSets
  IntervalDivPow IntervalMore IntervalParam Expr Backends Ex64.
From Verif Require Import ElemModel ElemExp ElemLog ElemTrig Elem64 ExprFun ElemParam PropsRounding PropsElem.
Open Scope R_scope.

Lemma bpar_rel a b : exists R : bscal a -> bscal b -> Prop, srel (bscal a) (bscal b) R /\ erel (bscal a) (bscal b) R (bpar a) (bpar b) /\
  forall x y, R x y <-> sval x = sval y.
Proof.
  destruct a as [| |f], b as [| |f'];
    (exists vrel; split; [apply srel64|split; [apply erel64|intros; reflexivity]]);
    first [apply ideal_hw|apply ideal_avx|apply ideal_nohw].
Qed.
Lemma bwf b (x : bscal b) : swf x. Proof. destruct b; exact Logic.I. Qed.
Lemma same_of {a b} (R : bscal a -> bscal b -> Prop) x y : (forall x y, R x y <-> sval x = sval y) ->
  Rres (RI (bscal a) (bscal b) R) x y -> same_res x y.
Proof. intros HR. unfold same_res. destruct x, y; simpl; auto. intros [H1 H2]. split; apply HR; auto. Qed.

(* exp, expm1, log, log1p, sin, cos, tan, atan, asin, acos, sinh, cosh, tanh, asinh, acosh, atanh *)
Theorem C06_elementary : forall (a b : backend) fuel (f : ufun) (X : iv (bscal a)) (X' : iv (bscal b)),
  ivalid X -> same_iv X X' -> same_res (ufun_i (bpar a) fuel f X) (ufun_i (bpar b) fuel f X').
Proof.
  intros a b fuel f X X' V [S1 S2]. destruct (bpar_rel a b) as (R & P & E & HR). apply (same_of R); auto.
  apply (ufun_rel _ _ _ P (bscal_ok a) _ _ E (bwf a) (bexp a) (blog a) (btrig a)); auto. split; apply HR; auto.
Qed.
(* pow and atan2 of two intervals, with no condition on the operands *)
Theorem C06_pow_atan2 : forall (a b : backend) fuel (X Y : iv (bscal a)) (X' Y' : iv (bscal b)),
  same_iv X X' -> same_iv Y Y' ->
  same_res (ipowI _ (bpar a) fuel X Y) (ipowI _ (bpar b) fuel X' Y') /\
  same_res (iatan2 _ (bpar a) fuel Y X) (iatan2 _ (bpar b) fuel Y' X').
Proof.
  intros a b fuel X Y X' Y' [S1 S2] [S3 S4]. destruct (bpar_rel a b) as (R & P & E & HR).
  assert (HX : RI (bscal a) (bscal b) R X X') by (split; apply HR; auto). assert (HY : RI (bscal a) (bscal b) R Y Y') by (split; apply HR; auto).
  split; apply (same_of R); auto.
  - apply (e_powI _ _ _ P (bscal_ok a) _ _ E (bwf a) (bexp a)); auto.
  - apply (e_iatan2 _ _ _ P (bscal_ok a) _ _ E (bwf a) (btrig a)); auto.
Qed.
(* every expression *)
Theorem C06_expressions : forall (a b : backend) fuel (e : expr ufun) (ea : nat -> iv (bscal a)) (eb : nat -> iv (bscal b)),
  (forall n, ivalid (ea n)) -> (forall n, same_iv (ea n) (eb n)) -> cst_ok e ->
  same_res (ieval (ufun_i (bpar a) fuel) ea e) (ieval (ufun_i (bpar b) fuel) eb e).
Proof.
  intros a b fuel e ea eb V HE C. destruct (bpar_rel a b) as (R & P & E & HR). apply (same_of R); auto.
  apply (expr_rel _ _ _ P (bscal_ok a) _ _ E (bwf a) (bexp a) (blog a) (btrig a)); auto.
  intros n. destruct (HE n). split; apply HR; auto.
Qed.
Definition backends_all := (C06_elementary, C06_pow_atan2, C06_expressions).
Print Assumptions backends_all.

(* the hypotheses hold for the expression log(x*y+1) - exp(sqrt y) of C20 on [1/4, 1], and both runs return *)
Example C06_ex2 : ivalid (qiv 1 (-2) 1 0) /\ @same_iv D_hw (D_nohw true) (qiv 1 (-2) 1 0) (@mkiv (D_nohw true) (bdy 1 (-2)) (bdy 1 0)) /\ cst_ok C20_e /\
  returns (ieval (ufun_i (bpar BHw) 60) (fun _ => qiv 1 (-2) 1 0) C20_e) = true /\
  returns (ieval (ufun_i (bpar (BNohw true)) 60) (fun _ => @mkiv (D_nohw true) (bdy 1 (-2)) (bdy 1 0)) C20_e) = true.
Proof.
  split; [qval (/ 2)|]. split; [split; reflexivity|]. split; [unfold C20_e; cbn [cst_ok]; repeat split; lia|].
  split; vm_compute; reflexivity.
Qed.
