(* Property theorems: defint_autostep on function objects with data members (C96) and besselj for integer orders (C97), for every double
   back end and both values of DEFINT_FAST. *)
From Coq Require Import Reals ZArith Bool List Lra Lia Psatz Arith.
From Coquelicot Require Import Coquelicot.
From Flocq Require Import Core BinarySingleNaN.
From Verif Require Import Fp64 RDoubleHw.
From Verif Require Import Ext Scalar IntervalModel IntervalSpec IntervalProofs IntervalEncl IntervalSets Backends Ex64 ElemModel PropsElem.
From Verif Require Import RealFun ADModel ADReal ADProofs ADInst PsaModel PsaReal PsaProofs PsaExpr PsaUseProofs PsaInst PsaHist PsaHistProofs PropsPsa PsaInt.
From Verif Require Import OdeModel OdeProofs OdeIndep PropsPsaHist DefintAuto DefintAutoProofs PropsDefint BesselModel.
Import List ListNotations.
Open Scope R_scope.

(* ---- C96 ---- *)
(* the function of s: the variable 0 is s, the variable j + 1 is the j-th parameter *)
Definition with_params (ys : list R) (s : R) (i : nat) : R := match i with O => s | S j => nth j ys s end.
(* log and pow of something that does not depend on s: the argument is to be positive *)
Definition const_logs (ys : list R) (e : aexpr) : Prop := plogv (fun i => match i with O => false | S _ => true end) (with_params ys 0) e.
Theorem C96_encloses : forall b fuel root e (cs : list (iv (bscal b))) ys g fast (start end_ : iv (bscal b)) order eps st v l st' a c,
  (1 <= order < 2 ^ 52)%Z -> Forall2 isin cs ys -> awf (S (length cs)) e -> const_logs ys e -> noarc e = true -> isin start a -> isin end_ c ->
  defint_autostep_par (bpar b) fuel root e cs g fast start end_ order eps st = (Ok (v, l), st') ->
  (forall t t1 step, In (t, t1, step) l -> exists x, isin t1 x) ->
  (forall y, a <= y <= c \/ c <= y <= a -> adom e (with_params ys y)) /\
  exists I, is_RInt (fun y => rval e (with_params ys y)) a c I /\ isin v I.
Proof.
  intros b fuel root e cs ys g fast start end_ order eps st v l st' a c [O1 O2] F W P NA Ha Hc E HL.
  apply (autostep_par_ok b fuel root e cs ys g fast start end_ order eps st v l st' a c F W P NA O1 O2 E); auto. intros [[t t1] step] Hp. exact (HL t t1 step Hp).
Qed.

(* ---- C97 ---- *)
(* J_n(x) by Bessel's integral *)
Definition is_besselj (n : Z) (x J : R) : Prop := exists I, is_RInt (fun s => cos (x * sin s - IZR n * s)) 0 PI I /\ J = I / PI.
Theorem C97_besselj : forall b fuel root g fast n (x v : iv (bscal b)) st l st' y, (Z.abs n <= 2 ^ 31)%Z -> isin x y ->
  besselj (bpar b) fuel root g fast n x st = (Ok (v, l), st') -> (forall t t1 step, In (t, t1, step) l -> exists z, isin t1 z) ->
  exists J, is_besselj n y J /\ isin v J.
Proof.
  intros b fuel root g fast n x v st l st' y N X E HL. unfold besselj in E.
  apply hb_ok in E as ([r l'] & s1 & E1 & E). cbn [fst snd] in E. apply hb_ok in E as (q & s2 & E2 & E). unfold hlift in E2. injection E2 as E2 <-. unfold hret, hlift in E. injection E as -> -> _.
  destruct (C28_table_constants b) as [HP _].
  destruct (C96_encloses b fuel root (bessel_e n) [x] [y] g fast (ipt s0) (c_pi (bpar b)) 12 (sdy 1 (-52)) st r l s1 0 PI) as [_ (I & HI & HV)]; auto; try lia.
  - simpl. unfold lit. repeat split; try lia.
  - unfold const_logs. simpl. intuition discriminate.
  - apply zero_in_.
  - exists (I / PI). split.
    + exists I. split; auto. revert HI. apply is_RInt_ext. intros s _. simpl. unfold dy. simpl. f_equal. ring.
    + apply (isin_div (bok b) _ _ _ _ _ E2); auto.
Qed.
(* the definition gives the values known at 0 *)
Example is_besselj_0 : is_besselj 0 0 1.
Proof.
  exists (Hierarchy.scal (PI - 0) 1). split; [|unfold Hierarchy.scal; simpl; unfold mult; simpl; field; apply PI_neq0].
  apply (is_RInt_ext (fun _ => 1)); [|apply (@is_RInt_const R_NormedModule)]. intros s _. replace (0 * sin s - 0 * s) with 0 by ring. now rewrite cos_0.
Qed.
Example is_besselj_n0 n : n <> 0%Z -> is_besselj n 0 0.
Proof.
  intros N. assert (Z0 : IZR n <> 0) by (now apply not_0_IZR). exists 0. split; [|field; apply PI_neq0].
  assert (SN : sin (IZR n * PI) = 0) by (apply sin_eq_0_1; now exists n).
  replace 0 with (minus ((fun s => sin (IZR n * s) / IZR n) PI) ((fun s => sin (IZR n * s) / IZR n) 0)) at 2 by (unfold minus, plus, opp; simpl; rewrite SN, Rmult_0_r, sin_0; field; auto).
  apply (is_RInt_derive (fun s => sin (IZR n * s) / IZR n)).
  - intros s _. replace (cos (0 * sin s - IZR n * s)) with (cos (IZR n * s)) by (rewrite <- cos_neg; f_equal; ring). auto_derive; auto. field; auto.
  - intros s _. apply continuity_pt_filterlim. apply derivable_continuous_pt. auto_derive; auto.
Qed.
(* J_1 on [1, 9/8]: two steps from 0 to pi; the result lies in [1/4, 3/4] *)
Definition C97_root (m : bscal BHw) (k : nat) : bscal BHw := if slt m (sdy 1 (-45) : bscal BHw) then sdy 7 (-2) else sdy 1 0.
Local Notation C97_run := (besselj (S:=bscal BHw) (bpar BHw) 60 C97_root 9 true 1 (qiv 1 0 9 (-3)) (C78_st 1 false false [])).
Definition C97_shape (r : res (iv (bscal BHw) * list (iv (bscal BHw) * iv (bscal BHw) * iv (bscal BHw)))) : bool :=
  match r with Ok (v, l) => Nat.eqb (length l) 2 && Bleb (bdy 1 (-2)) (lo v : b64) && Bleb (hi v : b64) (bdy 3 (-2)) && forallb (fun p => Bleb (bdy 1 0) (lo (snd (fst p) : iv (bscal BHw)) : b64) && Bleb (hi (snd (fst p) : iv (bscal BHw)) : b64) (bdy 4 0)) l | _ => false end.
Example C97_case : C97_shape (fst C97_run) = true.
Proof. vm_compute. reflexivity. Qed.
Definition Bessel_all := (C96_encloses, C97_besselj).
Print Assumptions Bessel_all.
