(* Property theorem: defint_power_autostep on function objects with data members, for both values of DEFINT_FAST (C98), for every double
   back end and every pair of expressions. *)
From Coq Require Import Reals ZArith Bool List Lra Lia Psatz Arith.
From Coquelicot Require Import Coquelicot.
From Flocq Require Import Core BinarySingleNaN.
From Verif Require Import Fp64 RDoubleHw.
From Verif Require Import Ext Scalar IntervalModel IntervalSpec IntervalProofs IntervalEncl IntervalSets Backends Ex64 ElemModel PropsElem.
From Verif Require Import RealFun ADModel ADReal ADProofs ADInst PsaModel PsaReal PsaProofs PsaExpr PsaUseProofs PsaInst PsaHist PsaHistProofs PropsPsa PsaInt.
From Verif Require Import OdeModel OdeProofs OdeIndep PropsPsaHist DefintAuto DefintAutoProofs PropsDefint PropsBessel SingReal SingModel SingProofs PropsSing SingAuto SingAutoProofs PropsSingAuto PowEnv.
Import List ListNotations.
Open Scope R_scope.

Theorem C98_power_autostep : forall b fuel root proot n fast h g (ch cg : list (iv (bscal b))) yh yg (start end_ power v : iv (bscal b)) order eps st l st' a c p,
  (1 <= order < 2 ^ 52)%Z ->
  Forall2 isin ch yh -> awf (S (length ch)) h -> const_logs yh h -> noarc h = true ->
  Forall2 isin cg yg -> awf (S (length cg)) g -> const_logs yg g -> noarc g = true ->
  isin start a -> isin end_ c -> isin power p -> a < c -> -1 < p ->
  (forall y, a < y <= c -> rval h (with_params yh y) = Rpower (y - a) p * rval g (with_params yg y)) ->
  power_autostep (bpar b) fuel root proot (ipowI (bscal b) (bpar b) fuel) n fast (pobj (B:=IB b fuel) ch h) (pobj (B:=IB b fuel) cg g) start end_ order power eps st = (Ok (v, l), st') ->
  steps_in l a c ->
  exists I, integral_from (fun y => Rpower (y - a) p * rval g (with_params yg y)) a c I /\ isin v I.
Proof.
  intros b fuel root proot n fast h g ch cg yh yg A E P v o eps st l st' a c p [O1 O2] Ch Wh Ph Nh Cg Wg Pg Ng Ha Hc Hp AC Hq HF R HL.
  match type of R with power_autostep _ _ _ _ _ _ _ (pobj _ h) (pobj _ g) _ _ _ _ _ _ = _ => idtac end.
  destruct (power_par_ok b fuel root proot h g ch cg yh yg n fast A E o P p eps st v l st' a c Ch Wh Ph Nh Cg Wg Pg Ng O1 O2 Ha Hc Hp AC Hq HF R HL) as (_ & _ & _ & _ & J & HJ & HV). exists J. auto.
Qed.
(* t^(c-1) * exp(-t) over (0, 1/2] for c in [3/2, 13/8] *)
Definition C98_h : aexpr := XMul (XPow (XVar 0) (XSc SOsub 1 0 (XVar 1))) (XFun Aexp (XNeg (XVar 0))).
Definition C98_g : aexpr := XFun Aexp (XNeg (XVar 0)).
(* the C library's pow is only an estimate *)
Definition C98_root (m : bscal BHw) (k : nat) : bscal BHw := sdy 1 0.
Local Notation C98_run fast := (power_autostep (S:=bscal BHw) (bpar BHw) 60 C98_root (fun _ => C98_root) (ipowI (bscal BHw) (bpar BHw) 60) 1 fast
  (pobj (B:=IB BHw 60) [qiv 3 (-1) 13 (-3)] C98_h) (pobj (B:=IB BHw 60) [] C98_g) (qiv 0 0 0 0) (qiv 1 (-1) 1 (-1)) 2 (qiv 1 (-1) 5 (-3)) (sdy 1 0) (C78_st 1 false false [])).
Lemma C98_runs : one_step 1 14 (-6) (fst (C98_run true)) && one_step 1 14 (-6) (fst (C98_run false)) = true.
Proof. vm_compute. reflexivity. Qed.
Example C98_case : forall fast c, 3 / 2 <= c <= 13 / 8 -> exists v l st' I, C98_run fast = (Ok (v, l), st') /\
  integral_from (fun t => Rpower (t - 0) (c - 1) * exp (- t)) 0 (/ 2) I /\ isin v I /\ 1 / 64 <= I <= 14 / 64.
Proof.
  intros fast c Hc. assert (R : one_step 1 14 (-6) (fst (C98_run fast)) = true) by (destruct (andb_prop _ _ (C98_runs)); destruct fast; auto).
  apply one_step_ok in R; [|unfold lit; lia|unfold lit; lia]. destruct R as (v & l & R & SI & BD).
  destruct (C98_run fast) as [q st'] eqn:ER. cbn [fst] in R. subst q. exists v, l, st'.
  destruct (C98_power_autostep BHw 60 C98_root (fun _ => C98_root) 1 fast C98_h C98_g [qiv 3 (-1) 13 (-3)] [] [c] [] (qiv 0 0 0 0) (qiv 1 (-1) 1 (-1)) (qiv 1 (-1) 5 (-3)) v 2 (sdy 1 0) (C78_st 1 false false []) l st' 0 (/ 2) (c - 1)) as (I & HI & HV); auto; try lia; try lra.
  - constructor; [qin|constructor].
  - simpl. unfold lit. repeat split; lia.
  - unfold const_logs. simpl. intuition discriminate.
  - simpl. lia.
  - unfold const_logs. simpl. intuition discriminate.
  - qin.
  - qin.
  - qin.
  - intros y Hy. simpl. rewrite Rminus_0_r. unfold dy. simpl. replace (c - 1 * 1) with (c - 1) by ring. reflexivity.
  - exists I. split; [reflexivity|]. split; [exact HI|]. split; [exact HV|]. apply BD in HV. unfold dy in HV. simpl in HV. lra.
Qed.
Definition PowPar_all := (C98_power_autostep, C98_case).
Print Assumptions PowPar_all.
