(* Property theorems: defint_autostep (C82, C83), for every double back end, every order, every expression, both values of DEFINT_FAST. *)
From Coq Require Import Reals ZArith Bool List Lra Lia Psatz Arith.
From Coquelicot Require Import Coquelicot.
From Flocq Require Import Core BinarySingleNaN.
From Verif Require Import Fp64 RDoubleHw.
From Verif Require Import Ext Scalar IntervalModel IntervalSpec IntervalProofs IntervalEncl IntervalSets Backends Ex64 ElemModel PropsElem.
From Verif Require Import RealFun ADModel ADReal ADProofs ADInst PsaModel PsaReal PsaProofs PsaExpr PsaUseProofs PsaInst PsaHist PsaHistProofs PropsPsa PsaInt.
From Verif Require Import OdeModel OdeIndep PropsPsaHist DefintAuto DefintAutoProofs.
Import List ListNotations.
Open Scope R_scope.

(* ---- C82 ---- *)
(* fast is DEFINT_FAST; root is the pow of the C library: nothing is assumed of it; l holds the lines "t,t1,stepsize" *)
Theorem C82_encloses : forall b fuel root e g fast (start end_ : iv (bscal b)) order eps st v l st' a c,
  (1 <= order < 2 ^ 52)%Z -> awf 1 e -> plog e -> noarc e = true -> isin start a -> isin end_ c ->
  defint_autostep (bpar b) fuel root e g fast start end_ order eps st = (Ok (v, l), st') ->
  (forall t t1 step, In (t, t1, step) l -> exists x, isin t1 x) ->
  (forall y, a <= y <= c \/ c <= y <= a -> adom e (fun _ => y)) /\
  exists I, is_RInt (fun y => rval e (fun _ => y)) a c I /\ isin v I.
Proof.
  intros b fuel root e g fast start end_ order eps st v l st' a c [O1 O2] W P NA Ha Hc E HL.
  apply (autostep_ok b fuel root e g fast start end_ order eps st v l st' a c W P NA O1 O2 E); auto. intros [[t t1] step] Hp. exact (HL t t1 step Hp).
Qed.
(* exp(x) log(x) + x^3 / sqrt(x) from 1 to 3/2, order 2, four steps; a crude root that gives steps of 1/8 *)
Definition C82_root (m : bscal BHw) (k : nat) : bscal BHw := if slt m (sdy 1 (-4) : bscal BHw) then sdy 1 (-3) else sdy 1 0.
Local Notation C82_run fast := (defint_autostep (S:=bscal BHw) (bpar BHw) 60 C82_root C41_e 9 fast (qiv 1 0 1 0) (qiv 3 (-1) 3 (-1)) 2 (sdy 1 (-10)) (C78_st 1 false false [])).
Definition C82_shape (r : res (iv (bscal BHw) * list (iv (bscal BHw) * iv (bscal BHw) * iv (bscal BHw)))) : nat :=
  match r with Ok (v, l) => if forallb (fun p => Bleb (hi (snd (fst p) : iv (bscal BHw)) : b64) (bdy 2 0)) l && Bleb (hi v : b64) (bdy 3 0) then length l else 0%nat | _ => 0%nat end.
Example C82_case : awf 1 C41_e /\ plog C41_e /\ noarc C41_e = true /\ C82_shape (fst (C82_run true)) = 4%nat /\ C82_shape (fst (C82_run false)) = 4%nat.
Proof. split; [simpl; repeat split; lia|]. split; [simpl; intuition discriminate|]. split; [reflexivity|]. split; vm_compute; reflexivity. Qed.
(* order 0: the integral of x^2 over [0,1] is said to be 0 *)
Local Notation C82_zero := (defint_autostep (S:=bscal BHw) (bpar BHw) 60 C82_root C60_e 9 true (qiv 0 0 0 0) (qiv 1 0 1 0) 0 (sdy 1 (-10)) (C78_st 1 false false [])).
Theorem C82_order_zero_refuted : exists v l st' I, C82_zero = (Ok (v, l), st') /\ is_RInt (fun y => rval C60_e (fun _ => y)) 0 1 I /\ ~ isin (v : iv D_hw) I.
Proof.
  assert (H : match fst C82_zero with Ok (v, _) => sle (hi (v : iv D_hw)) (bdy 1 (-2) : D_hw) | _ => false end = true) by (vm_compute; reflexivity).
  destruct C82_zero as [[[v l]|] st'] eqn:E; [|discriminate H]. clear E. cbn [fst] in H.
  exists v, l, st', (/ 3). split; [reflexivity|]. split.
  - replace (/ 3) with (minus ((fun t => t ^ 3 / 3) 1) ((fun t => t ^ 3 / 3) 0)) by (unfold minus, plus, opp; simpl; field).
    apply (is_RInt_derive (fun t => t ^ 3 / 3) (fun y => rval C60_e (fun _ => y))); intros t _.
    + simpl rval. auto_derive; auto. simpl. field.
    + apply (rval_continuous 1 C60_e (fun y _ => y)); simpl; auto. intros i _. apply continuous_id.
  - intros (_ & _ & _ & U). apply (ok_le _ (bok BHw)) in H; try exact Logic.I. change (bscal BHw) with D_hw in * . rewrite qv in H by lia.
    destruct (sval (hi (v : iv D_hw))); simpl in *; try tauto. lra.
Qed.
(* while (true) in one step: twelve turns always do *)
Theorem C82_inner_bound : forall b fuel root e g x (t end_ : iv (bscal b)) ord1 tol radius st, (12 <= g)%nat ->
  au_inner (bpar b) fuel root e g x t end_ ord1 tol radius 0 false st = au_inner (bpar b) fuel root e 12 x t end_ ord1 tol radius 0 false st.
Proof. intros. apply inner_fuel; unfold restart_max; lia. Qed.

(* ---- C83: the static members of psa before and after defint_autostep ---- *)
Theorem C83_return : forall b fuel root e g fast (start end_ : iv (bscal b)) order eps st v l st', defint_autostep (bpar b) fuel root e g fast start end_ order eps st = (Ok (v, l), st') ->
  p_uh st' = p_uh st /\ p_rh st' = p_rh st /\ p_mode st' = (if (p_mode st =? 0)%Z then 0 else 1)%Z.
Proof. intros b fuel root e g fast start end_ order eps st v l st' E. exact (autostep_state b fuel root (hobj e) g fast start end_ order eps st (v, l) st' E). Qed.
Theorem C83_independent : forall b fuel root e g fast (start end_ : iv (bscal b)) order eps st1 st2, (1 <= order)%Z ->
  fst (defint_autostep (bpar b) fuel root e g fast start end_ order eps st1) = fst (defint_autostep (bpar b) fuel root e g fast start end_ order eps st2).
Proof. intros b fuel root e g fast start end_ order eps st1 st2 O. apply (autostep_indep b fuel root (hobj e)); auto. intros x f m. apply rl_eval. Qed.
Local Notation C83_run st := (defint_autostep (S:=bscal BHw) (bpar BHw) 60 C82_root C60_e 9 true (qiv 0 0 0 0) (qiv 1 0 1 0) 2 (sdy 1 (-10)) st).
(* mode 2 comes back as mode 1 *)
Theorem C83_mode_refuted : returns (fst (C83_run (C78_st 2 true true []))) = true /\ p_mode (C78_st 2 true true []) = 2%Z /\ p_mode (snd (C83_run (C78_st 2 true true []))) = 1%Z.
Proof. split; [vm_compute; reflexivity|]. split; [reflexivity|]. vm_compute. reflexivity. Qed.
(* sqrt on [-1, 0]: the exception leaves mode 1 and record_history() on *)
Local Notation C83_exc := (defint_autostep (S:=bscal BHw) (bpar BHw) 60 C82_root (XFun Asqrt (XVar 0)) 9 true (qiv (-1) 0 (-1) 0) (qiv 0 0 0 0) 2 (sdy 1 (-10)) (C78_st 0 false false [])).
Theorem C83_exception_refuted : fst C83_exc = Err EDomain /\ p_mode (C78_st 0 false false []) = 0%Z /\ p_rh (C78_st 0 false false []) = false /\ p_mode (snd C83_exc) = 1%Z /\ p_rh (snd C83_exc) = true.
Proof. split; [apply throws_eq; vm_compute; reflexivity|]. split; [reflexivity|]. split; [reflexivity|]. split; [vm_compute; reflexivity|]. vm_compute. reflexivity. Qed.
(* the state left by the exception, then an ordinary run *)
Example C83_case : returns (fst (C83_run (snd C83_exc))) = true.
Proof. vm_compute. reflexivity. Qed.
Definition Defint_all := (C82_encloses, C82_order_zero_refuted, C82_inner_bound, C83_return, C83_independent, C83_mode_refuted, C83_exception_refuted).
Print Assumptions Defint_all.
