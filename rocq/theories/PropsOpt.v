(* Property theorems: global minimisation by branch and bound (C52); every double back end, every dimension and expression. *)
From Coq Require Import Reals Lra Lia ZArith Bool Arith List.
From Flocq Require Import Core BinarySingleNaN.
From Verif Require Import Fp64 RDoubleHw.
From Verif Require Import Ext Scalar IntervalModel IntervalSpec IntervalProofs IntervalEncl Backends Ex64 ElemModel.
From Verif Require Import LinAlg RealRn VecModel VecProofs VecMore KrawProofs VecInst PropsElem PropsLin ADModel ADReal ADProofs ADInst ADSys PropsSys.
From Verif Require Import OptModel OptProofs OptInst.
Import ListNotations.
Open Scope R_scope.

(* x is a point of the box where the expression is defined and smallest / largest *)
Definition is_min {S : scal} (n : nat) (e : aexpr) (X : nat -> iv S) (x : nat -> R) : Prop :=
  vin n X x /\ adom e x /\ forall y, vin n X y -> adom e y -> rval e x <= rval e y.
Definition is_max {S : scal} (n : nat) (e : aexpr) (X : nat -> iv S) (x : nat -> R) : Prop :=
  vin n X x /\ adom e x /\ forall y, vin n X y -> adom e y -> rval e y <= rval e x.

(* ---- C52: optimize / minimize ---- *)
Lemma opt_run (b : backend) fuel0 fuel n e (X : nat -> iv (bscal b)) limit unify bs :
  awf n e -> clog e -> valid_box n X -> bounded_box n X ->
  optimize n (optI (bpar b) fuel0 e) (optD (bpar b) fuel0 n e) X limit unify fuel = Ok bs ->
  Forall (boxok n X) bs /\ forall x, is_min n e X x -> exists B, In B bs /\ vin n B x.
Proof.
  intros W C V F H.
  destruct (optimize_ok (bscal_ok b) (bscal_nan b) (bscal_mid b) (bscal_max b) n (optI (bpar b) fuel0 e) (optD (bpar b) fuel0 n e) X limit unify
    (rval e) (adom e) (optI_ok (bok b) (bpar b) (bexp b) (blog b) (btrig b) fuel0 n e W) V F fuel bs) as [A1 A2]; auto.
  - intros. eapply (optD_dom (bok b) (bpar b) (bexp b) (blog b) (btrig b)); eauto.
  - intros. eapply (optD_grad (bok b) (bpar b) (bexp b) (blog b) (btrig b)); eauto.
  - intros. eapply (optD_open (bok b) (bpar b) (bexp b) (blog b) (btrig b)); eauto.
Qed.
Theorem C52_minimisers : forall (b : backend) fuel0 fuel n e (X : nat -> iv (bscal b)) limit unify bs,
  awf n e -> clog e -> valid_box n X -> bounded_box n X ->
  optimize n (optI (bpar b) fuel0 e) (optD (bpar b) fuel0 n e) X limit unify fuel = Ok bs ->
  forall x, is_min n e X x -> exists B, In B bs /\ vin n B x.
Proof. intros b fuel0 fuel n e X limit unify bs W C V F H. apply (opt_run b fuel0 fuel n e X limit unify bs W C V F H). Qed.
(* the returned boxes are non-empty and lie in the initial box *)
Theorem C52_boxes_inside : forall (b : backend) fuel0 fuel n e (X : nat -> iv (bscal b)) limit unify bs,
  awf n e -> clog e -> valid_box n X -> bounded_box n X ->
  optimize n (optI (bpar b) fuel0 e) (optD (bpar b) fuel0 n e) X limit unify fuel = Ok bs ->
  forall B, In B bs -> valid_box n B /\ forall x, vin n B x -> vin n X x.
Proof.
  intros b fuel0 fuel n e X limit unify bs W C V F H B HB. destruct (opt_run b fuel0 fuel n e X limit unify bs W C V F H) as [A _].
  rewrite Forall_forall in A. destruct (A B HB) as (A1 & _ & A2). split; [exact A1|]. intros x Hx i Hi. apply A2; auto.
Qed.
(* minimize_value: a lower bound of the minimum in every case, an enclosure if the expression is defined on the whole box *)
Theorem C52_minimum : forall (b : backend) fuel0 fuel n e (X : nat -> iv (bscal b)) limit r,
  awf n e -> clog e -> valid_box n X -> bounded_box n X ->
  minimize_value n (optI (bpar b) fuel0 e) (optD (bpar b) fuel0 n e) X limit fuel = Ok r ->
  forall x, is_min n e X x ->
    lb (sval (lo r)) (rval e x) /\ ((forall y, vin n X y -> adom e y) -> isin r (rval e x)).
Proof.
  intros b fuel0 fuel n e X limit r W C V F H x Mx. apply bind_ok in H as (bs & H & E).
  destruct (opt_run b fuel0 fuel n e X limit false bs W C V F H) as [A1 A2].
  apply (value_ok (bscal_ok b) (bscal_nan b) n (optI (bpar b) fuel0 e) X (rval e) (adom e)) with (bs := bs); auto.
  intros. eapply (optI_ok (bok b) (bpar b) (bexp b) (blog b) (btrig b)); eauto.
Qed.
(* maximize, maximize_value: -f in place of f (Opt_MakeMinus), and the result negated *)
Theorem C52_maximisers : forall (b : backend) fuel0 fuel n e (X : nat -> iv (bscal b)) limit unify bs,
  awf n e -> clog e -> valid_box n X -> bounded_box n X ->
  optimize n (optI (bpar b) fuel0 (XNeg e)) (optD (bpar b) fuel0 n (XNeg e)) X limit unify fuel = Ok bs ->
  forall x, is_max n e X x -> exists B, In B bs /\ vin n B x.
Proof.
  intros b fuel0 fuel n e X limit unify bs W C V F H x (M1 & M2 & M3).
  apply (C52_minimisers b fuel0 fuel n (XNeg e) X limit unify bs W C V F H). split; [exact M1|]. split; [exact M2|].
  intros y Hy Dy. simpl in *. specialize (M3 y Hy Dy). lra.
Qed.
Theorem C52_maximum : forall (b : backend) fuel0 fuel n e (X : nat -> iv (bscal b)) limit r,
  awf n e -> clog e -> valid_box n X -> bounded_box n X ->
  minimize_value n (optI (bpar b) fuel0 (XNeg e)) (optD (bpar b) fuel0 n (XNeg e)) X limit fuel = Ok r ->
  forall x, is_max n e X x -> (forall y, vin n X y -> adom e y) -> isin (ineg r) (rval e x).
Proof.
  intros b fuel0 fuel n e X limit r W C V F H x (M1 & M2 & M3) D.
  destruct (C52_minimum b fuel0 fuel n (XNeg e) X limit r W C V F H x) as [_ Q].
  - split; [exact M1|]. split; [exact M2|]. intros y Hy Dy. simpl in *. specialize (M3 y Hy Dy). lra.
  - replace (rval e x) with (- rval (XNeg e) x) by (simpl; ring). apply (isin_neg (bscal_ok b)). apply Q. exact D.
Qed.
(* optimize_nd, minimize_nd_value: without derivatives, on a box inside the domain *)
Theorem C52_nd : forall (b : backend) fuel0 fuel n e (X : nat -> iv (bscal b)) limit,
  awf n e -> clog e -> valid_box n X -> bounded_box n X -> (forall y, vin n X y -> adom e y) ->
  (forall unify bs, optimize_nd n (optI (bpar b) fuel0 e) X limit unify fuel = Ok bs ->
     forall x, is_min n e X x -> exists B, In B bs /\ vin n B x) /\
  (forall r, minimize_nd_value n (optI (bpar b) fuel0 e) X limit fuel = Ok r -> forall x, is_min n e X x -> isin r (rval e x)).
Proof.
  intros b fuel0 fuel n e X limit W C V F D.
  assert (FI : forall Y Z x, optI (bpar b) fuel0 e Y = Ok Z -> vin n Y x -> adom e x -> isin Z (rval e x)).
  { intros. eapply (optI_ok (bok b) (bpar b) (bexp b) (blog b) (btrig b)); eauto. }
  assert (R : forall unify bs, optimize_nd n (optI (bpar b) fuel0 e) X limit unify fuel = Ok bs ->
     Forall (boxok n X) bs /\ forall x, is_min n e X x -> exists B, In B bs /\ vin n B x).
  { intros unify bs H.
    exact (optimize_nd_ok (bscal_ok b) (bscal_nan b) (bscal_mid b) (bscal_max b) n (optI (bpar b) fuel0 e) X limit unify
      (rval e) (adom e) FI V F fuel bs D H). }
  split; [intros unify bs H; apply (R unify bs H)|].
  intros r H x Mx. apply bind_ok in H as (bs & H & E). destruct (R _ _ H) as [A1 A2].
  apply (value_ok (bscal_ok b) (bscal_nan b) n (optI (bpar b) fuel0 e) X (rval e) (adom e)) with (bs := bs); auto.
Qed.

Definition C52_all := (C52_minimisers, C52_boxes_inside, C52_minimum, C52_maximisers, C52_maximum, C52_nd).
Print Assumptions C52_all.

(* (x0 - 1)^2 + x1^2 on [-2,3]^2: smallest at (1,0) *)
Definition ox_e : aexpr := XAdd (XPowZ (XSc SOsub 1 0 (XVar 0)) 2) (XPowZ (XVar 1) 2).
Definition ox_box (i : nat) : iv D_hw := qiv (-2) 0 3 0.
Definition ox_lim : D_hw := bdy 1 (-2).
Example C52_case : awf 2 ox_e /\ clog ox_e /\ valid_box 2 ox_box /\ bounded_box 2 ox_box /\
  is_min 2 ox_e ox_box (fun i => match i with O => 1 | _ => 0 end) /\
  match optimize 2 (optI (bpar BHw) 50 ox_e) (optD (bpar BHw) 50 2 ox_e) ox_box ox_lim true 400 with
  | Ok bs => (length bs =? 1)%nat | Err _ => false end = true /\
  match minimize_value 2 (optI (bpar BHw) 50 ox_e) (optD (bpar BHw) 50 2 ox_e) ox_box ox_lim 400 with
  | Ok r => sle (sdy (-1) 0) (lo r) && sle (hi r) (sdy 1 0) | Err _ => false end = true.
Proof.
  split; [simpl; unfold lit; repeat split; lia|]. split; [simpl; tauto|]. split; [intros i Hi; qval 0|].
  split; [intros i Hi; split; exact Logic.I|]. split; [split; [|split]|split].
  - intros i Hi. destruct i as [|[|i]]; [qin|qin|lia].
  - simpl. repeat split; lia.
  - intros y _ _. simpl. unfold dy. simpl. pose proof (Rle_0_sqr (y 0%nat - 1)). pose proof (Rle_0_sqr (y 1%nat)). unfold Rsqr in *. lra.
  - vm_compute. reflexivity.
  - vm_compute. reflexivity.
Qed.
