(* Property theorems: verified linear programming (C53), for every double back end. *)
From Coq Require Import Reals Lra Lia ZArith Bool Arith List.
From Flocq Require Import Core BinarySingleNaN.
From Verif Require Import Fp64 RDoubleHw.
From Verif Require Import Ext Scalar IntervalModel IntervalSpec IntervalProofs IntervalEncl Backends Ex64 LinAlg VecModel.
From Verif Require Import PropsElem AffModel AffSpec AffProofs PropsAff LpModel LpProofs.
Import ListNotations.
Open Scope R_scope.

Theorem C53_lower_bound : forall b fuel (obj : list (bscal b)) cs r x,
  lp_minimize_verified fuel obj cs (-1) = Ok r -> lp_finite fuel obj cs (-1) ->
  (forall c, In c cs -> (length c <= length obj)%nat) ->
  (forall j, (1 <= j)%nat -> 0 <= x j) -> (forall c, In c cs -> lin c x <= 0) -> rv r <= lin obj x.
Proof. intros b fuel obj cs r x. exact (lp_lower (bok b) (baff b) fuel obj cs r x). Qed.
Print Assumptions C53_lower_bound.

(* maximise x1 + 2 x2 + x3 subject to 3 x1 + x2 <= 3/4, x1 + 3 x2 + x3 <= 1, x2 + x3 <= 1, with two ties *)
Definition C53_obj : list D_hw := [ex_c 0 0; ex_c (-1) 0; ex_c (-2) 0; ex_c (-1) 0].
Definition C53_cs : list (list D_hw) :=
  [[ex_c (-3) (-2); ex_c 3 0; ex_c 1 0]; [ex_c (-1) 0; ex_c 1 0; ex_c 3 0; ex_c 1 0]; [ex_c (-1) 0; ex_c 0 0; ex_c 1 0; ex_c 1 0]].
Definition tabfinb (m n : nat) (st : lpst D_hw) : bool := forallb (fun i => forallb (fun j => fb (lpa st i j)) (seq 0 (1 + n))) (seq 0 (1 + m)).
Lemma tabfinb_ok m n st : tabfinb m n st = true -> tabfin m n st.
Proof.
  unfold tabfinb. rewrite forallb_forall. intros H i j I J. apply fb_fin. specialize (H i ltac:(apply in_seq; lia)). rewrite forallb_forall in H. apply H, in_seq. lia.
Qed.
Fixpoint runfinb (m n : nat) (round : Z) (fuel : nat) (st : lpst D_hw) : bool :=
  tabfinb m n st &&
  match fuel with
  | O => true
  | S f => match lp_step m n round fuel st with Ok (Some st') => runfinb m n round f st' | _ => true end
  end.
Lemma runfinb_ok m n round fuel : forall st, runfinb m n round fuel st = true -> runfin m n round fuel st.
Proof.
  induction fuel; intros st; cbn [runfinb runfin]; rewrite andb_true_iff; intros [A B]; (split; [now apply tabfinb_ok|]); auto.
  destruct (lp_step m n round (S fuel) st) as [[st'|]|]; auto.
Qed.
Example C53_case : returns (lp_minimize_verified 30 C53_obj C53_cs (-1)) = true /\ lp_finite 30 C53_obj C53_cs (-1) /\
  match lp_minimize_verified 30 C53_obj C53_cs (-1) with Ok r => slt (ex_c (-65) (-6)) r && slt r (ex_c (-1) 0) | _ => false end = true.
Proof.
  split; [vm_compute; reflexivity|]. split; [|vm_compute; reflexivity].
  unfold lp_finite. destruct (lp_init C53_obj C53_cs) as [st|] eqn:E; [|exact Logic.I]. apply runfinb_ok.
  assert (Q : match lp_init C53_obj C53_cs with Ok st => runfinb (length C53_cs) (length C53_obj - 1 + length C53_cs) (-1) 30 st | _ => false end = true)
    by (vm_compute; reflexivity).
  rewrite E in Q. exact Q.
Qed.

(* a constraint with more coefficients than the objective is cut off without notice: for
   minimise -x1 subject to x1 - x2 <= 0 the result is 0, but (2, 2) is feasible *)
Theorem C53_long_constraint_refuted : exists b fuel (obj : list (bscal b)) cs r x,
  lp_minimize_verified fuel obj cs (-1) = Ok r /\ lp_finite fuel obj cs (-1) /\
  (forall j, (1 <= j)%nat -> 0 <= x j) /\ (forall c, In c cs -> lin c x <= 0) /\ lin obj x < rv r.
Proof.
  exists BHw, 5%nat, ([ex_c 0 0; ex_c (-1) 0] : list D_hw), ([[ex_c 0 0; ex_c 1 0; ex_c (-1) 0]] : list (list D_hw)).
  change (bscal BHw) with D_hw.
  assert (Q : match lp_minimize_verified 5 ([ex_c 0 0; ex_c (-1) 0] : list D_hw) [[ex_c 0 0; ex_c 1 0; ex_c (-1) 0]] (-1) with
    | Ok r => slt (ex_c (-2) 0) r && fb r | _ => false end = true) by (vm_compute; reflexivity).
  destruct (lp_minimize_verified 5 _ _ _) as [r|] eqn:E; [|discriminate Q]. apply andb_true_iff in Q as [Q1 Q2]. apply fb_fin in Q2.
  exists r, (fun _ => 2). split; [reflexivity|]. clear E. split.
  { unfold lp_finite. destruct (lp_init _ _) as [st|] eqn:E; [|exact Logic.I]. apply runfinb_ok.
    assert (Q : match lp_init ([ex_c 0 0; ex_c (-1) 0] : list D_hw) [[ex_c 0 0; ex_c 1 0; ex_c (-1) 0]] with Ok st => runfinb 1 2 (-1) 5 st | _ => false end = true)
      by (vm_compute; reflexivity).
    rewrite E in Q. exact Q. }
  destruct (exc_v' 0 0 0 eq_refl ltac:(simpl; lra)) as [_ V0]. destruct (exc_v' 1 0 1 eq_refl ltac:(simpl; lra)) as [_ V1].
  destruct (exc_v' (-1) 0 (-1) eq_refl ltac:(simpl; lra)) as [_ V2]. destruct (exc_v' (-2) 0 (-2) eq_refl ltac:(simpl; lra)) as [F3 V3].
  split; [intros; lra|]. split.
  - intros c [<-|[]]. cbn [lin dotf]. rewrite V0, V1, V2. lra.
  - cbn [lin dotf]. rewrite V0, V2. apply (ok_lt _ hwok) in Q1; try apply (af_wf _ hwal). rewrite (fin_ex _ F3), (fin_ex _ Q2), V3 in Q1. cbn [xlt] in Q1. 
    replace (0 + (-1 * 2 + 0)) with (-2) by lra. exact Q1.
Qed.
Print Assumptions C53_long_constraint_refuted.
