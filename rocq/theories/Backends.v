(* The double back ends of rop<double> selected at compile time (kv/rdouble.hpp 9-17). *)
From Coq Require Import Reals Lra Lia ZArith Bool.
From Flocq Require Import Core BinarySingleNaN.
From Verif Require Import Fp64 RDoubleHw NohwModel NohwDiv.
From Verif Require Import Ext Scalar IntervalModel IntervalSpec IntervalParam IntervalTight.
Open Scope R_scope.

Inductive backend := BHw | BAvx | BNohw (fma : bool).
Definition bscal (b : backend) : scal :=
  match b with BHw => D_hw | BAvx => D_avx | BNohw f => D_nohw f end.
Lemma bscal_ok b : scal_ok (bscal b).
Proof. destruct b as [| |f]; [apply D_hw_ok|apply D_avx_ok|apply D_nohw_ok]. Qed.
Lemma bscal_ideal b : exists au ad su sd mu md du dd qu qd, ideal64 au ad su sd mu md du dd qu qd /\ bscal b = mk64 au ad su sd mu md du dd qu qd.
Proof. destruct b as [| |f]; do 10 eexists; (split; [|reflexivity]); [apply ideal_hw|apply ideal_avx|apply (ideal_nohw f)]. Qed.
Lemma bscal_best b : scal_best (bscal b).
Proof.
  destruct (bscal_ideal b) as (au & ad & su & sd & mu & md & du & dd & qu & qd & I1 & ->). apply best64; auto.
Qed.
Lemma backend_rel a b : exists R : bscal a -> bscal b -> Prop, srel (bscal a) (bscal b) R /\
  forall x y, R x y <-> sval x = sval y.
Proof.
  destruct (bscal_ideal a) as (au & ad & su & sd & mu & md & du & dd & qu & qd & I1 & E1).
  destruct (bscal_ideal b) as (au' & ad' & su' & sd' & mu' & md' & du' & dd' & qu' & qd' & I2 & E2).
  rewrite E1, E2. exists vrel. split; [apply srel64; auto|]. intros; reflexivity.
Qed.

