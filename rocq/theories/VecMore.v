(* Set-level meaning of the vector utilities of kv/interval-vector.hpp. *)
From Coq Require Import Reals Lra Lia ZArith Bool Arith.
From Verif Require Import Ext Scalar IntervalModel IntervalSpec IntervalProofs IntervalEncl IntervalSets.
From Verif Require Import LinAlg VecModel VecProofs.
Open Scope R_scope.

Section VM.
Variable S : scal. Hypothesis OK : scal_ok S.
Variable n : nat.
Definition valid_box (X : nat -> iv S) : Prop := forall i, (i < n)%nat -> ivalid (X i).
Lemma box_point X : valid_box X -> exists x, vin n X x.
Proof. intros V. apply (fin_choice 0 n (fun i r => isin (X i) r)). intros i Hi. apply valid_isin; auto. Qed.
Lemma box_point_at X i r : valid_box X -> (i < n)%nat -> isin (X i) r -> exists x, vin n X x /\ x i = r.
Proof.
  intros V Hi Hr. destruct (box_point X V) as [x Hx]. exists (fun j => if Nat.eq_dec j i then r else x j). split.
  - intros j Hj. destruct Nat.eq_dec as [-> |]; auto.
  - destruct Nat.eq_dec; congruence.
Qed.
Theorem vsubset_iff X Y : valid_box X -> valid_box Y -> (vsubset n X Y = true <-> forall x, vin n X x -> vin n Y x).
Proof.
  intros VX VY. unfold vsubset. rewrite vall_spec. split.
  - intros H x Hx i Hi. apply (proj1 (isubset_spec OK _ _ (VX i Hi) (VY i Hi)) (H i Hi)); auto.
  - intros H i Hi. apply (proj2 (isubset_spec OK _ _ (VX i Hi) (VY i Hi))). intros r Hr.
    destruct (box_point_at X i r VX Hi Hr) as (x & Hx & <-). apply H; auto.
Qed.
Theorem vproper_iff X Y : valid_box X -> valid_box Y ->
  (vproper n X Y = true <-> (forall x, vin n X x -> vin n Y x) /\ forall i, (i < n)%nat -> exists y, vin n Y y /\ ~ isin (X i) (y i)).
Proof.
  intros VX VY. unfold vproper. rewrite vall_spec. split.
  - intros H. split.
    + intros x Hx i Hi. apply (proj1 (iproper_spec OK _ _ (VX i Hi) (VY i Hi)) (H i Hi)); auto.
    + intros i Hi. destruct (proj1 (iproper_spec OK _ _ (VX i Hi) (VY i Hi)) (H i Hi)) as (_ & r & Yr & Nr).
      destruct (box_point_at Y i r VY Hi Yr) as (y & Hy & <-). eauto.
  - intros [H1 H2] i Hi. apply (proj2 (iproper_spec OK _ _ (VX i Hi) (VY i Hi))). split.
    + intros r Hr. destruct (box_point_at X i r VX Hi Hr) as (x & Hx & <-). apply H1; auto.
    + destruct (H2 i Hi) as (y & Hy & Ny). exists (y i). auto.
Qed.
Theorem voverlap_iff X Y : valid_box X -> valid_box Y -> (voverlap n X Y = true <-> exists x, vin n X x /\ vin n Y x).
Proof.
  intros VX VY. unfold voverlap. rewrite vall_spec. split.
  - intros H. destruct (fin_choice 0 n (fun i r => isin (X i) r /\ isin (Y i) r)) as [x Hx].
    { intros i Hi. apply (proj1 (overlap_spec OK _ _ (VX i Hi) (VY i Hi)) (H i Hi)). }
    exists x. split; intros i Hi; apply Hx; auto.
  - intros (x & Hx & Hy) i Hi. apply (proj2 (overlap_spec OK _ _ (VX i Hi) (VY i Hi))). exists (x i). auto.
Qed.
Theorem vintersect_iff X Y : valid_box X -> valid_box Y -> forall x, vin n (vintersect X Y) x <-> vin n X x /\ vin n Y x.
Proof.
  intros VX VY x. split.
  - intros H. split; intros i Hi; apply (proj1 (isin_intersect OK _ _ (x i) (VX i Hi) (VY i Hi)) (H i Hi)).
  - intros [A B] i Hi. apply (proj2 (isin_intersect OK _ _ (x i) (VX i Hi) (VY i Hi))). auto.
Qed.
Theorem vhull_iff X Y (Z : nat -> iv S) : valid_box X -> valid_box Y ->
  (forall x, vin n X x \/ vin n Y x -> vin n (vhull X Y) x) /\
  (* the smallest box: every box containing both contains the hull *)
  ((forall x, vin n X x \/ vin n Y x -> vin n Z x) -> forall x, vin n (vhull X Y) x -> vin n Z x).
Proof.
  intros VX VY. split.
  - intros x [H|H] i Hi; [apply (isin_hull_l OK)|apply (isin_hull_r OK)]; auto.
  - intros H x Hx i Hi. destruct (proj1 (isin_hull OK _ _ (x i) (VX i Hi) (VY i Hi)) (Hx i Hi)) as (p & q & A).
    assert (CZ : forall p q r, isin (Z i) p -> isin (Z i) q -> p <= r <= q -> isin (Z i) r).
    { intros p' q' r (W1 & W2 & L & U) (_ & _ & L' & U') Hr. split; auto. split; auto. split.
      - destruct (sval (lo (Z i))); simpl in *; auto; lra.
      - destruct (sval (hi (Z i))); simpl in *; auto; lra. }
    assert (P : forall r, isin (X i) r \/ isin (Y i) r -> isin (Z i) r).
    { intros r [Hr|Hr]; [destruct (box_point_at X i r VX Hi Hr) as (y & Hy & <-)|destruct (box_point_at Y i r VY Hi Hr) as (y & Hy & <-)]; apply H; auto. }
    destruct A as (A1 & A2 & A3). apply CZ with p q; [apply P; tauto|apply P; tauto|lra].
Qed.
Theorem vzero_in_iff X : valid_box X -> (vzero_in n X = true <-> vin n X (fun _ => 0)).
Proof.
  intros V. unfold vzero_in. rewrite vall_spec. split.
  - intros H i Hi. apply (proj1 (zero_in_spec OK _ (V i Hi)) (H i Hi)).
  - intros H i Hi. apply (proj2 (zero_in_spec OK _ (V i Hi))). apply (H i Hi).
Qed.
Theorem vmag_mig (X : nat -> iv S) x i : vin n X x -> (i < n)%nat ->
  ub (sval (vmag X i)) (Rabs (x i)) /\ lb (sval (vmig X i)) (Rabs (x i)).
Proof. intros H Hi. split; [apply (mag_ub OK); auto|apply (mig_lb OK); auto]. Qed.
End VM.
Arguments valid_box {S}.
