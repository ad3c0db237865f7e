(* The laws used by the vector/solver proofs hold for every double back end. *)
From Coq Require Import Reals Lra Lia ZArith Bool.
From Flocq Require Import Core BinarySingleNaN.
From Verif Require Import Fp64 RDoubleHw LinAlg.
From Verif Require Import Ext Scalar IntervalModel IntervalSpec IntervalProofs IntervalMid Backends VecModel VecProofs KrawProofs.
Open Scope R_scope.

Lemma bscal_nan b : scal_nan (bscal b).
Proof.
  destruct (bscal_ideal b) as (au & ad & su & sd & mu & md & du & dd & qu & qd & [] & ->).
  constructor; try (intros x; exact I).
  all: intros x y; try (intros N0; specialize (id_du x y N0)); intros E; simpl in *.
  - refine (eq_trans (id_ad x y) _). rewrite E. reflexivity.
  - refine (eq_trans (id_au x y) _). rewrite E. reflexivity.
  - refine (eq_trans (id_sd x y) _). rewrite E. reflexivity.
  - refine (eq_trans (id_su x y) _). rewrite E. reflexivity.
  - refine (eq_trans (id_md x y) _). rewrite E. reflexivity.
  - refine (eq_trans (id_mu x y) _). rewrite E. reflexivity.
  - refine (eq_trans id_du _). rewrite E. reflexivity.
Qed.
Lemma bscal_mid b (X : iv (bscal b)) : ivalid X -> ifinite X -> exists m, sval (mid X) = XR m /\ isin X m.
Proof.
  destruct (bscal_ideal b) as (au & ad & su & sd & mu & md & du & dd & qu & qd & I1 & E). revert X. rewrite E. intros X V F.
  apply mid_in; auto.
Qed.

(* kv/matrix-inversion.hpp mm_mult: exact when nothing rounds *)
Lemma v64_sf (x y : b64) : B2SF x = B2SF y -> v64 x = v64 y.
Proof. intros H. apply B2SF_inj in H. congruence. Qed.
Lemma rx_exact r : generic_format radix2 FX r -> Rabs r <= maxR -> rx mode_NE r = XR r.
Proof.
  intros F M. unfold rx, rnd. rewrite round_generic by (auto with typeclass_instances).
  rewrite Rlt_bool_true; auto. unfold maxR in M. pose proof (bpow_gt_0 radix2 971). lra.
Qed.
Lemma nmul_v (x y : D_hw) : v64 (@nmul D_hw x y) = xr mode_NE (xmul (v64 x) (v64 y)).
Proof. apply Bmult_v. Qed.
Lemma nadd_v (x y : D_hw) : v64 (@nadd D_hw x y) = xr mode_NE (xadd (v64 x) (v64 y)).
Proof. apply Bplus_v. Qed.
Lemma mm_mult_exact : forall n (A B : nat -> nat -> D_hw) A' B' i j,
  (forall k, (k < n)%nat -> sval (A i k) = XR (A' i k) /\ sval (B k j) = XR (B' k j) /\
     generic_format radix2 FX (A' i k * B' k j) /\ Rabs (A' i k * B' k j) <= maxR) ->
  (forall k, (k <= n)%nat -> generic_format radix2 FX (vsum k (fun q => A' i q * B' q j)) /\ Rabs (vsum k (fun q => A' i q * B' q j)) <= maxR) ->
  sval (mm_mult n A B i j) = XR (vsum n (fun q => A' i q * B' q j)).
Proof.
  intros n A B A' B' i j. unfold mm_mult, mmS. induction n as [|n IH]; intros H G.
  - exact (proj2 (ok_s0 _ (bscal_ok BHw))).
  - cbn [nsum vsum]. refine (eq_trans (nadd_v _ _) _).
    assert (E1 := IH (fun k Hk => H k (Nat.lt_lt_succ_r _ _ Hk)) (fun k Hk => G k (le_S _ _ Hk))).
    change (v64 (nsum n (fun k : nat => nmul (A i k) (B k j))) = XR (vsum n (fun q : nat => A' i q * B' q j))) in E1. rewrite E1.
    destruct (H n (Nat.lt_succ_diag_r n)) as (VA & VB & F & M).
    change (v64 (A i n) = XR (A' i n)) in VA. change (v64 (B n j) = XR (B' n j)) in VB.
    assert (E2 : v64 (nmul (A i n) (B n j)) = XR (A' i n * B' n j)). { refine (eq_trans (nmul_v _ _) _). rewrite VA, VB. cbn [xmul xr]. apply rx_exact; auto. }
    rewrite E2. cbn [xadd xr]. destruct (G (Datatypes.S n) (le_n _)) as [F' M']. cbn [vsum] in F', M'. apply rx_exact; auto.
Qed.
