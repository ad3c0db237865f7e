(* Tight numerical bounds on e, pi and ln 2, and identities for the inverse functions. *)
From Coq Require Import Reals Lra Lia Psatz ZArith Machin.
From Verif Require Import RealFun.
Open Scope R_scope.

Lemma exp_term_Z x k : exp_term x (S k) = exp_term x k * x / IZR (Z.of_nat (S k)).
Proof. rewrite exp_term_S, <- INR_IZR_INZ. reflexivity. Qed.

Ltac eterm x k := match k with O => idtac | S ?j =>
  eterm x j; let H := fresh "T" in pose proof (exp_term_Z x j) as H; cbv [Z.of_nat Pos.of_succ_nat Pos.succ] in H end.

Definition e_lo : R := IZR 6121026514868073 / 2251799813685248.
Definition e_hi : R := IZR 6121026514868074 / 2251799813685248.
Lemma e_bounds : e_lo <= exp 1 <= e_hi.
Proof.
  destruct (exp_taylor 1 20) as (c & B & E). assert (C : 0 <= c <= 1) by (destruct B; lra).
  assert (L : 1 <= exp c). { rewrite <- exp_0. destruct (proj1 C); [left; apply exp_increasing; auto|subst; lra]. }
  assert (U : exp c <= 3). { apply Rle_trans with (exp 1); [|apply exp_le_3]. destruct (proj2 C); [left; apply exp_increasing; auto|subst; lra]. }
  cbn [rsum] in E.
  pose proof (exp_term_0 1) as T0. eterm 1 20%nat.
  set (t20 := exp_term 1 20) in *.
  assert (P : 0 <= t20) by lra.
  assert (t20 <= t20 * exp c <= t20 * 3) by nra.
  unfold e_lo, e_hi. lra.
Qed.

Definition ln2_lo : R := IZR 6243314768165359 / 9007199254740992.
Definition ln2_hi : R := IZR 6243314768165360 / 9007199254740992.
Lemma exp_rem_bounds x c : 0 <= x <= 1 -> btw x c -> 1 <= exp c <= 3.
Proof.
  intros Hx B. assert (C : 0 <= c <= 1) by (destruct B; lra). split.
  - rewrite <- exp_0. destruct (proj1 C); [left; apply exp_increasing; auto|subst; lra].
  - apply Rle_trans with (exp 1); [|apply exp_le_3]. destruct (proj2 C); [left; apply exp_increasing; auto|subst; lra].
Qed.
Lemma ln2_bounds : ln2_lo <= ln 2 <= ln2_hi.
Proof.
  assert (A : exp ln2_lo <= 2).
  { destruct (exp_taylor ln2_lo 18) as (c & B & E). apply exp_rem_bounds in B; [|unfold ln2_lo; lra].
    cbn [rsum] in E. pose proof (exp_term_0 ln2_lo) as T0. eterm ln2_lo 18%nat. unfold ln2_lo in * |-.
    set (x := IZR 6243314768165359 / 9007199254740992) in *.
    set (t20 := exp_term x 18) in *. assert (P : 0 <= t20). { unfold x in *; lra. }
    assert (t20 <= t20 * exp c <= t20 * 3) by nra. change ln2_lo with x. unfold x in *. lra. }
  assert (A' : 2 <= exp ln2_hi).
  { destruct (exp_taylor ln2_hi 18) as (c & B & E). apply exp_rem_bounds in B; [|unfold ln2_hi; lra].
    cbn [rsum] in E. pose proof (exp_term_0 ln2_hi) as T0. eterm ln2_hi 18%nat. unfold ln2_hi in * |-.
    set (x := IZR 6243314768165360 / 9007199254740992) in *.
    set (t20 := exp_term x 18) in *. assert (P : 0 <= t20). { unfold x in *; lra. }
    assert (t20 <= t20 * exp c <= t20 * 3) by nra. change ln2_hi with x. unfold x in *. lra. }
  split.
  - rewrite <- (ln_exp ln2_lo). destruct A; [left; apply ln_increasing; auto using exp_pos|rewrite H; lra].
  - rewrite <- (ln_exp ln2_hi). destruct A'; [left; apply ln_increasing; auto; lra|rewrite <- H; lra].
Qed.

Definition pi_lo : R := IZR 7074237752028440 / 2251799813685248.
Definition pi_hi : R := IZR 7074237752028441 / 2251799813685248.
Lemma pi_strict : pi_lo < PI < pi_hi.
Proof.
  pose proof Machin_4_5_239 as M.
  destruct (atan_rem 12 25 (/ 5)) as (d1 & B1 & E1); [lia|lia|].
  destruct (atan_rem 4 9 (/ 239)) as (d2 & B2 & E2); [lia|lia|].
  unfold atS in *. cbn [rsum] in E1, E2.
  repeat rewrite INR_IZR_INZ in E1. repeat rewrite INR_IZR_INZ in E2.
  cbv [Z.of_nat Pos.of_succ_nat Pos.succ Init.Nat.mul Init.Nat.add Nat.mul Nat.add] in E1, E2. simpl pow in E1, E2.
  unfold pi_lo, pi_hi. rewrite E1, E2 in M. lra.
Qed.
Lemma pi_bounds : pi_lo <= PI <= pi_hi.
Proof. pose proof pi_strict. lra. Qed.
