(* Identities and monotonicity of the inverse trigonometric and hyperbolic functions. *)
From Coq Require Import Reals Lra Lia Psatz ZArith Machin.
From Verif Require Import RealFun.
Open Scope R_scope.

Lemma at5 x : 0 < x -> atan x = PI * / 2 - atan (1 / x).
Proof. intros. unfold Rdiv. rewrite Rmult_1_l, atan_inv by auto. lra. Qed.
Lemma at1 x : x < 0 -> atan x = - PI * / 2 - atan (1 / x).
Proof.
  intros H. pose proof (at5 (- x) ltac:(lra)) as E. rewrite atan_opp in E.
  replace (1 / - x) with (- (1 / x)) in E by (field; lra). rewrite atan_opp in E. lra.
Qed.
Lemma at2 x : x < 1 -> atan x = - PI * / 4 + atan ((1 + x) / (1 - x)).
Proof.
  intros H. pose proof (atan_sub_correct x (-1)) as E. unfold atan_sub in E.
  replace ((x - -1) / (1 + x * -1)) with ((1 + x) / (1 - x)) in E by (f_equal; ring).
  replace (-1) with (- (1)) in E by ring. rewrite atan_opp, atan_1 in E. rewrite E.
  - lra.
  - lra.
  - pose proof (Ratan.atan_bound x). pose proof (atan_increasing x 1 H) as I. rewrite atan_1 in I. pose proof PI_RGT_0. lra.
  - apply Ratan.atan_bound.
Qed.
Lemma at4 x : -1 < x -> atan x = PI * / 4 + atan ((x - 1) / (x + 1)).
Proof.
  intros H. pose proof (at2 (- x) ltac:(lra)) as E. rewrite atan_opp in E.
  replace ((1 + - x) / (1 - - x)) with (- ((x - 1) / (x + 1))) in E by (field; lra). rewrite atan_opp in E. lra.
Qed.
Lemma atan_mono a b : a <= b -> atan a <= atan b.
Proof. intros [H| ->]; [left; apply atan_increasing; auto|lra]. Qed.
Lemma atan_lt_pih x : - (PI / 2) < atan x < PI / 2.
Proof. pose proof (Ratan.atan_bound x). lra. Qed.

Lemma asin_mono a b : -1 <= a -> a <= b -> b <= 1 -> asin a <= asin b.
Proof.
  intros. destruct (Rle_or_lt (asin a) (asin b)); auto.
  pose proof (asin_bound a). pose proof (asin_bound b).
  assert (sin (asin b) < sin (asin a)) by (apply sin_increasing_1; lra).
  rewrite !sin_asin in H5 by lra. lra.
Qed.
Lemma acos_mono a b : -1 <= a -> a <= b -> b <= 1 -> acos b <= acos a.
Proof. intros. rewrite !acos_asin by lra. pose proof (asin_mono a b). lra. Qed.
Lemma asin_m1 : asin (-1) = - (PI / 2).
Proof. replace (-1) with (- (1)) by ring. rewrite asin_opp, asin_1. auto. Qed.
Lemma acos_m1 : acos (-1) = PI.
Proof. rewrite acos_asin by lra. rewrite asin_m1. lra. Qed.

Lemma exp_mono a b : a <= b -> exp a <= exp b.
Proof. intros [H| ->]; [left; apply exp_increasing; auto|lra]. Qed.
Lemma ln_mono a b : 0 < a -> a <= b -> ln a <= ln b.
Proof. intros P [H| ->]; [left; apply ln_increasing; auto|lra]. Qed.
Lemma sinh_mono a b : a <= b -> sinh a <= sinh b.
Proof. intros [H| ->]; [left; apply sinh_lt; auto|lra]. Qed.
Lemma exp_ge_x x : x <= exp x.
Proof. pose proof (exp_ineq1_le x). lra. Qed.

Lemma tanh_exp x : tanh x = 1 - 2 / (1 + exp (2 * x)).
Proof.
  pose proof (exp_pos x). pose proof (exp_pos (- x)). pose proof (exp_pos (2 * x)).
  unfold tanh, sinh, cosh.
  assert (E : exp (2 * x) = exp x * exp x) by (rewrite <- exp_plus; f_equal; ring). rewrite E in *.
  rewrite exp_Ropp in *. field. repeat split; try lra. 
Qed.
Lemma tanh_exp_neg x : tanh x = 2 / (1 + exp (- 2 * x)) - 1.
Proof.
  assert (E : tanh x = - tanh (- x)).
  { unfold tanh, sinh, cosh. rewrite Ropp_involutive. pose proof (exp_pos x). pose proof (exp_pos (- x)). field. lra. }
  rewrite E, tanh_exp. replace (2 * - x) with (- 2 * x) by ring. ring.
Qed.
Lemma tanh_mono a b : a <= b -> tanh a <= tanh b.
Proof.
  intros H. rewrite !tanh_exp. pose proof (exp_pos (2 * a)). pose proof (exp_pos (2 * b)).
  pose proof (exp_mono (2 * a) (2 * b) ltac:(lra)).
  assert (/ (1 + exp (2 * b)) <= / (1 + exp (2 * a))) by (apply Rinv_le_contravar; lra). unfold Rdiv. lra.
Qed.
Lemma tanh_lt a b : a < b -> tanh a < tanh b.
Proof.
  intros H. rewrite !tanh_exp. pose proof (exp_pos (2 * a)). pose proof (exp_pos (2 * b)).
  pose proof (exp_increasing (2 * a) (2 * b) ltac:(lra)).
  assert (/ (1 + exp (2 * b)) < / (1 + exp (2 * a))) by (apply Rinv_lt_contravar; [apply Rmult_lt_0_compat; lra|lra]). unfold Rdiv. lra.
Qed.
Lemma tanh_bound x : -1 < tanh x < 1.
Proof.
  split.
  - rewrite tanh_exp_neg. pose proof (exp_pos (- 2 * x)). assert (0 < 2 / (1 + exp (- 2 * x))); [|lra].
    apply Rdiv_lt_0_compat; lra.
  - rewrite tanh_exp. pose proof (exp_pos (2 * x)). assert (0 < 2 / (1 + exp (2 * x))); [|lra].
    apply Rdiv_lt_0_compat; lra.
Qed.
(* atanh (tanh y) *)
Lemma tanh_ratio y : (1 + tanh y) / (1 - tanh y) = exp (2 * y).
Proof. rewrite tanh_exp. pose proof (exp_pos (2 * y)). field. lra. Qed.
Lemma atanh_ln y : y = / 2 * ln ((1 + tanh y) / (1 - tanh y)).
Proof. rewrite tanh_ratio, ln_exp. lra. Qed.

(* acosh *)
Lemma acosh_ln y : 0 <= y -> y = ln (cosh y + sqrt (cosh y * cosh y - 1)).
Proof.
  intros H. replace (cosh y * cosh y - 1) with (sinh y * sinh y).
  - rewrite sqrt_square by (apply sinh_pos; auto). unfold cosh, sinh.
    replace ((exp y + exp (- y)) / 2 + (exp y - exp (- y)) / 2) with (exp y) by field. rewrite ln_exp. auto.
  - assert (exp y * exp (- y) = 1) by (rewrite <- exp_plus, Rplus_opp_r, exp_0; auto).
    unfold sinh, cosh. replace ((exp y + exp (- y)) / 2 * ((exp y + exp (- y)) / 2) - 1)
      with ((exp y - exp (- y)) / 2 * ((exp y - exp (- y)) / 2) + (exp y * exp (- y) - 1)) by field. rewrite H0. ring.
Qed.
(* asinh *)
Lemma asinh_ln y : y = ln (sinh y + sqrt (1 + sinh y * sinh y)).
Proof.
  assert (exp y * exp (- y) = 1) by (rewrite <- exp_plus, Rplus_opp_r, exp_0; auto).
  replace (1 + sinh y * sinh y) with (cosh y * cosh y).
  - rewrite sqrt_square by (pose proof (cosh_pos y); lra). unfold cosh, sinh.
    replace ((exp y - exp (- y)) / 2 + (exp y + exp (- y)) / 2) with (exp y) by field. rewrite ln_exp. auto.
  - unfold sinh, cosh. replace ((exp y + exp (- y)) / 2 * ((exp y + exp (- y)) / 2))
      with ((exp y - exp (- y)) / 2 * ((exp y - exp (- y)) / 2) + exp y * exp (- y)) by field. rewrite H. ring.
Qed.
Lemma sinh_opp y : sinh (- y) = - sinh y.
Proof. unfold sinh. rewrite Ropp_involutive. field. Qed.

(* range of cos on an interval *)
Lemma cos_shiftZ x k : cos (x - 2 * IZR k * PI) = cos x.
Proof.
  destruct (Z_le_gt_dec 0 k) as [H|H].
  - rewrite <- (cos_period (x - 2 * IZR k * PI) (Z.to_nat k)), INR_IZR_INZ, Z2Nat.id by auto. f_equal; ring.
  - replace (x - 2 * IZR k * PI) with (x + 2 * INR (Z.to_nat (- k)) * PI).
    + apply cos_period. + rewrite INR_IZR_INZ, Z2Nat.id, opp_IZR by lia. ring.
Qed.
Lemma sin_shiftZ x k : sin (x - 2 * IZR k * PI) = sin x.
Proof.
  rewrite <- !cos_shift. rewrite <- (cos_shiftZ (PI / 2 - x) (- k)). f_equal. rewrite opp_IZR. ring.
Qed.
Lemma cos_range l h x : l <= x <= h ->
  cos x <= cos l \/ cos x <= cos h \/ exists k : Z, l <= 2 * IZR k * PI <= h.
Proof.
  intros H. pose proof PI_RGT_0 as PP.
  set (k := (up (l / (2 * PI)) - 1)%Z).
  pose proof (archimed (l / (2 * PI))) as [A1 A2].
  assert (K : 2 * IZR k * PI <= l < 2 * IZR (k + 1) * PI).
  { unfold k. replace (up (l / (2 * PI)) - 1 + 1)%Z with (up (l / (2 * PI))) by ring. rewrite minus_IZR.
    assert (E : l = l / (2 * PI) * (2 * PI)) by (field; lra). split.
    - rewrite E at 2. replace (2 * (IZR (up (l / (2 * PI))) - 1) * PI) with ((IZR (up (l / (2 * PI))) - 1) * (2 * PI)) by ring.
      apply Rmult_le_compat_r; lra.
    - rewrite E at 1. replace (2 * IZR (up (l / (2 * PI))) * PI) with (IZR (up (l / (2 * PI))) * (2 * PI)) by ring.
      apply Rmult_lt_compat_r; lra. }
  destruct (Rle_or_lt (2 * IZR (k + 1) * PI) h) as [T|T].
  { right; right. exists (k + 1)%Z. lra. }
  rewrite plus_IZR in K, T.
  rewrite <- (cos_shiftZ x k), <- (cos_shiftZ l k), <- (cos_shiftZ h k).
  destruct (Rle_or_lt (x - 2 * IZR k * PI) PI) as [M|M].
  - left. destruct (Req_dec l x) as [->|N]; [lra|]. left. apply cos_decreasing_1; lra.
  - right; left. destruct (Req_dec h x) as [->|N]; [lra|]. left. apply cos_increasing_1; lra.
Qed.
Lemma cos_near d : 1 - d * d / 2 <= cos d.
Proof.
  destruct (cos_taylor d 2) as (e & He & ->). cbn [rsum cosF sinF]. rewrite !exp_term_S, exp_term_0. simpl INR.
  rewrite sin_0, cos_0. nra.
Qed.
