(* Facts about rounding to nearest in binary64, on reals: the neighbour functions, multiples of
   powers of two, and the error-free transformations. *)
From Coq Require Import Reals Lra Lia Psatz ZArith Bool.
From Flocq Require Import Core Plus_error Mult_error BinarySingleNaN Pff2Flocq.
From Verif Require Import Ext Scalar Fp64.
Open Scope R_scope.

Notation pw := (bpow radix2).
Notation RN := (rnd mode_NE).
Notation FF := (generic_format radix2 FX).

#[global] Instance vrnd m : Valid_rnd (round_mode m) := valid_rnd_round_mode m.

Lemma FF_RN e : FF (RN e).
Proof. apply generic_format_round; auto with typeclass_instances. Qed.
Lemma RN_id x : FF x -> RN x = x.
Proof. intros. apply round_generic; auto with typeclass_instances. Qed.
Lemma RN_le a b : a <= b -> RN a <= RN b.
Proof. intros. apply round_le; auto with typeclass_instances. Qed.
Lemma RN_opp a : RN (- a) = - RN a.
Proof. apply round_NE_opp. Qed.
Lemma RN_ge_fmt a x : FF x -> x <= a -> x <= RN a.
Proof. intros. apply round_ge_generic; auto with typeclass_instances. Qed.
Lemma RN_le_fmt a x : FF x -> a <= x -> RN a <= x.
Proof. intros. apply round_le_generic; auto with typeclass_instances. Qed.
Lemma RN_abs_le a x : FF x -> Rabs a <= x -> Rabs (RN a) <= x.
Proof. intros. apply abs_round_le_generic; auto with typeclass_instances. Qed.

Lemma FF_opp x : FF x -> FF (- x).
Proof. apply generic_format_opp. Qed.
Lemma FF_0 : FF 0.
Proof. apply generic_format_0. Qed.
Lemma FF_pw e : (-1074 <= e)%Z -> FF (pw e).
Proof. intros. apply generic_format_bpow. unfold FX, FLT_exp. lia. Qed.

(* multiples of 2^t *)
Definition mult2 (t : Z) (x : R) := exists z, x = IZR z * pw t.
Lemma mult2_0 t : mult2 t 0.
Proof. exists 0%Z. ring. Qed.
Lemma mult2_plus t x y : mult2 t x -> mult2 t y -> mult2 t (x + y).
Proof. intros [a ->] [b ->]. exists (a + b)%Z. rewrite plus_IZR. ring. Qed.
Lemma mult2_opp t x : mult2 t x -> mult2 t (- x).
Proof. intros [a ->]. exists (- a)%Z. rewrite opp_IZR. ring. Qed.
Lemma mult2_minus t x y : mult2 t x -> mult2 t y -> mult2 t (x - y).
Proof. intros. apply mult2_plus; auto using mult2_opp. Qed.
Lemma mult2_mult s t x y : mult2 s x -> mult2 t y -> mult2 (s + t) (x * y).
Proof. intros [a ->] [b ->]. exists (a * b)%Z. rewrite mult_IZR, bpow_plus. ring. Qed.
Lemma mult2_le s t x : (s <= t)%Z -> mult2 t x -> mult2 s x.
Proof.
  intros L [a ->]. exists (a * 2 ^ (t - s))%Z. rewrite mult_IZR.
  change (2 ^ (t - s))%Z with (radix_val radix2 ^ (t - s))%Z. rewrite IZR_Zpower by lia.
  rewrite Rmult_assoc, <- bpow_plus. do 2 f_equal. lia.
Qed.
Lemma mult2_scale t k x : mult2 t x -> mult2 (t + k) (x * pw k).
Proof. intros [a ->]. exists a. rewrite bpow_plus. ring. Qed.
Lemma mult2_fmt x : FF x -> mult2 (cexp radix2 FX x) x.
Proof. intros F. rewrite F at 2. exists (Ztrunc (scaled_mantissa radix2 FX x)). reflexivity. Qed.
Lemma mult2_FF x : FF x -> mult2 (-1074) x.
Proof. intros F. apply (mult2_le _ (cexp radix2 FX x)); [unfold cexp, FX, FLT_exp; lia|now apply mult2_fmt]. Qed.
Lemma mult2_ge t x : mult2 t x -> x <> 0 -> pw t <= Rabs x.
Proof.
  intros [a ->] N. rewrite Rabs_mult, (Rabs_pos_eq (pw t)) by apply bpow_ge_0.
  rewrite <- (Rmult_1_l (pw t)) at 1. apply Rmult_le_compat_r; [apply bpow_ge_0|].
  rewrite <- abs_IZR. apply IZR_le. assert (a <> 0)%Z by (intros ->; apply N; ring). lia.
Qed.
(* rounding (any FLT format) a multiple of 2^t gives a multiple of 2^t *)
Lemma mult2_round emin t x rn {H : Valid_rnd rn} : mult2 t x -> mult2 t (round radix2 (FLT_exp emin 53) rn x).
Proof.
  intros M. destruct (Z_le_gt_dec (cexp radix2 (FLT_exp emin 53) x) t) as [L|G].
  - rewrite round_generic; auto. destruct M as [a Ha]. rewrite Ha.
    change (IZR a * pw t) with (F2R (Float radix2 a t)). apply generic_format_F2R.
    intros _. unfold F2R; cbn [Fnum Fexp]. rewrite <- Ha. auto.
  - apply (mult2_le _ (cexp radix2 (FLT_exp emin 53) x)); [lia|].
    unfold round. exists (rn (scaled_mantissa radix2 (FLT_exp emin 53) x)). reflexivity.
Qed.
Lemma mult2_RN t x : mult2 t x -> mult2 t (RN x).
Proof. apply mult2_round. auto with typeclass_instances. Qed.
(* a small multiple is representable *)
Lemma mult2_small t x : (-1074 <= t)%Z -> mult2 t x -> Rabs x <= pw (t + 53) -> FF x.
Proof.
  intros Ht [a ->] B.
  destruct (Rle_lt_or_eq_dec _ _ B) as [L|E].
  - apply generic_format_FLT. exists (Float radix2 a t); auto; cbn [Fnum Fexp].
    rewrite Rabs_mult, (Rabs_pos_eq (pw t)), bpow_plus, (Rmult_comm (pw t)) in L by apply bpow_ge_0.
    apply Rmult_lt_reg_r in L; [|apply bpow_gt_0]. rewrite <- abs_IZR in L.
    change (pw 53) with (IZR (2 ^ 53)) in L. now apply lt_IZR in L.
  - assert (IZR a * pw t = pw (t + 53) \/ IZR a * pw t = - pw (t + 53)) as [-> | ->].
    { revert E. unfold Rabs. destruct Rcase_abs; intros; [right|left]; lra. }
    + apply FF_pw. lia.
    + apply FF_opp, FF_pw. lia.
Qed.

(* rounding up / down from the nearest value *)
Notation SUCC := (succ radix2 FX).
Notation PRED := (pred radix2 FX).

Lemma RN_cases e : RN e = rnd mode_DN e \/ RN e = rnd mode_UP e.
Proof. apply round_DN_or_UP. auto with typeclass_instances. Qed.
Lemma DN_le e : rnd mode_DN e <= e.
Proof. apply (round_DN_pt radix2 FX e). Qed.
Lemma UP_ge e : e <= rnd mode_UP e.
Proof. apply (round_UP_pt radix2 FX e). Qed.
Lemma rnd_id m x : FF x -> rnd m x = x.
Proof. intros. apply round_generic; auto with typeclass_instances. Qed.

Lemma UP_succ e : RN e < e -> rnd mode_UP e = SUCC (RN e).
Proof.
  intros L. assert (~ FF e). { intros F. rewrite RN_id in L; auto. lra. }
  destruct (RN_cases e) as [E|E].
  - rewrite E. symmetry. apply succ_DN_eq_UP; auto with typeclass_instances.
  - pose proof (UP_ge e). lra.
Qed.
Lemma UP_same e : e <= RN e -> rnd mode_UP e = RN e.
Proof.
  intros L. destruct (RN_cases e) as [E|E]; auto.
  pose proof (DN_le e). assert (RN e = e) as K by lra.
  rewrite K. apply rnd_id. rewrite <- K. apply FF_RN.
Qed.
Lemma DN_pred e : e < RN e -> rnd mode_DN e = PRED (RN e).
Proof.
  intros L. assert (~ FF e). { intros F. rewrite RN_id in L; auto. lra. }
  destruct (RN_cases e) as [E|E].
  - pose proof (DN_le e). lra.
  - rewrite E. symmetry. apply pred_UP_eq_DN; auto with typeclass_instances.
Qed.
Lemma DN_same e : RN e <= e -> rnd mode_DN e = RN e.
Proof.
  intros L. destruct (RN_cases e) as [E|E]; auto.
  pose proof (UP_ge e). assert (RN e = e) as K by lra.
  rewrite K. apply rnd_id. rewrite <- K. apply FF_RN.
Qed.

(* comparing an exact value through its rounding and its exact rounding error *)
Lemma cmp_lt t S : FF t -> (t < RN S \/ (t = RN S /\ 0 < S - RN S)) <-> t < S.
Proof.
  intros F. split.
  - intros [H|[H1 H2]]; [|lra]. apply Rnot_le_lt. intros C. apply (RN_le_fmt _ _ F) in C. lra.
  - intros H. destruct (Rtotal_order t (RN S)) as [A|[A|A]]; [auto| |].
    + right; lra.
    + exfalso. pose proof (RN_ge_fmt S t F (Rlt_le _ _ H)). lra.
Qed.
Lemma cmp_gt t S : FF t -> (RN S < t \/ (t = RN S /\ S - RN S < 0)) <-> S < t.
Proof.
  intros F. split.
  - intros [H|[H1 H2]]; [|lra]. apply Rnot_le_lt. intros C. apply (RN_ge_fmt _ _ F) in C. lra.
  - intros H. destruct (Rtotal_order t (RN S)) as [A|[A|A]]; [| |auto].
    + exfalso. pose proof (RN_le_fmt S t F (Rlt_le _ _ H)). lra.
    + right; lra.
Qed.

(* the neighbours *)
Lemma mag_le_ulp x : FF x -> x <> 0 -> exists k, (-1074 <= k)%Z /\ ulp radix2 FX x = pw k /\ Rabs x <= pw (k + 53) - pw k /\
  mult2 k x /\ ((k = -1074)%Z \/ pw (k + 52) <= Rabs x).
Proof.
  intros F N. exists (cexp radix2 FX x). set (e := (mag radix2 x : Z)).
  assert (He : pw (e - 1) <= Rabs x < pw e) by (split; [apply bpow_mag_le; auto|apply bpow_mag_gt]).
  assert (Ec : cexp radix2 FX x = Z.max (e - 53) (-1074)) by reflexivity.
  split; [rewrite Ec; lia|]. split; [apply ulp_neq_0; auto|].
  assert (Mm : mult2 (cexp radix2 FX x) x) by now apply mult2_fmt.
  split; [|split; [auto|]].
  - destruct Mm as [a Ha]. set (k := cexp radix2 FX x) in *.
    assert (Rabs x < pw (k + 53)) as L.
    { eapply Rlt_le_trans; [apply He|]. apply bpow_le. lia. }
    rewrite Ha in L |- *. rewrite Rabs_mult, (Rabs_pos_eq (pw k)) in * by apply bpow_ge_0.
    rewrite bpow_plus, (Rmult_comm (pw k)) in *. 
    apply Rmult_lt_reg_r in L; [|apply bpow_gt_0]. rewrite <- abs_IZR in *.
    change (pw 53) with (IZR (2 ^ 53)) in *. apply lt_IZR in L.
    assert (IZR (Z.abs a) <= IZR (2 ^ 53) - 1). { rewrite <- minus_IZR. apply IZR_le. lia. }
    pose proof (bpow_gt_0 radix2 k). nra.
  - rewrite Ec. destruct (Z.max_spec (e - 53) (-1074)) as [[A B]|[A B]]; rewrite B; [auto|right].
    replace (e - 53 + 52)%Z with (e - 1)%Z by lia. apply He.
Qed.

Lemma p2split k : pw (k + 1) = 2 * pw k.
Proof. rewrite bpow_plus. change (pw 1) with 2. ring. Qed.

(* step size above x *)
Lemma succ_pos x : 0 <= x -> SUCC x = x + ulp radix2 FX x.
Proof. apply succ_eq_pos. Qed.
Lemma succ_neg_cases x k : FF x -> x < 0 -> ulp radix2 FX x = pw k -> (-1074 <= k)%Z ->
  Rabs x <= pw (k + 53) - pw k -> mult2 k x -> ((k = -1074)%Z \/ pw (k + 52) <= Rabs x) ->
  SUCC x = x + pw k \/ (Rabs x = pw (k + 52) /\ (-1074 < k)%Z /\ SUCC x = x + pw (k - 1)).
Proof.
  intros F N U K B M L. unfold succ. rewrite Rle_bool_false by lra.
  assert (E : pred_pos radix2 FX (- x) = - x - pw k \/ 
    (Rabs x = pw (k + 52) /\ (-1074 < k)%Z /\ pred_pos radix2 FX (- x) = - x - pw (k - 1))).
  { unfold pred_pos. case Req_bool_spec; intros E.
    - assert (mag radix2 (-x) = mag radix2 x :> Z) as Mo by apply mag_opp.
      rewrite Mo in *. set (e := (mag radix2 x : Z)) in *.
      assert (k = Z.max (e - 53) (-1074)) as Kk.
      { rewrite ulp_neq_0 in U by lra. apply bpow_inj in U. rewrite <- U. reflexivity. }
      unfold FX, FLT_exp in *. destruct (Z_le_gt_dec (e - 53) (-1074)).
      + left. do 2 f_equal. lia.
      + right. split; [|split; [lia|]].
        * rewrite Rabs_left by lra. rewrite E. f_equal. lia.
        * do 2 f_equal. lia.
    - left. rewrite ulp_opp, U. auto. }
  destruct E as [E|(E1 & E2 & E)]; rewrite E; [left; ring|right; split; [auto|split; [auto|ring]]].
Qed.

(* Rump's increment e1 = RN(|x| * (2^-53 + 2^-105)) *)
Definition c1R : R := pw (-53) * (1 + pw (-52)).
Lemma c1R_FF : FF c1R.
Proof.
  apply (mult2_small (-105)); [lia| |].
  - exists (2 ^ 52 + 1)%Z. unfold c1R. rewrite plus_IZR. change (IZR (2 ^ 52)) with (pw 52).
    change (-105)%Z with (-53 + -52)%Z. rewrite (bpow_plus radix2 (-53) (-52)). 
    transitivity (pw (-53) * (pw (-52) + pw 52 * pw (-52))); [|ring].
    rewrite <- (bpow_plus radix2 52 (-52)). simpl. ring.
  - unfold c1R. rewrite Rabs_pos_eq.
    + change (-105 + 53)%Z with (-53 + 1)%Z. rewrite p2split. 
      assert (pw (-52) <= 1) by (change 1 with (pw 0); apply bpow_le; lia).
      pose proof (bpow_gt_0 radix2 (-53)). nra.
    + assert (0 < pw (-52)) by apply bpow_gt_0. pose proof (bpow_gt_0 radix2 (-53)). nra.
Qed.
Lemma RN_step a k : (-1021 <= k)%Z -> pw (k + 52) <= a -> a <= pw (k + 53) - pw k ->
  pw (k - 1) * (1 + pw (-52)) <= RN (a * c1R) <= pw k.
Proof.
  intros K L U.
  assert (E53 : pw (k + 53) = pw 53 * pw k) by (rewrite bpow_plus; ring).
  assert (E52 : pw (k + 52) = pw 52 * pw k) by (rewrite bpow_plus; ring).
  assert (Em1 : pw (k - 1) = pw k / 2). { replace k with (k - 1 + 1)%Z at 2 by lia. rewrite p2split. field. }
  assert (Em53 : pw 53 * pw (-53) = 1) by (rewrite <- bpow_plus; reflexivity).
  assert (Em52 : pw 52 * pw (-53) = /2) by (rewrite <- bpow_plus; reflexivity).
  assert (E2 : pw (-52) = 2 * pw (-53)) by (rewrite <- p2split; reflexivity).
  pose proof (bpow_gt_0 radix2 k) as Pk. pose proof (bpow_gt_0 radix2 (-53)) as Pm.
  split.
  - apply RN_ge_fmt.
    + replace (pw (k - 1) * (1 + pw (-52))) with (c1R * pw (k + 52)).
      * apply (mult2_small (k - 53)); [lia| |].
        -- exists (2 ^ 52 + 1)%Z. unfold c1R. rewrite plus_IZR. change (IZR (2 ^ 52)) with (pw 52).
           replace (pw (k - 53)) with (pw k * pw (-53)) by (rewrite <- bpow_plus; f_equal; lia).
           rewrite E52. transitivity (pw k * (pw 52 * pw (-53)) * (1 + pw (-52))); [ring|].
           rewrite Em52, E2. transitivity (pw k * (pw 52 * pw (-53)) + pw k * pw (-53)); [rewrite Em52; field|ring].
        -- unfold c1R. replace (k - 53 + 53)%Z with k by lia. rewrite E52.
           rewrite Rabs_pos_eq.
           ++ assert (pw (-52) <= 1) by (change 1 with (pw 0); apply bpow_le; lia).
              replace (pw (-53) * (1 + pw (-52)) * (pw 52 * pw k)) with ((pw 52 * pw (-53)) * (1 + pw (-52)) * pw k) by ring.
              rewrite Em52. nra.
           ++ assert (0 < pw (-52)) by apply bpow_gt_0. pose proof (bpow_gt_0 radix2 52).
              repeat apply Rmult_le_pos; lra.
      * unfold c1R. rewrite E52, Em1. replace (pw (-53) * (1 + pw (-52)) * (pw 52 * pw k)) with ((pw 52 * pw (-53)) * (1 + pw (-52)) * pw k) by ring.
        rewrite Em52. field.
    + unfold c1R. rewrite Em1. rewrite E52 in L.
      assert (pw 52 * pw k * pw (-53) <= a * pw (-53)) by (apply Rmult_le_compat_r; lra).
      replace (pw 52 * pw k * pw (-53)) with (pw k / 2) in H by (transitivity ((pw 52 * pw (-53)) * pw k); [rewrite Em52; field|ring]).
      assert (0 < pw (-52)) by apply bpow_gt_0. nra.
  - unfold rnd. simpl. apply round_N_le_midp; auto with typeclass_instances.
    + apply FF_pw; lia.
    + rewrite succ_pos by apply bpow_ge_0. rewrite ulp_bpow.
      replace (FX (k + 1)) with (k - 52)%Z by (unfold FX, FLT_exp; lia).
      replace (pw (k - 52)) with (pw k * pw (-52)) by (rewrite <- bpow_plus; f_equal; lia).
      unfold c1R. rewrite E2. rewrite E53 in U.
      assert (a * pw (-53) <= (pw 53 * pw k - pw k) * pw (-53)) by (apply Rmult_le_compat_r; lra).
      replace ((pw 53 * pw k - pw k) * pw (-53)) with (pw k - pw k * pw (-53)) in H
        by (transitivity ((pw 53 * pw (-53)) * pw k - pw k * pw (-53)); [rewrite Em53; ring|ring]).
      replace (a * (pw (-53) * (1 + 2 * pw (-53)))) with ((a * pw (-53)) * (1 + 2 * pw (-53))) by ring.
      set (q := pw (-53)) in *. set (u := a * q) in *. 
      assert (u * (1 + 2 * q) <= (pw k - pw k * q) * (1 + 2 * q)) by (apply Rmult_le_compat_r; lra).
      assert (0 < pw k * q) by (apply Rmult_lt_0_compat; lra).
      assert (0 < pw k * q * q) by (apply Rmult_lt_0_compat; lra). nra.
Qed.

Lemma RN_mid_eq u v : FF u -> (u + PRED u) / 2 < v -> v < (u + SUCC u) / 2 -> RN v = u.
Proof.
  intros F A B. apply Rle_antisym; unfold rnd; simpl.
  - apply round_N_le_midp; auto with typeclass_instances.
  - apply round_N_ge_midp; auto with typeclass_instances.
Qed.

Lemma succ_large x : FF x -> pw (-969) <= Rabs x -> RN (x + RN (Rabs x * c1R)) = SUCC x /\ Rabs x + RN (Rabs x * c1R) <= Rabs x + Rabs x.
Proof.
  intros F L. assert (N : x <> 0). { intros ->. rewrite Rabs_R0 in L. pose proof (bpow_gt_0 radix2 (-969)). lra. }
  destruct (mag_le_ulp x F N) as (k & K & U & B & M & D).
  assert (K' : (-1021 <= k)%Z).
  { assert (pw (-969) < pw (k + 53)) as H by (pose proof (bpow_gt_0 radix2 k); lra). apply lt_bpow in H. lia. }
  assert (D' : pw (k + 52) <= Rabs x) by (destruct D; [lia|auto]).
  pose proof (RN_step (Rabs x) k K' D' B) as [S1 S2].
  set (e := RN (Rabs x * c1R)) in *.
  assert (Em1 : pw (k - 1) = pw k / 2). { replace k with (k - 1 + 1)%Z at 2 by lia. rewrite p2split. field. }
  pose proof (bpow_gt_0 radix2 k) as Pk. pose proof (bpow_gt_0 radix2 (-52)) as P52.
  assert (pw k <= pw (k + 52)) by (apply bpow_le; lia).
  split; [|lra].
  assert (Fs : FF (SUCC x)) by (apply generic_format_succ; auto with typeclass_instances).
  assert (Ps : PRED (SUCC x) = x) by (apply pred_succ; auto with typeclass_instances).
  assert (S3 : pw k / 2 < e).
  { rewrite Em1 in S1. assert (0 < pw k / 2 * pw (-52)) by (apply Rmult_lt_0_compat; lra). lra. }
  destruct (Rle_or_lt 0 x) as [P|P].
  - pose proof (succ_pos x P) as Sx. rewrite U in Sx.
    apply RN_mid_eq; auto.
    + rewrite Ps, Sx. lra.
    + assert (SUCC x < SUCC (SUCC x)) by (apply succ_gt_id; rewrite Sx; lra). rewrite Sx in *. lra.
  - destruct (succ_neg_cases x k F P U K B M D) as [Sx|(A1 & A2 & Sx)].
    + apply RN_mid_eq; auto.
      * rewrite Ps, Sx. lra.
      * assert (SUCC x < SUCC (SUCC x)).
        { apply succ_gt_id. rewrite Sx. rewrite Rabs_left in D' by auto.
          assert (pw k < pw (k + 52)) by (apply bpow_lt; lia). lra. }
        rewrite Sx in *. lra.
    + (* power of two, below zero *)
      assert (Ee : e = pw (k - 1) * (1 + pw (-52))).
      { unfold e. rewrite A1. apply Rle_antisym; [|rewrite <- A1; auto].
        replace (pw (k + 52) * c1R) with (pw (k - 1) * (1 + pw (-52))).
        - apply RN_le_fmt; [|lra].
          rewrite Rmult_plus_distr_l, Rmult_1_r, <- bpow_plus.
          apply (mult2_small (k - 53)); [lia| |].
          + apply mult2_plus; [apply (mult2_le _ (k - 1)); [lia|]; exists 1%Z; ring|].
            exists 1%Z. rewrite Rmult_1_l. f_equal. lia.
          + rewrite Rabs_pos_eq by (apply Rplus_le_le_0_compat; apply bpow_ge_0).
            replace (k - 53 + 53)%Z with (k - 1 + 1)%Z by lia. rewrite p2split.
            assert (pw (k - 1 + -52) <= pw (k - 1)) by (apply bpow_le; lia). lra.
        - unfold c1R. transitivity ((pw (k + 52) * pw (-53)) * (1 + pw (-52))); [|ring].
          rewrite <- (bpow_plus radix2 (k + 52) (-53)). f_equal. f_equal. lia. }
      apply RN_mid_eq; auto.
      * rewrite Ps, Sx. rewrite Ee. assert (0 < pw (k - 1)) by apply bpow_gt_0. nra.
      * assert (SUCC (SUCC x) = SUCC x + pw (k - 1)) as ->.
        { rewrite Rabs_left in A1 by auto.
          assert (Ax : x = - pw (k + 52)) by lra.
          assert (Nx : SUCC x < 0). { rewrite Sx, Ax. assert (pw (k - 1) < pw (k + 52)) by (apply bpow_lt; lia). lra. }
          assert (Us : ulp radix2 FX (SUCC x) = pw (k - 1)).
          { rewrite ulp_neq_0 by lra. f_equal. unfold cexp.
            rewrite (mag_unique radix2 (SUCC x) (k + 52)).
            - unfold FX, FLT_exp. lia.
            - rewrite Rabs_left by auto. rewrite Sx, Ax.
              replace (k + 52 - 1)%Z with (k + 51)%Z by lia.
              replace (k + 52)%Z with (k + 51 + 1)%Z by lia. rewrite p2split.
              assert (pw (k - 1) <= pw (k + 51)) by (apply bpow_le; lia).
              assert (0 < pw (k - 1)) by apply bpow_gt_0. lra. }
          destruct (succ_neg_cases (SUCC x) (k - 1) Fs Nx Us) as [E|(E1 & _)]; auto; try lia.
          - rewrite Rabs_left by auto. rewrite Sx, Ax. replace (k - 1 + 53)%Z with (k + 52)%Z by lia. lra.
          - rewrite Sx, Ax. apply mult2_plus; [apply mult2_opp; apply (mult2_le _ (k + 52)); [lia|]|]; exists 1%Z; ring.
          - right. rewrite Rabs_left by auto. rewrite Sx, Ax.
            replace (k + 52)%Z with (k + 51 + 1)%Z by lia. rewrite p2split. replace (k - 1 + 52)%Z with (k + 51)%Z by lia.
            assert (pw (k - 1) <= pw (k + 51)) by (apply bpow_le; lia). lra.
          - exfalso. rewrite Rabs_left in E1 by auto. rewrite Sx, Ax in E1.
            replace (k + 52)%Z with (k + 51 + 1)%Z in E1 by lia. rewrite p2split in E1.
            replace (k - 1 + 52)%Z with (k + 51)%Z in E1 by lia.
            assert (pw (k - 1) < pw (k + 51)) by (apply bpow_lt; lia). lra. }
        rewrite Sx, Ee. assert (0 < pw (k - 1)) by apply bpow_gt_0.
        assert (pw (-52) < / 2). { change (/2) with (pw (-1)). apply bpow_lt; lia. } nra.
Qed.

Lemma succ_small x : FF x -> Rabs x < pw (-1021) -> SUCC x = x + pw (-1074) /\ FF (x + pw (-1074)).
Proof.
  intros F L. assert (U : ulp radix2 FX x = pw (-1074)).
  { unfold FX. apply ulp_FLT_small; auto with typeclass_instances. }
  assert (S : SUCC x = x + pw (-1074)).
  { destruct (Rle_or_lt 0 x) as [P|P].
    - rewrite succ_pos by auto. rewrite U; auto.
    - destruct (mag_le_ulp x F) as (k & K & U' & B & M & D); [lra|].
      assert (k = -1074)%Z by (rewrite U in U'; apply bpow_inj in U'; auto). subst.
      destruct (succ_neg_cases x (-1074) F P U K B M D) as [E|(_ & E & _)]; [auto|lia]. }
  split; auto. rewrite <- S. apply generic_format_succ; auto with typeclass_instances.
Qed.

(* scaling by a power of two commutes with rounding in the normal range *)
Lemma cexp_scale x k : x <> 0 -> (-1021 <= mag radix2 x)%Z -> (-1021 <= mag radix2 x + k)%Z ->
  cexp radix2 FX (x * pw k) = (cexp radix2 FX x + k)%Z.
Proof.
  intros N A B. unfold cexp. rewrite mag_mult_bpow by auto. unfold FX, FLT_exp. lia.
Qed.
Lemma mag_ge x e : pw e <= Rabs x -> (e < mag radix2 x)%Z.
Proof. intros. apply mag_gt_bpow. auto. Qed.
Lemma rnd_scale m x k : x = 0 \/ (pw (-1022) <= Rabs x /\ pw (-1022) <= Rabs (x * pw k)) ->
  rnd m (x * pw k) = rnd m x * pw k.
Proof.
  intros [->|[A B]]. { rewrite Rmult_0_l, rnd_0, Rmult_0_l. auto. }
  assert (N : x <> 0). { intros ->. rewrite Rabs_R0 in A. pose proof (bpow_gt_0 radix2 (-1022)). lra. }
  apply mag_ge in A. apply mag_ge in B. rewrite mag_mult_bpow in B by auto.
  unfold rnd, round, F2R. cbn [Fnum Fexp]. unfold scaled_mantissa.
  rewrite cexp_scale by (auto; lia).
  replace (x * pw k * pw (- (cexp radix2 FX x + k))) with (x * pw (- cexp radix2 FX x)).
  - rewrite bpow_plus. ring.
  - rewrite Z.opp_add_distr, bpow_plus, Rmult_assoc. 
    rewrite <- (Rmult_assoc (pw k)), (Rmult_comm (pw k)), Rmult_assoc.
    rewrite <- (bpow_plus radix2 k (- k)). rewrite Z.add_opp_diag_r. simpl. ring.
Qed.
Lemma FF_scale_up x k : (0 <= k)%Z -> FF x -> FF (x * pw k).
Proof.
  intros K F. apply mult_bpow_pos_exact_FLT; auto.
Qed.
Lemma FF_scale x k : FF x -> (x = 0 \/ (-1021 <= mag radix2 x + k)%Z) -> FF (x * pw k).
Proof.
  intros F [->|H]. { rewrite Rmult_0_l. apply FF_0. }
  destruct (Req_dec x 0) as [->|N]. { rewrite Rmult_0_l. apply FF_0. }
  destruct (mult2_fmt x F) as [a Ha].
  apply generic_format_F2R' with (Float radix2 a (cexp radix2 FX x + k)).
  - unfold F2R; cbn [Fnum Fexp]. rewrite bpow_plus, <- Rmult_assoc, <- Ha. auto.
  - intros _. cbn [Fexp]. unfold cexp. rewrite mag_mult_bpow by auto. unfold FX, FLT_exp. lia.
Qed.

Lemma succ_scale x k : FF x -> pw (-1021) <= Rabs x -> (0 <= k)%Z ->
  SUCC (x * pw k) = SUCC x * pw k.
Proof.
  intros F A K. assert (N : x <> 0). { intros ->. rewrite Rabs_R0 in A. pose proof (bpow_gt_0 radix2 (-1021)). lra. }
  pose proof (mag_ge _ _ A) as Mg. pose proof (bpow_gt_0 radix2 k) as Pk.
  assert (U : ulp radix2 FX (x * pw k) = ulp radix2 FX x * pw k).
  { rewrite !ulp_neq_0; auto. 2: { apply Rmult_integral_contrapositive_currified; auto; lra. }
    rewrite cexp_scale by (auto; lia). apply bpow_plus. }
  unfold succ. destruct (Rle_bool_spec 0 x) as [P|P].
  - rewrite Rle_bool_true by nra. rewrite U. ring.
  - rewrite Rle_bool_false by nra.
    replace (- (x * pw k)) with (- x * pw k) by ring.
    assert (pred_pos radix2 FX (- x * pw k) = pred_pos radix2 FX (- x) * pw k) as ->; [|ring].
    unfold pred_pos. rewrite mag_mult_bpow by lra. 
    assert (mag radix2 (- x) = mag radix2 x :> Z) as -> by apply mag_opp.
    case Req_bool_spec; intros E; case Req_bool_spec; intros E'.
    + rewrite Rmult_minus_distr_r, <- bpow_plus. do 2 f_equal. unfold FX, FLT_exp.
      assert (mag radix2 x <> -1021 + 1 :> Z \/ mag radix2 x = -1020 :> Z)%Z by lia. lia.
    + exfalso. apply E'. replace (mag radix2 x + k - 1)%Z with (mag radix2 x - 1 + k)%Z in E by lia.
      rewrite bpow_plus in E. apply Rmult_eq_reg_r in E; lra.
    + exfalso. apply E. rewrite E', <- bpow_plus. f_equal. lia.
    + rewrite Rmult_minus_distr_r. f_equal. replace (- x * pw k) with (- (x * pw k)) by ring. rewrite !ulp_opp, U. ring.
Qed.

Lemma pred_opp x : PRED x = - SUCC (- x).
Proof. unfold pred. auto. Qed.
