(* IEEE binary64 (Flocq's binary_float 53 1024) with its meaning in the extended reals, the
   ideal rounding function xr, and the scalar instance for hardware directed rounding. *)
From Coq Require Import Reals Lra Lia Psatz ZArith Bool.
From Flocq Require Import Core BinarySingleNaN.
From Verif Require Import Ext Scalar.
Open Scope R_scope.

#[global] Instance prec53 : Prec_gt_0 53 := eq_refl.
#[global] Instance emax1024 : Prec_lt_emax 53 1024 := eq_refl.

Definition b64 := binary_float 53 1024.
Definition FX : Z -> Z := FLT_exp (-1074) 53.
Definition rnd (m : mode) : R -> R := round radix2 FX (round_mode m).
Definition maxR : R := bpow radix2 1024 - bpow radix2 971.

Definition v64 (x : b64) : ext :=
  match x with
  | B754_zero _ => XR 0
  | B754_infinity false => Xp
  | B754_infinity true => Xm
  | B754_nan => Xn
  | B754_finite s m e H => XR (B2R (B754_finite s m e H))
  end.

(* IEEE rounding of a real in direction m, including overflow *)
Definition rx (m : mode) (e : R) : ext :=
  if Rlt_bool (Rabs (rnd m e)) (bpow radix2 1024) then XR (rnd m e)
  else if overflow_to_inf m (Rlt_bool e 0) then (if Rlt_bool e 0 then Xm else Xp)
  else XR (if Rlt_bool e 0 then - maxR else maxR).
Definition xr (m : mode) (e : ext) : ext := match e with XR r => rx m r | o => o end.

Lemma v64_fin (x : b64) : is_finite x = true -> v64 x = XR (B2R x).
Proof. destruct x; simpl; auto; discriminate. Qed.
Lemma v64_XR (x : b64) r : v64 x = XR r -> is_finite x = true /\ B2R x = r.
Proof. destruct x as [|[]| |]; simpl; try discriminate; intros H; injection H; auto. Qed.
Lemma v64_Xp (x : b64) : v64 x = Xp -> x = B754_infinity false.
Proof. destruct x as [|[]| |]; simpl; try discriminate; auto. Qed.
Lemma v64_Xm (x : b64) : v64 x = Xm -> x = B754_infinity true.
Proof. destruct x as [|[]| |]; simpl; try discriminate; auto. Qed.
Lemma v64_Xn (x : b64) : v64 x = Xn -> x = B754_nan.
Proof. destruct x as [|[]| |]; simpl; try discriminate; auto. Qed.

#[global] Instance FXv : Valid_exp FX := FLT_exp_valid (-1074) 53.
#[global] Instance FXm : Monotone_exp FX := FLT_exp_monotone (-1074) 53.

Lemma fmt_B2R (x : b64) : generic_format radix2 FX (B2R x).
Proof. exact (generic_format_B2R 53 1024 x). Qed.

Lemma maxR_pos : 0 < maxR.
Proof. unfold maxR. assert (bpow radix2 971 < bpow radix2 1024) by (apply bpow_lt; lia). lra. Qed.
Lemma B2R_le_max (x : b64) : Rabs (B2R x) <= maxR.
Proof. exact (abs_B2R_le_emax_minus_prec 53 1024 eq_refl x). Qed.
Lemma p53_971 : IZR (2 ^ 53) * bpow radix2 971 = bpow radix2 1024.
Proof.
  change (2 ^ 53)%Z with (radix_val radix2 ^ 53)%Z. rewrite IZR_Zpower by lia.
  rewrite <- bpow_plus. f_equal.
Qed.
Lemma fmt_max : generic_format radix2 FX maxR.
Proof.
  replace maxR with (F2R (Float radix2 (2 ^ 53 - 1) 971)).
  - apply generic_format_F2R. intros _. unfold cexp, FX, FLT_exp.
    assert (mag radix2 (F2R (Float radix2 (2 ^ 53 - 1) 971)) <= 1024)%Z.
    { apply mag_le_bpow.
      - apply F2R_neq_0. simpl; lia.
      - unfold F2R; simpl Fnum; simpl Fexp. rewrite Rabs_pos_eq.
        + replace (bpow radix2 1024) with (IZR (2 ^ 53) * bpow radix2 971).
          * apply Rmult_lt_compat_r; [apply bpow_gt_0|]. apply IZR_lt. lia.
          * apply p53_971.
        + apply Rmult_le_pos; [apply IZR_le; lia|apply bpow_ge_0]. }
    lia.
  - unfold F2R; cbn [Fnum Fexp]. unfold maxR.
    rewrite minus_IZR, Rmult_minus_distr_r, p53_971. ring.
Qed.

Lemma v64_ovf (z : b64) m s : B2SF z = binary_overflow 53 1024 m s ->
  v64 z = if overflow_to_inf m s then (if s then Xm else Xp) else XR (if s then - maxR else maxR).
Proof.
  unfold binary_overflow. destruct (overflow_to_inf m s).
  - intros H. destruct z as [|[]| |]; simpl in *; try discriminate; injection H as <-; auto.
  - intros H. destruct z as [|[]| |]; simpl in *; try discriminate.
    assert (E : B2R (B754_finite s0 m0 e e0 : b64) = SF2R radix2 (SpecFloat.S754_finite s 9007199254740991 971)).
    { rewrite <- H. reflexivity. }
    simpl in E. rewrite E. f_equal. unfold F2R, cond_Zopp; simpl Fnum; simpl Fexp.
    unfold maxR. rewrite <- p53_971.
    destruct s; cbn [Z.opp]; change (Z.neg 9007199254740991) with (- (2 ^ 53 - 1))%Z;
    change (Z.pos 9007199254740991) with (2 ^ 53 - 1)%Z;
    rewrite ?opp_IZR, minus_IZR; ring.
Qed.

(* sign of a value whose rounding overflows *)
Lemma rnd_0 m : rnd m 0 = 0.
Proof. apply round_0. auto with typeclass_instances. Qed.
Lemma big_nz m e : Rlt_bool (Rabs (rnd m e)) (bpow radix2 1024) = false -> e <> 0.
Proof.
  intros H ->. rewrite rnd_0, Rabs_R0, Rlt_bool_true in H; [discriminate|apply bpow_gt_0].
Qed.

Lemma Bsign_B2R (x : b64) : is_finite x = true -> B2R x <> 0 -> Bsign x = Rlt_bool (B2R x) 0.
Proof.
  destruct x; simpl; try discriminate; try (intros; lra). intros _ _.
  unfold F2R; simpl Fnum; simpl Fexp. pose proof (bpow_gt_0 radix2 e).
  destruct s; simpl.
  - rewrite Rlt_bool_true; auto. assert (IZR (Z.neg m) < 0) by (apply IZR_lt; lia). nra.
  - rewrite Rlt_bool_false; auto. assert (0 < IZR (Z.pos m)) by (apply IZR_lt; lia). nra.
Qed.

Lemma Bplus_v m (x y : b64) : v64 (Bplus m x y) = xr m (xadd (v64 x) (v64 y)).
Proof.
  destruct (is_finite x) eqn:Fx; [destruct (is_finite y) eqn:Fy|].
  - rewrite (v64_fin x), (v64_fin y) by auto. simpl.
    pose proof (Bplus_correct 53 1024 _ _ m x y Fx Fy) as H. unfold rx.
    change (round radix2 (SpecFloat.fexp 53 1024) (round_mode m) (B2R x + B2R y)) with (rnd m (B2R x + B2R y)) in H.
    destruct (Rlt_bool (Rabs (rnd m (B2R x + B2R y))) (bpow radix2 1024)) eqn:E.
    + destruct H as (H1 & H2 & _). rewrite v64_fin, H1 by auto. auto.
    + destruct H as (H1 & H2). apply v64_ovf in H1. rewrite H1.
      assert (Bsign x = Rlt_bool (B2R x + B2R y) 0) as ->; auto.
      pose proof (big_nz _ _ E) as NZ.
      destruct (Req_dec (B2R x) 0) as [Zx|Zx]; destruct (Req_dec (B2R y) 0) as [Zy|Zy].
      * exfalso; lra.
      * rewrite H2, Zx, Rplus_0_l. apply Bsign_B2R; auto.
      * rewrite Zy, Rplus_0_r. apply Bsign_B2R; auto.
      * pose proof (Bsign_B2R x Fx Zx) as S1. pose proof (Bsign_B2R y Fy Zy) as S2.
        rewrite S1, S2 in H2. rewrite S1. revert H2.
        destruct (Rlt_bool_spec (B2R x) 0), (Rlt_bool_spec (B2R y) 0); try discriminate; intros _.
        -- rewrite Rlt_bool_true; auto; lra.
        -- rewrite Rlt_bool_false; auto; lra.
  - destruct x as [|[]| |], y as [|[]| |]; simpl in *; try discriminate; auto.
  - destruct x as [|[]| |], y as [|[]| |]; simpl in *; try discriminate; auto.
Qed.

Lemma Bopp_v (x : b64) : v64 (Bopp x) = xneg (v64 x).
Proof.
  destruct x as [|[]| |]; simpl; auto; f_equal; try ring.
  change (B2R (Bopp (B754_finite s m e e0 : b64)) = - B2R (B754_finite s m e e0 : b64)).
  apply B2R_Bopp.
Qed.
Lemma Babs_v (x : b64) : v64 (Babs x) = match v64 x with XR r => XR (Rabs r) | Xm => Xp | o => o end.
Proof.
  destruct x as [|[]| |]; simpl; auto; f_equal. { rewrite Rabs_R0; auto. }
  change (B2R (Babs (B754_finite s m e e0 : b64)) = Rabs (B2R (B754_finite s m e e0 : b64))).
  apply B2R_Babs.
Qed.

Lemma Bminus_Bplus m (x y : b64) : v64 (Bminus m x y) = v64 (Bplus m x (Bopp y)).
Proof.
  destruct x as [sx|[]| |sx mx ex Hx], y as [sy|[]| |sy my ey Hy]; simpl; auto;
  try (destruct sx, sy; simpl; reflexivity).
Qed.
Lemma Bminus_v m (x y : b64) : v64 (Bminus m x y) = xr m (xsub (v64 x) (v64 y)).
Proof. rewrite Bminus_Bplus, Bplus_v, Bopp_v. reflexivity. Qed.

Lemma sgn_mul a b : a <> 0 -> b <> 0 -> xorb (Rlt_bool a 0) (Rlt_bool b 0) = Rlt_bool (a * b) 0.
Proof.
  intros. destruct (Rlt_bool_spec a 0), (Rlt_bool_spec b 0); simpl; symmetry;
  (apply Rlt_bool_true + apply Rlt_bool_false); nra.
Qed.
Lemma sgn_div a b : a <> 0 -> b <> 0 -> xorb (Rlt_bool a 0) (Rlt_bool b 0) = Rlt_bool (a / b) 0.
Proof.
  intros. unfold Rdiv. rewrite <- sgn_mul; auto using Rinv_neq_0_compat. f_equal.
  destruct (Rlt_bool_spec b 0); symmetry; [apply Rlt_bool_true|apply Rlt_bool_false].
  - apply Rinv_lt_0_compat; auto.
  - apply Rlt_le, Rinv_0_lt_compat; lra.
Qed.

Lemma fin_pos_v s m e H : v64 (B754_finite s m e H) = XR (B2R (B754_finite s m e H : b64)) /\
  (if s then B2R (B754_finite s m e H : b64) < 0 else 0 < B2R (B754_finite s m e H : b64)).
Proof.
  split; auto. simpl. unfold F2R; simpl Fnum; simpl Fexp. pose proof (bpow_gt_0 radix2 e).
  destruct s; simpl.
  - assert (IZR (Z.neg m) < 0) by (apply IZR_lt; lia). nra.
  - assert (0 < IZR (Z.pos m)) by (apply IZR_lt; lia). nra.
Qed.

Lemma Bmult_v m (x y : b64) : v64 (Bmult m x y) = xr m (xmul (v64 x) (v64 y)).
Proof.
  destruct (is_finite x) eqn:Fx; [destruct (is_finite y) eqn:Fy|].
  - rewrite (v64_fin x), (v64_fin y) by auto. simpl.
    pose proof (Bmult_correct 53 1024 _ _ m x y) as H. unfold rx.
    change (round radix2 (SpecFloat.fexp 53 1024) (round_mode m) (B2R x * B2R y)) with (rnd m (B2R x * B2R y)) in H.
    destruct (Rlt_bool (Rabs (rnd m (B2R x * B2R y))) (bpow radix2 1024)) eqn:E.
    + destruct H as (H1 & H2 & _). rewrite Fx, Fy in H2. rewrite v64_fin, H1 by auto. auto.
    + apply v64_ovf in H. rewrite H. pose proof (big_nz _ _ E) as NZ.
      assert (B2R x <> 0) by (intros K; rewrite K in NZ; lra).
      assert (B2R y <> 0) by (intros K; rewrite K in NZ; lra).
      rewrite !Bsign_B2R, sgn_mul by auto. auto.
  - destruct x as [sx|sx| |sx mx ex Hx]; try discriminate; destruct y as [sy|sy| |sy my ey Hy]; try discriminate; try reflexivity.
    + destruct sy; simpl; unfold xsgn_inf; rewrite Rcompare_Eq by auto; reflexivity.
    + destruct (fin_pos_v sx mx ex Hx) as [-> Hs].
      destruct sx, sy; cbn [v64 xmul]; first [rewrite xsgn_inf_neg by assumption|rewrite xsgn_inf_pos by assumption]; reflexivity.
  - destruct x as [sx|sx| |sx mx ex Hx]; try discriminate; destruct y as [sy|sy| |sy my ey Hy]; try reflexivity.
    + destruct sx; simpl; unfold xsgn_inf; rewrite Rcompare_Eq by auto; reflexivity.
    + destruct sx, sy; reflexivity.
    + destruct sx; reflexivity.
    + destruct (fin_pos_v sy my ey Hy) as [-> Hs].
      destruct sx, sy; cbn [v64 xmul]; first [rewrite xsgn_inf_neg by assumption|rewrite xsgn_inf_pos by assumption]; reflexivity.
Qed.

Lemma rx_0 m : rx m 0 = XR 0.
Proof.
  unfold rx. rewrite rnd_0, Rabs_R0, Rlt_bool_true; auto. apply bpow_gt_0.
Qed.

Lemma Bdiv_v m (x y : b64) : v64 y <> XR 0 -> v64 (Bdiv m x y) = xr m (xdiv (v64 x) (v64 y)).
Proof.
  intros Ny. destruct (is_finite x) eqn:Fx; [destruct (is_finite y) eqn:Fy|].
  - rewrite (v64_fin y) in Ny by auto.
    assert (Ny' : B2R y <> 0) by (intros K; apply Ny; f_equal; auto).
    rewrite (v64_fin x), (v64_fin y) by auto. simpl.
    pose proof (Bdiv_correct 53 1024 _ _ m x y Ny') as H. unfold rx.
    change (round radix2 (SpecFloat.fexp 53 1024) (round_mode m) (B2R x / B2R y)) with (rnd m (B2R x / B2R y)) in H.
    destruct (Rlt_bool (Rabs (rnd m (B2R x / B2R y))) (bpow radix2 1024)) eqn:E.
    + destruct H as (H1 & H2 & _). rewrite Fx in H2. rewrite v64_fin, H1 by auto. auto.
    + apply v64_ovf in H. rewrite H. pose proof (big_nz _ _ E) as NZ.
      assert (B2R x <> 0) by (intros K; rewrite K in NZ; apply NZ; unfold Rdiv; ring).
      rewrite !Bsign_B2R, sgn_div by auto. auto.
  - destruct x as [sx|sx| |sx mx ex Hx]; try discriminate; destruct y as [sy|sy| |sy my ey Hy]; try discriminate; try reflexivity;
    destruct sy; simpl; rewrite rx_0; reflexivity.
  - destruct x as [sx|sx| |sx mx ex Hx]; try discriminate; destruct y as [sy|sy| |sy my ey Hy]; try reflexivity.
    + exfalso; apply Ny; reflexivity.
    + destruct sx, sy; reflexivity.
    + destruct sx; reflexivity.
    + destruct (fin_pos_v sy my ey Hy) as [-> Hs].
      destruct sx, sy; cbn [v64 xdiv]; first [rewrite xsgn_inf_neg by assumption|rewrite xsgn_inf_pos by assumption]; reflexivity.
Qed.

Lemma rnd_fmt_abs m e M : generic_format radix2 FX M -> Rabs e <= M -> Rabs (rnd m e) <= M.
Proof.
  intros F H. apply abs_round_le_generic; auto with typeclass_instances.
Qed.


Lemma Bsqrt_v m (x : b64) : v64 (Bsqrt m x) = xr m (xsqrt (v64 x)).
Proof.
  destruct x as [sx|sx| |sx mx ex Hx]; try reflexivity.
  - simpl. rewrite Rlt_bool_false by lra. simpl. rewrite sqrt_0, rx_0. auto.
  - destruct sx; reflexivity.
  - destruct (fin_pos_v sx mx ex Hx) as [E Hs]. rewrite E. unfold xsqrt.
    destruct sx.
    + rewrite Rlt_bool_true by auto. reflexivity.
    + rewrite Rlt_bool_false by lra.
      pose proof (Bsqrt_correct 53 1024 _ _ m (B754_finite false mx ex Hx)) as (H1 & H2 & _).
      rewrite v64_fin by auto. rewrite H1. simpl xr. unfold rx.
      change (round radix2 (SpecFloat.fexp 53 1024) (round_mode m)) with (rnd m).
      rewrite Rlt_bool_true; auto.
      pose proof (abs_B2R_lt_emax 53 1024 (Bsqrt m (B754_finite false mx ex Hx))) as K.
      rewrite H1 in K. exact K.
Qed.

(* comparisons *)
Lemma Bltb_v (x y : b64) : Bltb x y = true <-> xlt (v64 x) (v64 y).
Proof.
  destruct (is_finite x) eqn:Fx; [destruct (is_finite y) eqn:Fy|].
  - rewrite Bltb_correct, (v64_fin x), (v64_fin y) by auto. simpl.
    destruct (Rlt_bool_spec (B2R x) (B2R y)); split; auto; intros; try discriminate; lra.
  - destruct x as [sx|sx| |sx mx ex Hx]; try discriminate; destruct y as [sy|[]| |sy my ey Hy]; try discriminate;
    unfold Bltb; simpl; try (destruct sx); simpl; split; auto; try discriminate; try tauto.
  - destruct x as [sx|[]| |sx mx ex Hx]; try discriminate; destruct y as [sy|[]| |[] my ey Hy]; try discriminate;
    unfold Bltb; simpl; split; auto; try discriminate; try tauto.
Qed.
Lemma Bleb_v (x y : b64) : Bleb x y = true <-> xle (v64 x) (v64 y).
Proof.
  destruct (is_finite x) eqn:Fx; [destruct (is_finite y) eqn:Fy|].
  - rewrite Bleb_correct, (v64_fin x), (v64_fin y) by auto. simpl.
    destruct (Rle_bool_spec (B2R x) (B2R y)); split; auto; intros; try discriminate; lra.
  - destruct x as [sx|sx| |sx mx ex Hx]; try discriminate; destruct y as [sy|[]| |sy my ey Hy]; try discriminate;
    unfold Bleb; simpl; try (destruct sx); simpl; split; auto; try discriminate; try tauto.
  - destruct x as [sx|[]| |sx mx ex Hx]; try discriminate; destruct y as [sy|[]| |[] my ey Hy]; try discriminate;
    unfold Bleb; simpl; split; auto; try discriminate; try tauto.
Qed.
Lemma Beqb_v (x y : b64) : Beqb x y = true <-> xeq (v64 x) (v64 y).
Proof.
  destruct (is_finite x) eqn:Fx; [destruct (is_finite y) eqn:Fy|].
  - rewrite Beqb_correct, (v64_fin x), (v64_fin y) by auto. simpl.
    destruct (Req_bool_spec (B2R x) (B2R y)); split; auto; intros; try discriminate; lra.
  - destruct x as [sx|sx| |sx mx ex Hx]; try discriminate; destruct y as [sy|[]| |sy my ey Hy]; try discriminate;
    unfold Beqb; simpl; try (destruct sx); simpl; split; auto; try discriminate; try tauto.
  - destruct x as [sx|[]| |sx mx ex Hx]; try discriminate; destruct y as [sy|[]| |[] my ey Hy]; try discriminate;
    unfold Beqb; simpl; split; auto; try discriminate; try tauto.
Qed.

(* directed rounding is directed *)
Lemma rx_dn e : xdown (XR e) (rx mode_DN e).
Proof.
  unfold rx. pose proof (round_DN_pt radix2 FX e) as (_ & D & _).
  change (round radix2 FX Zfloor e) with (rnd mode_DN e) in D.
  destruct (Rlt_bool_spec (Rabs (rnd mode_DN e)) (bpow radix2 1024)) as [L|L]; simpl; auto.
  destruct (Rlt_bool_spec e 0); simpl; auto.
  unfold maxR. pose proof (bpow_gt_0 radix2 971).
  assert (0 <= rnd mode_DN e).
  { unfold rnd. apply round_ge_generic; auto with typeclass_instances. apply generic_format_0. }
  rewrite Rabs_pos_eq in L by auto. lra.
Qed.
Lemma rx_up e : xup (XR e) (rx mode_UP e).
Proof.
  unfold rx. pose proof (round_UP_pt radix2 FX e) as (_ & D & _).
  change (round radix2 FX Zceil e) with (rnd mode_UP e) in D.
  destruct (Rlt_bool_spec (Rabs (rnd mode_UP e)) (bpow radix2 1024)) as [L|L]; simpl; auto.
  destruct (Rlt_bool_spec e 0); simpl; auto.
  unfold maxR. pose proof (bpow_gt_0 radix2 971).
  assert (rnd mode_UP e <= 0).
  { unfold rnd. apply round_le_generic; auto with typeclass_instances. apply generic_format_0. lra. }
  rewrite Rabs_left1 in L by auto. lra.
Qed.
Lemma xr_dn e : xdown e (xr mode_DN e).
Proof. destruct e; simpl xr; try apply rx_dn; simpl; auto. Qed.
Lemma xr_up e : xup e (xr mode_UP e).
Proof. destruct e; simpl xr; try apply rx_up; simpl; auto. Qed.

(* negation trick: rounding up the opposite is the opposite of rounding down *)
Lemma rx_opp e : rx mode_UP (- e) = xneg (rx mode_DN e).
Proof.
  unfold rx. assert (E : rnd mode_UP (- e) = - rnd mode_DN e).
  { unfold rnd; simpl. rewrite round_UP_opp. reflexivity. }
  rewrite E, Rabs_Ropp. destruct (Rlt_bool_spec (Rabs (rnd mode_DN e)) (bpow radix2 1024)) as [L|L]; auto.
  assert (N : e <> 0). { apply (big_nz mode_DN). apply Rlt_bool_false; auto. }
  destruct (Rlt_bool_spec e 0).
  - rewrite Rlt_bool_false by lra. reflexivity.
  - rewrite Rlt_bool_true by lra. simpl. reflexivity.
Qed.
Lemma xr_opp e : xr mode_UP (xneg e) = xneg (xr mode_DN e).
Proof. destruct e; simpl xneg; simpl xr; auto. apply rx_opp. Qed.

(* constants *)
Definition b0 : b64 := B754_zero false.
Definition bpinf : b64 := B754_infinity false.
Definition bninf : b64 := B754_infinity true.
Definition bdy (m e : Z) : b64 := binary_normalize 53 1024 _ _ mode_NE m e false.
Definition b1 : b64 := bdy 1 0.
Definition bmax : b64 := Bmax_float.
Definition bdmin : b64 := bdy 1 (-1074).
Definition beps : b64 := bdy 1 (-52).

Lemma bdy_v m e : (Z.abs m <= 2 ^ 53)%Z -> (-1074 <= e <= 970)%Z -> v64 (bdy m e) = XR (IZR m * bpow radix2 e).
Proof.
  intros Hm He.
  pose proof (binary_normalize_correct 53 1024 _ _ mode_NE m e false) as H.
  change (round radix2 (SpecFloat.fexp 53 1024) (round_mode mode_NE)) with (rnd mode_NE) in H.
  assert (Ff : generic_format radix2 FX (F2R (Float radix2 m e))).
  { destruct (Z.eq_dec (Z.abs m) (2 ^ 53)) as [E|E].
    - assert (F2R (Float radix2 m e) = F2R (Float radix2 (Z.sgn m) (e + 53))) as ->.
      { unfold F2R; cbn [Fnum Fexp]. rewrite bpow_plus. replace m with (Z.sgn m * 2 ^ 53)%Z at 1 by lia.
        rewrite mult_IZR. change (2 ^ 53)%Z with (radix_val radix2 ^ 53)%Z. rewrite IZR_Zpower by lia. ring. }
      apply generic_format_FLT. exists (Float radix2 (Z.sgn m) (e + 53)); auto; simpl; lia.
    - apply generic_format_FLT. exists (Float radix2 m e); auto; simpl; lia. }
  unfold rnd in H. rewrite round_generic in H; auto with typeclass_instances.
  rewrite Rlt_bool_true in H.
  - destruct H as (H1 & H2 & _). unfold bdy. rewrite v64_fin by auto. rewrite H1. reflexivity.
  - unfold F2R; cbn [Fnum Fexp]. rewrite Rabs_mult, (Rabs_pos_eq (bpow radix2 e)) by apply bpow_ge_0.
    apply Rle_lt_trans with (IZR (2 ^ 53) * bpow radix2 970).
    + apply Rmult_le_compat; try apply Rabs_pos; try apply bpow_ge_0.
      * rewrite <- abs_IZR. apply IZR_le; auto.
      * apply bpow_le; lia.
    + change (2 ^ 53)%Z with (radix_val radix2 ^ 53)%Z. rewrite IZR_Zpower by lia. rewrite <- bpow_plus.
      apply bpow_lt; lia.
Qed.
Lemma b1_v : v64 b1 = XR 1.
Proof. unfold b1. rewrite bdy_v by lia. f_equal. simpl. ring. Qed.
Lemma bmax_v : v64 bmax = XR maxR.
Proof.
  unfold bmax. rewrite v64_fin by reflexivity. f_equal.
  unfold Bmax_float. rewrite B2R_SF2B. unfold SF2R, F2R; cbn [Fnum Fexp cond_Zopp].
  change (Z.pos (shift_pos (Z.to_pos 53) 1 - 1)) with (2 ^ 53 - 1)%Z. change (1024 - 53)%Z with 971%Z.
  rewrite minus_IZR, Rmult_minus_distr_r, p53_971. unfold maxR. ring.
Qed.
Lemma bdmin_v : v64 bdmin = XR (bpow radix2 (-1074)).
Proof. unfold bdmin. rewrite bdy_v by lia. f_equal. ring. Qed.
Lemma beps_v : v64 beps = XR (bpow radix2 (-52)).
Proof. unfold beps. rewrite bdy_v by lia. f_equal. ring. Qed.
