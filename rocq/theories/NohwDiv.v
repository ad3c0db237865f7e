(* Quotients and square roots of the emulation; the scalar record for it. *)
From Coq Require Import Reals Lra Lia Psatz ZArith Bool.
From Flocq Require Import Core BinarySingleNaN.
From Verif Require Import Ext Scalar Fp64 RDoubleHw NohwModel NohwReal NohwBase NohwProd NohwProofs.
Open Scope R_scope.

Section Div.
Variable fma : bool.

Definition body_up (xn yn : b64) :=
  let d := xn /. yn in
  if d ==. bpinf then d
  else if d ==. bninf then bmaxneg
  else
    let '(r, r2) := twoproduct fma d yn in
    if (r <. xn) || ((r ==. xn) && (r2 <. b0)) then succ64 d else d.
Definition body_dn (xn yn : b64) :=
  let d := xn /. yn in
  if d ==. bpinf then bmax
  else if d ==. bninf then d
  else
    let '(r, r2) := twoproduct fma d yn in
    if (xn <. r) || ((r ==. xn) && (b0 <. r2)) then pred64 d else d.

Lemma div_v x y a b : v64 x = XR a -> v64 y = XR b -> b <> 0 -> v64 (x /. y) = xr mode_NE (XR (a / b)).
Proof. intros Hx Hy N. rewrite Bdiv_v, Hx, Hy; auto. rewrite Hy. congruence. Qed.

Lemma div_cond xn yn a b : v64 xn = XR a -> v64 yn = XR b -> 0 < b -> pw (-969) <= Rabs a -> fits (a / b) ->
  let d := xn /. yn in let r := fst (twoproduct fma d yn) in let r2 := snd (twoproduct fma d yn) in
  ((r <. xn) || ((r ==. xn) && (r2 <. b0))) = Rlt_bool (RN (a / b)) (a / b) /\
  ((xn <. r) || ((r ==. xn) && (b0 <. r2))) = Rlt_bool (a / b) (RN (a / b)).
Proof.
  intros Hx Hy P L Fi d r r2.
  assert (Hd : v64 d = XR (RN (a / b))). { unfold d. rewrite (div_v _ _ a b), xr_fits; auto. lra. }
  destruct (cmp_tp fma d yn xn _ _ _ Hd Hy Hx (or_introl L)) as [C1 C2].
  fold r in C1, C2. fold r2 in C1, C2. rewrite C1, C2.
  assert (E : a / b * b = a) by (field; lra).
  split.
  - destruct (Rlt_bool_spec (RN (a / b)) (a / b)); [apply Rlt_bool_true|apply Rlt_bool_false]; nra.
  - destruct (Rlt_bool_spec (a / b) (RN (a / b))); [apply Rlt_bool_true|apply Rlt_bool_false]; nra.
Qed.
Lemma body_up_v xn yn a b : v64 xn = XR a -> v64 yn = XR b -> 0 < b -> pw (-969) <= Rabs a ->
  v64 (body_up xn yn) = xr mode_UP (XR (a / b)).
Proof.
  intros Hx Hy P L. unfold body_up. pose proof (div_cond xn yn a b Hx Hy P L) as Hc. cbv zeta in Hc.
  cbv zeta. destruct (twoproduct fma (xn /. yn) yn) as [r r2]. cbn [fst snd] in Hc.
  apply fin_up; [apply div_v; auto; lra|]. intros F. apply Hc; auto.
Qed.
Lemma body_dn_v xn yn a b : v64 xn = XR a -> v64 yn = XR b -> 0 < b -> pw (-969) <= Rabs a ->
  v64 (body_dn xn yn) = xr mode_DN (XR (a / b)).
Proof.
  intros Hx Hy P L. unfold body_dn. pose proof (div_cond xn yn a b Hx Hy P L) as Hc. cbv zeta in Hc.
  cbv zeta. destruct (twoproduct fma (xn /. yn) yn) as [r r2]. cbn [fst snd] in Hc.
  apply fin_dn; [apply div_v; auto; lra|]. intros F. apply Hc; auto.
Qed.

Lemma tiny_up q : 0 < q <= pw (-1074) -> rx mode_UP q = XR (pw (-1074)).
Proof.
  intros [P Q]. unfold rx. assert (rnd mode_UP q = pw (-1074)) as ->.
  { apply Rle_antisym.
    - apply round_le_generic; auto with typeclass_instances. apply FF_pw; lia.
    - assert (F : FF (rnd mode_UP q)) by (apply generic_format_round; auto with typeclass_instances).
      pose proof (UP_ge q). pose proof (mult2_ge (-1074) _ (mult2_FF _ F)). rewrite Rabs_pos_eq in H0 by lra. apply H0. lra. }
  rewrite Rlt_bool_true; auto. rewrite Rabs_pos_eq by apply bpow_ge_0. apply bpow_lt; lia.
Qed.
Lemma tiny_up_neg q : - pw (-1074) < q <= 0 -> rx mode_UP q = XR 0.
Proof.
  intros [P Q]. unfold rx. assert (rnd mode_UP q = 0) as ->.
  { apply Rle_antisym.
    - apply round_le_generic; auto with typeclass_instances. apply FF_0.
    - assert (F : FF (rnd mode_UP q)) by (apply generic_format_round; auto with typeclass_instances).
      pose proof (UP_ge q). pose proof (mult2_ge (-1074) _ (mult2_FF _ F)).
      apply Rnot_lt_le. intros C. rewrite Rabs_left in H0 by lra. assert (rnd mode_UP q <> 0) by lra. specialize (H0 H1). lra. }
  rewrite Rlt_bool_true; auto. rewrite Rabs_R0. apply bpow_gt_0.
Qed.
Lemma tiny_dn_neg q : - pw (-1074) <= q < 0 -> rx mode_DN q = XR (- pw (-1074)).
Proof.
  intros H. pose proof (rx_opp q) as O. apply (f_equal xneg) in O. rewrite xneg_invol in O. rewrite <- O.
  rewrite tiny_up by lra. auto.
Qed.
Lemma tiny_dn q : 0 <= q < pw (-1074) -> rx mode_DN q = XR 0.
Proof.
  intros H. pose proof (rx_opp q) as O. apply (f_equal xneg) in O. rewrite xneg_invol in O. rewrite <- O.
  rewrite tiny_up_neg by lra. simpl. f_equal. ring.
Qed.

(* both directions after normalising the sign of the divisor *)
Lemma div_pos xn yn a b : v64 xn = XR a -> v64 yn = XR b -> 0 < b -> a <> 0 ->
  v64 (if Babs xn <. p2 (-969) then
      if Babs yn <. p2 918 then body_up (xn *. p2 105) (yn *. p2 105)
      else if xn <. b0 then b0 else p2 (-1074)
    else body_up xn yn) = xr mode_UP (XR (a / b)) /\
  v64 (if Babs xn <. p2 (-969) then
      if Babs yn <. p2 918 then body_dn (xn *. p2 105) (yn *. p2 105)
      else if xn <. b0 then Bopp (p2 (-1074)) else b0
    else body_dn xn yn) = xr mode_DN (XR (a / b)).
Proof.
  intros Hx Hy P N. destruct (fmtv _ _ Hx) as [Fa _]. destruct (fmtv _ _ Hy) as [Fb _].
  rewrite (vlt _ _ (Rabs a) (pw (-969))); [|apply vabs; auto|apply p2_v; lia].
  rewrite (vlt _ _ (Rabs b) (pw 918)); [|apply vabs; auto|apply p2_v; lia].
  destruct (Rlt_bool_spec (Rabs a) (pw (-969))) as [L|L]; [|split; [apply body_up_v|apply body_dn_v]; auto].
  destruct (Rlt_bool_spec (Rabs b) (pw 918)) as [L2|L2].
  - assert (S : forall u k, Rabs u < pw k -> (k + 105 <= 1023)%Z -> Rabs (u * pw 105) < pw 1024).
    { intros u k Hu Hk. rewrite Rabs_mult, (Rabs_pos_eq (pw 105)) by apply bpow_ge_0.
      apply Rlt_le_trans with (pw k * pw 105); [apply Rmult_lt_compat_r; [apply bpow_gt_0|auto]|].
      rewrite <- bpow_plus. apply bpow_le; lia. }
    assert (Hx' : v64 (xn *. p2 105) = XR (a * pw 105)).
    { apply vscale; auto; [lia|apply FF_scale_up; [lia|auto]|apply (S a (-969)%Z); auto; lia]. }
    assert (Hy' : v64 (yn *. p2 105) = XR (b * pw 105)).
    { apply vscale; auto; [lia|apply FF_scale_up; [lia|auto]|apply (S b 918%Z); auto; lia]. }
    pose proof (bpow_gt_0 radix2 105) as P105.
    assert (E : a / b = (a * pw 105) / (b * pw 105)) by (field; lra).
    assert (P' : 0 < b * pw 105) by (apply Rmult_lt_0_compat; lra).
    assert (L' : pw (-969) <= Rabs (a * pw 105)).
    { rewrite Rabs_mult, (Rabs_pos_eq (pw 105)) by lra. change (-969)%Z with (-1074 + 105)%Z. rewrite bpow_plus.
      apply Rmult_le_compat_r; [lra|]. apply mult2_ge; auto. apply mult2_FF; auto. }
    rewrite E. split; [apply body_up_v|apply body_dn_v]; auto.
  - assert (Q : Rabs (a / b) < pw (-1074)).
    { unfold Rdiv. rewrite Rabs_mult, (Rabs_pos_eq (/ b)) by (apply Rlt_le, Rinv_0_lt_compat; auto).
      rewrite Rabs_pos_eq in L2 by lra.
      apply Rmult_lt_reg_r with b; auto. rewrite Rmult_assoc, Rinv_l, Rmult_1_r by lra.
      apply Rlt_le_trans with (pw (-969)); auto. apply Rle_trans with (pw (-1074) * pw 918).
      - rewrite <- bpow_plus. apply bpow_le; lia.
      - apply Rmult_le_compat_l; [apply bpow_ge_0|auto]. }
    rewrite (vlt _ _ _ _ Hx b0_v). apply Rabs_lt_inv in Q.
    destruct (Rlt_bool_spec a 0) as [A|A].
    + assert (a / b < 0). { unfold Rdiv. pose proof (Rinv_0_lt_compat b P). nra. }
      simpl xr. rewrite tiny_up_neg, tiny_dn_neg by lra. split; auto.
      apply vopp, p2_v; lia.
    + assert (0 < a / b). { apply Rdiv_lt_0_compat; lra. }
      simpl xr. rewrite tiny_up, tiny_dn by lra. split; auto. apply p2_v; lia.
Qed.

Lemma div_special_false x y : div_special x y = false -> exists a b, v64 x = XR a /\ v64 y = XR b /\ a <> 0 /\ b <> 0.
Proof.
  unfold div_special. rewrite !orb_false_iff, !negb_false_iff. xb. intros (((((A & B) & C) & D) & E) & F).
  destruct (v64 x) as [a| | |], (v64 y) as [b| | |]; simpl in *; try discriminate.
  exists a, b. destruct (Req_bool_spec a 0), (Req_bool_spec b 0); try discriminate. auto.
Qed.
Lemma div_special_true m x y : div_special x y = true -> Bdiv m x y = Bdiv mode_NE x y.
Proof.
  unfold div_special. intros H.
  assert (K : (x ==. b0) = true \/ (y ==. b0) = true \/ (Babs x ==. bpinf) = true \/ (Babs y ==. bpinf) = true \/ (x ==. x) = false \/ (y ==. y) = false).
  { rewrite !orb_true_iff, !negb_true_iff in H. tauto. }
  destruct x as [sx|sx| |sx mx ex Hx]; try reflexivity; destruct y as [sy|sy| |sy my ey Hy]; try reflexivity.
  exfalso. rewrite !eqb_x, !Babs_v' in K. 
  assert (Nz : forall s m e H, B2R (B754_finite s m e H : b64) <> 0).
  { intros s0 m0 e0 H0. change (B2R (B754_finite s0 m0 e0 H0)) with (F2R (Float radix2 (SpecFloat.cond_Zopp s0 (Zpos m0)) e0)).
    intros C. apply eq_0_F2R in C. destruct s0; simpl in C; discriminate. }
  cbn [v64] in K. change (v64 b0) with (XR 0) in K. cbn [xeqb] in K.
  rewrite !(Req_bool_false _ 0) in K by apply Nz. rewrite !(Req_bool_true _ _ eq_refl) in K.
  intuition discriminate.
Qed.

Lemma nh_div_v x y : v64 (nh_div_up fma x y) = v64 (Bdiv mode_UP x y) /\ v64 (nh_div_down fma x y) = v64 (Bdiv mode_DN x y).
Proof.
  unfold nh_div_up, nh_div_down. destruct (div_special x y) eqn:S.
  - rewrite (div_special_true mode_UP), (div_special_true mode_DN) by auto. auto.
  - destruct (div_special_false x y S) as (a & b & Hx & Hy & Na & Nb).
    rewrite !Bdiv_v by (rewrite Hy; congruence). rewrite Hx, Hy. simpl xdiv.
    rewrite (vlt _ _ _ _ Hy b0_v). destruct (Rlt_bool_spec b 0) as [B|B].
    + destruct (div_pos (Bopp x) (Bopp y) (- a) (- b) (vopp _ _ Hx) (vopp _ _ Hy) ltac:(lra) ltac:(lra)) as [D1 D2].
      assert (- a / - b = a / b) as E by (field; auto). rewrite E in D1, D2. split; [exact D1|exact D2].
    + destruct (div_pos x y a b Hx Hy ltac:(lra) Na) as [D1 D2]. split; [exact D1|exact D2].
Qed.

(* square roots *)
Lemma sqrt_cmp d x : 0 <= x -> 0 <= d -> (d < sqrt x <-> d * d < x) /\ (sqrt x < d <-> x < d * d).
Proof.
  intros Hx Hd. pose proof (sqrt_sqrt x Hx) as E. pose proof (sqrt_pos x).
  split; split; intros K.
  - nra. - apply Rnot_le_lt; intros C; nra. - nra. - apply Rnot_le_lt; intros C; nra.
Qed.
Lemma nh_sqrt_up_eq x : nh_sqrt_up fma x =
  let d := Bsqrt mode_NE x in
  let d' := if x <. p2 (-969) then d *. p2 53 else d in
  let x' := if x <. p2 (-969) then x *. p2 106 else x in
  let r := fst (twoproduct fma d' d') in let r2 := snd (twoproduct fma d' d') in
  if (r <. x') || ((r ==. x') && (r2 <. b0)) then succ64 d else d.
Proof.
  unfold nh_sqrt_up. cbv zeta. destruct (x <. p2 (-969)); destruct (twoproduct _ _ _); reflexivity.
Qed.
Lemma nh_sqrt_down_eq x : nh_sqrt_down fma x =
  let d := Bsqrt mode_NE x in
  let d' := if x <. p2 (-969) then d *. p2 53 else d in
  let x' := if x <. p2 (-969) then x *. p2 106 else x in
  let r := fst (twoproduct fma d' d') in let r2 := snd (twoproduct fma d' d') in
  if (x' <. r) || ((r ==. x') && (b0 <. r2)) then pred64 d else d.
Proof.
  unfold nh_sqrt_down. cbv zeta. destruct (x <. p2 (-969)); destruct (twoproduct _ _ _); reflexivity.
Qed.

Lemma sqrt_fits a : 0 <= a -> Rabs a <= maxR -> fits (sqrt a).
Proof.
  intros P B. apply (fits_pw 512); [lia|]. rewrite Rabs_pos_eq by apply sqrt_pos.
  rewrite <- (sqrt_square (pw 512)) by apply bpow_ge_0. apply sqrt_le_1_alt. rewrite <- bpow_plus.
  rewrite Rabs_pos_eq in B by auto. pose proof maxR_lt. change (512 + 512)%Z with 1024%Z. lra.
Qed.
Lemma nh_sqrt_fin x a : v64 x = XR a -> 0 <= a ->
  v64 (nh_sqrt_up fma x) = rx mode_UP (sqrt a) /\ v64 (nh_sqrt_down fma x) = rx mode_DN (sqrt a).
Proof.
  intros Hx P. destruct (fmtv _ _ Hx) as [Fa Ba]. pose proof (sqrt_fits a P Ba) as Fi.
  assert (Hd : v64 (Bsqrt mode_NE x) = XR (RN (sqrt a))).
  { rewrite Bsqrt_v, Hx. simpl xsqrt. rewrite Rlt_bool_false by auto. apply xr_fits; auto. }
  rewrite nh_sqrt_up_eq, nh_sqrt_down_eq. cbv zeta.
  set (d := Bsqrt mode_NE x) in * . set (dd := RN (sqrt a)) in * .
  assert (Pd : 0 <= dd). { apply RN_ge_fmt; [apply FF_0|apply sqrt_pos]. }
  rewrite (vlt _ _ _ _ Hx (p2_v (-969) ltac:(lia))).
  assert (R1 : forall c, c = Rlt_bool dd (sqrt a) -> v64 (if c then succ64 d else d) = rx mode_UP (sqrt a)).
  { intros c ->. rewrite up_fin by auto. fold dd. destruct (Rlt_bool dd (sqrt a)); auto using succ64_v. }
  assert (R2 : forall c, c = Rlt_bool (sqrt a) dd -> v64 (if c then pred64 d else d) = rx mode_DN (sqrt a)).
  { intros c ->. rewrite dn_fin by auto. fold dd. destruct (Rlt_bool (sqrt a) dd); auto using pred64_v. }
  destruct (sqrt_cmp dd a P Pd) as [Q1 Q2].
  destruct (Rlt_bool_spec a (pw (-969))) as [L|L].
  - assert (Bd : dd <= pw (-484)).
    { apply RN_le_fmt; [apply FF_pw; lia|]. rewrite <- (sqrt_square (pw (-484))) by apply bpow_ge_0.
      apply sqrt_le_1_alt. rewrite <- bpow_plus. apply Rle_trans with (pw (-969)); [lra|apply bpow_le; lia]. }
    assert (Hd' : v64 (d *. p2 53) = XR (dd * pw 53)).
    { apply vscale; auto; [lia|apply FF_scale_up; [lia|apply FF_RN]|].
      rewrite Rabs_pos_eq by (apply Rmult_le_pos; [auto|apply bpow_ge_0]).
      apply Rle_lt_trans with (pw (-484) * pw 53); [apply Rmult_le_compat_r; [apply bpow_ge_0|auto]|].
      rewrite <- bpow_plus. apply bpow_lt; lia. }
    assert (Hx' : v64 (x *. p2 106) = XR (a * pw 106)).
    { apply vscale; auto; [lia|apply FF_scale_up; [lia|auto]|].
      rewrite Rabs_pos_eq by (apply Rmult_le_pos; [auto|apply bpow_ge_0]).
      apply Rlt_trans with (pw (-969) * pw 106); [apply Rmult_lt_compat_r; [apply bpow_gt_0|auto]|].
      rewrite <- bpow_plus. apply bpow_lt; lia. }
    destruct (cmp_tp fma _ _ _ _ _ _ Hd' Hd' Hx') as [C1 C2].
    { destruct (Req_dec a 0) as [Za|Za].
      - right. exists 0%Z, 0%Z. unfold dd. rewrite Za, sqrt_0, rnd_0, Rmult_0_l. split; [|split]; auto using mult2_0. lia.
      - left. rewrite Rabs_mult, (Rabs_pos_eq (pw 106)) by apply bpow_ge_0.
        apply Rle_trans with (pw (-1074) * pw 106); [rewrite <- bpow_plus; apply bpow_le; lia|].
        apply Rmult_le_compat_r; [apply bpow_ge_0|]. apply mult2_ge; auto. apply mult2_FF; auto. }
    cbv zeta in C1, C2. rewrite C1, C2.
    assert (E : dd * pw 53 * (dd * pw 53) = dd * dd * pw 106).
    { change 106%Z with (53 + 53)%Z. rewrite bpow_plus. ring. }
    rewrite E. pose proof (bpow_gt_0 radix2 106) as P106. split.
    + apply R1. destruct (Rlt_bool_spec dd (sqrt a)) as [C|C].
      * apply Q1 in C. apply Rlt_bool_true. apply Rmult_lt_compat_r; auto.
      * apply Rlt_bool_false. apply Rmult_le_compat_r; [lra|]. apply Rnot_lt_le. intros K. apply Q1 in K. lra.
    + apply R2. destruct (Rlt_bool_spec (sqrt a) dd) as [C|C].
      * apply Q2 in C. apply Rlt_bool_true. apply Rmult_lt_compat_r; auto.
      * apply Rlt_bool_false. apply Rmult_le_compat_r; [lra|]. apply Rnot_lt_le. intros K. apply Q2 in K. lra.
  - destruct (cmp_tp fma _ _ _ _ _ _ Hd Hd Hx) as [C1 C2].
    { left. rewrite Rabs_pos_eq; auto. }
    cbv zeta in C1, C2. rewrite C1, C2. split.
    + apply R1. destruct (Rlt_bool_spec dd (sqrt a)) as [C|C].
      * apply Q1 in C. apply Rlt_bool_true; auto.
      * apply Rlt_bool_false. apply Rnot_lt_le. intros K. apply Q1 in K. lra.
    + apply R2. destruct (Rlt_bool_spec (sqrt a) dd) as [C|C].
      * apply Q2 in C. apply Rlt_bool_true; auto.
      * apply Rlt_bool_false. apply Rnot_lt_le. intros K. apply Q2 in K. lra.
Qed.
Lemma nh_sqrt_nan x : xsqrt (v64 x) = Xn -> v64 (nh_sqrt_up fma x) = Xn /\ v64 (nh_sqrt_down fma x) = Xn.
Proof.
  intros H. assert (Hd : v64 (Bsqrt mode_NE x) = Xn) by (rewrite Bsqrt_v, H; auto).
  rewrite nh_sqrt_up_eq, nh_sqrt_down_eq. cbv zeta. split.
  - destruct (_ || _); auto using succ64_nan.
  - destruct (_ || _); auto using pred64_nan.
Qed.
Lemma nh_sqrt_inf : v64 (nh_sqrt_up fma bpinf) = Xp /\ v64 (nh_sqrt_down fma bpinf) = Xp.
Proof.
  rewrite nh_sqrt_up_eq, nh_sqrt_down_eq. cbv zeta.
  assert (bpinf <. p2 (-969) = false) as ->. { rewrite ltb_x, p2_v by lia. reflexivity. }
  change (Bsqrt mode_NE bpinf) with bpinf.
  rewrite !twoproduct_fst. change (bpinf *. bpinf) with bpinf.
  assert (snd (twoproduct fma bpinf bpinf) = B754_nan) as ->.
  { unfold twoproduct. destruct fma; [reflexivity|].
    change (bpinf *. bpinf) with bpinf. change (Babs bpinf) with bpinf.
    assert (p2 996 <. bpinf = true) as ->. { rewrite ltb_x, p2_v by lia. reflexivity. }
    assert (p2 1023 <. bpinf = true) as ->. { rewrite ltb_x, p2_v by lia. reflexivity. }
    assert (forall z, 0 < z -> forall w, v64 w = XR z -> bpinf *. w = bpinf) as M.
    { intros z Hz w Hw. apply v64_Xp. rewrite Bmult_v, Hw. simpl. unfold xsgn_inf. rewrite Rcompare_Gt; auto. }
    rewrite (M (pw (-28))), (M (pw 28)); try (apply p2_v; lia); try apply bpow_gt_0.
    unfold split. rewrite (M (IZR (2 ^ 27 + 1) * pw 0)) by (try (apply bdy_v; lia); rewrite Rmult_1_r; apply IZR_lt; lia).
    reflexivity. }
  split; reflexivity.
Qed.
Lemma nh_sqrt_up_v x : v64 (nh_sqrt_up fma x) = xr mode_UP (xsqrt (v64 x)).
Proof.
  destruct (v64 x) as [a| | |] eqn:E.
  - simpl. destruct (Rlt_bool_spec a 0) as [N|N].
    + apply nh_sqrt_nan. rewrite E. simpl. rewrite Rlt_bool_true; auto.
    + apply (nh_sqrt_fin x a); auto.
  - apply v64_Xp in E. subst. apply nh_sqrt_inf.
  - apply nh_sqrt_nan. rewrite E; auto.
  - apply nh_sqrt_nan. rewrite E; auto.
Qed.
Lemma nh_sqrt_down_v x : v64 (nh_sqrt_down fma x) = xr mode_DN (xsqrt (v64 x)).
Proof.
  destruct (v64 x) as [a| | |] eqn:E.
  - simpl. destruct (Rlt_bool_spec a 0) as [N|N].
    + apply nh_sqrt_nan. rewrite E. simpl. rewrite Rlt_bool_true; auto.
    + apply (nh_sqrt_fin x a); auto.
  - apply v64_Xp in E. subst. apply nh_sqrt_inf.
  - apply nh_sqrt_nan. rewrite E; auto.
  - apply nh_sqrt_nan. rewrite E; auto.
Qed.

Lemma ideal_nohw : ideal64 nh_add_up nh_add_down nh_sub_up nh_sub_down (nh_mul_up fma) (nh_mul_down fma)
  (nh_div_up fma) (nh_div_down fma) (nh_sqrt_up fma) (nh_sqrt_down fma).
Proof.
  constructor; intros.
  - apply nh_add_up_v. - apply nh_add_down_v. - apply nh_sub_up_v. - apply nh_sub_down_v.
  - apply nh_mul_up_v. - apply nh_mul_down_v.
  - rewrite (proj1 (nh_div_v x y)). apply Bdiv_v; auto.
  - rewrite (proj2 (nh_div_v x y)). apply Bdiv_v; auto.
  - apply nh_sqrt_up_v. - apply nh_sqrt_down_v.
Qed.
Lemma D_nohw_ok : scal_ok (D_nohw fma).
Proof. apply mk64_ok, ideal_nohw. Qed.
End Div.
