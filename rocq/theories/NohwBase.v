(* binary64-level facts for the emulation: neighbours, twosum, and finishing a directed rounding. *)
From Coq Require Import Reals Lra Lia Psatz ZArith Bool.
From Flocq Require Import Core BinarySingleNaN Pff2Flocq.
From Verif Require Import Ext Scalar Fp64 RDoubleHw NohwModel NohwReal.
Open Scope R_scope.

Definition fits (e : R) := Rabs (RN e) < pw 1024.

Lemma xr_fits e : fits e -> xr mode_NE (XR e) = XR (RN e).
Proof. intros F. simpl. unfold rx. rewrite Rlt_bool_true; auto. Qed.
Lemma maxR_lt : maxR < pw 1024.
Proof. unfold maxR. pose proof (bpow_gt_0 radix2 971). lra. Qed.
Lemma fits_le M e : FF M -> M < pw 1024 -> Rabs e <= M -> fits e.
Proof. intros. unfold fits. eapply Rle_lt_trans; [apply RN_abs_le; eauto|auto]. Qed.
Lemma fits_max e : Rabs e <= maxR -> fits e.
Proof. intros. eapply fits_le; eauto. apply fmt_max. apply maxR_lt. Qed.
Lemma fits_pw k e : (-1074 <= k < 1024)%Z -> Rabs e <= pw k -> fits e.
Proof. intros K. intros. apply (fits_le (pw k)); auto. apply FF_pw; lia. apply bpow_lt; lia. Qed.

Lemma fmtv (x : b64) a : v64 x = XR a -> FF a /\ Rabs a <= maxR.
Proof. intros H. apply v64_XR in H as [_ <-]. split; [apply fmt_B2R|apply B2R_le_max]. Qed.
Lemma fits_fmt a : FF a -> Rabs a <= maxR -> fits a.
Proof. intros. apply fits_max; auto. Qed.

Lemma vadd (x y : b64) a b : v64 x = XR a -> v64 y = XR b -> fits (a + b) -> v64 (x +. y) = XR (RN (a + b)).
Proof. intros Hx Hy F. rewrite Bplus_v, Hx, Hy. apply xr_fits; auto. Qed.
Lemma vsub (x y : b64) a b : v64 x = XR a -> v64 y = XR b -> fits (a - b) -> v64 (x -. y) = XR (RN (a - b)).
Proof. intros Hx Hy F. rewrite Bminus_v, Hx, Hy. apply xr_fits; auto. Qed.
Lemma vmul (x y : b64) a b : v64 x = XR a -> v64 y = XR b -> fits (a * b) -> v64 (x *. y) = XR (RN (a * b)).
Proof. intros Hx Hy F. rewrite Bmult_v, Hx, Hy. apply xr_fits; auto. Qed.
Lemma vabs (x : b64) a : v64 x = XR a -> v64 (Babs x) = XR (Rabs a).
Proof. intros H. rewrite Babs_v, H. auto. Qed.
Lemma vopp (x : b64) a : v64 x = XR a -> v64 (Bopp x) = XR (- a).
Proof. intros H. rewrite Bopp_v, H. auto. Qed.
Lemma vlt (x y : b64) a b : v64 x = XR a -> v64 y = XR b -> (x <. y) = Rlt_bool a b.
Proof.
  intros Hx Hy. pose proof (Bltb_v x y) as H. rewrite Hx, Hy in H. simpl in H.
  apply eq_true_iff_eq. rewrite H. destruct (Rlt_bool_spec a b); split; intros; auto; try discriminate; exfalso; lra.
Qed.
Lemma vle (x y : b64) a b : v64 x = XR a -> v64 y = XR b -> (x <=. y) = Rle_bool a b.
Proof.
  intros Hx Hy. pose proof (Bleb_v x y) as H. rewrite Hx, Hy in H. simpl in H.
  apply eq_true_iff_eq. rewrite H. destruct (Rle_bool_spec a b); split; intros; auto; try discriminate; exfalso; lra.
Qed.
Lemma veq (x y : b64) a b : v64 x = XR a -> v64 y = XR b -> (x ==. y) = Req_bool a b.
Proof.
  intros Hx Hy. pose proof (Beqb_v x y) as H. rewrite Hx, Hy in H. simpl in H.
  apply eq_true_iff_eq. rewrite H. destruct (Req_bool_spec a b); split; intros; auto; try discriminate; exfalso; lra.
Qed.

Lemma p2_v e : (-1074 <= e <= 1023)%Z -> v64 (p2 e) = XR (pw e).
Proof.
  intros He. destruct (Z_le_gt_dec e 970).
  - unfold p2. rewrite bdy_v by lia. f_equal; ring.
  - pose proof (binary_normalize_correct 53 1024 _ _ mode_NE 1 e false) as H.
    change (round radix2 (SpecFloat.fexp 53 1024) (round_mode mode_NE)) with RN in H.
    assert (F2R (Float radix2 1 e) = pw e) as Ee by (unfold F2R; cbn [Fnum Fexp]; ring).
    rewrite Ee in H. unfold rnd in H. rewrite round_generic in H; [|auto with typeclass_instances|apply FF_pw; lia].
    rewrite Rlt_bool_true in H.
    + destruct H as (H1 & H2 & _). unfold p2, bdy. rewrite v64_fin by auto. rewrite H1. auto.
    + rewrite Rabs_pos_eq by apply bpow_ge_0. apply bpow_lt; lia.
Qed.
Lemma sc1_v : v64 sc1 = XR c1R.
Proof.
  unfold sc1. rewrite bdy_v by lia. f_equal. unfold c1R. rewrite plus_IZR. change (IZR (2 ^ 52)) with (pw 52).
  change (-105)%Z with (-53 + -52)%Z. rewrite (bpow_plus radix2 (-53) (-52)).
  transitivity (pw (-53) * (pw (-52) + pw 52 * pw (-52))); [ring|].
  rewrite <- (bpow_plus radix2 52 (-52)). change (pw (52 + -52)) with 1. ring.
Qed.

(* exact multiplication by a power of two *)
Lemma vscale (x : b64) a k : v64 x = XR a -> (-1074 <= k <= 1023)%Z -> FF (a * pw k) -> Rabs (a * pw k) < pw 1024 ->
  v64 (x *. p2 k) = XR (a * pw k).
Proof.
  intros Hx K F B. rewrite (vmul x (p2 k) a (pw k)); auto using p2_v.
  - rewrite RN_id; auto.
  - unfold fits. rewrite RN_id; auto.
Qed.

Definition succval (s : R) : ext := if Rlt_bool s (pw 1024) then XR s else Xp.
Definition predval (s : R) : ext := if Rlt_bool (- pw 1024) s then XR s else Xm.

Lemma SUCC_gt a : a <> 0 -> a < SUCC a.
Proof. apply succ_gt_id. Qed.
Lemma SUCC_ge a : a <= SUCC a.
Proof. apply succ_ge_id. Qed.

Lemma abs_lt_1024 a : Rabs a <= maxR -> - pw 1024 < a < pw 1024.
Proof. intros H. pose proof maxR_lt. revert H. unfold Rabs. destruct Rcase_abs; lra. Qed.

Lemma xr_succval s e : RN e = s -> 0 <= e \/ Rabs s < pw 1024 -> - pw 1024 < s -> xr mode_NE (XR e) = succval s.
Proof.
  intros E P L. simpl. unfold rx, succval. rewrite E.
  destruct (Rlt_bool_spec s (pw 1024)) as [A|A].
  - rewrite Rlt_bool_true; auto. unfold Rabs. destruct Rcase_abs; lra.
  - rewrite Rlt_bool_false by (pose proof (Rle_abs s); lra). simpl.
    destruct P as [P|P]; [|pose proof (Rle_abs s); lra].
    rewrite Rlt_bool_false by lra. auto.
Qed.

Lemma c1R_lt : 0 < c1R <= pw (-52).
Proof.
  unfold c1R. assert (pw (-52) = 2 * pw (-53)) by (rewrite <- p2split; auto).
  assert (pw (-52) <= 1) by (change 1 with (pw 0); apply bpow_le; lia).
  pose proof (bpow_gt_0 radix2 (-53)). pose proof (bpow_gt_0 radix2 (-52)). nra.
Qed.


Lemma succ64_v (x : b64) a : v64 x = XR a -> v64 (succ64 x) = succval (SUCC a).
Proof.
  intros Hx. destruct (fmtv x a Hx) as [F B]. pose proof (abs_lt_1024 a B) as B'.
  pose proof (SUCC_ge a) as Sg.
  unfold succ64. pose proof (vabs x a Hx) as Ha.
  rewrite (vle _ _ (pw (-969)) (Rabs a)); [|apply p2_v; lia|auto].
  destruct (Rle_bool_spec (pw (-969)) (Rabs a)) as [L|L].
  - destruct (succ_large a F L) as [S1 S2].
    assert (Fe : fits (Rabs a * c1R)).
    { apply fits_max. rewrite Rabs_mult, Rabs_Rabsolu, (Rabs_pos_eq c1R) by (pose proof c1R_lt; lra).
      assert (c1R <= 1) by (pose proof c1R_lt; assert (pw (-52) <= 1) by (change 1 with (pw 0); apply bpow_le; lia); lra).
      pose proof c1R_lt. pose proof (Rabs_pos a). nra. }
    rewrite Bplus_v, Hx, (vmul _ _ (Rabs a) c1R); auto using sc1_v.
    simpl xadd. apply xr_succval; auto; [|lra].
    destruct (Rle_or_lt 0 a) as [P|P].
    + left. pose proof (RN_ge_fmt (Rabs a * c1R) 0 FF_0).
      assert (0 <= Rabs a * c1R) by (apply Rmult_le_pos; [apply Rabs_pos|pose proof c1R_lt; lra]). lra.
    + right. rewrite Rabs_left1.
      * lra.
      * apply succ_le_lt; auto with typeclass_instances. apply FF_0.
  - rewrite (vlt _ _ (Rabs a) (pw (-1021))); [|auto|apply p2_v; lia].
    destruct (Rlt_bool_spec (Rabs a) (pw (-1021))) as [M|M].
    + destruct (succ_small a F M) as [S1 S2].
      rewrite Bplus_v, Hx, (p2_v (-1074)) by lia. change (xadd (XR a) (XR (pw (-1074)))) with (XR (a + pw (-1074))). rewrite <- S1. rewrite <- S1 in S2.
      apply xr_succval; [apply RN_id; auto| |lra]. right.
      rewrite S1. eapply Rle_lt_trans; [apply Rabs_triang|]. rewrite (Rabs_pos_eq (pw (-1074))) by apply bpow_ge_0.
      assert (pw (-1074) < pw (-1021)) by (apply bpow_lt; lia).
      assert (pw (-1021) < pw 1022) by (apply bpow_lt; lia).
      assert (2 * pw 1022 = pw 1023) by (rewrite <- p2split; auto).
      assert (pw 1023 < pw 1024) by (apply bpow_lt; lia). lra.
    + (* scaled by 2^53 *)
      assert (Fc : FF (a * pw 53)) by (apply FF_scale_up; [lia|auto]).
      assert (Ac : Rabs (a * pw 53) < pw (-916)).
      { rewrite Rabs_mult, (Rabs_pos_eq (pw 53)) by apply bpow_ge_0.
        change (-916)%Z with (-969 + 53)%Z. rewrite bpow_plus. apply Rmult_lt_compat_r; [apply bpow_gt_0|auto]. }
      assert (Lc : pw (-968) <= Rabs (a * pw 53)).
      { rewrite Rabs_mult, (Rabs_pos_eq (pw 53)) by apply bpow_ge_0.
        change (-968)%Z with (-1021 + 53)%Z. rewrite bpow_plus. apply Rmult_le_compat_r; [apply bpow_ge_0|auto]. }
      assert (Vc : v64 (p2 53 *. x) = XR (a * pw 53)).
      { rewrite (vmul _ _ (pw 53) a); auto using p2_v.
        - rewrite Rmult_comm, RN_id; auto.
        - apply p2_v; lia.
        - rewrite Rmult_comm. unfold fits. rewrite RN_id by auto. eapply Rlt_trans; [apply Ac|apply bpow_lt; lia]. }
      set (c := a * pw 53) in * .
      destruct (succ_large c Fc) as [S1 S2]. { eapply Rle_trans; [|apply Lc]. apply bpow_le; lia. }
      rewrite (Rmult_comm (Rabs c)) in S1, S2.
      assert (He : v64 (sc1 *. Babs (p2 53 *. x)) = XR (RN (c1R * Rabs c))).
      { apply vmul; auto using sc1_v, vabs. apply (fits_pw 0); [lia|].
        rewrite Rabs_mult, Rabs_Rabsolu, (Rabs_pos_eq c1R) by (pose proof c1R_lt; lra). change (pw 0) with 1.
        assert (c1R <= 1) by (pose proof c1R_lt; assert (pw (-52) <= 1) by (change 1 with (pw 0); apply bpow_le; lia); lra).
        assert (Rabs c <= 1) by (apply Rlt_le; eapply Rlt_trans; [apply Ac|]; change 1 with (pw 0); apply bpow_lt; lia).
        pose proof c1R_lt. pose proof (Rabs_pos c). nra. }
      assert (Eq : SUCC c = SUCC a * pw 53) by (apply succ_scale; [auto|auto|lia]).
      assert (Fs : FF (SUCC a)) by (apply generic_format_succ; auto with typeclass_instances).
      assert (Bs : Rabs (SUCC c) <= pw (-914)).
      { rewrite <- S1. apply RN_abs_le; [apply FF_pw; lia|].
        eapply Rle_trans; [apply Rabs_triang|]. rewrite (Rabs_pos_eq (RN _)).
        - change (-914)%Z with (-916 + 1 + 1)%Z. rewrite !p2split. pose proof (Rabs_pos c). lra.
        - apply RN_ge_fmt; [apply FF_0|]. apply Rmult_le_pos; [pose proof c1R_lt; lra|apply Rabs_pos]. }
      assert (Vs : v64 (p2 53 *. x +. sc1 *. Babs (p2 53 *. x)) = XR (SUCC c)).
      { rewrite (vadd _ _ c (RN (c1R * Rabs c))); auto.
        - rewrite S1; auto.
        - unfold fits. rewrite S1. eapply Rle_lt_trans; [apply Bs|apply bpow_lt; lia]. }
      assert (E53 : SUCC c * pw (-53) = SUCC a).
      { rewrite Eq, Rmult_assoc, <- bpow_plus. simpl. ring. }
      assert (Ba : Rabs (SUCC a) < pw 1024).
      { rewrite <- E53, Rabs_mult, (Rabs_pos_eq (pw (-53))) by apply bpow_ge_0.
        apply Rle_lt_trans with (pw (-914) * pw (-53)); [apply Rmult_le_compat_r; [apply bpow_ge_0|auto]|].
        rewrite <- bpow_plus. apply bpow_lt; lia. }
      rewrite (vscale _ (SUCC c) (-53)); auto; try (rewrite E53; auto); try lia.
      unfold succval. rewrite Rlt_bool_true; auto. pose proof (Rle_abs (SUCC a)). lra.
Qed.

Lemma rxNE_opp e : rx mode_NE (- e) = xneg (rx mode_NE e).
Proof.
  unfold rx. rewrite RN_opp, Rabs_Ropp.
  destruct (Rlt_bool_spec (Rabs (RN e)) (pw 1024)) as [L|L]; auto.
  assert (N : e <> 0). { apply (big_nz mode_NE). apply Rlt_bool_false; auto. }
  simpl. destruct (Rlt_bool_spec e 0).
  - rewrite Rlt_bool_false by lra. reflexivity.
  - rewrite Rlt_bool_true by lra. reflexivity.
Qed.
Lemma xrNE_opp e : xr mode_NE (xneg e) = xneg (xr mode_NE e).
Proof. destruct e; simpl; auto. apply rxNE_opp. Qed.

Lemma xsub_neg a b : xadd (xneg a) b = xneg (xsub a b).
Proof. unfold xsub. destruct a, b; simpl; auto. f_equal; ring. Qed.

Lemma Babs_Bopp (x : b64) : Babs (Bopp x) = Babs x.
Proof. destruct x; reflexivity. Qed.

Lemma pred64_succ64 (x : b64) : v64 (pred64 x) = xneg (v64 (succ64 (Bopp x))).
Proof.
  unfold pred64, succ64. rewrite Babs_Bopp.
  destruct (p2 (-969) <=. Babs x).
  - rewrite Bminus_v, Bplus_v, Bopp_v, xsub_neg, xrNE_opp, xneg_invol. auto.
  - destruct (Babs x <. p2 (-1021)).
    + rewrite Bminus_v, Bplus_v, Bopp_v, xsub_neg, xrNE_opp, xneg_invol. auto.
    + assert (E1 : v64 (p2 53 *. Bopp x) = xneg (v64 (p2 53 *. x))).
      { rewrite !Bmult_v, Bopp_v, <- xrNE_opp. f_equal. destruct (v64 (p2 53)), (v64 x); simpl; auto; try (f_equal; ring);
        unfold xsgn_inf; try (destruct Rcompare; reflexivity).
        destruct (Rcompare_spec r 0); [rewrite Rcompare_Gt|rewrite Rcompare_Eq|rewrite Rcompare_Lt]; auto; lra.
        destruct (Rcompare_spec r 0); [rewrite Rcompare_Gt|rewrite Rcompare_Eq|rewrite Rcompare_Lt]; auto; lra. }
      assert (E2 : v64 (Babs (p2 53 *. Bopp x)) = v64 (Babs (p2 53 *. x))).
      { rewrite !Babs_v, E1. destruct (v64 (p2 53 *. x)); simpl; auto. rewrite Rabs_Ropp; auto. }
      rewrite !Bmult_v, Bminus_v, Bplus_v, E1, xsub_neg.
      rewrite (Bmult_v mode_NE sc1), (Bmult_v mode_NE sc1), E2.
      rewrite xrNE_opp, xmul_opp_l, xrNE_opp, xneg_invol. auto.
Qed.
Lemma pred64_v (x : b64) a : v64 x = XR a -> v64 (pred64 x) = predval (PRED a).
Proof.
  intros Hx. rewrite pred64_succ64, (succ64_v _ (- a)) by (apply vopp; auto).
  unfold succval, predval. rewrite pred_opp.
  destruct (Rlt_bool_spec (SUCC (- a)) (pw 1024)).
  - rewrite Rlt_bool_true by lra. auto.
  - rewrite Rlt_bool_false by lra. auto.
Qed.

(* finishing a directed rounding from the rounding to nearest *)
Lemma RN_bound e : Rabs (RN e) < pw 1024 -> Rabs (RN e) <= maxR.
Proof.
  intros H. assert (F : FF (Rabs (RN e))) by (apply generic_format_abs, FF_RN).
  assert (pw 1024 - pw 971 = PRED (pw 1024)) as E.
  { rewrite pred_bpow. unfold FX, FLT_exp. simpl Z.max. auto. }
  unfold maxR. rewrite E. apply pred_ge_gt; auto with typeclass_instances. apply FF_pw; lia.
Qed.
Lemma up_fin e : fits e -> rx mode_UP e = if Rlt_bool (RN e) e then succval (SUCC (RN e)) else XR (RN e).
Proof.
  intros F. pose proof (RN_bound e F) as B. pose proof (abs_lt_1024 _ B) as B'. unfold rx.
  destruct (Rlt_bool_spec (RN e) e) as [L|L].
  - rewrite (UP_succ e L). unfold succval. pose proof (SUCC_ge (RN e)).
    destruct (Rlt_bool_spec (SUCC (RN e)) (pw 1024)) as [A|A].
    + rewrite Rlt_bool_true; auto. unfold Rabs; destruct Rcase_abs; lra.
    + rewrite Rlt_bool_false by (pose proof (Rle_abs (SUCC (RN e))); lra).
      rewrite (Rlt_bool_false e 0); auto.
      apply Rnot_lt_le. intros C.
      assert (RN e < 0) by lra. assert (SUCC (RN e) <= 0) by (apply succ_le_lt; auto with typeclass_instances; [apply FF_RN|apply FF_0]).
      pose proof (bpow_gt_0 radix2 1024). lra.
  - rewrite (UP_same e L). rewrite Rlt_bool_true; auto.
Qed.
Lemma dn_fin e : fits e -> rx mode_DN e = if Rlt_bool e (RN e) then predval (PRED (RN e)) else XR (RN e).
Proof.
  intros F. assert (Fo : fits (- e)) by (unfold fits in *; rewrite RN_opp, Rabs_Ropp; auto).
  pose proof (rx_opp e) as O. apply (f_equal xneg) in O. rewrite xneg_invol in O. rewrite <- O.
  rewrite up_fin by auto. rewrite RN_opp.
  destruct (Rlt_bool_spec e (RN e)).
  - rewrite Rlt_bool_true by lra. unfold succval, predval. rewrite pred_opp.
    destruct (Rlt_bool_spec (SUCC (- RN e)) (pw 1024)).
    + rewrite Rlt_bool_true by lra. auto.
    + rewrite Rlt_bool_false by lra. auto.
  - rewrite Rlt_bool_false by lra. simpl. f_equal. ring.
Qed.

Lemma ovf_NE e : ~ fits e -> xr mode_NE (XR e) = if Rlt_bool e 0 then Xm else Xp.
Proof.
  intros N. simpl. unfold rx. rewrite Rlt_bool_false by (unfold fits in N; lra). auto.
Qed.
Lemma ovf_UP e : ~ fits e -> xr mode_UP (XR e) = if Rlt_bool e 0 then XR (- maxR) else Xp.
Proof.
  intros N. assert (L : pw 1024 <= Rabs (RN e)) by (unfold fits in N; lra). simpl. unfold rx.
  assert (M : FF maxR) by apply fmt_max.
  assert (N0 : e <> 0). { apply (big_nz mode_NE). apply Rlt_bool_false; auto. }
  destruct (Rlt_bool_spec e 0) as [P|P].
  - assert (RN e <= - pw 1024).
    { assert (RN e <= 0) by (apply RN_le_fmt; [apply FF_0|lra]). rewrite Rabs_left1 in L by auto. lra. }
    assert (A : e < - maxR).
    { apply Rnot_le_lt. intros C. assert (- maxR <= RN e) by (apply RN_ge_fmt; [apply FF_opp; auto|auto]).
      pose proof maxR_lt. lra. }
    assert (U : rnd mode_UP e <= - maxR).
    { unfold rnd. apply round_le_generic; auto with typeclass_instances. apply FF_opp; auto. lra. }
    destruct (Rlt_bool_spec (Rabs (rnd mode_UP e)) (pw 1024)) as [T|T]; [|reflexivity].
    f_equal. apply Rle_antisym; auto.
    assert (PRED (pw 1024) = maxR) as E. { rewrite pred_bpow. unfold FX, FLT_exp, maxR. simpl Z.max. auto. }
    assert (- rnd mode_UP e <= PRED (pw 1024)).
    { apply pred_ge_gt; auto with typeclass_instances.
      - apply FF_opp, generic_format_round; auto with typeclass_instances.
      - apply FF_pw; lia.
      - rewrite Rabs_left1 in T; auto. pose proof maxR_pos. lra. }
    lra.
  - assert (pw 1024 <= RN e).
    { assert (0 <= RN e) by (apply RN_ge_fmt; [apply FF_0|lra]). rewrite Rabs_pos_eq in L by auto. auto. }
    assert (RN e <= rnd mode_UP e).
    { destruct (RN_cases e) as [E|E]; [|lra]. rewrite E. pose proof (DN_le e). pose proof (UP_ge e). lra. }
    rewrite Rlt_bool_false; [reflexivity|]. rewrite Rabs_pos_eq by (pose proof (bpow_gt_0 radix2 1024); lra). lra.
Qed.
Lemma fits_opp e : fits (- e) <-> fits e.
Proof. unfold fits. rewrite RN_opp, Rabs_Ropp. tauto. Qed.
Lemma ovf_DN e : ~ fits e -> xr mode_DN (XR e) = if Rlt_bool e 0 then Xm else XR maxR.
Proof.
  intros N. pose proof (rx_opp e) as O. apply (f_equal xneg) in O. rewrite xneg_invol in O. simpl xr. rewrite <- O.
  change (rx mode_UP (- e)) with (xr mode_UP (XR (- e))). rewrite ovf_UP by (rewrite fits_opp; auto).
  assert (N0 : e <> 0). { apply (big_nz mode_NE). apply Rlt_bool_false. unfold fits in N; lra. }
  destruct (Rlt_bool_spec e 0).
  - rewrite Rlt_bool_false by lra. auto.
  - rewrite Rlt_bool_true by lra. simpl. f_equal. ring.
Qed.
Lemma fits_dec e : {fits e} + {~ fits e}.
Proof. unfold fits. destruct (Rlt_dec (Rabs (RN e)) (pw 1024)); auto. Qed.

(* twosum *)
Lemma ne_choice_sym : forall x : Z, negb (Z.even x) = negb (negb (Z.even (- (x + 1)))).
Proof.
  intros x. rewrite Z.even_opp, Z.even_add. simpl. destruct (Z.even x); reflexivity.
Qed.
Lemma fast2sum a b : FF a -> FF b -> Rabs b <= Rabs a ->
  RN (b - RN (RN (a + b) - a)) = a + b - RN (a + b) /\ Rabs (RN (a + b) - a) <= Rabs a /\
  Rabs (a + b - RN (a + b)) <= Rabs b.
Proof.
  intros Fa Fb L.
  assert (p1 : (1 < 53)%Z) by lia. assert (e0 : (-1074 <= 0)%Z) by lia.
  pose proof (Fast2Sum_correct (-1074) 53 (fun x => negb (Z.even x)) p1 e0 ne_choice_sym a b Fa Fb L) as H.
  change (round radix2 (FLT_exp (-1074) 53) (Znearest (fun x => negb (Z.even x)))) with RN in H.
  split; [|split].
  - replace (b - RN (RN (a + b) - a)) with (b + RN (a - RN (a + b))).
    + lra.
    + replace (RN (a + b) - a) with (- (a - RN (a + b))) by ring. rewrite RN_opp. ring.
  - apply Rabs_le. destruct (Rle_or_lt 0 a) as [P|P].
    + rewrite (Rabs_pos_eq a) in * by auto. apply Rabs_le_inv in L.
      assert (0 <= RN (a + b)) by (apply RN_ge_fmt; [apply FF_0|lra]).
      assert (RN (a + b) <= a * pw 1). { apply RN_le_fmt; [apply FF_scale_up; [lia|auto]|change (pw 1) with 2; lra]. }
      change (pw 1) with 2 in * . lra.
    + rewrite (Rabs_left a) in * by auto. apply Rabs_le_inv in L.
      assert (RN (a + b) <= 0) by (apply RN_le_fmt; [apply FF_0|lra]).
      assert (a * pw 1 <= RN (a + b)). { apply RN_ge_fmt; [apply FF_scale_up; [lia|auto]|change (pw 1) with 2; lra]. }
      change (pw 1) with 2 in * . lra.
  - pose proof (round_N_pt radix2 FX (fun x => negb (Z.even x)) (a + b)) as [_ N].
    change (round radix2 FX (Znearest (fun x => negb (Z.even x)))) with RN in N.
    specialize (N a Fa). replace (a + b - RN (a + b)) with (- (RN (a + b) - (a + b))) by ring.
    rewrite Rabs_Ropp. eapply Rle_trans; [apply N|]. replace (a - (a + b)) with (- b) by ring. rewrite Rabs_Ropp. lra.
Qed.

Lemma twosum_fst x y : fst (twosum x y) = x +. y.
Proof. unfold twosum. destruct (Babs y <. Babs x); reflexivity. Qed.
Lemma twosum_v x y a b : v64 x = XR a -> v64 y = XR b -> fits (a + b) ->
  v64 (fst (twosum x y)) = XR (RN (a + b)) /\ v64 (snd (twosum x y)) = XR (a + b - RN (a + b)).
Proof.
  intros Hx Hy F. destruct (fmtv x a Hx) as [Fa Ba], (fmtv y b Hy) as [Fb Bb].
  rewrite twosum_fst. split; [apply vadd; auto|].
  unfold twosum. rewrite (vlt _ _ (Rabs b) (Rabs a)) by (apply vabs; auto).
  pose proof (vadd x y a b Hx Hy F) as Hr.
  destruct (Rlt_bool_spec (Rabs b) (Rabs a)) as [L|L]; simpl snd.
  - destruct (fast2sum a b Fa Fb) as (E1 & E2 & E3); [lra|].
    rewrite (vsub _ _ b (RN (RN (a + b) - a))); auto.
    + rewrite E1; auto.
    + apply vsub; auto. apply fits_max. lra.
    + unfold fits. rewrite E1. eapply Rle_lt_trans; [apply E3|]. eapply Rle_lt_trans; [apply Bb|apply maxR_lt].
  - destruct (fast2sum b a Fb Fa) as (E1 & E2 & E3); [lra|]. rewrite (Rplus_comm b a) in * .
    rewrite (vsub _ _ a (RN (RN (a + b) - b))); auto.
    + rewrite E1; auto.
    + apply vsub; auto. apply fits_max. lra.
    + unfold fits. rewrite E1. eapply Rle_lt_trans; [apply E3|]. eapply Rle_lt_trans; [apply Ba|apply maxR_lt].
Qed.
