(* The directed operations of rop<dd>: building blocks. *)
From Coq Require Import Reals Lra Lia Psatz ZArith Bool.
From Flocq Require Import Core BinarySingleNaN.
From Verif Require Import Ext Scalar Fp64 RDoubleHw NohwModel NohwReal NohwBase NohwProd NohwProofs NohwDiv DdModel DdSpec.
Open Scope R_scope.

(* bound in direction d *)
Definition bnd (d : bool) (e : ext) (r : R) : Prop := if d then ub e r else lb e r.
(* s is at or beyond r in direction d *)
Definition dle (d : bool) (r s : R) : Prop := if d then r <= s else s <= r.

Lemma bnd_le d e r s : bnd d e s -> dle d r s -> bnd d e r.
Proof. destruct d, e; simpl; auto; lra. Qed.
Lemma bnd_XR d a r : bnd d (XR a) r <-> dle d r a.
Proof. destruct d; simpl; tauto. Qed.
Lemma bnd_refl d r : bnd d (XR r) r.
Proof. destruct d; simpl; lra. Qed.

Record opsok (O : dops) : Prop := mkopsok {
  ok_ideal : ideal64 (o_au O) (o_ad O) (o_su O) (o_sd O) (o_mu O) (o_md O) (o_du O) (o_dd O) (o_qu O) (o_qd O);
  (* a plain multiplication in a stretch of direction d is rounded in direction d or to nearest *)
  ok_mode : forall d, o_mode O d = dmode d \/ o_mode O d = mode_NE }.

Lemma ops_hw_ok fma : opsok (ops_hw fma).
Proof. constructor; [exact ideal_avx|left; reflexivity]. Qed.
Lemma ops_nohw_ok fma : opsok (ops_nohw fma).
Proof. constructor; [exact (ideal_nohw fma)|right; reflexivity]. Qed.

Lemma Bfma_fin m (x y z : b64) a b c : v64 x = XR a -> v64 y = XR b -> v64 z = XR c ->
  v64 (Bfma m x y z) = rx m (a * b + c).
Proof.
  intros Hx Hy Hz. apply v64_XR in Hx as [Fx Ex]. apply v64_XR in Hy as [Fy Ey]. apply v64_XR in Hz as [Fz Ez].
  pose proof (Bfma_correct 53 1024 _ _ m x y z Fx Fy Fz) as H. cbv zeta in H. rewrite Ex, Ey, Ez in H. unfold rx.
  change (round radix2 (SpecFloat.fexp 53 1024) (round_mode m) (a * b + c)) with (rnd m (a * b + c)) in H.
  destruct (Rlt_bool (Rabs (rnd m (a * b + c))) (pw 1024)).
  - destruct H as (H1 & H2 & _). rewrite v64_fin, H1; auto.
  - apply v64_ovf in H. rewrite H. reflexivity.
Qed.

Section S.
Variable O : dops.
Hypothesis OK : opsok O.
Notation add_ := (add_ O). Notation sub_ := (sub_ O). Notation mul_ := (mul_ O). Notation div_ := (div_ O). Notation sqrt_ := (sqrt_ O).

Lemma rx_bnd d r : bnd d (rx (dmode d) r) r.
Proof. destruct d; simpl; [apply xup_ub, rx_up|apply xdown_lb, rx_dn]. Qed.
Lemma add_v d x y : v64 (add_ d x y) = xr (dmode d) (xadd (v64 x) (v64 y)).
Proof. destruct OK as [[] _]. destruct d; simpl; auto. Qed.
Lemma sub_v d x y : v64 (sub_ d x y) = xr (dmode d) (xsub (v64 x) (v64 y)).
Proof. destruct OK as [[] _]. destruct d; simpl; auto. Qed.
Lemma mul_v d x y : v64 (mul_ d x y) = xr (dmode d) (xmul (v64 x) (v64 y)).
Proof. destruct OK as [[] _]. destruct d; simpl; auto. Qed.
Lemma div_v d x y : v64 y <> XR 0 -> v64 (div_ d x y) = xr (dmode d) (xdiv (v64 x) (v64 y)).
Proof. destruct OK as [[] _]. destruct d; simpl; auto. Qed.
Lemma sqrt_v d x : v64 (sqrt_ d x) = xr (dmode d) (xsqrt (v64 x)).
Proof. destruct OK as [[] _]. destruct d; simpl; auto. Qed.

Lemma add_b d x y r s : bnd d (v64 x) r -> bnd d (v64 y) s -> bnd d (v64 (add_ d x y)) (r + s).
Proof.
  intros Hx Hy. rewrite add_v. destruct (v64 x) as [a| | |] eqn:Ex, (v64 y) as [b| | |] eqn:Ey; destruct d; simpl in *; try tauto.
  - eapply ub_le; [apply (rx_bnd true)|lra].
  - eapply lb_le; [apply (rx_bnd false)|lra].
Qed.
Lemma sub_b d x y r s : bnd d (v64 x) r -> v64 y = XR s -> bnd d (v64 (sub_ d x y)) (r - s).
Proof.
  intros Hx Hy. rewrite sub_v, Hy. destruct (v64 x) as [a| | |] eqn:Ex; destruct d; simpl in *; try tauto.
  - eapply ub_le; [apply (rx_bnd true)|lra].
  - eapply lb_le; [apply (rx_bnd false)|lra].
Qed.
Lemma mul_b d x y r s : v64 x = XR r -> v64 y = XR s -> bnd d (v64 (mul_ d x y)) (r * s).
Proof. intros Hx Hy. rewrite mul_v, Hx, Hy. apply rx_bnd. Qed.
Lemma exact_b d x r : v64 x = XR r -> bnd d (v64 x) r.
Proof. intros ->. apply bnd_refl. Qed.

(* plain multiplications by powers of two *)
Lemma scale_exact m x r k c : v64 x = XR r -> v64 c = XR (pw k) -> FF (r * pw k) -> Rabs (r * pw k) < pw 1024 ->
  v64 (Bmult m x c) = XR (r * pw k).
Proof.
  intros Hx Hc F B. rewrite Bmult_v, Hx, Hc. simpl. unfold rx. rewrite rnd_id by auto. rewrite Rlt_bool_true; auto.
Qed.
Lemma c_half : v64 (bdy 1 (-1)) = XR (pw (-1)).
Proof. rewrite bdy_v by lia. f_equal. ring. Qed.
Lemma c_quarter : v64 (bdy 1 (-2)) = XR (pw (-2)).
Proof. rewrite bdy_v by lia. f_equal. ring. Qed.
Lemma c_dbl : v64 (bdy 2 0) = XR (pw 1).
Proof. rewrite bdy_v by lia. f_equal. change (pw 0) with 1. change (pw 1) with 2. ring. Qed.

(* dbl keeps a bound, provided its operand is not so large that rounding to nearest overflows *)
Lemma dbl_b d x r : bnd d (v64 x) r -> (forall t, v64 x = XR t -> Rabs t <= pw 1022) -> bnd d (v64 (dbl O d x)) (2 * r).
Proof.
  intros Hx B. unfold dbl. destruct (v64 x) as [t| | |] eqn:Ex.
  - destruct (fmtv _ _ Ex) as [F _]. specialize (B t eq_refl).
    assert (E2 : pw 1 = 2) by reflexivity.
    rewrite (scale_exact _ x t 1 _ Ex c_dbl).
    + rewrite E2. destruct d; simpl in *; lra.
    + apply FF_scale_up; [lia|auto].
    + rewrite E2, Rabs_mult, (Rabs_pos_eq 2) by lra.
      assert (pw 1023 = 2 * pw 1022) by apply (p2split 1022). assert (pw 1023 < pw 1024) by (apply bpow_lt; lia). lra.
  - rewrite Bmult_v, Ex, c_dbl. change (pw 1) with 2. simpl xmul. unfold xsgn_inf. rewrite Rcompare_Gt by lra. destruct d; simpl in *; auto.
  - rewrite Bmult_v, Ex, c_dbl. change (pw 1) with 2. simpl xmul. unfold xsgn_inf. rewrite Rcompare_Gt by lra. destruct d; simpl in *; auto.
  - destruct d; simpl in *; tauto.
Qed.

(* crude magnitude of a directed rounding *)
Lemma rnd_err m e : Rabs (rnd m e - e) <= pw (-52) * Rabs e + pw (-1074).
Proof.
  destruct (Req_dec e 0) as [->|N].
  { rewrite rnd_0, Rminus_0_r, Rabs_R0. pose proof (bpow_gt_0 radix2 (-1074)). lra. }
  assert (E : Rabs (rnd m e - e) <= ulp radix2 FX e) by (apply Rlt_le, error_lt_ulp; auto with typeclass_instances).
  eapply Rle_trans; [exact E|]. rewrite ulp_neq_0 by auto. unfold cexp, FX, FLT_exp.
  destruct (Z.max_spec (mag radix2 e - 53) (-1074)) as [[H ->]|[H ->]].
  - pose proof (Rmult_le_pos _ _ (bpow_ge_0 radix2 (-52)) (Rabs_pos e)). lra.
  - destruct (mag radix2 e) as [k Hk]; cbn [mag_val] in * . specialize (Hk N).
    replace (k - 53)%Z with (-52 + (k - 1))%Z by lia. rewrite bpow_plus.
    pose proof (Rmult_le_compat_l _ _ _ (bpow_ge_0 radix2 (-52)) (proj1 Hk)). pose proof (bpow_gt_0 radix2 (-1074)). lra.
Qed.

Definition eta := pw (-1074).
Lemma eta_pos : 0 < eta. Proof. apply bpow_gt_0. Qed.
Lemma p26 : pw (-26) = / 67108864. Proof. reflexivity. Qed.
Lemma p52 : pw (-52) = / 4503599627370496. Proof. reflexivity. Qed.
Lemma p53 : pw (-53) = / 9007199254740992. Proof. reflexivity. Qed.
Definition big := 3 * pw 1022.
Lemma big_FF : FF big.
Proof.
  unfold big. apply (mult2_small 1022); [lia|exists 3%Z; reflexivity|].
  rewrite Rabs_mult, (Rabs_pos_eq 3), (Rabs_pos_eq (pw 1022)) by (try lra; apply bpow_ge_0).
  rewrite bpow_plus, Rmult_comm. apply Rmult_le_compat_l; [apply bpow_ge_0|].
  apply Rle_trans with (pw 2); [simpl; lra|apply bpow_le; lia].
Qed.
Lemma big_lt : big < pw 1024.
Proof. unfold big. assert (pw 1024 = 2 * (2 * pw 1022)) by (rewrite <- !p2split; reflexivity). pose proof (bpow_gt_0 radix2 1022). lra. Qed.

(* a rounding of a value below `big` is finite, close, and at most about as large *)
Lemma rx_fin m e M : Rabs e <= M -> M <= big ->
  exists w, rx m e = XR w /\ Rabs (w - e) <= pw (-52) * M + eta /\ Rabs w <= 2 * M + eta.
Proof.
  intros He HM. pose proof (rnd_err m e) as E. pose proof (bpow_gt_0 radix2 (-52)).
  exists (rnd m e). fold eta in E.
  assert (E' : Rabs (rnd m e - e) <= pw (-52) * M + eta) by nra.
  split; [|split; auto].
  - unfold rx. rewrite Rlt_bool_true; auto. apply Rle_lt_trans with big; [|apply big_lt].
    unfold rnd. apply abs_round_le_generic; auto with typeclass_instances; [apply big_FF|lra].
  - replace (rnd m e) with (e + (rnd m e - e)) by ring. eapply Rle_trans; [apply Rabs_triang|].
    pose proof (Rabs_pos e). rewrite p52 in * . lra.
Qed.

Lemma add_m d x y a b M : v64 x = XR a -> v64 y = XR b -> Rabs a + Rabs b <= M -> M <= big ->
  exists w, v64 (add_ d x y) = XR w /\ Rabs w <= 2 * M + eta.
Proof.
  intros Hx Hy B HM. destruct (rx_fin (dmode d) (a + b) M) as (w & H1 & _ & H2); auto.
  - eapply Rle_trans; [apply Rabs_triang|]. auto.
  - exists w. split; auto. rewrite add_v, Hx, Hy. exact H1.
Qed.
Lemma mul_m d x y a b M : v64 x = XR a -> v64 y = XR b -> Rabs a * Rabs b <= M -> M <= big ->
  exists w, v64 (mul_ d x y) = XR w /\ Rabs w <= 2 * M + eta.
Proof.
  intros Hx Hy B HM. destruct (rx_fin (dmode d) (a * b) M) as (w & H1 & _ & H2); auto.
  - rewrite Rabs_mult. auto.
  - exists w. split; auto. rewrite mul_v, Hx, Hy. exact H1.
Qed.

Lemma Q_big Q c k : 0 <= Q < pw 1024 -> c <= / 65536 -> k <= 1000 -> 0 <= k -> c * Q + k * eta <= big.
Proof.
  intros [HQ1 HQ2] Hc Hk Hk0. unfold big, eta. assert (pw 1024 = 2 * (2 * pw 1022)) by (rewrite <- !p2split; reflexivity).
  assert (pw (-1074) <= pw 1000) by (apply bpow_le; lia). assert (pw 1022 = pw 22 * pw 1000) by (rewrite <- bpow_plus; reflexivity).
  assert (pw 22 = 4194304) by reflexivity. pose proof (bpow_gt_0 radix2 1000). pose proof (bpow_gt_0 radix2 (-1074)). nra.
Qed.

(* the three additions that end twoproduct_up / twoproduct_down *)
Lemma tp_tail d s u1 u2 v1 v2 S U1 U2 V1 V2 r Q :
  v64 s = XR S -> bnd d (XR S) r -> v64 u1 = XR U1 -> v64 u2 = XR U2 -> v64 v1 = XR V1 -> v64 v2 = XR V2 ->
  0 <= Q < pw 1024 -> Rabs S <= / 4194304 * Q + 10 * eta ->
  Rabs U2 * Rabs V1 <= / 33554432 * Q -> Rabs U1 * Rabs V2 <= / 33554432 * Q -> Rabs U2 * Rabs V2 <= / 33554432 * Q ->
  let z := add_ d (add_ d (add_ d s (mul_ d u2 v1)) (mul_ d u1 v2)) (mul_ d u2 v2) in
  bnd d (v64 z) (r + U2 * V1 + U1 * V2 + U2 * V2) /\ exists w, v64 z = XR w /\ Rabs w <= / 32768 * Q + 200 * eta.
Proof.
  intros Hs Bs H1 H2 H3 H4 HQ BS B1 B2 B3. cbv zeta. split.
  - repeat apply add_b; try (apply mul_b; auto). rewrite Hs. auto.
  - pose proof eta_pos as E0.
    assert (M0 : / 33554432 * Q <= big). { pose proof (Q_big Q (/ 33554432) 0 HQ ltac:(lra) ltac:(lra) ltac:(lra)). lra. }
    destruct (mul_m d _ _ _ _ _ H2 H3 B1 M0) as (t2 & T2 & M2).
    destruct (mul_m d _ _ _ _ _ H1 H4 B2 M0) as (t3 & T3 & M3).
    destruct (mul_m d _ _ _ _ _ H2 H4 B3 M0) as (t4 & T4 & M4).
    destruct (add_m d _ _ _ _ (/ 2097152 * Q + 12 * eta) Hs T2) as (w2 & W2 & N2); [lra|apply Q_big; lra|].
    destruct (add_m d _ _ _ _ (/ 524288 * Q + 27 * eta) W2 T3) as (w3 & W3 & N3); [lra|apply Q_big; lra|].
    destruct (add_m d _ _ _ _ (/ 131072 * Q + 57 * eta) W3 T4) as (w4 & W4 & N4); [lra|apply Q_big; lra|].
    exists w4. split; auto. lra.
Qed.

(* the exact error of a rounding to nearest *)
Lemma RN_err e : Rabs (RN e - e) <= pw (-52) * Rabs e + eta.
Proof. exact (rnd_err mode_NE e). Qed.

Definition tp_spec d (A B : R) (p : b64 * b64) : Prop :=
  v64 (fst p) = XR (RN (A * B)) /\ bnd d (v64 (snd p)) (A * B - RN (A * B)) /\
  exists w, v64 (snd p) = XR w /\ Rabs w <= / 32768 * Rabs (A * B) + 200 * eta.

Lemma fits_bound P : fits P -> Rabs P < pw 1024.
Proof. apply fits_lt. Qed.

Lemma abs_lt_24 P : fits P -> 0 <= Rabs P < pw 1024.
Proof. intros F. split; [apply Rabs_pos|apply fits_bound; auto]. Qed.

Lemma tp_core d na nb x A B : v64 na = XR A -> v64 nb = XR B -> v64 x = XR (RN (A * B)) -> fits (A * B) ->
  Rabs A <= pw 996 -> Rabs B <= pw 996 ->
  tp_spec d A B (let '(u1, u2) := split na in
    let '(v1, v2) := split nb in
    if p2 1023 <. Babs x then
      (x, add_ d (add_ d (add_ d (dbl O d (sub_ d (mul_ d (half O d u1) v1) (half O d x))) (mul_ d u2 v1)) (mul_ d u1 v2)) (mul_ d u2 v2))
    else
      (x, add_ d (add_ d (add_ d (sub_ d (mul_ d u1 v1) x) (mul_ d u2 v1)) (mul_ d u1 v2)) (mul_ d u2 v2))).
Proof.
  intros HA HB HX Fi LA LB. destruct (fmtv _ _ HA) as [FA _]. destruct (fmtv _ _ HB) as [FB _].
  destruct (split_v na A HA LA) as [Su1 Su2]. destruct (split_v nb B HB LB) as [Sv1 Sv2].
  destruct (split na) as [u1 u2]. destruct (split nb) as [v1 v2]. cbn [fst snd] in Su1, Su2, Sv1, Sv2.
  pose proof (abs_lt_24 _ Fi) as HQ. set (P := A * B) in * . set (Q := Rabs P) in * .
  pose proof (hi_err A FA) as Ea. pose proof (hi_err B FB) as Eb.
  set (U1 := hi A) in * . set (V1 := hi B) in * . rewrite p26 in Ea, Eb.
  assert (Ea2 : Rabs (A - U1) <= / 67108864 * Rabs A) by (rewrite Rabs_minus_sym; auto).
  assert (Eb2 : Rabs (B - V1) <= / 67108864 * Rabs B) by (rewrite Rabs_minus_sym; auto).
  assert (EU : Rabs U1 <= (1 + / 67108864) * Rabs A).
  { replace U1 with (A + (U1 - A)) by ring. eapply Rle_trans; [apply Rabs_triang|]. lra. }
  assert (EV : Rabs V1 <= (1 + / 67108864) * Rabs B).
  { replace V1 with (B + (V1 - B)) by ring. eapply Rle_trans; [apply Rabs_triang|]. lra. }
  assert (EQ : Q = Rabs A * Rabs B) by (unfold Q, P; apply Rabs_mult).
  pose proof (Rabs_pos A) as PA. pose proof (Rabs_pos B) as PB.
  pose proof (Rabs_pos U1). pose proof (Rabs_pos V1). pose proof (Rabs_pos (A - U1)). pose proof (Rabs_pos (B - V1)).
  assert (K : forall a b s t, 0 <= a -> 0 <= b -> 0 <= s -> 0 <= t -> a <= s * Rabs A -> b <= t * Rabs B -> a * b <= s * t * Q).
  { intros a b s t Pa Pb Ps Pt La Lb. rewrite EQ. replace (s * t * (Rabs A * Rabs B)) with (s * Rabs A * (t * Rabs B)) by ring.
    apply Rmult_le_compat; auto. }
  assert (B1 : Rabs (A - U1) * Rabs V1 <= / 33554432 * Q).
  { eapply Rle_trans; [apply (K _ _ (/ 67108864) (1 + / 67108864)); auto; lra|]. nra. }
  assert (B2 : Rabs U1 * Rabs (B - V1) <= / 33554432 * Q).
  { eapply Rle_trans; [apply (K _ _ (1 + / 67108864) (/ 67108864)); auto; lra|]. nra. }
  assert (B3 : Rabs (A - U1) * Rabs (B - V1) <= / 33554432 * Q).
  { eapply Rle_trans; [apply (K _ _ (/ 67108864) (/ 67108864)); auto; lra|]. nra. }
  assert (EP : Rabs (U1 * V1 - P) <= / 33000000 * Q).
  { replace (U1 * V1 - P) with (- ((A - U1) * V1 + A * (B - V1))) by (unfold P; ring). rewrite Rabs_Ropp.
    eapply Rle_trans; [apply Rabs_triang|]. rewrite !Rabs_mult.
    pose proof (K _ _ (/ 67108864) (1 + / 67108864) H1 H0 ltac:(lra) ltac:(lra) Ea2 EV).
    pose proof (K _ _ 1 (/ 67108864) PA H2 ltac:(lra) ltac:(lra) ltac:(lra) Eb2). lra. }
  assert (ES : U1 * V1 - RN P + (A - U1) * V1 + U1 * (B - V1) + (A - U1) * (B - V1) = P - RN P) by (unfold P; ring).
  pose proof (RN_err P) as ER. fold Q in ER. rewrite p52 in ER. pose proof eta_pos as E0.
  assert (A1 : Rabs (U1 * V1) <= (1 + / 33000000) * Q).
  { replace (U1 * V1) with (P + (U1 * V1 - P)) by ring. eapply Rle_trans; [apply Rabs_triang|]. fold Q. lra. }
  rewrite (vlt _ _ (pw 1023) (Rabs (RN P))); [|apply p2_v; lia|apply vabs; auto].
  assert (E24 : pw 1024 = 4 * pw 1022). { change 1024%Z with (1023 + 1)%Z. rewrite p2split. change 1023%Z with (1022 + 1)%Z. rewrite p2split. ring. }
  assert (E23 : pw 1023 = 2 * pw 1022). { change 1023%Z with (1022 + 1)%Z. apply p2split. }
  assert (Eeta : 1000000 * eta <= pw 1000).
  { unfold eta. assert (pw (-1074) * pw 20 = pw (-1054)) by (rewrite <- bpow_plus; reflexivity).
    assert (pw 20 = 1048576) by reflexivity. assert (pw (-1054) <= pw 1000) by (apply bpow_le; lia).
    pose proof (bpow_gt_0 radix2 (-1074)). nra. }
  assert (E1000 : pw 1022 = 4194304 * pw 1000). { change 1022%Z with (22 + 1000)%Z. rewrite bpow_plus. reflexivity. }
  pose proof (bpow_gt_0 radix2 1000) as P1000.
  destruct (Rlt_bool_spec (pw 1023) (Rabs (RN P))) as [L|L].
  - (* |x| > 2^1023: the leading product is halved *)
    assert (LQ : pw 1022 <= Q).
    { assert (Rabs (RN P) <= Q + (/ 4503599627370496 * Q + eta)).
      { replace (RN P) with (P + (RN P - P)) by ring. eapply Rle_trans; [apply Rabs_triang|]. fold Q. lra. }
      lra. }
    assert (BA : pw 26 <= Rabs A).
    { apply Rnot_lt_le. intros C0. assert (Q < pw 26 * pw 996).
      { rewrite EQ. apply Rle_lt_trans with (Rabs A * pw 996); [apply Rmult_le_compat_l; auto|].
        apply Rmult_lt_compat_r; [apply bpow_gt_0|auto]. }
      rewrite <- bpow_plus in H3. change (26 + 996)%Z with 1022%Z in H3. lra. }
    assert (BU : 1 <= Rabs U1).
    { assert (Rabs A <= Rabs U1 + / 67108864 * Rabs A).
      { replace A with (U1 + (A - U1)) at 1 by ring. eapply Rle_trans; [apply Rabs_triang|]. lra. }
      assert (pw 26 = 67108864) by reflexivity. lra. }
    destruct (fmtv _ _ Su1) as [FU BU1]. destruct (fmtv _ _ HX) as [FX' BX].
    assert (pw (-1) = / 2) as Eh by reflexivity.
    assert (Hu : v64 (half O d u1) = XR (U1 * pw (-1))).
    { unfold half. apply scale_exact; auto using c_half.
      - apply FF_scale; auto. right. assert (pw 0 <= Rabs U1) as G by exact BU. apply mag_ge in G. lia.
      - rewrite Eh, Rabs_mult, (Rabs_pos_eq (/ 2)) by lra. pose proof maxR_lt. lra. }
    assert (Hx : v64 (half O d x) = XR (RN P * pw (-1))).
    { unfold half. apply scale_exact; auto using c_half.
      - apply FF_scale; auto. right. apply Rlt_le, mag_ge in L. lia.
      - rewrite Eh, Rabs_mult, (Rabs_pos_eq (/ 2)) by lra. pose proof maxR_lt. lra. }
    (* m1 *)
    destruct (rx_fin (dmode d) (U1 * pw (-1) * V1) big) as (m1 & M1 & D1 & _); [|lra|].
    { rewrite Eh. replace (U1 * / 2 * V1) with (/ 2 * (U1 * V1)) by field. rewrite Rabs_mult, (Rabs_pos_eq (/2)) by lra. unfold big. lra. }
    assert (Hm : v64 (mul_ d (half O d u1) v1) = XR m1) by (rewrite mul_v, Hu, Sv1; exact M1).
    assert (D1' : Rabs (m1 - U1 * pw (-1) * V1) <= / 100000000 * Q + eta).
    { rewrite p52 in D1. unfold big in D1. lra. }
    destruct (rx_fin (dmode d) (m1 - RN P * pw (-1)) (/ 20000000 * Q + 2 * eta)) as (s1 & S1 & _ & N1).
    { replace (m1 - RN P * pw (-1)) with ((m1 - U1 * pw (-1) * V1) + (/ 2 * (U1 * V1 - P) + - (/ 2 * (RN P - P)))) by (rewrite Eh; field).
      eapply Rle_trans; [apply Rabs_triang|]. pose proof (Rabs_triang (/ 2 * (U1 * V1 - P)) (- (/ 2 * (RN P - P)))) as T.
      rewrite Rabs_Ropp, !Rabs_mult, (Rabs_pos_eq (/ 2)) in T by lra. lra. }
    { unfold big. lra. }
    assert (Hs : v64 (sub_ d (mul_ d (half O d u1) v1) (half O d x)) = XR s1) by (rewrite sub_v, Hm, Hx; exact S1).
    assert (Bs : bnd d (v64 (sub_ d (mul_ d (half O d u1) v1) (half O d x))) (U1 * pw (-1) * V1 - RN P * pw (-1))).
    { apply sub_b; auto. apply mul_b; auto. }
    assert (Ns : Rabs s1 <= pw 1022) by lra.
    assert (Bd : bnd d (v64 (dbl O d (sub_ d (mul_ d (half O d u1) v1) (half O d x)))) (U1 * V1 - RN P)).
    { replace (U1 * V1 - RN P) with (2 * (U1 * pw (-1) * V1 - RN P * pw (-1))) by (rewrite Eh; field).
      apply dbl_b; auto. intros t Ht. rewrite Hs in Ht. injection Ht as <-. auto. }
    assert (Hd : v64 (dbl O d (sub_ d (mul_ d (half O d u1) v1) (half O d x))) = XR (s1 * pw 1)).
    { unfold dbl. destruct (fmtv _ _ Hs) as [Fs _]. apply scale_exact; auto using c_dbl.
      - apply FF_scale_up; [lia|auto].
      - change (pw 1) with 2. rewrite Rabs_mult, (Rabs_pos_eq 2) by lra. lra. }
    rewrite Hd in Bd.
    destruct (tp_tail d _ _ _ _ _ _ _ _ _ _ _ Q Hd Bd Su1 Su2 Sv1 Sv2 HQ) as [T1 T2]; auto.
    { change (pw 1) with 2. rewrite Rabs_mult, (Rabs_pos_eq 2) by lra. lra. }
    rewrite ES in T1. split; [|split]; cbn [fst snd]; auto.
  - assert (LQ : Q <= 21 / 10 * pw 1022).
    { assert (Q <= Rabs (RN P) + (/ 4503599627370496 * Q + eta)).
      { assert (Q = Rabs (RN P + - (RN P - P))) by (unfold Q; f_equal; ring).
        pose proof (Rabs_triang (RN P) (- (RN P - P))) as T. rewrite Rabs_Ropp in T. lra. }
      lra. }
    destruct (rx_fin (dmode d) (U1 * V1) ((1 + / 33000000) * Q)) as (m1 & M1 & D1 & _); auto.
    { unfold big. lra. }
    assert (Hm : v64 (mul_ d u1 v1) = XR m1) by (rewrite mul_v, Su1, Sv1; exact M1).
    destruct (rx_fin (dmode d) (m1 - RN P) (/ 20000000 * Q + 2 * eta)) as (s1 & S1 & _ & N1).
    { replace (m1 - RN P) with ((m1 - U1 * V1) + ((U1 * V1 - P) + - (RN P - P))) by ring.
      eapply Rle_trans; [apply Rabs_triang|]. pose proof (Rabs_triang (U1 * V1 - P) (- (RN P - P))) as T.
      rewrite Rabs_Ropp in T. rewrite p52 in D1. lra. }
    { unfold big. lra. }
    assert (Hs : v64 (sub_ d (mul_ d u1 v1) x) = XR s1) by (rewrite sub_v, Hm, HX; exact S1).
    assert (Bs : bnd d (v64 (sub_ d (mul_ d u1 v1) x)) (U1 * V1 - RN P)).
    { apply sub_b; auto. apply mul_b; auto. }
    rewrite Hs in Bs.
    destruct (tp_tail d _ _ _ _ _ _ _ _ _ _ _ Q Hs Bs Su1 Su2 Sv1 Sv2 HQ) as [T1 T2]; auto; [lra|].
    rewrite ES in T1. split; [|split]; cbn [fst snd]; auto.
Qed.

(* twoproduct_up / twoproduct_down: the product to nearest and a bound on its error *)
Lemma tpd_ok d x y A B : v64 x = XR A -> v64 y = XR B -> fits (A * B) -> tp_spec d A B (tpd O d x y).
Proof.
  intros Hx Hy Fi. pose proof (vmul x y A B Hx Hy Fi) as Hr.
  destruct (fmtv _ _ Hx) as [FA BA]. destruct (fmtv _ _ Hy) as [FB BB].
  pose proof maxR_lt as ML. pose proof (fits_lt _ Fi) as Lt. unfold tpd. destruct (o_fma O).
  - pose proof (Bfma_fin (dmode d) x y (Bopp (x *. y)) A B (- RN (A * B)) Hx Hy) as H.
    rewrite (vopp _ _ Hr) in H. specialize (H eq_refl). pose proof eta_pos.
    assert (E : Rabs (A * B + - RN (A * B)) <= pw (-52) * Rabs (A * B) + eta).
    { change (A * B + - RN (A * B)) with (A * B - RN (A * B)). rewrite Rabs_minus_sym. apply RN_err. }
    pose proof (Rabs_pos (A * B)) as PQ.
    destruct (rx_fin (dmode d) _ _ E) as (w & W & _ & N).
    { rewrite p52. pose proof (Q_big (Rabs (A * B)) (/ 4503599627370496) 1 (conj PQ Lt) ltac:(lra) ltac:(lra) ltac:(lra)). lra. }
    split; [|split]; cbn [fst snd]; auto.
    + rewrite H. apply rx_bnd.
    + exists w. split; [rewrite H; auto|]. rewrite p52 in N. lra.
  - assert (EE : forall u v, u * pw (-28) * (v * pw 28) = u * v).
    { intros. transitivity (u * v * (pw (-28) * pw 28)); [ring|]. rewrite <- bpow_plus. change (pw (-28 + 28)) with 1. ring. }
    assert (Big : forall u v, FF u -> FF v -> Rabs u < pw 1024 -> Rabs (u * v) < pw 1024 -> pw 996 < Rabs u ->
       FF (u * pw (-28)) /\ Rabs (u * pw (-28)) <= pw 996 /\ Rabs (v * pw 28) <= pw 996).
    { intros u v Fu Fv Bu Buv G. split; [|split].
      - apply FF_scale; auto. right. apply Rlt_le, mag_ge in G. lia.
      - rewrite Rabs_mult, (Rabs_pos_eq (pw (-28))) by apply bpow_ge_0.
        change 996%Z with (1024 + -28)%Z. rewrite bpow_plus. apply Rmult_le_compat_r; [apply bpow_ge_0|lra].
      - rewrite Rabs_mult, (Rabs_pos_eq (pw 28)) by apply bpow_ge_0.
        apply Rle_trans with (pw 28 * pw 28).
        + apply Rmult_le_compat_r; [apply bpow_ge_0|]. apply Rnot_lt_le. intros C.
          rewrite Rabs_mult in Buv. change 1024%Z with (996 + 28)%Z in Buv. rewrite bpow_plus in Buv.
          pose proof (bpow_gt_0 radix2 996). pose proof (bpow_gt_0 radix2 28). nra.
        + rewrite <- bpow_plus. apply bpow_le; lia. }
    assert (L996 : pw 996 < pw 1024) by (apply bpow_lt; lia).
    rewrite (vlt _ _ (pw 996) (Rabs A)); [|apply p2_v; lia|apply vabs; auto].
    rewrite (vlt _ _ (pw 996) (Rabs B)); [|apply p2_v; lia|apply vabs; auto].
    assert (K : forall na nb A' B', v64 na = XR A' -> v64 nb = XR B' -> A' * B' = A * B -> Rabs A' <= pw 996 -> Rabs B' <= pw 996 ->
       tp_spec d A B (let '(u1, u2) := split na in
    let '(v1, v2) := split nb in
    if p2 1023 <. Babs (x *. y) then
      (x *. y, add_ d (add_ d (add_ d (dbl O d (sub_ d (mul_ d (half O d u1) v1) (half O d (x *. y)))) (mul_ d u2 v1)) (mul_ d u1 v2)) (mul_ d u2 v2))
    else
      (x *. y, add_ d (add_ d (add_ d (sub_ d (mul_ d u1 v1) (x *. y)) (mul_ d u2 v1)) (mul_ d u1 v2)) (mul_ d u2 v2)))).
    { intros na nb A' B' H1 H2 E L1 L2. pose proof (tp_core d na nb (x *. y) A' B' H1 H2) as T. unfold tp_spec in T. rewrite E in T.
      apply T; auto. }
    destruct (Rlt_bool_spec (pw 996) (Rabs A)) as [L1|L1]; [|destruct (Rlt_bool_spec (pw 996) (Rabs B)) as [L2|L2]].
    + destruct (Big A B) as (F1 & F2 & F3); auto; [lra|].
      apply (K _ _ (A * pw (-28)) (B * pw 28)); auto.
      * apply vscale; auto; [lia|lra].
      * apply vscale; auto; [lia|apply FF_scale_up; [lia|auto]|lra].
    + destruct (Big B A) as (F1 & F2 & F3); auto; [lra|rewrite Rmult_comm; auto|].
      apply (K _ _ (A * pw 28) (B * pw (-28))); auto.
      * apply vscale; auto; [lia|apply FF_scale_up; [lia|auto]|lra].
      * apply vscale; auto; [lia|lra].
      * rewrite Rmult_comm, EE. ring.
    + apply (K x y A B); auto.
Qed.
Lemma tpd_fst d x y : fst (tpd O d x y) = x *. y.
Proof.
  unfold tpd. destruct (o_fma O); auto. destruct (if p2 996 <. Babs x then _ else _) as [na nb].
  destruct (split na), (split nb). destruct (_ <. _); auto.
Qed.

(* overflow of a sum or product rounded to nearest *)
Definition ovf := pw 1024 - pw 970.
Lemma ovf_fits e : Rabs e < ovf -> fits e.
Proof.
  intros L. unfold fits. apply Rnot_le_lt. intros G.
  assert (M : FF maxR) by apply fmt_max. unfold ovf in L.
  assert (E : Rabs (RN e - e) <= Rabs (maxR * (if Rlt_bool e 0 then -1 else 1) - e)).
  { unfold RN. apply (round_N_pt radix2 FX (fun x => negb (Z.even x)) e).
    destruct (Rlt_bool e 0); [replace (maxR * -1) with (- maxR) by ring; apply FF_opp; auto|rewrite Rmult_1_r; auto]. }
  assert (E71 : pw 971 = 2 * pw 970) by apply (p2split 970). pose proof (bpow_gt_0 radix2 970) as P70.
  assert (EM : maxR = pw 1024 - pw 971) by reflexivity.
  assert (P24 : pw 971 < pw 1024) by (apply bpow_lt; lia).
  destruct (Rlt_bool_spec e 0) as [C|C].
  - assert (RN e <= 0) by (apply RN_le_fmt; [apply FF_0|lra]). rewrite (Rabs_left1 (RN e)) in G by auto.
    rewrite (Rabs_left1 e) in L by lra. rewrite (Rabs_left1 (RN e - e)) in E by lra.
    unfold Rabs in E. destruct (Rcase_abs _); lra.
  - assert (0 <= RN e) by (apply RN_ge_fmt; [apply FF_0|lra]). rewrite (Rabs_pos_eq (RN e)) in G by auto.
    rewrite (Rabs_pos_eq e) in L by lra. rewrite (Rabs_pos_eq (RN e - e)) in E by lra.
    unfold Rabs in E. destruct (Rcase_abs _); lra.
Qed.
Lemma not_fits_ge e : ~ fits e -> ovf <= Rabs e.
Proof. intros N. apply Rnot_lt_le. intros C. apply N, ovf_fits; auto. Qed.

Definition mx2 := IZR (2 ^ 53 - 1) * pw 917.
Lemma ddmax2_v : v64 ddmax2 = XR mx2.
Proof. unfold ddmax2. rewrite bdy_v; [reflexivity|lia|lia]. Qed.
Lemma ddmax_le : maxR + mx2 <= ovf.
Proof.
  unfold maxR, mx2, ovf. assert (E71 : pw 971 = 2 * pw 970) by apply (p2split 970).
  assert (pw 970 = IZR (2 ^ 53) * pw 917). { change (IZR (2 ^ 53)) with (pw 53). rewrite <- bpow_plus. reflexivity. }
  rewrite minus_IZR. pose proof (bpow_gt_0 radix2 917). rewrite E71, H. lra.
Qed.
Lemma mx2_small : 0 <= mx2 < pw 970.
Proof.
  unfold mx2. assert (pw 970 = IZR (2 ^ 53) * pw 917). { change (IZR (2 ^ 53)) with (pw 53). rewrite <- bpow_plus. reflexivity. }
  rewrite minus_IZR, H. pose proof (bpow_gt_0 radix2 917). assert (1 <= IZR (2 ^ 53)) by (apply (IZR_le 1); lia). nra.
Qed.
Lemma ddmax_norm : RN (maxR + mx2) = maxR.
Proof.
  assert (M : FF maxR) by apply fmt_max. pose proof mx2_small.
  assert (E71 : pw 971 = 2 * pw 970) by apply (p2split 970).
  assert (maxR <= RN (maxR + mx2)) by (apply RN_ge_fmt; auto; lra).
  assert (F : fits (maxR + mx2)).
  { apply ovf_fits. rewrite Rabs_pos_eq by (pose proof maxR_pos; lra). unfold ovf, maxR. lra. }
  apply RN_bound in F. apply Rle_antisym; auto. pose proof (Rle_abs (RN (maxR + mx2))). lra.
Qed.
End S.
