(* rop<dd>: division. *)
From Coq Require Import Reals Lra Lia Psatz ZArith Bool.
From Flocq Require Import Core BinarySingleNaN.
From Verif Require Import Ext Scalar Fp64 RDoubleHw NohwModel NohwReal NohwBase NohwProd NohwProofs NohwDiv DdModel DdSpec DdProofs DdArith.
Open Scope R_scope.

Lemma eta_FF : FF eta. Proof. apply FF_pw; lia. Qed.
Lemma rx_dn_pos Y : eta <= Y -> exists w, rx mode_DN Y = XR w /\ 0 < w <= Y.
Proof.
  intros HY. pose proof eta_pos. pose proof (rx_dn Y) as D. unfold rx in * .
  rewrite (Rlt_bool_false Y 0) in * by lra. cbn [overflow_to_inf] in * .
  destruct (Rlt_bool _ _).
  - eexists. split; [reflexivity|]. simpl in D. split; auto. apply Rlt_le_trans with eta; auto.
    apply round_ge_generic; auto with typeclass_instances. apply eta_FF.
  - simpl in D. exists maxR. split; [reflexivity|]. split; auto. apply maxR_pos.
Qed.
Lemma rx_up_neg Y : Y <= - eta -> exists w, rx mode_UP Y = XR w /\ Y <= w < 0.
Proof.
  intros HY. destruct (rx_dn_pos (- Y)) as (w & E & P1 & P2); [lra|]. exists (- w). split; [|lra].
  replace Y with (- (- Y)) at 1 by ring. rewrite rx_opp, E. reflexivity.
Qed.
Lemma rx_up_cases Y : (exists w, rx mode_UP Y = XR w /\ Y <= w) \/ rx mode_UP Y = Xp.
Proof. pose proof (rx_up Y) as U. destruct (rx mode_UP Y); simpl in U; try tauto; eauto. Qed.
Lemma rx_dn_cases Y : (exists w, rx mode_DN Y = XR w /\ w <= Y) \/ rx mode_DN Y = Xm.
Proof. pose proof (rx_dn Y) as U. destruct (rx mode_DN Y); simpl in U; try tauto; eauto. Qed.

Lemma qge n w Y : 0 < w * Y -> 0 <= n * (Y - w) -> n / Y <= n / w.
Proof.
  intros P Q. assert (w <> 0 /\ Y <> 0) as [] by (split; intros K; rewrite K in P; lra).
  assert (E : n / w - n / Y = n * (Y - w) * / (w * Y)) by (field; auto).
  pose proof (Rinv_0_lt_compat _ P). nra.
Qed.
Lemma qle n w Y : 0 < w * Y -> n * (Y - w) <= 0 -> n / w <= n / Y.
Proof.
  intros P Q. assert (w <> 0 /\ Y <> 0) as [] by (split; intros K; rewrite K in P; lra).
  assert (E : n / w - n / Y = n * (Y - w) * / (w * Y)) by (field; auto).
  pose proof (Rinv_0_lt_compat _ P). nra.
Qed.
Lemma dpos a b Y : 0 < Y -> a <= b -> a / Y <= b / Y.
Proof. intros. apply Rmult_le_compat_r; auto. apply Rlt_le, Rinv_0_lt_compat; auto. Qed.
Lemma dneg a b Y : Y < 0 -> a <= b -> b / Y <= a / Y.
Proof. intros H L. pose proof (Rinv_lt_0_compat _ H). unfold Rdiv. nra. Qed.

Section S.
Variable O : dops.
Hypothesis OK : opsok O.

Lemma quot_ok d v u w c f R0 : v64 u = XR c -> v64 w = XR f -> c + f <> 0 ->
  bnd (if Rlt_bool 0 (c + f) then d else negb d) (v64 v) R0 ->
  bnd d (v64 (quot O d v u w)) (R0 / (c + f)).
Proof.
  intros Hu Hw N B. destruct (fmtv _ _ Hu) as [Fc _]. destruct (fmtv _ _ Hw) as [Ff _].
  assert (L : eta <= Rabs (c + f)).
  { apply (mult2_ge (-1074)); auto. apply mult2_plus; apply mult2_FF; auto. }
  set (Y := c + f) in * .
  assert (T : forall k, v64 (add_ O k u w) = rx (dmode k) Y) by (intros k; rewrite (add_v O OK), Hu, Hw; reflexivity).
  pose proof eta_pos as EP. unfold quot.
  assert (DV : forall k (t : ext), v64 (add_ O k u w) = t -> t <> XR 0 ->
     v64 (div_ O d v (add_ O k u w)) = xr (dmode d) (xdiv (v64 v) t)).
  { intros k t E1 E2. rewrite (div_v O OK) by (rewrite E1; auto). rewrite E1. auto. }
  rewrite ltb_x, b0_v. cbv zeta.
  assert (Z0 : forall t, t <> 0 -> XR t <> XR 0) by (intros t Ht K; injection K; auto).
  assert (RB : forall r t, dle d r t -> bnd d (xr (dmode d) (XR t)) r).
  { intros r t Ht. eapply bnd_le; [apply rx_bnd|auto]. }
  assert (X0 : xr (dmode d) (XR 0) = XR 0) by apply rx_0.
  destruct (Rlt_bool_spec 0 Y) as [P|P].
  - rewrite Rabs_pos_eq in L by lra. destruct (rx_dn_pos Y L) as (wd & D1 & D2 & D3).
    assert (PP : 0 < wd * Y) by nra.
    destruct (v64 v) as [n| | |] eqn:Ev.
    + simpl xltb. destruct (Rlt_bool_spec 0 n) as [Pn|Pn]; destruct d; cbn [negb].
      * rewrite (DV false _ (eq_trans (T false) D1)); [|apply Z0; lra].
        apply RB. simpl. simpl in B. apply Rle_trans with (n / Y); [apply dpos; auto|apply qge; auto; nra].
      * destruct (rx_up_cases Y) as [(wu & U1 & U2)|U1]; rewrite (DV true _ (eq_trans (T true) U1)); try (apply Z0; lra); try discriminate.
        -- apply RB. simpl. simpl in B. apply Rle_trans with (n / Y); [apply qle; nra|apply dpos; auto].
        -- simpl xdiv. rewrite X0. simpl. simpl in B. apply Rmult_le_pos; [lra|apply Rlt_le, Rinv_0_lt_compat; auto].
      * destruct (rx_up_cases Y) as [(wu & U1 & U2)|U1]; rewrite (DV true _ (eq_trans (T true) U1)); try (apply Z0; lra); try discriminate.
        -- apply RB. simpl. simpl in B. apply Rle_trans with (n / Y); [apply dpos; auto|apply qge; nra].
        -- simpl xdiv. rewrite X0. simpl. simpl in B. pose proof (Rinv_0_lt_compat _ P). unfold Rdiv. nra.
      * rewrite (DV false _ (eq_trans (T false) D1)); [|apply Z0; lra].
        apply RB. simpl. simpl in B. apply Rle_trans with (n / Y); [apply qle; nra|apply dpos; auto].
    + destruct d; simpl in B; [|tauto]. simpl xltb. cbn [negb].
      rewrite (DV false _ (eq_trans (T false) D1)); [|apply Z0; lra].
      simpl xdiv. unfold xsgn_inf. rewrite Rcompare_Gt by auto. exact Logic.I.
    + destruct d; simpl in B; [tauto|]. cbn [xltb negb].
      rewrite (DV false _ (eq_trans (T false) D1)); [|apply Z0; lra].
      simpl xdiv. unfold xsgn_inf. rewrite Rcompare_Gt by auto. exact Logic.I.
    + destruct d; simpl in B; tauto.
  - assert (P' : Y < 0) by lra. rewrite Rabs_left in L by lra. destruct (rx_up_neg Y) as (wu & U1 & U2 & U3); [lra|].
    assert (PP : 0 < wu * Y) by nra.
    destruct (v64 v) as [n| | |] eqn:Ev.
    + simpl xltb. destruct (Rlt_bool_spec 0 n) as [Pn|Pn]; destruct d; cbn [negb] in * .
      * destruct (rx_dn_cases Y) as [(wd & D1 & D2)|D1]; rewrite (DV false _ (eq_trans (T false) D1)); try (apply Z0; lra); try discriminate.
        -- apply RB. simpl. simpl in B. apply Rle_trans with (n / Y); [apply dneg; auto|apply qge; nra].
        -- simpl xdiv. rewrite X0. simpl. simpl in B. pose proof (Rinv_lt_0_compat _ P'). unfold Rdiv. nra.
      * rewrite (DV true _ (eq_trans (T true) U1)); [|apply Z0; lra].
        apply RB. simpl. simpl in B. apply Rle_trans with (n / Y); [apply qle; nra|apply dneg; auto].
      * rewrite (DV true _ (eq_trans (T true) U1)); [|apply Z0; lra].
        apply RB. simpl. simpl in B. apply Rle_trans with (n / Y); [apply dneg; auto|apply qge; nra].
      * destruct (rx_dn_cases Y) as [(wd & D1 & D2)|D1]; rewrite (DV false _ (eq_trans (T false) D1)); try (apply Z0; lra); try discriminate.
        -- apply RB. simpl. simpl in B. apply Rle_trans with (n / Y); [apply qle; nra|apply dneg; auto].
        -- simpl xdiv. rewrite X0. simpl. simpl in B. pose proof (Rinv_lt_0_compat _ P'). unfold Rdiv. nra.
    + destruct d; simpl in B; [tauto|]. simpl xltb. cbn [negb].
      rewrite (DV true _ (eq_trans (T true) U1)); [|apply Z0; lra].
      simpl xdiv. unfold xsgn_inf. rewrite Rcompare_Lt by auto. exact Logic.I.
    + destruct d; simpl in B; [|tauto]. cbn [xltb negb].
      rewrite (DV true _ (eq_trans (T true) U1)); [|apply Z0; lra].
      simpl xdiv. unfold xsgn_inf. rewrite Rcompare_Lt by auto. exact Logic.I.
    + destruct d; simpl in B; tauto.
Qed.

Theorem dd_div_ok d x y : ddok x -> ddok y -> ddval y <> XR 0 -> div_scope x y ->
  bounds d (xdiv (ddval x) (ddval y)) (dd_div O d x y).
Proof.
  intros Hx Hy NY SC. unfold dd_div. rewrite !isinf_v.
  destruct (ddok_cases x Hx) as [(A & a & X1 & X2 & Nx & Ex)|[(X1 & X2 & Ex)|(X1 & X2 & Ex)]];
  destruct (ddok_cases y Hy) as [(B & b & Y1 & Y2 & Ny & Ey)|[(Y1 & Y2 & Ey)|(Y1 & Y2 & Ey)]];
  rewrite Ex; rewrite Ey in NY |- * ; rewrite X1, Y1; cbn [orb].
  2-3, 5-6, 8-9: apply plain_bounds; [rewrite Bdiv_v, X1, Y1; [|rewrite Y1; discriminate]; try reflexivity; simpl; try apply rx_0; auto|simpl; auto].
  2-3: assert (NB : B <> 0) by (intros ->; apply NY; f_equal; destruct (Rcompare_spec (0 + b) 0) as [K|K|K]; auto;
        pose proof (norm_sign _ _ _ Y2 Ny) as SG; rewrite (Rcompare_Eq 0 0) in SG by auto; rewrite ?Rcompare_Lt, ?Rcompare_Gt in SG by lra; discriminate);
       apply plain_bounds; [rewrite Bdiv_v, X1, Y1; [|rewrite Y1; intros K; injection K; auto];
         simpl; unfold xsgn_inf; rewrite (norm_sign _ _ _ Y2 Ny); destruct (Rcompare_spec B 0); auto|
         simpl; unfold xsgn_inf; rewrite (norm_sign _ _ _ Y2 Ny); destruct (Rcompare_spec B 0); auto].
  (* finite operands *)
  pose proof (norm_sign _ _ _ Y2 Ny) as SG.
  assert (NB : B <> 0).
  { intros K. apply NY. f_equal. rewrite K in SG at 2. rewrite (Rcompare_Eq 0 0) in SG by auto.
    destruct (Rcompare_spec (B + b) 0) as [Q|Q|Q]; auto; discriminate. }
  simpl xdiv. apply res_bounds. set (X := A + a) in * . set (Y := B + b) in * .
  assert (NY0 : Y <> 0) by (intros K; apply NY; rewrite K; auto).
  destruct (fmtv _ _ X1) as [FA BA]. destruct (fmtv _ _ Y1) as [FB BB].
  destruct (fmtv _ _ X2) as [Fa Ba]. destruct (fmtv _ _ Y2) as [Fb Bb].
  assert (Z1 : v64 (a1 x /. a1 y) = xr mode_NE (XR (A / B))).
  { rewrite Bdiv_v, X1, Y1; auto. rewrite Y1. intros K. injection K; auto. }
  set (e := if Rlt_bool 0 Y then d else negb d).
  assert (He : (if b0 <=. a1 y then d else negb d) = e).
  { rewrite (vle _ _ 0 B b0_v Y1). unfold e. destruct (Rcompare_spec B 0) as [L|L|L]; [| lra |].
    - apply Rcompare_Lt_inv in SG. rewrite Rle_bool_false, Rlt_bool_false by lra. auto.
    - apply Rcompare_Gt_inv in SG. rewrite Rle_bool_true, Rlt_bool_true by lra. auto. }
  rewrite He.
  pose proof maxR_lt as ML. pose proof maxR_pos as MP.
  assert (E24 : pw 1024 = 4 * pw 1022). { change 1024%Z with (1023 + 1)%Z. rewrite p2split. change 1023%Z with (1022 + 1)%Z. rewrite p2split. ring. }
  assert (E70 : pw 970 <= pw 1022 / 1000).
  { assert (pw 1022 = pw 52 * pw 970) by (rewrite <- bpow_plus; reflexivity).
    assert (pw 52 = 4503599627370496) by reflexivity. pose proof (bpow_gt_0 radix2 970). nra. }
  assert (E22 : 1000 <= pw 1022). { apply Rle_trans with (pw 10); [simpl; lra|apply bpow_le; lia]. }
  (* the body for a finite leading quotient z1 = p *)
  assert (MAIN : forall z1 p, v64 z1 = XR p -> (~ fits (- p * B) -> p = RN (A / B)) ->
    res_ok d (let '(z3, z4) := tpd O e (Bopp z1) (a1 y) in
      if isinf z3 then
        let '(z3, z4) := tpd O e (Bopp z1) (a1 y *. bdy 1 (-1)) in
        let v := add_ O e (add_ O e (add_ O e (add_ O e z3 (half O e (a1 x))) (mul_ O e (Bopp z1) (half O e (a2 y)))) (half O e (a2 x))) z4 in
        fin d z1 (quot O d v (half O e (a1 y)) (half O e (a2 y)))
      else
        let v := add_ O e (add_ O e (add_ O e (add_ O e z3 (a1 x)) (mul_ O e (Bopp z1) (a2 y))) (a2 x)) z4 in
        fin d z1 (quot O d v (a1 y) (a2 y))) (X / Y)).
  { intros z1 p Hz Hp. pose proof (vopp _ _ Hz) as Hz'. destruct (fits_dec (- p * B)) as [F|F].
    - destruct (tpd_ok O OK e _ _ _ _ Hz' Y1 F) as (T1 & T2 & _).
      destruct (tpd O e (Bopp z1) (a1 y)) as [z3 z4]. cbn [fst snd] in T1, T2. rewrite isinf_v, T1. cbv zeta.
      apply (fin_ok d z1 _ p ((X - p * Y) / Y)); auto.
      + apply (quot_ok d _ _ _ B b); auto. fold Y. fold e.
        replace (X - p * Y) with (RN (- p * B) + A + (- p) * b + a + (- p * B - RN (- p * B))) by (unfold X, Y; ring).
        repeat apply (add_b O OK); auto; try (apply exact_b; assumption). apply (mul_b O OK); auto.
      + replace (p + (X - p * Y) / Y) with (X / Y) by (field; auto). destruct d; simpl; lra.
    - specialize (Hp F). pose proof (not_fits_ge _ F) as G. unfold ovf in G.
      assert (T : v64 (fst (tpd O e (Bopp z1) (a1 y))) = Xm \/ v64 (fst (tpd O e (Bopp z1) (a1 y))) = Xp).
      { rewrite tpd_fst, Bmult_v, Hz', Y1. simpl xmul. rewrite ovf_NE by auto. destruct (Rlt_bool (- p * B) 0); auto. }
      destruct (tpd O e (Bopp z1) (a1 y)) as [z3 z4]. cbn [fst snd] in T. rewrite isinf_v.
      replace (match v64 z3 with Xp | Xm => true | _ => false end) with true by (destruct T as [-> | ->]; auto). clear T z3 z4.
      (* magnitudes *)
      destruct (fmtv _ _ Hz) as [Fp Bp].
      assert (EB : eta * Rabs B <= 1).
      { apply Rle_trans with (pw (-1074) * pw 1024).
        - apply Rmult_le_compat; try apply Rabs_pos; try apply bpow_ge_0; unfold eta; lra.
        - rewrite <- bpow_plus. change 1 with (pw 0). apply bpow_le; lia. }
      assert (PB : Rabs (p * B - A) <= / 4503599627370496 * Rabs A + 1).
      { replace (p * B - A) with ((p - A / B) * B) by (field; auto). rewrite Rabs_mult, Hp.
        pose proof (RN_err (A / B)) as ER. rewrite p52 in ER.
        apply Rle_trans with ((/ 4503599627370496 * Rabs (A / B) + eta) * Rabs B); [apply Rmult_le_compat_r; [apply Rabs_pos|auto]|].
        unfold Rdiv. rewrite Rabs_mult, Rabs_inv. pose proof (Rabs_pos_lt _ NB).
        replace ((/ 4503599627370496 * (Rabs A * / Rabs B) + eta) * Rabs B) with (/ 4503599627370496 * Rabs A + eta * Rabs B) by (field; lra).
        lra. }
      assert (G' : pw 1024 - pw 970 <= Rabs (p * B)).
      { replace (p * B) with (- (- p * B)) by ring. rewrite Rabs_Ropp. auto. }
      pose proof (Rabs_pos A) as PA.
      assert (TA : Rabs (p * B) <= Rabs A + (/ 4503599627370496 * Rabs A + 1)).
      { replace (p * B) with (A + (p * B - A)) by ring. eapply Rle_trans; [apply Rabs_triang|]. lra. }
      assert (LA : pw 1022 < Rabs A) by lra.
      assert (LB : / 2 <= Rabs B).
      { apply Rnot_lt_le. intros K. rewrite Rabs_mult in G'. 
        assert (Rabs p * Rabs B <= maxR * / 2) by (apply Rmult_le_compat; try apply Rabs_pos; lra). lra. }
      destruct SC as [SC|SC]; [specialize (SC _ X1); lra|].
      assert (Fah : FF (a * pw (-1))) by (apply SC; auto).
      assert (Fbh : FF (b * pw (-1))) by (apply SC; auto).
      assert (Eh : pw (-1) = / 2) by reflexivity.
      assert (FAh : FF (A * pw (-1))).
      { apply FF_scale; auto. right. apply Rlt_le, mag_ge in LA. lia. }
      assert (FBh : FF (B * pw (-1))).
      { apply FF_scale; auto. right. assert (pw (-1) <= Rabs B) as K by (rewrite Eh; auto). apply mag_ge in K. lia. }
      assert (HV : forall m (u : b64) r, v64 u = XR r -> FF (r * pw (-1)) -> v64 (Bmult m u (bdy 1 (-1))) = XR (r * pw (-1))).
      { intros m u r Hu Fu. apply scale_exact; auto using c_half. rewrite Eh, Rabs_mult, (Rabs_pos_eq (/2)) by lra.
        destruct (fmtv _ _ Hu) as [_ Bu]. lra. }
      assert (F2 : fits (- p * (B * pw (-1)))).
      { apply ovf_fits. rewrite Eh. replace (- p * (B * / 2)) with (- (/ 2 * (p * B))) by ring.
        rewrite Rabs_Ropp, Rabs_mult, (Rabs_pos_eq (/ 2)) by lra. unfold ovf. lra. }
      destruct (tpd_ok O OK e _ (a1 y *. bdy 1 (-1)) _ _ Hz' (HV mode_NE _ _ Y1 FBh) F2) as (T1 & T2 & _).
      destruct (tpd O e (Bopp z1) (a1 y *. bdy 1 (-1))) as [z3 z4]. cbn [fst snd] in T1, T2. cbv zeta.
      apply (fin_ok d z1 _ p ((X - p * Y) * pw (-1) / (B * pw (-1) + b * pw (-1)))); auto.
      + assert (EY : B * pw (-1) + b * pw (-1) = Y * / 2) by (rewrite Eh; unfold Y; ring).
        apply (quot_ok d _ _ _ (B * pw (-1)) (b * pw (-1))).
        * apply HV; auto.
        * apply HV; auto.
        * rewrite EY. lra.
        * replace (Rlt_bool 0 (B * pw (-1) + b * pw (-1))) with (Rlt_bool 0 Y).
          2:{ rewrite EY. destruct (Rlt_bool_spec 0 Y); [rewrite Rlt_bool_true|rewrite Rlt_bool_false]; auto; lra. }
          fold e.
          replace ((X - p * Y) * pw (-1)) with (RN (- p * (B * pw (-1))) + A * pw (-1) + (- p) * (b * pw (-1)) + a * pw (-1) + (- p * (B * pw (-1)) - RN (- p * (B * pw (-1))))) by (unfold X, Y; ring).
          repeat apply (add_b O OK); auto; try (apply exact_b; first [assumption|apply HV; assumption]). apply (mul_b O OK); auto. apply HV; auto.
      + replace (p + (X - p * Y) * pw (-1) / (B * pw (-1) + b * pw (-1))) with (X / Y).
        * destruct d; simpl; lra.
        * rewrite Eh. unfold X, Y in * . field. exact NY0. }
  destruct (fits_dec (A / B)) as [F|F].
  - rewrite xr_fits in Z1 by auto. rewrite !eq_inf, Z1. cbv zeta. apply (MAIN _ (RN (A / B))); auto.
  - rewrite ovf_NE in Z1 by auto. pose proof (not_fits_ge _ F) as G.
    assert (K : res_ok d (let '(z3, z4) := tpd O e (Bopp (far d ddmax1)) (a1 y) in
      if isinf z3 then
        let '(z3, z4) := tpd O e (Bopp (far d ddmax1)) (a1 y *. bdy 1 (-1)) in
        let v := add_ O e (add_ O e (add_ O e (add_ O e z3 (half O e (a1 x))) (mul_ O e (Bopp (far d ddmax1)) (half O e (a2 y)))) (half O e (a2 x))) z4 in
        fin d (far d ddmax1) (quot O d v (half O e (a1 y)) (half O e (a2 y)))
      else
        let v := add_ O e (add_ O e (add_ O e (add_ O e z3 (a1 x)) (mul_ O e (Bopp (far d ddmax1)) (a2 y))) (a2 x)) z4 in
        fin d (far d ddmax1) (quot O d v (a1 y) (a2 y))) (X / Y)).
    { apply (MAIN _ (sg d maxR)); [apply far_v, bmax_v|]. intros NF. exfalso. apply NF. apply fits_max.
      rewrite Rabs_mult. replace (Rabs (- sg d maxR)) with maxR by (destruct d; simpl; rewrite ?Ropp_involutive, ?Rabs_Ropp, Rabs_pos_eq; lra).
      unfold Rdiv in G. rewrite Rabs_mult, Rabs_inv in G. pose proof (Rabs_pos_lt _ NB).
      assert (maxR <= ovf) by (pose proof ddmax_le; pose proof mx2_small; lra).
      apply Rle_trans with (Rabs A * / Rabs B * Rabs B); [|field_simplify; lra].
      apply Rmult_le_compat_r; lra. }
    rewrite !eq_inf. destruct (Rlt_bool_spec (A / B) 0) as [L|L]; rewrite Z1; destruct d; cbn [negb]; auto; apply inf_res; auto.
Qed.
End S.
