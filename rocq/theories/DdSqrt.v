(* rop<dd>: square root. *)
From Coq Require Import Reals Lra Lia Psatz ZArith Bool.
From Flocq Require Import Core BinarySingleNaN.
From Verif Require Import Ext Scalar Fp64 RDoubleHw NohwModel NohwReal NohwBase NohwProd NohwProofs NohwDiv DdModel DdSpec DdProofs DdArith DdDiv.
Open Scope R_scope.

Lemma rx_dn_ge q Y : FF q -> 0 <= q <= maxR -> q <= Y -> exists w, rx mode_DN Y = XR w /\ q <= w <= Y.
Proof.
  intros Fq [Q1 Q2] HY. pose proof (rx_dn Y) as D. unfold rx in * .
  rewrite (Rlt_bool_false Y 0) in * by lra. cbn [overflow_to_inf] in * .
  destruct (Rlt_bool _ _).
  - eexists. split; [reflexivity|]. simpl in D. split; auto.
    apply round_ge_generic; auto with typeclass_instances.
  - simpl in D. exists maxR. split; [reflexivity|]. split; auto.
Qed.

(* the square root of a double, rounded to nearest, squares below the overflow threshold *)
Lemma sqrt_top s : 0 <= s -> s * s <= maxR -> RN s <= pw 512 - pw 459.
Proof.
  intros S0 S1. set (M := pw 512 - pw 459).
  assert (EM : PRED (pw 512) = M). { rewrite pred_bpow. unfold FX, FLT_exp. simpl Z.max. auto. }
  assert (FM : FF M). { rewrite <- EM. apply generic_format_pred; auto with typeclass_instances. apply FF_pw; lia. }
  apply Rnot_lt_le. intros C.
  assert (G : pw 512 <= RN s).
  { apply Rnot_lt_le. intros K. assert (RN s <= PRED (pw 512)); [|lra].
    apply pred_ge_gt; auto with typeclass_instances; [apply FF_RN|apply FF_pw; lia]. }
  assert (L : M < s). { apply Rnot_le_lt. intros K. pose proof (RN_le_fmt s M FM K). lra. }
  assert (E : Rabs (RN s - s) <= Rabs (M - s)).
  { unfold RN. apply (round_N_pt radix2 FX (fun x => negb (Z.even x)) s). auto. }
  assert (P : pw 512 - pw 458 <= s).
  { rewrite (Rabs_left (M - s)) in E by lra. pose proof (Rle_abs (RN s - s)).
    assert (pw 459 = 2 * pw 458) by apply (p2split 458). unfold M in * . lra. }
  assert (0 < pw 458 < pw 512) by (split; [apply bpow_gt_0|apply bpow_lt; lia]).
  assert ((pw 512 - pw 458) * (pw 512 - pw 458) <= s * s) by (apply Rmult_le_compat; lra).
  assert (pw 512 * pw 512 = pw 1024) by (rewrite <- bpow_plus; auto).
  assert (pw 512 * pw 458 = pw 970) by (rewrite <- bpow_plus; auto).
  assert (pw 971 = 2 * pw 970) by apply (p2split 970).
  assert (0 < pw 458 * pw 458) by (apply Rmult_lt_0_compat; lra). unfold maxR in S1. lra.
Qed.

Section S.
Variable O : dops.
Hypothesis OK : opsok O.

Lemma sqrt_ub u r : 0 <= r -> ub (v64 u) r -> ub (v64 (sqrt_ O true u)) (sqrt r).
Proof.
  intros Hr H. rewrite (sqrt_v O OK). destruct (v64 u) as [g| | |]; simpl in * ; try tauto.
  rewrite Rlt_bool_false by lra. simpl. eapply ub_le; [apply (rx_bnd true)|]. apply sqrt_le_1_alt; auto.
Qed.
Lemma dbl_up u r : 0 <= r -> ub (v64 u) r -> ub (v64 (dbl O true u)) (2 * r).
Proof.
  intros Hr H. unfold dbl. rewrite Bmult_v, c_dbl. change (pw 1) with 2.
  destruct (v64 u) as [t| | |] eqn:E; simpl in H; try tauto.
  - destruct (fmtv _ _ E) as [F _]. simpl. unfold rx.
    assert (F2 : FF (t * 2)) by (apply (FF_scale_up t 1); [lia|auto]).
    rewrite rnd_id by auto. destruct (Rlt_bool _ _); simpl; [lra|].
    rewrite Rlt_bool_false by lra. destruct (ok_mode O OK true) as [-> | ->]; simpl; auto.
  - simpl xmul. unfold xsgn_inf. rewrite Rcompare_Gt by lra. exact Logic.I.
Qed.

Theorem dd_sqrt_ok d x : ddok x -> bounds d (xsqrt (ddval x)) (dd_sqrt O d x).
Proof.
  intros Hx. unfold dd_sqrt.
  destruct (ddok_cases x Hx) as [(A & a & X1 & X2 & Nx & ->)|[(X1 & X2 & ->)|(X1 & X2 & ->)]].
  2:{ rewrite !eqb_x, X1, X2, b0_v, bpinf_v. cbn. apply plain_bounds; auto. }
  2:{ intros K. simpl in K. congruence. }
  set (X := A + a) in * . destruct (Rlt_dec X 0) as [NX|NX].
  { simpl. rewrite Rlt_bool_true by auto. intros K. congruence. }
  simpl xsqrt. rewrite Rlt_bool_false by lra. apply res_bounds.
  pose proof (norm_sign _ _ _ X2 Nx) as SG. fold X in SG.
  rewrite (veq _ _ _ _ X1 b0_v), (veq _ _ _ _ X2 b0_v), (eqb_x (a1 x) bpinf), X1, bpinf_v. cbn [xeqb].
  destruct (Req_dec A 0) as [ZA|ZA].
  { rewrite ZA, (Rcompare_Eq 0 0) in SG by auto. apply Rcompare_Eq_inv in SG.
    assert (a = 0) by (unfold X in SG; lra). subst a. rewrite ZA in * . rewrite !Req_bool_true by auto. cbn [andb].
    assert (X = 0) as -> by auto. rewrite sqrt_0. apply (norm_res d b0 b0 0 0); rewrite ?Rplus_0_r, ?rnd_0; try reflexivity.
    - rewrite b0_v. f_equal. ring.
    - destruct d; simpl; lra. }
  rewrite (Req_bool_false A 0) by auto. cbn [andb].
  assert (PA : 0 < A).
  { destruct (Rcompare_spec A 0) as [L|L|L]; try lra. apply Rcompare_Lt_inv in SG. lra. }
  assert (PX : 0 < X). { rewrite (Rcompare_Gt A 0) in SG by auto. apply Rcompare_Gt_inv in SG. auto. }
  clear SG. destruct (fmtv _ _ X1) as [FA BA]. destruct (fmtv _ _ X2) as [Fa Ba].
  rewrite Rabs_pos_eq in BA by lra.
  pose proof eta_pos as E0. pose proof maxR_lt as ML. pose proof maxR_pos as MP.
  assert (EA : eta <= A).
  { pose proof (mult2_ge (-1074) A (mult2_FF A FA) ZA) as K. rewrite Rabs_pos_eq in K by lra. auto. }
  assert (EX : eta <= X).
  { pose proof (mult2_ge (-1074) X) as K. rewrite Rabs_pos_eq in K by lra. apply K; [|lra].
    apply mult2_plus; apply mult2_FF; auto. }
  set (s := sqrt A). assert (SS : s * s = A) by (apply sqrt_sqrt; lra). assert (PS : 0 < s) by (apply sqrt_lt_R0; auto).
  assert (LS : pw (-537) <= s).
  { unfold s. rewrite <- (sqrt_square (pw (-537))) by apply bpow_ge_0. apply sqrt_le_1_alt. rewrite <- bpow_plus. exact EA. }
  assert (ES : eta <= / 4503599627370496 * s).
  { rewrite <- p52. apply Rle_trans with (pw (-52) * pw (-537)).
    - rewrite <- bpow_plus. apply bpow_le; lia.
    - apply Rmult_le_compat_l; [apply bpow_ge_0|auto]. }
  set (p := RN s).
  assert (Hz : v64 (Bsqrt mode_NE (a1 x)) = XR p).
  { rewrite Bsqrt_v, X1. simpl xsqrt. rewrite Rlt_bool_false by lra. apply xr_fits, sqrt_fits; [lra|rewrite Rabs_pos_eq; lra]. }
  pose proof (RN_err s) as ER. fold p in ER. rewrite p52, (Rabs_pos_eq s) in ER by lra.
  apply Rabs_le_inv in ER as [ER1 ER2].
  assert (PL : (1 - / 2000000000000000) * s <= p <= (1 + / 2000000000000000) * s) by lra.
  assert (PP : 0 < p) by lra.
  assert (TOP : p <= pw 512 - pw 459) by (apply sqrt_top; lra).
  set (K := p * p).
  assert (KA : Rabs (K - A) <= / 800000000000000 * A).
  { unfold K. rewrite <- SS. replace (p * p - s * s) with ((p - s) * (p + s)) by ring.
    rewrite Rabs_mult, (Rabs_pos_eq (p + s)) by lra.
    apply Rle_trans with (/ 2000000000000000 * s * ((2 + / 2000000000000000) * s)); [|nra].
    apply Rmult_le_compat; try apply Rabs_pos; try lra. apply Rabs_le; lra. }
  pose proof KA as KA'. apply Rabs_le_inv in KA' as [KA1 KA2].
  assert (PK : 0 < K) by (unfold K; nra).
  set (z1 := Bsqrt mode_NE (a1 x)) in * .
  assert (FK : fits (- p * p)).
  { apply ovf_fits. replace (- p * p) with (- K) by (unfold K; ring). rewrite Rabs_Ropp, Rabs_pos_eq by lra.
    apply Rle_lt_trans with ((pw 512 - pw 459) * (pw 512 - pw 459)); [apply Rmult_le_compat; lra|].
    assert (pw 512 * pw 512 = pw 1024) by (rewrite <- bpow_plus; auto).
    assert (pw 512 * pw 459 = pw 971) by (rewrite <- bpow_plus; auto).
    assert (pw 971 = 2 * pw 970) by apply (p2split 970).
    assert (pw 459 * pw 459 = pw 918) by (rewrite <- bpow_plus; auto).
    assert (0 < pw 918 < pw 970) by (split; [apply bpow_gt_0|apply bpow_lt; lia]). unfold ovf. lra. }
  destruct (tpd_ok O OK d _ _ _ _ (vopp _ _ Hz) Hz FK) as (T1 & T2 & w4 & T3 & N4).
  destruct (tpd O d (Bopp z1) z1) as [z3 z4]. cbn [fst snd] in T1, T2, T3.
  replace (- p * p) with (- K) in T1, T2, N4 by (unfold K; ring). rewrite Rabs_Ropp, (Rabs_pos_eq K) in N4 by lra.
  set (Z3 := RN (- K)) in * .
  assert (EZ : Rabs (Z3 + K) <= / 4503599627370496 * K + eta).
  { pose proof (RN_err (- K)) as H. rewrite Rabs_Ropp, (Rabs_pos_eq K), p52 in H by lra. fold Z3 in H.
    replace (Z3 - - K) with (Z3 + K) in H by ring. auto. }
  assert (HA : 0 <= A < pw 1024) by lra.
  assert (La : Rabs a <= / 2000000000000000 * A + 2 * eta).
  { pose proof (RN_err X) as H. rewrite Nx in H. replace (A - X) with (- a) in H by (unfold X; ring). rewrite Rabs_Ropp, p52 in H.
    assert (Rabs X <= A + Rabs a). { unfold X. eapply Rle_trans; [apply Rabs_triang|]. rewrite (Rabs_pos_eq A); lra. }
    lra. }
  (* the remainder *)
  destruct (rx_fin (dmode d) (Z3 + A) (/ 200000000000000 * A + eta)) as (w1 & W1 & _ & N1).
  { replace (Z3 + A) with ((Z3 + K) + - (K - A)) by ring. eapply Rle_trans; [apply Rabs_triang|]. rewrite Rabs_Ropp. lra. }
  { pose proof (Q_big A (/ 200000000000000) 1 HA ltac:(lra) ltac:(lra) ltac:(lra)). lra. }
  assert (V1 : v64 (add_ O d z3 (a1 x)) = XR w1) by (rewrite (add_v O OK), T1, X1; exact W1).
  destruct (add_m O OK d _ _ _ _ (/ 50000000000000 * A + 5 * eta) V1 X2) as (w2 & V2 & N2); [lra|apply Q_big; lra|].
  destruct (add_m O OK d _ _ _ _ (/ 32000 * A + 211 * eta + / 100000 * A) V2 T3) as (w3 & V3 & N3); [lra| |].
  { pose proof (Q_big A (/ 65536) 0 HA ltac:(lra) ltac:(lra) ltac:(lra)).
    pose proof (Q_big A (/ 65536) 1000 HA ltac:(lra) ltac:(lra) ltac:(lra)).
    assert (4 * (/ 65536 * A) + 1000 * eta <= big).
    { unfold big in * . assert (pw 1024 = 4 * pw 1022) by (change 1024%Z with (1023 + 1)%Z; rewrite p2split; change 1023%Z with (1022 + 1)%Z; rewrite p2split; ring).
      assert (1000 * eta <= pw 1022).
      { apply Rle_trans with (pw 10 * pw (-1074)); [unfold eta; simpl (pw 10); pose proof (bpow_gt_0 radix2 (-1074)); lra|].
        rewrite <- bpow_plus. apply bpow_le; lia. }
      lra. }
    lra. }
  set (v := add_ O d (add_ O d (add_ O d z3 (a1 x)) (a2 x)) z4) in * .
  assert (BV : bnd d (XR w3) (X - K)).
  { rewrite <- V3. replace (X - K) with (Z3 + A + a + (- K - Z3)) by (unfold X; ring). unfold v.
    repeat apply (add_b O OK); auto; apply exact_b; assumption. }
  assert (N3' : Rabs w3 <= 500 * A) by lra.
  set (T := sqrt X + p). assert (PT : p <= T) by (unfold T; pose proof (sqrt_pos X); lra).
  assert (QT : (X - K) / T = sqrt X - p).
  { unfold T, K. pose proof (sqrt_sqrt X ltac:(lra)). pose proof (sqrt_pos X). rewrite <- H at 1. field. lra. }
  (* the two roundings of the divisor *)
  assert (Bp : 0 <= p <= maxR). { destruct (fmtv _ _ Hz) as [_ H]. rewrite Rabs_pos_eq in H; lra. }
  assert (LOW : exists t, v64 (add_ O false (sqrt_ O false (add_ O false (a1 x) (a2 x))) z1) = XR t /\ p <= t <= T).
  { destruct (rx_dn_ge eta X eta_FF) as (g & G1 & G2); [|lra|].
    { split; [lra|]. apply Rle_trans with (pw 0); [apply bpow_le; lia|].
      unfold maxR. assert (pw 1024 = 2 * (2 * pw 1022)) by (rewrite <- !p2split; reflexivity).
      assert (pw 971 <= pw 1022) by (apply bpow_le; lia). assert (pw 0 <= pw 1022) by (apply bpow_le; lia). lra. }
    assert (G : v64 (add_ O false (a1 x) (a2 x)) = XR g) by (rewrite (add_v O OK), X1, X2; exact G1).
    destruct (rx_dn_ge 0 (sqrt g) FF_0) as (h & H1 & H2 & H3); [lra|apply sqrt_pos|].
    assert (H : v64 (sqrt_ O false (add_ O false (a1 x) (a2 x))) = XR h).
    { rewrite (sqrt_v O OK), G. simpl xsqrt. rewrite Rlt_bool_false by lra. exact H1. }
    destruct (rx_dn_ge p (h + p) (FF_RN s) Bp) as (t & t1 & t2 & t3); [lra|].
    exists t. split; [rewrite (add_v O OK), H, Hz; exact t1|]. split; auto. unfold T.
    assert (sqrt g <= sqrt X) by (apply sqrt_le_1_alt; lra). lra. }
  assert (HIGH : ub (v64 (if a1 x ==. bmax then
        add_ O true (dbl O true (sqrt_ O true (add_ O true (quarter O true (a1 x)) (mul_ O true (a2 x) (bdy 1 (-2)))))) z1
      else add_ O true (sqrt_ O true (add_ O true (a1 x) (a2 x))) z1)) T).
  { rewrite (veq _ _ _ _ X1 bmax_v). destruct (Req_bool_spec A maxR) as [EM|EM].
    - apply (add_b O OK true); [|apply exact_b; auto].
      assert (Q4 : pw (-2) = / 4) by reflexivity.
      replace (sqrt X) with (2 * sqrt (A * pw (-2) + a * pw (-2))).
      2:{ rewrite <- Rmult_plus_distr_r. fold X. rewrite Q4. replace (X * / 4) with (X / (2 * 2)) by field.
          rewrite sqrt_div by lra. rewrite sqrt_square by lra. field. }
      apply dbl_up; [apply sqrt_pos|]. apply sqrt_ub.
      { rewrite Q4. unfold X in PX. lra. }
      apply (add_b O OK true).
      + apply (exact_b true). unfold quarter. apply scale_exact; auto using c_quarter.
        * apply FF_scale; auto. right. rewrite EM. assert (pw 1022 <= Rabs maxR) as G.
          { rewrite Rabs_pos_eq by lra. unfold maxR. assert (pw 1024 = 2 * (2 * pw 1022)) by (rewrite <- !p2split; reflexivity).
            assert (pw 971 <= pw 1022) by (apply bpow_le; lia). pose proof (bpow_gt_0 radix2 1022). lra. }
          apply mag_ge in G. lia.
        * rewrite Q4, Rabs_pos_eq by lra. lra.
      + apply (mul_b O OK true); auto. apply c_quarter.
    - apply (add_b O OK true); [|apply exact_b; auto]. apply sqrt_ub; [lra|].
      apply (add_b O OK true); apply exact_b; auto. }
  (* the quotient *)
  assert (LQ : 500 * A <= 510 * pw 512 * p).
  { assert (s <= pw 512). { assert (s * s <= pw 512 * pw 512) by (rewrite <- bpow_plus; change (pw (512 + 512)) with (pw 1024); lra).
      pose proof (bpow_gt_0 radix2 512). apply Rnot_lt_le. intros C0. nra. }
    rewrite <- SS. pose proof (bpow_gt_0 radix2 512).
    apply Rle_trans with (500 * (pw 512 * s)); [apply Rmult_le_compat_l; [lra|apply Rmult_le_compat_r; lra]|].
    replace (500 * (pw 512 * s)) with (pw 512 * (500 * s)) by ring. replace (510 * pw 512 * p) with (pw 512 * (510 * p)) by ring.
    apply Rmult_le_compat_l; lra. }
  assert (DIV : forall t, p <= t -> exists q, rx (dmode d) (w3 / t) = XR q /\ Rabs q <= pw 523).
  { intros t Ht. destruct (rx_fin (dmode d) (w3 / t) (510 * pw 512)) as (q & Q1 & _ & Q2).
    - unfold Rdiv. rewrite Rabs_mult, (Rabs_pos_eq (/ t)) by (apply Rlt_le, Rinv_0_lt_compat; lra).
      apply Rmult_le_reg_r with t; [lra|]. rewrite Rmult_assoc, Rinv_l, Rmult_1_r by lra.
      apply Rle_trans with (500 * A); auto. apply Rle_trans with (510 * pw 512 * p); auto.
      apply Rmult_le_compat_l; [|auto]. pose proof (bpow_gt_0 radix2 512). lra.
    - unfold big. assert (pw 1022 = pw 510 * pw 512) by (rewrite <- bpow_plus; auto).
      assert (pw 10 <= pw 510) by (apply bpow_le; lia). assert (pw 10 = 1024) by reflexivity. pose proof (bpow_gt_0 radix2 512). nra.
    - exists q. split; auto. assert (pw 523 = 2048 * pw 512). { change 523%Z with (11 + 512)%Z. rewrite bpow_plus. reflexivity. }
      assert (eta <= pw 512) by (apply bpow_le; lia). lra. }
  match goal with |- context [div_ O d v ?t] => set (tmp := t) end.
  assert (QQ : exists q, v64 (div_ O d v tmp) = XR q /\ Rabs q <= pw 523 /\ dle d (sqrt X - p) q).
  { rewrite <- QT. assert (FIN : forall t, v64 tmp = XR t -> p <= t -> dle d ((X - K) / T) (w3 / t) ->
      exists q, v64 (div_ O d v tmp) = XR q /\ Rabs q <= pw 523 /\ dle d ((X - K) / T) q).
    { intros t Ht Lt Ld. destruct (DIV t Lt) as (q & Q1 & Q2). exists q. split; [|split; auto].
      - rewrite (div_v O OK), V3, Ht; [exact Q1|]. rewrite Ht. intros C0. injection C0. lra.
      - pose proof (rx_bnd d (w3 / t)) as RB. rewrite Q1 in RB. apply bnd_XR in RB. destruct d; simpl in *; lra. }
    assert (P523 := bpow_ge_0 radix2 523).
    assert (PTT : 0 < T) by lra.
    unfold tmp in * . rewrite (vlt _ _ _ _ b0_v V3) in * .
    destruct (Rlt_bool_spec 0 w3) as [Pw|Pw]; destruct d; cbn [Bool.eqb] in * ; simpl in BV.
    - destruct LOW as (t & L1 & L2 & L3). apply (FIN t); auto. simpl.
      apply Rle_trans with (w3 / T); [apply dpos; auto|apply qge; [apply Rmult_lt_0_compat; lra|apply Rmult_le_pos; lra]].
    - destruct (v64 (if a1 x ==. bmax then _ else _)) as [t| | |] eqn:Et; simpl in HIGH; try tauto.
      + apply (FIN t); auto; [lra|]. simpl. apply Rle_trans with (w3 / T); [apply qle; [apply Rmult_lt_0_compat; lra|nra]|apply dpos; auto].
      + exists 0. split; [rewrite (div_v O OK), V3, Et; [apply rx_0|rewrite Et; discriminate]|].
        rewrite Rabs_R0. split; auto. simpl. apply Rmult_le_pos; [lra|apply Rlt_le, Rinv_0_lt_compat; auto].
    - destruct (v64 (if a1 x ==. bmax then _ else _)) as [t| | |] eqn:Et; simpl in HIGH; try tauto.
      + apply (FIN t); auto; [lra|]. simpl. apply Rle_trans with (w3 / T); [apply dpos; auto|apply qge; [apply Rmult_lt_0_compat; lra|nra]].
      + exists 0. split; [rewrite (div_v O OK), V3, Et; [apply rx_0|rewrite Et; discriminate]|].
        rewrite Rabs_R0. split; auto. simpl. pose proof (Rinv_0_lt_compat _ PTT). unfold Rdiv. nra.
    - destruct LOW as (t & L1 & L2 & L3). apply (FIN t); auto. simpl.
      apply Rle_trans with (w3 / T); [apply qle; [apply Rmult_lt_0_compat; lra|nra]|apply dpos; auto]. }
  destruct QQ as (q & Q1 & Q2 & Q3).
  assert (FQ : fits (p + q)).
  { apply (fits_pw 525); [lia|]. eapply Rle_trans; [apply Rabs_triang|]. rewrite (Rabs_pos_eq p) by lra.
    assert (pw 512 <= pw 523) by (apply bpow_le; lia). assert (pw 524 = 2 * pw 523) by apply (p2split 523).
    assert (pw 525 = 2 * pw 524) by apply (p2split 524). pose proof (bpow_gt_0 radix2 459). lra. }
  destruct (twosum_v _ _ _ _ Hz Q1 FQ) as [S1 S2]. destruct (twosum z1 (div_ O d v tmp)) as [y3 y4]. cbn [fst snd] in S1, S2.
  apply (norm_res d y3 y4 p q); auto. destruct d; simpl in *; lra.
Qed.
End S.
