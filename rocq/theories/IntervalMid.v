(* mid, rad, width, midrad, floor, ceil of interval<double> (any back end). *)
From Coq Require Import Reals Lra Lia Psatz ZArith Bool.
From Flocq Require Import Core BinarySingleNaN Mult_error.
From Verif Require Import Ext Scalar IntervalModel IntervalSpec IntervalProofs IntervalEncl IntervalSets IntervalDivPow IntervalMore Fp64 RDoubleHw IntervalTight.
Open Scope R_scope.

Section Mid.
Variables au ad su sd mu md du dd : b64 -> b64 -> b64. Variables qu qd : b64 -> b64.
Hypothesis ID : ideal64 au ad su sd mu md du dd qu qd.
Let S := mk64 au ad su sd mu md du dd qu qd.
Implicit Types X : iv S.

Lemma sval_v (x : S) : sval x = v64 x. Proof. reflexivity. Qed.
Definition bounded X := is_fin (sval (lo X)) /\ is_fin (sval (hi X)).
Notation N := (rnd mode_NE).
Lemma N_mono a b : a <= b -> N a <= N b.
Proof. intros H. unfold rnd. apply round_le; auto with typeclass_instances. Qed.
Lemma N_id a : generic_format radix2 FX a -> N a = a.
Proof. intros H. unfold rnd. apply round_generic; auto with typeclass_instances. Qed.
Lemma F_twice a : generic_format radix2 FX a -> generic_format radix2 FX (2 * a).
Proof.
  intros F. replace (2 * a) with (a * bpow radix2 1) by (change (bpow radix2 1) with 2; ring).
  apply mult_bpow_pos_exact_FLT; auto; lia.
Qed.
Lemma N_range m a b : generic_format radix2 FX a -> generic_format radix2 FX b -> a <= m <= b -> a <= N m <= b.
Proof. intros Fa Fb [L U]. split; [apply round_ge_generic|apply round_le_generic]; auto with typeclass_instances. Qed.
Lemma max_lt : maxR < bpow radix2 1024.
Proof. unfold maxR. pose proof (bpow_gt_0 radix2 971). lra. Qed.
Lemma rx_in m : Rabs (N m) <= maxR -> rx mode_NE m = XR (N m).
Proof. intros H. unfold rx. rewrite Rlt_bool_true; auto. pose proof max_lt. lra. Qed.
Lemma half_v : v64 (bdy 1 (-1)) = XR (/ 2).
Proof. rewrite bdy_v by lia. f_equal. simpl. lra. Qed.
Lemma half_exact a : generic_format radix2 FX a -> 1 < Rabs a -> generic_format radix2 FX (a * / 2).
Proof.
  intros F L. change (/ 2) with (bpow radix2 (-1)). apply mult_bpow_exact_FLT; auto.
  assert (1 <= Raux.mag radix2 a)%Z. { apply mag_ge_bpow. simpl. lra. } lia.
Qed.

Definition bmid (l h : b64) : b64 :=
  if Bltb b1 (Babs l) && Bltb b1 (Babs h)
  then Bplus mode_NE (Bmult mode_NE l (bdy 1 (-1))) (Bmult mode_NE h (bdy 1 (-1)))
  else Bmult mode_NE (Bplus mode_NE l h) (bdy 1 (-1)).
Lemma mid_eq X : sval (mid X) = v64 (bmid (lo X) (hi X)).
Proof. reflexivity. Qed.
Lemma mid_in X : ivalid X -> bounded X -> exists m, sval (mid X) = XR m /\ isin X m.
Proof.
  intros V [B1 B2]. pose proof V as (_ & _ & _ & _ & LE).
  destruct (sval (lo X)) as [a| | |] eqn:Ea; try (elim B1; fail). destruct (sval (hi X)) as [b| | |] eqn:Eb; try (elim B2; fail).
  simpl in LE. rewrite sval_v in Ea, Eb.
  destruct (v64_XR _ _ Ea) as [_ Ra]. destruct (v64_XR _ _ Eb) as [_ Rb].
  assert (Fa : generic_format radix2 FX a) by (rewrite <- Ra; apply fmt_B2R).
  assert (Fb : generic_format radix2 FX b) by (rewrite <- Rb; apply fmt_B2R).
  assert (Ma : Rabs a <= maxR) by (rewrite <- Ra; apply B2R_le_max).
  assert (Mb : Rabs b <= maxR) by (rewrite <- Rb; apply B2R_le_max).
  pose proof (Rabs_le_inv _ _ Ma) as Ma'. pose proof (Rabs_le_inv _ _ Mb) as Mb'.
  assert (IN : forall m, a <= m <= b -> isin X m).
  { intros m Hm. split; [exact I|split; [exact I|split]].
    - change (lb (v64 (lo X)) m). rewrite Ea. simpl. lra.
    - change (ub (v64 (hi X)) m). rewrite Eb. simpl. lra. }
  assert (HM : forall m, a <= m <= b -> rx mode_NE m = XR (N m) /\ a <= N m <= b).
  { intros m Hm. pose proof (N_range m a b Fa Fb Hm). split; auto. apply rx_in. apply Rabs_le. lra. }
  assert (ABS : forall (x : b64) r, v64 x = XR r -> Bltb b1 (Babs x) = true <-> 1 < Rabs r).
  { intros x r E. rewrite Bltb_v, Babs_v, E, b1_v. simpl. tauto. }
  rewrite mid_eq. unfold bmid. change (sT S) with b64 in *. 
  destruct (Bltb b1 (Babs (lo X)) && Bltb b1 (Babs (hi X))) eqn:C.
  - apply andb_true_iff in C as [C1 C2]. apply (ABS _ a Ea) in C1. apply (ABS _ b Eb) in C2.
    pose proof (half_exact a Fa C1) as Ha. pose proof (half_exact b Fb C2) as Hb.
    assert (V1 : v64 (Bmult mode_NE (lo X) (bdy 1 (-1))) = XR (a * / 2)).
    { rewrite Bmult_v, half_v, Ea. simpl xr. rewrite rx_in; rewrite N_id; auto.
      rewrite Rabs_mult, (Rabs_pos_eq (/ 2)) by lra. pose proof (Rabs_pos a). lra. }
    assert (V2 : v64 (Bmult mode_NE (hi X) (bdy 1 (-1))) = XR (b * / 2)).
    { rewrite Bmult_v, half_v, Eb. simpl xr. rewrite rx_in; rewrite N_id; auto.
      rewrite Rabs_mult, (Rabs_pos_eq (/ 2)) by lra. pose proof (Rabs_pos b). lra. }
    destruct (HM (a * / 2 + b * / 2)) as [E1 E2]; [lra|].
    exists (N (a * / 2 + b * / 2)). split; auto.
    rewrite Bplus_v, V1, V2. simpl xr. auto.
  - assert (SM : Rabs a <= 1 \/ Rabs b <= 1).
    { apply andb_false_iff in C as [C|C]; [left|right]; apply Rnot_lt_le; intros L; [apply (ABS _ a Ea) in L|apply (ABS _ b Eb) in L]; congruence. }
    assert (OV : rx mode_NE (a + b) = XR (N (a + b))).
    { unfold rx. rewrite Rlt_bool_true; auto.
      assert (Rabs (a + b) <= maxR + 1). { pose proof (Rabs_triang a b). lra. }
      (* maxR + 1 is closer to maxR than to 2^1024 *)
      apply Rle_lt_trans with maxR; [|apply max_lt].
      assert (Hr : N (maxR + 1) = maxR).
      { unfold rnd. apply Rle_antisym.
        - assert (DN : round radix2 FX Zfloor (maxR + 1) = maxR).
          { apply (round_DN_eq radix2 FX _ maxR); [apply fmt_max|].
            assert (SU : succ radix2 FX maxR = bpow radix2 1024).
            { rewrite succ_eq_pos by (pose proof maxR_pos; lra). unfold ulp. rewrite Req_bool_false by (pose proof maxR_pos; lra).
              unfold cexp. rewrite (mag_unique_pos radix2 maxR 1024).
              - simpl FX. unfold maxR. change (FX 1024) with 971%Z. ring.
              - split; [|apply max_lt]. unfold maxR. change (1024 - 1)%Z with 1023%Z.
                assert (bpow radix2 1024 = 2 * bpow radix2 1023) by (change 2 with (bpow radix2 1); rewrite <- (bpow_plus radix2 1 1023); reflexivity).
                assert (bpow radix2 971 < bpow radix2 1023) by (apply bpow_lt; lia). lra. }
            rewrite SU. unfold maxR. assert (1 < bpow radix2 971). { change 1 with (bpow radix2 0). apply bpow_lt; lia. } lra. }
          assert (UPx : round radix2 FX Zceil (maxR + 1) = bpow radix2 1024).
          { apply round_UP_eq; auto with typeclass_instances; [apply generic_format_bpow; unfold FX, FLT_exp; lia|].
            assert (PR : pred radix2 FX (bpow radix2 1024) = maxR) by (rewrite pred_bpow; unfold maxR; reflexivity).
            rewrite PR. assert (1 < bpow radix2 971). { change 1 with (bpow radix2 0). apply bpow_lt; lia. } unfold maxR. lra. }
          destruct (Rle_or_lt (round radix2 FX (round_mode mode_NE) (maxR + 1)) maxR) as [|G]; auto.
          pose proof (round_N_pt radix2 FX (fun x => negb (Z.even x)) (maxR + 1)) as [_ NP].
          specialize (NP maxR fmt_max).
          set (q := round radix2 FX (Znearest (fun x : Z => negb (Z.even x))) (maxR + 1)).
          change (maxR < q) in G. change (Rabs (q - (maxR + 1)) <= Rabs (maxR - (maxR + 1))) in NP. change (q <= maxR).
          assert (q = maxR \/ q = bpow radix2 1024) as [E|E].
          { unfold q. destruct (round_DN_or_UP radix2 FX (Znearest (fun x : Z => negb (Z.even x))) (maxR + 1)) as [E|E]; rewrite E; auto. }
          + lra.
          + exfalso. rewrite E in NP. replace (maxR - (maxR + 1)) with (-1) in NP by ring. rewrite (Rabs_left (-1)) in NP by lra.
            rewrite Rabs_pos_eq in NP; unfold maxR in NP.
            * assert (4 < bpow radix2 971). { change 4 with (bpow radix2 2). apply bpow_lt; lia. } lra.
            * assert (4 < bpow radix2 971). { change 4 with (bpow radix2 2). apply bpow_lt; lia. } unfold maxR. lra.
        - apply round_ge_generic; auto with typeclass_instances; [apply fmt_max|lra]. }
      apply Rabs_le_inv in H. unfold rnd in *. apply Rabs_le. split.
      - rewrite <- Hr. simpl round_mode. rewrite <- round_NE_opp. apply round_le; auto with typeclass_instances. simpl. lra.
      - rewrite <- Hr. apply round_le; auto with typeclass_instances. lra. }
    set (s := N (a + b)) in *.
    assert (S1 : 2 * a <= s <= 2 * b). { apply N_range; auto using F_twice. lra. }
    destruct (HM (s * / 2)) as [E1 E2]; [lra|].
    exists (N (s * / 2)). split; auto.
    rewrite Bmult_v, half_v, Bplus_v, Ea, Eb. simpl xadd. simpl xr. rewrite OV. simpl. auto.
Qed.

Lemma rad_ok X x y : isin X x -> isin X y -> ub (sval (rad X)) (Rabs (x - y) / 2).
Proof.
  intros (_ & _ & L1 & U1) (_ & _ & L2 & U2). unfold rad. cbv [S mk64 subu mulu shalf sdy sval] in *.
  rewrite (id_mu _ _ _ _ _ _ _ _ _ _ ID), (id_su _ _ _ _ _ _ _ _ _ _ ID), half_v.
  destruct (v64 (lo X)) as [a| | |] eqn:Ea; simpl in L1, L2; try contradiction;
  destruct (v64 (hi X)) as [b| | |] eqn:Eb; simpl in U1, U2; try contradiction; simpl xsub; simpl xadd.
  - pose proof (rx_up (b + - a)) as R1. simpl xr.
    assert (AB : Rabs (x - y) <= b - a) by (apply Rabs_le; lra).
    destruct (rx mode_UP (b + - a)) as [w| | |]; simpl in R1; try contradiction; simpl xmul.
    + pose proof (rx_up (w * / 2)) as R2. simpl xr. destruct (rx mode_UP (w * / 2)); simpl in *; auto. lra.
    + rewrite xsgn_inf_pos by lra. simpl. auto.
  - simpl. rewrite xsgn_inf_pos by lra. simpl. auto.
  - simpl. rewrite xsgn_inf_pos by lra. simpl. auto.
  - simpl. rewrite xsgn_inf_pos by lra. simpl. auto.
Qed.
Lemma width_ok X x y : isin X x -> isin X y -> ub (sval (width X)) (Rabs (x - y)).
Proof.
  intros (_ & _ & L1 & U1) (_ & _ & L2 & U2). unfold width. cbv [S mk64 subu sval] in *.
  rewrite (id_su _ _ _ _ _ _ _ _ _ _ ID).
  destruct (v64 (lo X)) as [a| | |] eqn:Ea; simpl in L1, L2; try contradiction;
  destruct (v64 (hi X)) as [b| | |] eqn:Eb; simpl in U1, U2; try contradiction; simpl xsub; simpl xadd; try exact I.
  pose proof (rx_up (b + - a)) as R1. simpl xr.
  assert (AB : Rabs (x - y) <= b - a) by (apply Rabs_le; lra).
  destruct (rx mode_UP (b + - a)) as [w| | |]; simpl in *; auto. lra.
Qed.
Lemma midrad_ok X : ivalid X -> bounded X -> exists m, sval (fst (midrad X)) = XR m /\ isin X m /\
  forall x, isin X x -> ub (sval (snd (midrad X))) (Rabs (x - m)).
Proof.
  intros V B. destruct (mid_in X V B) as (m & E & I). exists m. split; [exact E|split; [exact I|]].
  intros x Hx. unfold midrad. cbn [fst snd].
  destruct I as (_ & _ & L1 & U1). destruct Hx as (_ & _ & L2 & U2). destruct B as [B1 B2].
  set (M := mid X) in *. clearbody M.
  cbv [S mk64 subu slt sval is_fin] in *.
  destruct (v64 (lo X)) as [a| | |] eqn:Ea; try contradiction. destruct (v64 (hi X)) as [b| | |] eqn:Eb; try contradiction.
  simpl in L1, L2, U1, U2.
  assert (HU : ub (v64 (su (hi X) M)) (b - m)).
  { rewrite (id_su _ _ _ _ _ _ _ _ _ _ ID), Eb, E. simpl xsub. apply (rx_up (b + - m)). }
  assert (HT : ub (v64 (su M (lo X))) (m - a)).
  { rewrite (id_su _ _ _ _ _ _ _ _ _ _ ID), Ea, E. simpl xsub. apply (rx_up (m + - a)). }
  destruct (Bltb (su (hi X) M) (su M (lo X))) eqn:C.
  - apply Bltb_v in C. destruct (v64 (su (hi X) M)) as [p| | |], (v64 (su M (lo X))) as [q| | |]; simpl in *; auto; try contradiction.
    apply Rabs_le. lra.
  - assert (NC : ~ xlt (v64 (su (hi X) M)) (v64 (su M (lo X)))) by (rewrite <- Bltb_v, C; discriminate).
    destruct (v64 (su (hi X) M)) as [p| | |], (v64 (su M (lo X))) as [q| | |]; simpl in *; auto; try contradiction; try tauto.
    apply Rabs_le. lra.
Qed.

(* floor, ceil *)
Lemma nearby_v (md' : mode) (x : b64) : v64 (Bnearbyint md' x) = match v64 x with XR r => XR (IZR (round_mode md' r)) | o => o end.
Proof.
  destruct (Bnearbyint_correct 53 1024 _ md' x) as (E & F & _).
  destruct (is_finite x) eqn:Fx.
  - rewrite (v64_fin x Fx). rewrite v64_fin by auto. rewrite E. f_equal.
    unfold round, scaled_mantissa, cexp, FIX_exp. simpl. rewrite Rmult_1_r. unfold F2R; simpl. ring.
  - destruct x as [|[]| |]; simpl in *; try discriminate; auto.
Qed.
Lemma floor_in X x : isin X x -> isin (ifloor X) (IZR (Zfloor x)).
Proof.
  intros (_ & _ & L & U). split; [exact I|split; [exact I|]]. unfold ifloor. cbn [lo hi]. cbv [S mk64 sfloor sval] in *.
  rewrite !nearby_v. split.
  - destruct (v64 (lo X)); simpl in *; auto. apply IZR_le, Zfloor_le; auto.
  - destruct (v64 (hi X)); simpl in *; auto. apply IZR_le, Zfloor_le; auto.
Qed.
Lemma ceil_in X x : isin X x -> isin (iceil X) (IZR (Zceil x)).
Proof.
  intros (_ & _ & L & U). split; [exact I|split; [exact I|]]. unfold iceil. cbn [lo hi]. cbv [S mk64 sceil sval] in *.
  rewrite !nearby_v. split.
  - destruct (v64 (lo X)); simpl in *; auto. apply IZR_le, Zceil_le; auto.
  - destruct (v64 (hi X)); simpl in *; auto. apply IZR_le, Zceil_le; auto.
Qed.
(* the ends are attained *)
Lemma floor_tight X : ivalid X -> (forall a, sval (lo X) = XR a -> sval (lo (ifloor X)) = XR (IZR (Zfloor a)) /\ isin X a) /\
  (forall b, sval (hi X) = XR b -> sval (hi (ifloor X)) = XR (IZR (Zfloor b)) /\ isin X b).
Proof.
  intros V. split; intros a E; (split; [|first [apply (valid_lo_att X a V E)|apply (valid_hi_att X a V E)]]);
  unfold ifloor; cbn [lo hi]; cbv [S mk64 sfloor sval] in *; rewrite nearby_v, E; auto.
Qed.
Lemma ceil_tight X : ivalid X -> (forall a, sval (lo X) = XR a -> sval (lo (iceil X)) = XR (IZR (Zceil a)) /\ isin X a) /\
  (forall b, sval (hi X) = XR b -> sval (hi (iceil X)) = XR (IZR (Zceil b)) /\ isin X b).
Proof.
  intros V. split; intros a E; (split; [|first [apply (valid_lo_att X a V E)|apply (valid_hi_att X a V E)]]);
  unfold iceil; cbn [lo hi]; cbv [S mk64 sceil sval] in *; rewrite nearby_v, E; auto.
Qed.
End Mid.
