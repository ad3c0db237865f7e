(* Proofs about dtostring: the decimal digits *)
From Coq Require Import ZArith Reals Lra Lia List Bool Ascii.
From Flocq Require Import Core BinarySingleNaN.
From Verif Require Import Ext Fp64 ConvModel ConvSpec ConvProofs ConvIn ConvIn2 ConvRead.
Import ListNotations.
Open Scope Z_scope.

(* ---- the bits of a double ---- *)
Lemma cmp_v (x y : b64) a b : v64 x = XR a -> v64 y = XR b -> Bcompare x y = Some (Rcompare a b).
Proof.
  intros A B. apply v64_XR in A as (A1 & A2). apply v64_XR in B as (B1 & B3).
  rewrite Bcompare_correct by auto. now rewrite A2, B3.
Qed.

Lemma bits_ok e : -1074 <= e <= 971 -> forall n (d d2 : b64) k j,
  v64 d = XR (IZR k * B2 e) -> v64 d2 = XR (B2 (j + e)) -> 0 <= k < 2 ^ (j + 1) -> 0 <= j <= 52 ->
  j < Z.of_nat n ->
  exists bl, bits_of n d d2 = Ok bl /\ Forall (dig 2) bl /\ 1 <= Z.of_nat (length bl) <= j + 1 /\
    bval 2 bl * 2 ^ (j + 1 - Z.of_nat (length bl)) = k.
Proof.
  intros He. induction n as [|n]; intros d d2 k j V V2 K J N; [lia|].
  cbn [bits_of]. rewrite (cmp_v d d2 _ _ V V2).
  assert (P := bpow_gt_0 radix2 e).
  assert (PJ : 0 < 2 ^ j) by (apply Z.pow_pos_nonneg; lia).
  assert (KJ : 2 ^ (j + 1) = 2 * 2 ^ j) by (rewrite Z.pow_add_r by lia; change (2 ^ 1) with 2; lia).
  assert (K53 : 2 ^ (j + 1) <= 2 ^ 53) by (apply Z.pow_le_mono_r; lia).
  assert (E2 : B2 (j + e) = (IZR (2 ^ j) * B2 e)%R) by (rewrite IZR_pow2, bpow_plus by lia; auto).
  cbv iota. set (ge := match Rcompare (IZR k * B2 e) (B2 (j + e)) with Lt => false | _ => true end).
  assert (GE : ge = (2 ^ j <=? k)).
  { unfold ge. destruct (Rcompare_spec (IZR k * B2 e) (B2 (j + e))) as [H|H|H]; rewrite E2 in H; symmetry.
    - apply Z.leb_gt. apply lt_IZR. apply (Rmult_lt_reg_r (B2 e)); auto.
    - apply Z.leb_le. apply le_IZR. apply (Rmult_le_reg_r (B2 e)); auto. lra.
    - apply Z.leb_le. apply le_IZR. apply (Rmult_le_reg_r (B2 e)); auto. lra. }
  clearbody ge. set (b := if ge then 1 else 0). set (k' := k - b * 2 ^ j).
  set (d' := if ge then Bplus mode_NE d (Bopp d2) else d).
  assert (KR : 0 <= k' < 2 ^ j).
  { unfold k', b. rewrite GE. destruct (Z.leb_spec (2 ^ j) k); lia. }
  assert (V' : v64 d' = XR (IZR k' * B2 e)).
  { unfold d', k', b. destruct ge.
    - rewrite Bplus_v, Bopp_v, V, V2. simpl xneg. simpl xadd. simpl xr.
      replace (IZR k * B2 e + - B2 (j + e))%R with (IZR (k - 1 * 2 ^ j) * B2 e)%R.
      2: { rewrite E2, minus_IZR, Z.mul_1_l. ring. }
      apply rx_exact; [|lia|].
      + destruct (Z.leb_spec (2 ^ j) k); lia.
      + rewrite Rabs_mult, (Rabs_pos_eq (B2 e)) by lra. rewrite <- abs_IZR.
        apply Rle_lt_trans with (IZR (2 ^ 52) * B2 971)%R.
        * apply Rmult_le_compat; [apply (IZR_le 0); lia|lra| |apply bpow_le; lia].
          apply IZR_le. assert (2 ^ j <= 2 ^ 52) by (apply Z.pow_le_mono_r; lia). lia.
        * rewrite IZR_pow2, <- bpow_plus by lia. apply bpow_lt. lia.
    - rewrite V. do 2 f_equal. f_equal. lia. }
  rewrite (cmp_v d' (B754_zero false) _ _ V' eq_refl).
  assert (BD : dig 2 b) by (unfold b, dig; destruct ge; lia).
  destruct (Rcompare_spec (IZR k' * B2 e) 0) as [H|H|H].
  - exfalso. assert (0 <= IZR k' * B2 e)%R by (apply Rmult_le_pos; [apply (IZR_le 0); lia|lra]). lra.
  - exists [b]. split; auto. split; auto. cbn [length bval]. split; [lia|].
    assert (k' = 0). { apply eq_IZR. apply (Rmult_eq_reg_r (B2 e)); lra. }
    replace (j + 1 - Z.of_nat 1) with j by lia. change (2 ^ Z.of_nat 0) with 1. unfold k' in H0. lia.
  - assert (K0 : 0 < k'). { apply lt_IZR. apply (Rmult_lt_reg_r (B2 e)); lra. }
    assert (J1 : 1 <= j).
    { destruct (Z.eq_dec j 0) as [->|]; [|lia]. change (2 ^ 0) with 1 in KR. lia. }
    destruct (IHn d' (Bdiv mode_NE d2 (bdy 2 0)) k' (j - 1)) as (bl & R1 & R2 & R3 & R4); auto; try lia.
    + rewrite Bdiv_v.
      * rewrite V2, bdy_v by (simpl; lia). cbn [xdiv xr].
        replace (B2 (j + e) / (2 * B2 0))%R with (IZR 1 * B2 (j - 1 + e))%R.
        -- rewrite rx_exact; [f_equal; ring|lia|lia|].
           rewrite Rmult_1_l, Rabs_pos_eq by apply bpow_ge_0. apply bpow_lt. lia.
        -- replace (j + e) with (1 + (j - 1 + e)) by lia. rewrite (bpow_plus _ 1). change (B2 0) with 1%R.
           change (B2 1) with 2%R. field.
      * rewrite bdy_v by (simpl; lia). change (B2 0) with 1%R. intros Q. injection Q. lra.
    + replace (j - 1 + 1) with j by lia. lia.
    + rewrite R1. cbn [bind]. exists (b :: bl). split; auto. split; auto. cbn [length bval].
      rewrite Nat2Z.inj_succ. split; [lia|].
      replace (j + 1 - Z.succ (Z.of_nat (length bl))) with (j - Z.of_nat (length bl)) by lia.
      replace (j - 1 + 1) with j in * by lia.
      rewrite Z.mul_add_distr_r, R4, <- Z.mul_assoc, <- Z.pow_add_r by lia.
      replace (Z.of_nat (length bl) + (j - Z.of_nat (length bl))) with j by lia. unfold k'. lia.
Qed.

(* ---- fraction part ---- *)
Lemma trimr_snoc0 l : trimr (l ++ [0]) = trimr l.
Proof. unfold trimr. rewrite rev_app_distr. reflexivity. Qed.
Lemma trimr_div : forall m r, Forall (dig 2) r -> (m <= length r)%nat -> (2 ^ Z.of_nat m | bval 2 r) ->
  (length (trimr r) <= length r - m)%nat.
Proof.
  induction m as [|m]; intros r F L D.
  - pose proof (trimr_length r). lia.
  - destruct (@exists_last _ r) as (r' & b & ->); [destruct r; simpl in *; [lia|discriminate]|].
    rewrite app_length in L. cbn [length] in L.
    apply Forall_app in F as (F1 & F2). inversion_clear F2 as [|? ? B _]. unfold dig in B.
    rewrite bval_app in D. cbn [bval length] in D. change (2 ^ Z.of_nat 1) with 2 in D.
    change (2 ^ Z.of_nat 0) with 1 in D. rewrite Nat2Z.inj_succ, Z.pow_succ_r in D by lia.
    destruct D as (q & D).
    assert (b = 0) as -> by (assert (b = 2 * (q * 2 ^ Z.of_nat m - bval 2 r')) by nia; lia).
    rewrite trimr_snoc0, app_length. cbn [length].
    assert ((length (trimr r') <= length r' - m)%nat).
    { apply IHm; auto; [lia|]. exists q. nia. }
    lia.
Qed.

Lemma highdig_fvt10 m c v : 0 <= c < 10 ^ Z.of_nat m ->
  fvt 10 (highdig 10 m c) v = ((IZR c + v) / IZR (10 ^ Z.of_nat m))%R.
Proof.
  intros C. rewrite fvt_bval by lia. destruct (highdig_spec 10 m ltac:(lia) c C) as (-> & _ & ->). auto.
Qed.

Lemma frac_out_ok : forall fuel t acc, Forall (dig 2) t -> Forall (dig 10) acc ->
  (length t <= fuel)%nat ->
  exists r, frac_out fuel t acc = Ok r /\ Forall (dig 10) r /\ fv 10 r = fvt 10 acc (fv 2 t) /\
    (length acc <= length r <= length acc + 8 * fuel)%nat.
Proof.
  induction fuel as [|fuel]; intros t acc F FA L.
  - destruct t; simpl in L; [|lia]. exists acc. simpl. repeat split; auto; lia.
  - destruct t as [|d t].
    { exists acc. cbn [frac_out]. repeat split; auto; try lia. }
    cbn [frac_out]. set (T := d :: t) in *. set (m := Nat.min 8 (length T)).
    destruct (fmul_pass 2 (10 ^ Z.of_nat m) T) as [r c] eqn:Ef.
    assert (P : 0 < 10 ^ Z.of_nat m) by (apply Z.pow_pos_nonneg; lia).
    destruct (fmul_spec 2 _ ltac:(lia) P T r c F Ef) as (I1 & I2 & I3 & I4).
    destruct (highdig_spec 10 m ltac:(lia) c I2) as (_ & HD & HL).
    assert (ML : (1 <= m <= length T)%nat) by (unfold m; subst T; simpl length; lia).
    assert (TL : (length (trimr r) <= length r - m)%nat).
    { apply trimr_div; auto; [lia|].
      exists (bval 2 T * 5 ^ Z.of_nat m - c * 2 ^ (Z.of_nat (length T) - Z.of_nat m)).
      unfold fv in I1. rewrite !fvt_bval in I1 by lia. rewrite I4 in I1.
      set (n := Z.of_nat (length T)) in *.
      assert (PN : 0 < 2 ^ n) by (apply Z.pow_pos_nonneg; lia).
      assert (I1' : (IZR (bval 2 T) * IZR (10 ^ Z.of_nat m) = IZR c * IZR (2 ^ n) + IZR (bval 2 r))%R).
      { assert (IZR (2 ^ n) <> 0)%R by (apply not_0_IZR; lia).
        apply (Rmult_eq_reg_r (/ IZR (2 ^ n))); [|now apply Rinv_neq_0_compat].
        rewrite !Rplus_0_r in I1. replace (IZR (bval 2 T) * IZR (10 ^ Z.of_nat m) * / IZR (2 ^ n))%R
          with (IZR (bval 2 T) / IZR (2 ^ n) * IZR (10 ^ Z.of_nat m))%R by (field; auto).
        rewrite I1. field. auto. }
      rewrite <- !mult_IZR, <- plus_IZR in I1'. apply eq_IZR in I1'.
      change 10 with (2 * 5) in I1'. rewrite Z.pow_mul_l in I1'.
      replace (2 ^ n) with (2 ^ (n - Z.of_nat m) * 2 ^ Z.of_nat m) in I1'.
      2: { rewrite <- Z.pow_add_r by lia. f_equal. lia. }
      lia. }
    destruct (IHfuel (trimr r) (acc ++ highdig 10 m c)) as (o & O1 & O2 & O3 & O4).
    + now apply Forall_trimr.
    + now apply Forall_app.
    + rewrite I4 in TL. lia.
    + exists o. split; auto. split; auto. split.
      * rewrite O3, fvt_app, fv_trimr, highdig_fvt10 by auto. f_equal. rewrite <- I1. field.
        apply not_0_IZR. lia.
      * rewrite app_length, HL in O4. unfold m in O4. lia.
Qed.

Lemma conv_int_len ib ob mm B : (forall n, (mm n <= B)%nat) -> forall fuel t acc r,
  0 < ib -> 2 <= ob ->
  Forall (dig ib) t -> conv_int fuel ib ob mm t acc = Ok r -> (length r <= length acc + B * fuel)%nat.
Proof.
  intros MB. induction fuel as [|fuel]; intros t acc r Hib Hob F E.
  - destruct t; simpl in E; [|discriminate]. injection E as <-. lia.
  - destruct t as [|d t]; [simpl in E; injection E as <-; lia|].
    cbn [conv_int] in E. set (T := d :: t) in *. set (m := mm (length T)) in *.
    destruct (idiv_pass ib (ob ^ Z.of_nat m) 0 T) as [q c] eqn:Eq.
    assert (P : 0 < ob ^ Z.of_nat m) by (apply Z.pow_pos_nonneg; lia).
    destruct (idiv_spec ib _ Hib P T 0 q c F ltac:(lia) Eq) as (I1 & I2 & I3 & I4).
    destruct (lowdig_spec ob m ltac:(lia) c I2) as (_ & _ & L3).
    apply IHfuel in E; auto; [|now apply Forall_trim0]. rewrite app_length, L3 in E.
    pose proof (MB (length T)). fold m in H. lia.
Qed.
Lemma conv_int_nonnil ib ob mm : mpos mm -> forall fuel t acc r, t <> [] \/ acc <> [] ->
  conv_int fuel ib ob mm t acc = Ok r -> r <> [].
Proof.
  intros M. induction fuel as [|fuel]; intros t acc r N E.
  - destruct t; simpl in E; [|discriminate]. injection E as <-. destruct N; congruence.
  - destruct t as [|d t]; [simpl in E; injection E as <-; destruct N; congruence|].
    cbn [conv_int] in E. set (T := d :: t) in *. pose proof (M (length T)) as ML. set (m := mm (length T)) in *.
    destruct (idiv_pass ib (ob ^ Z.of_nat m) 0 T) as [q c] eqn:Eq.
    apply IHfuel in E; auto. right. destruct m; [lia|]. destruct acc; discriminate.
Qed.
Lemma m_out_pos : mpos m_out.
Proof. intros n. unfold m_out. repeat destruct (_ <=? _)%nat; lia. Qed.
Lemma m_out_le n : (m_out n <= 5)%nat.
Proof. unfold m_out. repeat destruct (_ <=? _)%nat; lia. Qed.

(* ---- all digits ---- *)
Theorem decimal_ok (x : b64) : is_finite x = true -> (0 < B2R x)%R ->
  exists rmax d, decimal x = Ok (rmax, d) /\ Forall (dig 10) d /\
    (B2R x = fv 10 d * B10 (rmax + 1))%R /\ 0 <= rmax < 10000 /\
    rmax + 1 <= Z.of_nat (length d) < 20000.
Proof.
  intros Fx Px. destruct x as [s|s| |neg m e HB]; simpl in Fx; try discriminate; [simpl in Px; lra|].
  assert (neg = false) as ->.
  { destruct neg; auto. exfalso. simpl in Px. unfold F2R in Px. simpl in Px.
    assert (0 < B2 e)%R by apply bpow_gt_0.
    assert (IZR (Z.neg m) < 0)%R by (apply (IZR_lt _ 0); lia). nra. }
  set (x := B754_finite false m e HB : b64) in *. clear Fx.
  assert (HB' := HB). unfold SpecFloat.bounded in HB'. apply andb_prop in HB' as (HC & HE).
  apply Z.leb_le in HE. unfold SpecFloat.canonical_mantissa in HC. apply Zeq_bool_eq in HC.
  assert (DG : Z.pos (SpecFloat.digits2_pos m) = Zdigits radix2 (Z.pos m)) by now rewrite Digits.Zpos_digits2_pos.
  rewrite DG in HC. unfold SpecFloat.fexp, SpecFloat.emin in HC.
  set (dg := Zdigits radix2 (Z.pos m)) in *.
  assert (DGP : 0 < dg) by (apply Zdigits_gt_0; lia).
  assert (HEb : -1074 <= e <= 971) by lia. assert (HD : dg <= 53) by lia.
  unfold decimal. change (get_exponent x) with (dg + e - 1). set (ex := dg + e - 1).
  assert (VX : v64 x = XR (IZR (Z.pos m) * B2 e)) by reflexivity.
  assert (KM : 0 <= Z.pos m < 2 ^ (dg - 1 + 1)).
  { replace (dg - 1 + 1) with dg by lia. split; [lia|].
    pose proof (Zdigits_correct radix2 (Z.pos m)) as (_ & Q). fold dg in Q. simpl radix_val in Q. lia. }
  destruct (bits_ok e HEb 53 x (ldexp 1 ex) (Z.pos m) (dg - 1) VX) as (bl & R1 & R2 & R3 & R4); auto; try lia.
  { rewrite ldexp_v by (unfold ex; lia). unfold ex. rewrite Rmult_1_l. do 2 f_equal. lia. }
  change (SpecFloat.emin 53 1024) with (-1074) in *.
  rewrite R1. cbn [bind].
  set (nb := Z.of_nat (length bl)) in *. set (emin := ex - nb + 1).
  set (t := zeros (- ex) ++ bl ++ zeros emin). set (k := Z.to_nat (Z.max ex 0 + 1)).
  assert (FT : Forall (dig 2) t).
  { unfold t, zeros. rewrite !Forall_app. split; [apply dig_zeros; lia|]. split; auto. apply dig_zeros; lia. }
  assert (LT : Z.of_nat (length t) = Z.max 0 (- ex) + nb + Z.max 0 emin).
  { unfold t, zeros. rewrite !app_length, !repeat_length. lia. }
  assert (LI : length (firstn k t) = k) by (rewrite firstn_length; unfold emin, k, ex in *; lia).
  assert (LF : Z.of_nat (length (skipn k t)) = Z.max 0 (- emin)).
  { rewrite skipn_length. unfold emin, k, ex in *. lia. }
  assert (FT' := FT). rewrite <- (firstn_skipn k t) in FT'. apply Forall_app in FT' as (FA & FB).
  assert (VAL : (IZR (bval 2 (firstn k t)) + fv 2 (skipn k t) = B2R x)%R).
  { assert (SV : (IZR (bval 2 (firstn k t)) + fv 2 (skipn k t) = IZR (bval 2 t) * B2 (- Z.of_nat (length (skipn k t))))%R).
    { rewrite <- (firstn_skipn k t) at 3. unfold fv. rewrite fvt_bval by lia.
      rewrite bval_app, plus_IZR, mult_IZR, IZR_pow2 by lia.
      rewrite bpow_opp. pose proof (bpow_gt_0 radix2 (Z.of_nat (length (skipn k t)))). field. lra. }
    rewrite SV, LF. unfold t. rewrite !bval_app. unfold zeros at 1. rewrite bval_zeros, Z.mul_0_l, Z.add_0_l.
    unfold zeros. rewrite bval_zeros, Z.add_0_r, repeat_length.
    replace (Z.of_nat (Z.to_nat emin)) with (Z.max 0 emin) by lia.
    change (B2R x) with (IZR (Z.pos m) * B2 e)%R.
    rewrite <- R4, !mult_IZR, !IZR_pow2 by lia. rewrite !Rmult_assoc, <- !bpow_plus. do 2 f_equal.
    unfold emin, ex. lia. }
  destruct (conv_int_total 2 10 m_out ltac:(lia) ltac:(lia) m_out_pos (length (firstn k t)) (firstn k t) [] FA) as (r1 & E1).
  { apply (bval_range 2 _ ltac:(lia) FA). }
  { left. rewrite LI. unfold k. lia. }
  rewrite E1. cbn [bind].
  pose proof (conv_int_len 2 10 m_out 5 m_out_le _ _ _ _ ltac:(lia) ltac:(lia) FA E1) as L1.
  assert (NN : r1 <> []).
  { assert (NK : firstn k t <> []) by (intros Q; rewrite Q in LI; cbn [length] in LI; unfold k in LI; lia).
    exact (conv_int_nonnil 2 10 m_out m_out_pos _ _ _ _ (or_introl NK) E1). }
  apply conv_int_spec in E1; auto; try lia; try apply m_out_pos. destruct E1 as (E1 & G1).
  simpl rev in E1. cbn [bval length] in E1. change (10 ^ Z.of_nat 0) with 1 in E1.
  rewrite Z.mul_1_r, Z.add_0_r in E1.
  destruct (frac_out_ok (length (skipn k t)) (skipn k t) [] FB ltac:(constructor) ltac:(lia)) as (r2 & O1 & O2 & O3 & O4).
  rewrite O1. cbn [bind]. exists (Z.of_nat (length r1) - 1), (rev r1 ++ r2).
  split; auto. split; [apply Forall_app; split; auto; now apply Forall_rev|].
  cbn [fvt length] in O3, O4, L1.
  split; [|split].
  - rewrite <- VAL, <- O3, <- E1. unfold fv. rewrite fvt_app, (fvt_bval 10 (rev r1)) by lia.
    rewrite rev_length. replace (Z.of_nat (length r1) - 1 + 1) with (Z.of_nat (length r1)) by lia.
    rewrite IZR_pow10 by lia. pose proof (bpow_gt_0 radix10 (Z.of_nat (length r1))). field. lra.
  - assert (length r1 <> O) by (destruct r1; simpl; congruence).
    rewrite LI in L1. unfold k, ex in L1. lia.
  - rewrite app_length, rev_length. rewrite LI in L1.
    assert (Z.of_nat (length (skipn k t)) <= 1074) by (rewrite LF; unfold emin, ex; lia).
    unfold k, ex in L1. lia.
Qed.
