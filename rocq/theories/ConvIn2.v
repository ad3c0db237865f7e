(* Proofs about stringtod: assembling the double, reading the text *)
From Coq Require Import ZArith Reals Lra Lia List Bool Ascii.
From Flocq Require Import Core BinarySingleNaN.
From Verif Require Import Ext Fp64 ConvModel ConvSpec ConvProofs ConvIn.
Import ListNotations.
Open Scope Z_scope.

Notation B2 := (bpow radix2).

(* ---- exact additions ---- *)
Lemma fmt53 m e : Z.abs m <= 2 ^ 53 -> -1074 <= e -> generic_format radix2 FX (IZR m * B2 e)%R.
Proof.
  intros Hm He. change (IZR m * B2 e)%R with (F2R (Float radix2 m e)).
  destruct (Z.eq_dec (Z.abs m) (2 ^ 53)) as [E|E].
  - assert (F2R (Float radix2 m e) = F2R (Float radix2 (Z.sgn m) (e + 53))) as ->.
    { unfold F2R; cbn [Fnum Fexp]. rewrite bpow_plus. replace m with (Z.sgn m * 2 ^ 53)%Z at 1 by lia.
      rewrite mult_IZR. change (2 ^ 53)%Z with (radix_val radix2 ^ 53)%Z. rewrite IZR_Zpower by lia. ring. }
    apply generic_format_FLT. exists (Float radix2 (Z.sgn m) (e + 53)); auto; simpl; lia.
  - apply generic_format_FLT. exists (Float radix2 m e); auto; simpl; lia.
Qed.
Lemma rx_exact md m e : Z.abs m <= 2 ^ 53 -> -1074 <= e -> (Rabs (IZR m * B2 e) < B2 1024)%R ->
  rx md (IZR m * B2 e)%R = XR (IZR m * B2 e)%R.
Proof.
  intros M E L. unfold rx, rnd. rewrite round_generic; auto with typeclass_instances.
  - rewrite Rlt_bool_true; auto.
  - now apply fmt53.
Qed.
Lemma rx_up_exact m e : 0 <= m <= 2 ^ 53 -> -1074 <= e ->
  ub (rx mode_NE (IZR m * B2 e)%R) (IZR m * B2 e)%R.
Proof.
  intros M E. unfold rx, rnd. rewrite round_generic; auto with typeclass_instances.
  2: apply fmt53; auto; lia.
  destruct (Rlt_bool _ _); [simpl; lra|].
  assert (0 <= IZR m * B2 e)%R.
  { apply Rmult_le_pos; [apply (IZR_le 0); lia|apply bpow_ge_0]. }
  rewrite Rlt_bool_false by auto. simpl. auto.
Qed.
Lemma ldexp_v k e : 0 <= k <= 1 -> -1074 <= e <= 1023 -> v64 (ldexp k e) = XR (IZR k * B2 e).
Proof.
  intros K E. unfold ldexp, bdy.
  pose proof (binary_normalize_correct 53 1024 _ _ mode_NE k e false) as H.
  change (round radix2 (SpecFloat.fexp 53 1024) (round_mode mode_NE)) with (rnd mode_NE) in H.
  unfold rnd in H. rewrite round_generic in H; auto with typeclass_instances.
  2: change (F2R (Float radix2 k e)) with (IZR k * B2 e)%R; apply fmt53; lia.
  rewrite Rlt_bool_true in H.
  - destruct H as (H1 & H2 & _). rewrite v64_fin by auto. rewrite H1. reflexivity.
  - change (F2R (Float radix2 k e)) with (IZR k * B2 e)%R.
    rewrite Rabs_mult, (Rabs_pos_eq (B2 e)) by apply bpow_ge_0.
    apply Rle_lt_trans with (1 * B2 1023)%R.
    + apply Rmult_le_compat; try apply Rabs_pos; try apply bpow_ge_0.
      * rewrite <- abs_IZR. apply IZR_le; lia.
      * apply bpow_le; lia.
    + rewrite Rmult_1_l. apply bpow_lt; lia.
Qed.
Lemma add_v (x y : b64) a b : v64 x = XR a -> v64 y = XR b -> v64 (b64add x y) = rx mode_NE (a + b)%R.
Proof. intros A B. unfold b64add. now rewrite Bplus_v, A, B. Qed.

Lemma IZR_pow2 k : 0 <= k -> IZR (2 ^ k) = B2 k.
Proof. intros K. change (2 ^ k) with (radix_val radix2 ^ k). now rewrite IZR_Zpower. Qed.

Definition away (neg : bool) (mode : Z) : Prop := neg = false /\ mode = 1 \/ neg = true /\ mode = -1.
Definition toward (neg : bool) (mode : Z) : Prop := neg = false /\ mode = -1 \/ neg = true /\ mode = 1.

Lemma assemble_ok neg mode top rho : top <= 1023 -> (0 <= rho < 1)%R ->
  forall bits i K (r : b64), Forall (dig 2) bits ->
  v64 r = XR (IZR K * B2 (i + 1)) -> 0 <= K < 2 ^ (top - i) -> top - 53 <= i <= top -> -1075 <= i ->
  (rho = 0%R \/ 53 <= top - (i + 1 - Z.of_nat (length bits))) ->
  let X := ((IZR (K * 2 ^ Z.of_nat (length bits) + bval 2 bits) + rho) * B2 (i + 1 - Z.of_nat (length bits)))%R in
  (away neg mode -> ub (v64 (assemble neg mode top bits i r)) X) /\
  (toward neg mode -> lb (v64 (assemble neg mode top bits i r)) X).
Proof.
  intros TM RH. induction bits as [|b bits]; intros i K r F V KR IR IM RR X.
  - unfold X. cbn [assemble length bval]. change (Z.of_nat 0) with 0. rewrite Z.sub_0_r, Z.add_0_r, Z.pow_0_r, Z.mul_1_r, V.
    change (Z.of_nat (length (@nil Z))) with 0 in RR.
    destruct RR as [->|RR]; [|lia]. rewrite Rplus_0_r. split; intros; simpl; lra.
  - inversion_clear F as [|? ? D F']. cbn [assemble]. unfold dig in D.
    destruct ((top - i =? 53) || (i =? -1075)) eqn:Br.
    + (* rounding *)
      assert (XL : (IZR K * B2 (i + 1) <= X < IZR (K + 1) * B2 (i + 1))%R).
      { unfold X. set (n := length (b :: bits)).
        pose proof (bval_range 2 (b :: bits) ltac:(lia) (Forall_cons _ (D : dig 2 b) F')) as BR. fold n in BR.
        replace (i + 1) with (Z.of_nat n + (i + 1 - Z.of_nat n)) at 1 4 by lia.
        rewrite bpow_plus, <- IZR_pow2 by lia. rewrite <- !Rmult_assoc, <- !mult_IZR.
        assert (P := bpow_gt_0 radix2 (i + 1 - Z.of_nat n)).
        split; [apply Rmult_le_compat_r|apply Rmult_lt_compat_r]; auto; try lra.
        - rewrite plus_IZR. assert (0 <= IZR (bval 2 (b :: bits)))%R by (apply (IZR_le 0); lia). lra.
        - assert (IZR (K * 2 ^ Z.of_nat n + bval 2 (b :: bits)) + 1 <= IZR ((K + 1) * 2 ^ Z.of_nat n))%R; [|lra].
          rewrite <- plus_IZR. apply IZR_le. lia. }
      assert (UP : ub (v64 (b64add r (ldexp 1 (i + 1)))) X).
      { rewrite (add_v r _ _ _ V (ldexp_v 1 (i + 1) ltac:(lia) ltac:(lia))).
        rewrite <- Rmult_plus_distr_r, <- plus_IZR.
        assert (KP : 0 <= K + 1 <= 2 ^ 53).
        { split; [lia|]. apply Z.le_trans with (2 ^ (top - i)); [lia|]. apply Z.pow_le_mono_r; lia. }
        pose proof (rx_up_exact (K + 1) (i + 1) KP ltac:(lia)) as U.
        destruct (rx mode_NE _); simpl in U |- *; auto; lra. }
      assert (DN : lb (v64 r) X) by (rewrite V; simpl; lra).
      split; [intros [(-> & ->)|(-> & ->)]|intros [(-> & ->)|(-> & ->)]]; simpl; auto.
    + apply orb_false_elim in Br as (B1 & B2'). apply Z.eqb_neq in B1. apply Z.eqb_neq in B2'.
      assert (V' : v64 (b64add r (ldexp b i)) = XR (IZR (2 * K + b) * B2 (i - 1 + 1))).
      { replace (i - 1 + 1) with i by lia.
        rewrite (add_v r _ _ _ V (ldexp_v b i ltac:(lia) ltac:(lia))).
        replace (IZR K * B2 (i + 1) + IZR b * B2 i)%R with (IZR (2 * K + b) * B2 i)%R.
        2: { rewrite plus_IZR, mult_IZR, bpow_plus. change (B2 1) with (IZR 2). ring. }
        assert (Q : 2 ^ (top - i + 1) = 2 * 2 ^ (top - i)) by (rewrite Z.pow_add_r by lia; change (2 ^ 1) with 2; lia).
        assert (KL : 0 <= 2 * K + b < 2 ^ (top - i + 1)) by lia.
        apply rx_exact; [|lia|].
        - rewrite Z.abs_eq by lia. apply Z.le_trans with (2 ^ (top - i + 1)); [lia|]. apply Z.pow_le_mono_r; lia.
        - rewrite Rabs_mult, (Rabs_pos_eq (B2 i)) by apply bpow_ge_0. rewrite <- abs_IZR, Z.abs_eq by lia.
          apply Rlt_le_trans with (IZR (2 ^ (top - i + 1)) * B2 i)%R.
          + apply Rmult_lt_compat_r; [apply bpow_gt_0|]. apply IZR_lt. lia.
          + rewrite IZR_pow2, <- bpow_plus by lia. apply bpow_le. lia. }
      assert (X = ((IZR ((2 * K + b) * 2 ^ Z.of_nat (length bits) + bval 2 bits) + rho)
                   * B2 (i - 1 + 1 - Z.of_nat (length bits)))%R) as ->.
      { unfold X. cbn [length bval]. rewrite Nat2Z.inj_succ, Z.pow_succ_r by lia.
        f_equal; [|f_equal; lia]. f_equal. f_equal. ring. }
      apply IHbits; auto; try lia.
      * replace (top - (i - 1)) with (top - i + 1) by lia. rewrite Z.pow_add_r by lia. change (2 ^ 1) with 2. lia.
      * destruct RR as [->|RR]; auto. right. cbn [length] in RR. lia.
Qed.

Lemma signed_ok neg mode (r : b64) X :
  (away neg mode -> ub (v64 r) X) -> (toward neg mode -> lb (v64 r) X) ->
  let Y := if neg then (- X)%R else X in
  (mode = 1 -> ub (v64 (signed neg r)) Y) /\ (mode = -1 -> lb (v64 (signed neg r)) Y).
Proof.
  intros A T. unfold signed, b64neg, away, toward in *. destruct neg; cbn zeta.
  - rewrite Bopp_v. split; intros ->.
    + assert (L : lb (v64 r) X) by auto. destruct (v64 r); simpl in *; auto; lra.
    + assert (L : ub (v64 r) X) by auto. destruct (v64 r); simpl in *; auto; lra.
  - split; intros ->; auto.
Qed.

Lemma finish_ok (neg : bool) mode rmax rmin bits rho :
  Forall (dig 2) bits -> (0 <= rho < 1)%R -> (rho = 0%R \/ 53 <= rmax - rmin) ->
  Z.of_nat (length bits) = rmax - rmin + 1 -> (1023 < rmax -> exists l, bits = 1 :: l) ->
  let X := ((IZR (bval 2 bits) + rho) * B2 rmin)%R in
  let Y := if neg then (- X)%R else X in
  (mode = 1 -> ub (v64 (finish_in neg mode rmax bits)) Y) /\
  (mode = -1 -> lb (v64 (finish_in neg mode rmax bits)) Y).
Proof.
  intros F RH RR LN TOP X Y. unfold finish_in.
  pose proof (bval_range 2 bits ltac:(lia) F) as BR.
  assert (XP : (0 <= X)%R).
  { apply Rmult_le_pos; [|apply bpow_ge_0].
    assert (0 <= IZR (bval 2 bits))%R by (apply (IZR_le 0); lia). lra. }
  assert (XU : (X < B2 (rmax + 1))%R).
  { unfold X. replace (rmax + 1) with (Z.of_nat (length bits) + rmin) by lia.
    rewrite bpow_plus. apply Rmult_lt_compat_r; [apply bpow_gt_0|].
    rewrite <- IZR_pow2 by lia.
    assert (IZR (bval 2 bits) + 1 <= IZR (2 ^ Z.of_nat (length bits)))%R; [|lra].
    rewrite <- plus_IZR. apply IZR_le. lia. }
  destruct (Z.ltb_spec 1023 rmax).
  { destruct (TOP H) as (l & ->).
    assert (XL : (B2 1024 <= X)%R).
    { unfold X. cbn [bval]. apply Rle_trans with (B2 rmax); [apply bpow_le; lia|].
      replace rmax with (Z.of_nat (length l) + rmin) at 1 by (cbn [length] in LN; lia).
      rewrite bpow_plus. apply Rmult_le_compat_r; [apply bpow_ge_0|]. rewrite <- IZR_pow2 by lia.
      apply Rle_trans with (IZR (1 * 2 ^ Z.of_nat (length l) + bval 2 l)); [|lra]. apply IZR_le.
      inversion_clear F. pose proof (bval_range 2 l ltac:(lia) H1). lia. }
    assert (ML : (maxR < B2 1024)%R) by (unfold maxR; pose proof (bpow_gt_0 radix2 971); lra).
    destruct neg; split; intros ->; cbn [andb orb negb Z.eqb signed Pos.eqb];
      unfold Y, b64neg; rewrite ?Bopp_v, ?bmax_v; simpl; auto; lra. }
  destruct (Z.ltb_spec rmax (-1075)).
  { assert (XS : (X < B2 (-1074))%R) by (eapply Rlt_le_trans; [exact XU|apply bpow_le; lia]).
    destruct neg; split; intros ->; cbn [andb orb negb Z.eqb signed Pos.eqb];
      unfold Y, b64neg; rewrite ?Bopp_v, ?bdmin_v; cbn [ub lb xneg v64]; lra. }
  assert (XE : X = ((IZR (0 * 2 ^ Z.of_nat (length bits) + bval 2 bits) + rho)
             * B2 (rmax + 1 - Z.of_nat (length bits)))%R).
  { unfold X. rewrite Z.mul_0_l, Z.add_0_l. do 2 f_equal. lia. }
  assert (A : (away neg mode -> ub (v64 (assemble neg mode rmax bits rmax (B754_zero false))) X) /\
              (toward neg mode -> lb (v64 (assemble neg mode rmax bits rmax (B754_zero false))) X)).
  { rewrite XE. apply assemble_ok; auto; try lia.
    all: try (cbn [v64]; f_equal; ring).
    all: try (rewrite Z.sub_diag; simpl; lia).
    all: destruct RR as [->|RR]; auto; right; lia. }
  destruct A as (A1 & A2). exact (signed_ok neg mode _ X A1 A2).
Qed.

(* ---- the digits ---- *)

Definition radix10 : radix := Build_radix 10 eq_refl.
Notation B10 := (bpow radix10).

Lemma IZR_pow10 k : 0 <= k -> IZR (10 ^ k) = B10 k.
Proof. intros K. change (10 ^ k) with (radix_val radix10 ^ k). now rewrite IZR_Zpower. Qed.

Lemma split_val ip fp : (IZR (bval 10 ip) + fv 10 fp = IZR (bval 10 (ip ++ fp)) * B10 (- Z.of_nat (length fp)))%R.
Proof.
  unfold fv. rewrite fvt_bval by lia. rewrite bval_app, plus_IZR, mult_IZR, IZR_pow10 by lia.
  rewrite bpow_opp. pose proof (bpow_gt_0 radix10 (Z.of_nat (length fp))). field. lra.
Qed.

(* the table: integer digits and fraction digits of the number *)
Lemma table_ok num1 num2 e10 : Forall (dig 10) num1 -> Forall (dig 10) num2 ->
  let d1 := trim0 num1 in let d2 := trimr num2 in
  let n1 := Z.of_nat (length d1) in let n2 := Z.of_nat (length d2) in
  let tmax := n1 - 1 + e10 in let tmin := e10 - n2 in
  let t := zeros (-1 - tmax) ++ d1 ++ d2 ++ zeros tmin in
  let k := Z.to_nat (tmax + 1) in
  Forall (dig 10) (firstn k t) /\ Forall (dig 10) (skipn k t) /\
  (IZR (bval 10 (firstn k t)) + fv 10 (skipn k t) =
   (IZR (bval 10 num1) + fv 10 num2) * B10 e10)%R.
Proof.
  intros F1 F2 d1 d2 n1 n2 tmax tmin t k.
  assert (FT : Forall (dig 10) t).
  { unfold t, zeros. rewrite !Forall_app. split; [apply dig_zeros; lia|].
    split; [now apply Forall_trim0|]. split; [now apply Forall_trimr|apply dig_zeros; lia]. }
  rewrite <- (firstn_skipn k t) in FT. apply Forall_app in FT as (FA & FB).
  split; auto. split; auto.
  rewrite split_val, firstn_skipn.
  assert (LK : Z.of_nat (length (skipn k t)) = Z.max 0 (- tmin)).
  { rewrite skipn_length. unfold t, zeros. rewrite !app_length, !repeat_length.
    fold d1 d2. unfold k, tmin, tmax. lia. }
  rewrite LK. unfold t. rewrite !bval_app. unfold zeros at 1. rewrite bval_zeros, Z.mul_0_l, Z.add_0_l.
  unfold zeros. rewrite bval_zeros, Z.add_0_r, app_length, repeat_length.
  rewrite <- (bval_trim0 10 num1), <- (fv_trimr 10 num2). fold d1 d2. fold d2 in n2.
  unfold fv. rewrite (fvt_bval 10 d2) by lia. fold n2. rewrite IZR_pow10 by lia.
  replace (bval 10 d1 * 10 ^ Z.of_nat (length d2 + Z.to_nat tmin) + bval 10 d2 * 10 ^ Z.of_nat (Z.to_nat tmin))
    with ((bval 10 d1 * 10 ^ n2 + bval 10 d2) * 10 ^ Z.max 0 tmin).
  2: { rewrite Nat2Z.inj_add, Z.pow_add_r by lia. fold n2.
       replace (Z.of_nat (Z.to_nat tmin)) with (Z.max 0 tmin) by lia. ring. }
  rewrite !mult_IZR, plus_IZR, mult_IZR, !IZR_pow10 by lia.
  replace e10 with (n2 + (Z.max 0 tmin + - Z.max 0 (- tmin))) by (unfold tmin; lia).
  rewrite !bpow_plus. pose proof (bpow_gt_0 radix10 n2). field. lra.
Qed.

Lemma rev_top r : (exists l, r = l ++ [1]) -> exists l, rev r = 1 :: l.
Proof. intros (l & ->). rewrite rev_app_distr. simpl. eauto. Qed.

Theorem digits_ok neg mode num1 num2 e10 d : Forall (dig 10) num1 -> Forall (dig 10) num2 ->
  digits_to_double neg mode num1 num2 e10 = Ok d ->
  let X := ((IZR (bval 10 num1) + fv 10 num2) * B10 e10)%R in
  let Y := if neg then (- X)%R else X in
  (mode = 1 -> ub (v64 d) Y) /\ (mode = -1 -> lb (v64 d) Y).
Proof.
  intros F1 F2 E X Y. pose proof (table_ok num1 num2 e10 F1 F2) as T. cbn zeta in T.
  unfold digits_to_double in E. cbn zeta in E.
  set (t := zeros _ ++ _) in *. set (k := Z.to_nat (_ + 1)) in *. destruct T as (TA & TB & TV). fold X in TV.
  apply bind_ok in E as (r1 & E1 & E). apply bind_ok in E as (s & E2 & E).
  pose proof (conv_int_top0 _ _ _ TA E1) as TOP.
  apply conv_int_spec in E1; auto; try lia; try apply m_in_pos.
  destruct E1 as (E1 & G1). simpl rev in E1. cbn [bval length] in E1.
  change (2 ^ Z.of_nat 0) with 1 in E1. rewrite Z.mul_1_r, Z.add_0_r in E1.
  set (rmax := Z.of_nat (length r1) - 1) in *.
  destruct (_ <? _) eqn:LU in E; [discriminate|]. apply Z.ltb_ge in LU. injection E as <-.
  apply (frac_in_spec (0 <=? rmax) rmax _ _ _ [] (fv 10 (skipn k t))) in E2; auto.
  2: { split; [auto|]. split; [auto|]. destruct (0 <=? rmax); simpl; auto. }
  destruct E2 as (E' & rho & (I1 & I2 & I3) & VF & RH & RR).
  assert (GR : Forall (dig 2) (rev r1)) by now apply Forall_rev.
  assert (XV : X = ((IZR (bval 2 (rev r1 ++ E')) + rho) * B2 (f_min s))%R).
  { rewrite <- TV, VF, fvt_bval, <- E1, bval_app, plus_IZR, mult_IZR by lia.
    rewrite I1, bpow_opp, IZR_pow2 by lia. pose proof (bpow_gt_0 radix2 (Z.of_nat (length E'))). field. lra. }
  assert (RR' : rho = 0%R \/ 53 <= f_max s - f_min s) by tauto.
  destruct (Z.leb_spec 0 rmax) as [FL|FL].
  - destruct I3 as (I3 & I4 & I5). rewrite I5 in *. unfold Y. rewrite XV.
    apply finish_ok; auto.
    + now apply Forall_app.
    + rewrite app_length, rev_length, I1, I4. unfold rmax. lia.
    + intros R. destruct TOP as [TOP|TOP]; [unfold rmax in I4; lia|].
      apply rev_top in TOP as (l & ->). simpl. eauto.
  - assert (r1 = []) as -> by (destruct r1; auto; unfold rmax in FL; cbn [length] in FL; lia).
    simpl rev in *. rewrite app_nil_l in *. change rmax with (-1) in *.
    destruct I3 as [(I3 & I4 & I5 & I6)|(I3 & k' & l & I4 & I5 & I6)].
    + assert (E' = []) as ->.
      { rewrite I5, I4 in LU. destruct E'; auto. simpl length in *. lia. }
      rewrite I5 in *. unfold Y. rewrite XV. apply finish_ok; auto; simpl in *; try lia.
    + assert (XV' : X = ((IZR (bval 2 (f_out s)) + rho) * B2 (f_min s))%R).
      { rewrite XV, I4, bval_app, bval_zeros. do 3 f_equal. }
      unfold Y. rewrite XV'. apply finish_ok; auto; try lia.
      * rewrite I4 in I2. apply Forall_app in I2. apply I2.
      * rewrite I4, app_length, repeat_length in I1. lia.
Qed.

(* ---- undefined behaviour only for zeros with a negative exponent ---- *)
Theorem digits_total neg mode num1 num2 e10 : Forall (dig 10) num1 -> Forall (dig 10) num2 ->
  ((IZR (bval 10 num1) + fv 10 num2 <> 0)%R \/ 0 <= e10) ->
  exists d, digits_to_double neg mode num1 num2 e10 = Ok d.
Proof.
  intros F1 F2 NZ. pose proof (table_ok num1 num2 e10 F1 F2) as T. cbn zeta in T.
  unfold digits_to_double. cbn zeta.
  set (t := zeros _ ++ _) in *. set (k := Z.to_nat (_ + 1)) in *. destruct T as (TA & TB & TV).
  destruct (conv_int_total 10 2 m_in ltac:(lia) ltac:(lia) m_in_pos (4 * length (firstn k t) + 5) (firstn k t) [] TA)
    as (r1 & E1).
  { pose proof (bval_range 10 _ ltac:(lia) TA) as (_ & B). eapply Z.lt_trans; [exact B|].
    apply Z.le_lt_trans with (2 ^ (4 * Z.of_nat (length (firstn k t)))).
    - rewrite Z.pow_mul_r by lia. apply Z.pow_le_mono_l. simpl. lia.
    - apply Z.pow_lt_mono_r; lia. }
  { left. lia. }
  rewrite E1. cbn [bind].
  apply conv_int_spec in E1; auto; try lia; try apply m_in_pos.
  destruct E1 as (E1 & G1). simpl rev in E1. cbn [bval length] in E1.
  change (2 ^ Z.of_nat 0) with 1 in E1. rewrite Z.mul_1_r, Z.add_0_r in E1.
  set (rmax := Z.of_nat (length r1) - 1) in *. set (fp := skipn k t) in *.
  assert (FI : exists s, frac_in (4 * length fp + 60) fp (mkf (0 <=? rmax) rmax 0 []) = Ok s).
  { destruct (Z.leb_spec 0 rmax) as [FL|FL].
    - apply frac_in_flag; auto. cbn [f_max f_min]. lia.
    - replace (4 * length fp + 60)%nat with ((4 * length fp + 6) + 54)%nat by lia.
      apply frac_in_total; auto; [cbn [f_max f_min]; unfold rmax; lia|].
      destruct (Req_dec (fv 10 fp) 0) as [Z0|Z0]; [right; split; [lia|auto]|]. left.
      unfold fv in *. rewrite fvt_bval, Rplus_0_r in * by lia.
      assert (PP : 0 < 10 ^ Z.of_nat (length fp)) by (apply Z.pow_pos_nonneg; lia).
      pose proof (bval_range 10 fp ltac:(lia) TB) as BR.
      assert (B1 : 1 <= bval 10 fp).
      { destruct (Z.eq_dec (bval 10 fp) 0) as [Q|Q]; [|lia]. exfalso. apply Z0. rewrite Q. unfold Rdiv. ring. }
      apply Rle_trans with (1 / IZR (10 ^ Z.of_nat (length fp)))%R.
      2: { apply Rmult_le_compat_r; [left; apply Rinv_0_lt_compat, (IZR_lt 0); auto|apply (IZR_le 1); auto]. }
      unfold Rdiv. rewrite Rmult_1_l, bpow_opp. apply Rinv_le; [apply (IZR_lt 0); auto|].
      rewrite <- IZR_pow2 by lia. apply IZR_le.
      apply Z.le_trans with (2 ^ (4 * Z.of_nat (length fp))).
      + rewrite Z.pow_mul_r by lia. apply Z.pow_le_mono_l. simpl. lia.
      + apply Z.pow_le_mono_r; lia. }
  destruct FI as (s & E2). rewrite E2. cbn [bind].
  assert (E2' := E2).
  apply (frac_in_spec (0 <=? rmax) rmax _ _ _ [] (fv 10 fp)) in E2; auto.
  2: { split; [auto|]. split; [auto|]. destruct (0 <=? rmax); simpl; auto. }
  destruct E2 as (E' & rho & (I1 & I2 & I3) & VF & RH & RR).
  destruct (Z.ltb_spec (Z.of_nat (length (f_out s))) (Z.min (-1) (f_max s) - f_min s + 1)) as [LU|LU]; [exfalso|eauto].
  destruct (Z.leb_spec 0 rmax) as [FL|FL].
  - destruct I3 as (_ & I4 & I5). rewrite I5, I4 in LU. lia.
  - destruct I3 as [(I3 & I4 & I5 & I6)|(I3 & k' & l & I4 & I5 & I6)].
    + assert (r1 = []) as -> by (destruct r1; auto; unfold rmax in FL; cbn [length] in FL; lia).
      destruct RR as [->|(Q & _)]; [|congruence].
      rewrite I6, fvt_zeros in VF. simpl in E1. rewrite <- E1, VF, Rplus_0_l in TV.
      destruct NZ as [NZ|NZ].
      * apply NZ. apply (Rmult_eq_reg_r (B10 e10)); [|pose proof (bpow_gt_0 radix10 e10); lra].
        rewrite <- TV. ring.
      * (* both digit strings are zero, so there is no fraction *)
        assert (FN : fp = []).
        { assert (S0 : (IZR (bval 10 num1) + fv 10 num2 = 0)%R).
          { apply (Rmult_eq_reg_r (B10 e10)); [|pose proof (bpow_gt_0 radix10 e10); lra].
            rewrite <- TV. ring. }
          pose proof (bval_range 10 num1 ltac:(lia) F1) as B1.
          assert (0 <= IZR (bval 10 num1))%R by (apply (IZR_le 0); lia).
          assert (0 <= fv 10 num2)%R by (apply fvt_pos; auto; try lia; lra).
          assert (D2 : trimr num2 = []) by (apply (fv_0 10); auto; try lia; lra).
          unfold fp. apply skipn_all2. unfold t, k. rewrite D2.
          unfold zeros. rewrite !app_length, !repeat_length. simpl length. lia. }
        rewrite FN in E2'. destruct (4 * length (@nil Z) + 60)%nat; simpl in E2'; injection E2' as <-; simpl in *; lia.
    + rewrite I4, app_length, repeat_length in I1. lia.
Qed.
