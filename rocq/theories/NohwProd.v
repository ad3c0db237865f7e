(* twoproduct is an error-free transformation whenever the product does not overflow and the product
   of the granularities of the operands is at least 2^-1074. *)
From Coq Require Import Reals Lra Lia Psatz ZArith Bool.
From Flocq Require Import Core Relative BinarySingleNaN Pff2Flocq.
From Verif Require Import Ext Scalar Fp64 RDoubleHw NohwModel NohwReal NohwBase.
Open Scope R_scope.

Notation RW := (round radix2 (FLT_exp (-10000) 53) (Znearest (fun x => negb (Z.even x)))).
Notation FW := (generic_format radix2 (FLT_exp (-10000) 53)).

Lemma FF_FW x : FF x -> FW x.
Proof.
  intros F. apply generic_inclusion_mag with FX; auto. intros _. unfold FX, FLT_exp. lia.
Qed.
Lemma RW_id x : FW x -> RW x = x.
Proof. intros. apply round_generic; auto with typeclass_instances. Qed.
Lemma bridge x : mult2 (-1074) x -> RN x = RW x.
Proof.
  intros M. destruct (Z_le_gt_dec (-1021) (mag radix2 x)) as [L|G].
  - unfold rnd, round. assert (cexp radix2 FX x = cexp radix2 (FLT_exp (-10000) 53) x) as E.
    { unfold cexp, FX, FLT_exp. lia. }
    unfold scaled_mantissa. rewrite E. reflexivity.
  - assert (F : FF x).
    { apply (mult2_small (-1074)); auto; [lia|]. eapply Rle_trans; [apply Rlt_le, bpow_mag_gt|apply bpow_le; lia]. }
    rewrite RN_id, RW_id; auto using FF_FW.
Qed.

Definition CC : R := pw 27 + 1.
Definition hi a := RN (RN (a * CC) - RN (RN (a * CC) - a)).

Lemma mult2_CC t a : mult2 t a -> mult2 t (a * CC).
Proof. intros [z ->]. exists (z * (2 ^ 27 + 1))%Z. unfold CC. rewrite mult_IZR, plus_IZR. change (IZR (2 ^ 27)) with (pw 27). ring. Qed.
Lemma mult2_RW t x : mult2 t x -> mult2 t (RW x).
Proof. apply mult2_round. auto with typeclass_instances. Qed.
Lemma RW_opp x : RW (- x) = - RW x.
Proof. apply (round_NE_opp radix2 (FLT_exp (-10000) 53)). Qed.

Lemma hi_W a : mult2 (-1074) a -> hi a = RW (RW (a - RW (a * CC)) + RW (a * CC)).
Proof.
  intros M. unfold hi. pose proof (mult2_CC _ _ M) as M1.
  rewrite (bridge (a * CC)) by auto. rewrite (bridge (RW (a * CC) - a)) by (apply mult2_minus; auto using mult2_RW).
  rewrite bridge by (apply mult2_minus; auto using mult2_RW, mult2_minus).
  f_equal. replace (RW (a * CC) - a) with (- (a - RW (a * CC))) by ring. rewrite RW_opp. ring.
Qed.
Lemma hi_mult t a : mult2 t a -> mult2 t (hi a).
Proof.
  intros M. unfold hi. apply mult2_RN. pose proof (mult2_CC _ _ M). apply mult2_minus; auto using mult2_RN.
  apply mult2_RN, mult2_minus; auto using mult2_RN.
Qed.
Lemma hi_err a : FF a -> Rabs (hi a - a) <= pw (-26) * Rabs a.
Proof.
  intros F. destruct (Req_dec a 0) as [->|N].
  { unfold hi. repeat (rewrite ?Rmult_0_l, ?Rminus_0_r, ?rnd_0). rewrite Rabs_R0. lra. }
  rewrite hi_W by (apply mult2_FF; auto).
  assert (H3 : (3 <= 53)%Z) by lia. assert (H4 : (-10000 <= 0)%Z) by lia.
  assert (H5 : (2 <= 27)%Z) by lia. assert (H6 : (27 <= 53 - 2)%Z) by lia.
  destruct (Veltkamp radix2 (-10000) 53 (fun x => negb (Z.even x)) 27 H3 H4 H5 H6 a (FF_FW _ F)) as [c E].
  unfold CC. rewrite E.
  pose proof (relative_error_N_FLT radix2 (-10000) (53 - 27) ltac:(lia) c a) as K.
  eapply Rle_trans; [apply K|].
  - eapply Rle_trans; [|apply (mult2_ge (-1074)); [apply mult2_FF|]; auto]. apply bpow_le; lia.
  - apply Rmult_le_compat_r; [apply Rabs_pos|]. change (- (53 - 27) + 1)%Z with (-26 + 1)%Z.
    rewrite p2split. lra.
Qed.
Lemma hi_tail a : FF a -> FF (a - hi a).
Proof.
  intros F. pose proof (mult2_FF a F) as M.
  assert (H3 : (3 <= 53)%Z) by lia. assert (H4 : (-10000 <= 0)%Z) by lia.
  assert (H5 : (2 <= 27)%Z) by lia. assert (H6 : (27 <= 53 - 2)%Z) by lia.
  destruct (Veltkamp_tail radix2 (-10000) 53 (fun x => negb (Z.even x)) 27 H3 H4 H5 H6 a (FF_FW _ F)) as [E _].
  fold CC in E. rewrite <- hi_W in E by auto.
  assert (M2 : mult2 (-1074) (a - hi a)) by (apply mult2_minus; auto using hi_mult).
  assert (a - hi a = RN (a - hi a)) as ->; [|apply FF_RN].
  rewrite bridge by auto. lra.
Qed.

Lemma dekker_real a b e f : FF a -> FF b -> mult2 e a -> mult2 f b -> (-1074 <= e + f)%Z ->
  let a1 := hi a in let a2 := a - hi a in let b1 := hi b in let b2 := b - hi b in
  RN (RN (RN (RN (RN (a1 * b1) - RN (a * b)) + RN (a2 * b1)) + RN (a1 * b2)) + RN (a2 * b2)) = a * b - RN (a * b).
Proof.
  intros Fa Fb Me Mf L a1 a2 b1 b2.
  assert (p4 : (4 <= 53)%Z) by lia. assert (en : (-10000 < 0)%Z) by lia.
  destruct (Dekker radix2 (-10000) 53 (fun x => negb (Z.even x)) p4 en b a (FF_FW _ Fb) (FF_FW _ Fa) (or_introl eq_refl)) as [D _].
  change (53 - Z.div2 53)%Z with 27%Z in D. fold CC in D.
  pose proof (mult2_FF a Fa) as Ma. pose proof (mult2_FF b Fb) as Mb.
  rewrite <- (hi_W a Ma), <- (hi_W b Mb) in D. fold a1 b1 in D.
  assert (T : forall u v, mult2 e u -> mult2 f v -> mult2 (-1074) (u * v)).
  { intros. apply (mult2_le _ (e + f)); auto using mult2_mult. }
  assert (Ma1 : mult2 e a1) by (apply hi_mult; auto). assert (Mb1 : mult2 f b1) by (apply hi_mult; auto).
  assert (Ma2 : mult2 e a2) by (apply mult2_minus; auto). assert (Mb2 : mult2 f b2) by (apply mult2_minus; auto).
  assert (Ra : RW (a - a1) = a2). { unfold a1. rewrite RW_id; auto. apply FF_FW, hi_tail; auto. }
  assert (Rb : RW (b - b1) = b2). { unfold b1. rewrite RW_id; auto. apply FF_FW, hi_tail; auto. }
  rewrite Ra, Rb in D.
  assert (Z : b * a = 0 \/ pw (-10000 + 2 * 53 - 1) <= Rabs (b * a)).
  { destruct (Req_dec (b * a) 0) as [Z|Z]; auto. right. eapply Rle_trans; [|apply (mult2_ge (-1074)); auto; rewrite Rmult_comm; auto].
    apply bpow_le; lia. }
  specialize (D Z).
  rewrite (bridge (a1 * b1)), (bridge (a * b)), (bridge (a2 * b1)), (bridge (a1 * b2)), (bridge (a2 * b2)) by auto.
  assert (K1 : mult2 (-1074) (RW (a1 * b1) - RW (a * b))) by (apply mult2_minus; apply mult2_RW; auto).
  rewrite (bridge _ K1).
  assert (K2 : mult2 (-1074) (RW (RW (a1 * b1) - RW (a * b)) + RW (a2 * b1))) by (apply mult2_plus; apply mult2_RW; auto).
  rewrite (bridge _ K2).
  assert (K3 : mult2 (-1074) (RW (RW (RW (a1 * b1) - RW (a * b)) + RW (a2 * b1)) + RW (a1 * b2))) by (apply mult2_plus; apply mult2_RW; auto).
  rewrite (bridge _ K3).
  assert (K4 : mult2 (-1074) (RW (RW (RW (RW (a1 * b1) - RW (a * b)) + RW (a2 * b1)) + RW (a1 * b2)) + RW (a2 * b2))) by (apply mult2_plus; apply mult2_RW; auto).
  rewrite (bridge _ K4).
  rewrite (Rmult_comm b a), (Rmult_comm b1 a1), (Rmult_comm b1 a2), (Rmult_comm b2 a1), (Rmult_comm b2 a2) in D.
  replace (- RW (a * b) + RW (a1 * b1)) with (RW (a1 * b1) - RW (a * b)) in D by ring.
  lra.
Qed.

(* magnitude bounds of the intermediate results *)
Lemma dekker_bounds a b : FF a -> FF b -> Rabs (a * b) < pw 1024 ->
  let a1 := hi a in let a2 := a - hi a in let b1 := hi b in let b2 := b - hi b in
  Rabs (a1 * b1 - a * b) <= pw 1000 /\ Rabs (a2 * b1) <= pw 1000 /\ Rabs (a1 * b2) <= pw 1000 /\ Rabs (a2 * b2) <= pw 1000.
Proof.
  intros Fa Fb B a1 a2 b1 b2.
  pose proof (hi_err a Fa) as Ea. pose proof (hi_err b Fb) as Eb. fold a1 in Ea. fold b1 in Eb.
  assert (Ea2 : Rabs a2 <= pw (-26) * Rabs a). { unfold a2. replace (a - hi a) with (- (a1 - a)) by (unfold a1; ring). rewrite Rabs_Ropp. auto. }
  assert (Eb2 : Rabs b2 <= pw (-26) * Rabs b). { unfold b2. replace (b - hi b) with (- (b1 - b)) by (unfold b1; ring). rewrite Rabs_Ropp. auto. }
  pose proof (Rabs_pos a) as Pa. pose proof (Rabs_pos b) as Pb.
  assert (S : pw (-26) <= / 8) by (replace (/8) with (pw (-3)) by (simpl; lra); apply bpow_le; lia).
  pose proof (bpow_gt_0 radix2 (-26)) as P26.
  assert (A1 : Rabs a1 <= 2 * Rabs a). { replace a1 with (a + (a1 - a)) by ring. eapply Rle_trans; [apply Rabs_triang|]. nra. }
  assert (B1 : Rabs b1 <= 2 * Rabs b). { replace b1 with (b + (b1 - b)) by ring. eapply Rle_trans; [apply Rabs_triang|]. nra. }
  rewrite Rabs_mult in B. set (P := Rabs a * Rabs b) in * .
  assert (PP : 0 <= P) by (apply Rmult_le_pos; auto).
  assert (G : 4 * (pw (-26) * P) <= pw 1000).
  { assert (pw (-26) * P <= pw (-26) * pw 1024) by (apply Rmult_le_compat_l; lra).
    rewrite <- bpow_plus in H. change (-26 + 1024)%Z with 998%Z in H.
    change 1000%Z with (998 + 1 + 1)%Z. rewrite !p2split. lra. }
  assert (G0 : 0 <= pw (-26) * P) by (apply Rmult_le_pos; lra).
  assert (MM : forall u v c d, Rabs u <= c * Rabs a -> Rabs v <= d * Rabs b -> 0 <= c -> 0 <= d -> Rabs (u * v) <= c * d * P).
  { intros u v c d Hu Hv Hc Hd. rewrite Rabs_mult. replace (c * d * P) with ((c * Rabs a) * (d * Rabs b)) by (unfold P; ring).
    apply Rmult_le_compat; auto using Rabs_pos. }
  repeat split.
  - replace (a1 * b1 - a * b) with (- (a2 * b1) + a * (b1 - b)) by (unfold a2, a1; ring).
    eapply Rle_trans; [apply Rabs_triang|]. rewrite Rabs_Ropp.
    pose proof (MM a2 b1 (pw (-26)) 2 Ea2 B1 ltac:(lra) ltac:(lra)).
    pose proof (MM a (b1 - b) 1 (pw (-26)) ltac:(lra) Eb ltac:(lra) ltac:(lra)). lra.
  - pose proof (MM a2 b1 (pw (-26)) 2 Ea2 B1 ltac:(lra) ltac:(lra)). lra.
  - pose proof (MM a1 b2 2 (pw (-26)) A1 Eb2 ltac:(lra) ltac:(lra)). lra.
  - pose proof (MM a2 b2 (pw (-26)) (pw (-26)) Ea2 Eb2 ltac:(lra) ltac:(lra)).
    assert (pw (-26) * (pw (-26) * P) <= / 8 * (pw (-26) * P)) by (apply Rmult_le_compat_r; auto). lra.
Qed.
Lemma RN_abs_err x : Rabs x <= pw 1025 -> Rabs (RN x - x) <= pw 972.
Proof.
  intros B. unfold rnd. eapply Rle_trans; [apply error_le_half_ulp; auto with typeclass_instances|].
  assert (ulp radix2 FX x <= pw 973).
  { apply Rle_trans with (ulp radix2 FX (pw 1025)).
    - rewrite <- ulp_abs. apply ulp_le_pos; auto with typeclass_instances. apply Rabs_pos.
    - rewrite ulp_bpow. apply bpow_le. unfold FX, FLT_exp. lia. }
  change 973%Z with (972 + 1)%Z in H. rewrite p2split in H. lra.
Qed.

Lemma split_v x a : v64 x = XR a -> Rabs a <= pw 996 ->
  v64 (fst (split x)) = XR (hi a) /\ v64 (snd (split x)) = XR (a - hi a).
Proof.
  intros Hx B. destruct (fmtv x a Hx) as [F _]. unfold split.
  assert (HC : v64 (bdy (2 ^ 27 + 1) 0) = XR CC).
  { rewrite bdy_v by lia. f_equal. unfold CC. rewrite plus_IZR. change (IZR (2 ^ 27)) with (pw 27). change (pw 0) with 1. ring. }
  pose proof (bpow_gt_0 radix2 996) as P996.
  assert (H1023 : pw 996 * pw 27 = pw 1023) by (rewrite <- bpow_plus; auto).
  assert (Hlt : pw 1023 + pw 1000 < pw 1024).
  { assert (pw 1024 = 2 * pw 1023) by (rewrite <- p2split; auto). assert (pw 1000 < pw 1023) by (apply bpow_lt; lia). lra. }
  assert (H998 : 4 * pw 996 = pw 998). { change 998%Z with (996 + 1 + 1)%Z. rewrite !p2split. lra. }
  assert (H1000 : 4 * pw 998 = pw 1000). { change 1000%Z with (998 + 1 + 1)%Z. rewrite !p2split. lra. }
  assert (Fsum : FF (pw 1023 + pw 998)).
  { apply (mult2_small 998); [lia| |].
    - apply mult2_plus. exists (2 ^ 25)%Z. change (IZR (2 ^ 25)) with (pw 25). rewrite <- bpow_plus. auto. exists 1%Z. ring.
    - rewrite Rabs_pos_eq by (pose proof (bpow_gt_0 radix2 1023); pose proof (bpow_gt_0 radix2 998); lra).
      apply Rlt_le, Rlt_trans with (pw 1024); [lra|apply bpow_lt; lia]. }
  assert (BC : Rabs (a * CC) <= pw 1023 + pw 996).
  { rewrite Rabs_mult. unfold CC. rewrite (Rabs_pos_eq (pw 27 + 1)) by (pose proof (bpow_gt_0 radix2 27); lra).
    pose proof (bpow_gt_0 radix2 27). nra. }
  assert (Ft : fits (a * CC)) by (apply (fits_le (pw 1023 + pw 998)); auto; lra).
  pose proof (vmul _ _ _ _ Hx HC Ft) as Ht.
  assert (F96 : FF (pw 1023 + pw 996)).
  { apply (mult2_small 996); [lia| |].
    - apply mult2_plus. exists (2 ^ 27)%Z. change (IZR (2 ^ 27)) with (pw 27). rewrite <- bpow_plus. auto. exists 1%Z. ring.
    - rewrite Rabs_pos_eq by (pose proof (bpow_gt_0 radix2 1023); lra).
      apply Rlt_le, Rlt_trans with (pw 1024); [lra|apply bpow_lt; lia]. }
  assert (Bt : Rabs (RN (a * CC)) <= pw 1023 + pw 996) by (apply RN_abs_le; auto).
  assert (Bq : Rabs (RN (a * CC) - a) <= pw 1023 + pw 998).
  { eapply Rle_trans; [apply Rabs_triang|]. rewrite Rabs_Ropp. lra. }
  assert (Hq : v64 (x *. bdy (2 ^ 27 + 1) 0 -. x) = XR (RN (RN (a * CC) - a))).
  { apply vsub; auto. apply (fits_le (pw 1023 + pw 998)); auto; lra. }
  pose proof (hi_err a F) as E.
  assert (S : pw (-26) <= / 8) by (replace (/8) with (pw (-3)) by (simpl; lra); apply bpow_le; lia).
  pose proof (bpow_gt_0 radix2 (-26)) as P26. pose proof (Rabs_pos a).
  assert (Bh : Rabs (hi a) <= pw 998).
  { replace (hi a) with (a + (hi a - a)) by ring. eapply Rle_trans; [apply Rabs_triang|]. nra. }
  assert (Hh : v64 (x *. bdy (2 ^ 27 + 1) 0 -. (x *. bdy (2 ^ 27 + 1) 0 -. x)) = XR (hi a)).
  { apply vsub; auto. unfold fits. fold (hi a). eapply Rle_lt_trans; [apply Bh|apply bpow_lt; lia]. }
  split; [exact Hh|].
  pose proof (hi_tail a F) as Ft2.
  change (v64 (x -. (x *. bdy (2 ^ 27 + 1) 0 -. (x *. bdy (2 ^ 27 + 1) 0 -. x))) = XR (a - hi a)).
  rewrite (vsub _ _ a (hi a)); auto. rewrite RN_id; auto.
  apply (fits_pw 1000); [lia|]. eapply Rle_trans; [apply Rabs_triang|]. rewrite Rabs_Ropp. lra.
Qed.

Lemma twoproduct_fst fma x y : fst (twoproduct fma x y) = x *. y.
Proof.
  unfold twoproduct. destruct fma; [reflexivity|]. 
  destruct (p2 996 <. Babs x); [|destruct (p2 996 <. Babs y)];
  destruct (split _) as [? ?]; destruct (split _) as [? ?]; destruct (p2 1023 <. Babs (x *. y)); reflexivity.
Qed.

Lemma fits_lt e : fits e -> Rabs e < pw 1024.
Proof.
  intros F. apply Rnot_le_lt. intros C. apply (Rlt_not_le _ _ F).
  apply abs_round_ge_generic; auto with typeclass_instances. apply FF_pw; lia.
Qed.
Lemma FFsum : FF (pw 1023 + pw 1002) /\ pw 1023 + pw 1002 < pw 1024.
Proof.
  assert (pw 1024 = 2 * pw 1023) by (rewrite <- p2split; auto). assert (pw 1002 < pw 1023) by (apply bpow_lt; lia).
  split; [|lra]. apply (mult2_small 1002); [lia| |].
  - apply mult2_plus. exists (2 ^ 21)%Z. change (IZR (2 ^ 21)) with (pw 21). rewrite <- bpow_plus. auto. exists 1%Z. ring.
  - rewrite Rabs_pos_eq by (pose proof (bpow_gt_0 radix2 1023); pose proof (bpow_gt_0 radix2 1002); lra).
    apply Rlt_le, Rlt_trans with (pw 1024); [lra|apply bpow_lt; lia].
Qed.
Lemma mult2_big x k : FF x -> pw k <= Rabs x -> mult2 (k - 52) x.
Proof.
  intros F L. apply (mult2_le _ (cexp radix2 FX x)); [|apply mult2_fmt; auto].
  apply mag_ge in L. unfold cexp, FX, FLT_exp. lia.
Qed.

Definition tp_core (na nb x : b64) : b64 :=
  let '(a1, a2) := split na in
  let '(b1, b2) := split nb in
  if p2 1023 <. Babs x then
    (((((a1 *. bdy 1 (-1)) *. b1) -. (x *. bdy 1 (-1))) *. bdy 2 0 +. a2 *. b1) +. a1 *. b2) +. a2 *. b2
  else
    (((a1 *. b1 -. x) +. a2 *. b1) +. a1 *. b2) +. a2 *. b2.

Lemma tp_core_v (na nb x : b64) a b e f : v64 na = XR a -> v64 nb = XR b -> v64 x = XR (RN (a * b)) ->
  Rabs a <= pw 996 -> Rabs b <= pw 996 -> fits (a * b) -> mult2 e a -> mult2 f b -> (-1074 <= e + f)%Z ->
  v64 (tp_core na nb x) = XR (a * b - RN (a * b)).
Proof.
  intros Ha Hb Hx Ba Bb Fi Me Mf Le.
  destruct (fmtv _ _ Ha) as [Fa _]. destruct (fmtv _ _ Hb) as [Fb _].
  pose proof (fits_lt _ Fi) as Lt.
  pose proof (dekker_real a b e f Fa Fb Me Mf Le) as D. cbv zeta in D.
  pose proof (dekker_bounds a b Fa Fb Lt) as Bd. cbv zeta in Bd. destruct Bd as (B11 & B21 & B12 & B22).
  destruct (split_v na a Ha Ba) as [Sa1 Sa2]. destruct (split_v nb b Hb Bb) as [Sb1 Sb2].
  unfold tp_core. destruct (split na) as [a1' a2']. destruct (split nb) as [b1' b2']. cbn [fst snd] in Sa1, Sa2, Sb1, Sb2.
  pose proof (hi_err a Fa) as Era.
  set (a1 := hi a) in * ; set (b1 := hi b) in * ; set (a2 := a - a1) in * ; set (b2 := b - b1) in * ; set (X := RN (a * b)) in * .
  assert (P1001 : pw 1001 = 2 * pw 1000) by (rewrite <- p2split; auto).
  assert (P1002 : pw 1002 = 2 * pw 1001) by (rewrite <- p2split; auto).
  assert (P1003 : pw 1003 = 2 * pw 1002) by (rewrite <- p2split; auto).
  assert (P1004 : pw 1004 = 2 * pw 1003) by (rewrite <- p2split; auto).
  assert (P1025 : pw 1025 = 2 * pw 1024) by (rewrite <- p2split; auto).
  assert (P1024 : pw 1024 = 2 * pw 1023) by (rewrite <- p2split; auto).
  assert (P973 : pw 973 = 2 * pw 972) by (rewrite <- p2split; auto).
  assert (Q1 : pw 973 < pw 1000) by (apply bpow_lt; lia).
  assert (Q2 : pw 1002 < pw 1020) by (apply bpow_lt; lia).
  assert (P1022 : pw 1023 = 8 * pw 1020).
  { change 1023%Z with (1020 + 1 + 1 + 1)%Z. rewrite !p2split. ring. }
  pose proof (bpow_gt_0 radix2 1000) as Pp. pose proof (bpow_gt_0 radix2 972) as Pq.
  assert (EX : Rabs (X - a * b) <= pw 972) by (apply RN_abs_err; lra).
  assert (U11 : Rabs (a1 * b1) <= Rabs (a * b) + pw 1000).
  { replace (a1 * b1) with (a * b + (a1 * b1 - a * b)) by ring. eapply Rle_trans; [apply Rabs_triang|]. lra. }
  assert (E11 : Rabs (RN (a1 * b1) - a1 * b1) <= pw 972) by (apply RN_abs_err; lra).
  assert (Ed : Rabs (RN (a1 * b1) - X) <= pw 1001).
  { replace (RN (a1 * b1) - X) with ((RN (a1 * b1) - a1 * b1) + (a1 * b1 - a * b) + - (X - a * b)) by ring.
    eapply Rle_trans; [apply Rabs_triang|]. rewrite Rabs_Ropp.
    assert (Rabs (RN (a1 * b1) - a1 * b1 + (a1 * b1 - a * b)) <= pw 972 + pw 1000) by (eapply Rle_trans; [apply Rabs_triang|lra]).
    lra. }
  assert (fw : forall k u, (-1074 <= k < 1024)%Z -> Rabs u <= pw k -> Rabs (RN u) <= pw k).
  { intros k u K. apply RN_abs_le, FF_pw; lia. }
  assert (Chain : forall t, v64 t = XR (RN (RN (a1 * b1) - X)) ->
    v64 (t +. a2' *. b1' +. a1' *. b2' +. a2' *. b2') = XR (a * b - X)).
  { intros t Ht. rewrite <- D.
    pose proof (fw 1001%Z _ ltac:(lia) Ed) as G1. pose proof (fw 1000%Z _ ltac:(lia) B21) as G21.
    pose proof (fw 1000%Z _ ltac:(lia) B12) as G12. pose proof (fw 1000%Z _ ltac:(lia) B22) as G22.
    assert (G2 : Rabs (RN (RN (a1 * b1) - X) + RN (a2 * b1)) <= pw 1002) by (eapply Rle_trans; [apply Rabs_triang|lra]).
    pose proof (fw 1002%Z _ ltac:(lia) G2) as G2'.
    assert (G3 : Rabs (RN (RN (RN (a1 * b1) - X) + RN (a2 * b1)) + RN (a1 * b2)) <= pw 1003) by (eapply Rle_trans; [apply Rabs_triang|lra]).
    pose proof (fw 1003%Z _ ltac:(lia) G3) as G3'.
    apply vadd; [apply vadd; [apply vadd; [auto|apply vmul; auto; apply (fits_pw 1000); [lia|auto]|]|apply vmul; auto; apply (fits_pw 1000); [lia|auto]|]|apply vmul; auto; apply (fits_pw 1000); [lia|auto]|].
    - apply (fits_pw 1002); [lia|auto].
    - apply (fits_pw 1003); [lia|auto].
    - apply (fits_pw 1004); [lia|]. eapply Rle_trans; [apply Rabs_triang|lra]. }
  rewrite (vlt _ _ (pw 1023) (Rabs X)); [|apply p2_v; lia|apply vabs; auto].
  destruct FFsum as [Fs Ls].
  destruct (Rlt_bool_spec (pw 1023) (Rabs X)) as [H|H]; apply Chain.
  - (* halving branch *)
    assert (L1 : pw 1022 <= Rabs (a * b)).
    { assert (Rabs X <= Rabs (a * b) + pw 972).
      { replace X with (a * b + (X - a * b)) by ring. eapply Rle_trans; [apply Rabs_triang|]. lra. }
      assert (pw 1023 = 2 * pw 1022) by (rewrite <- p2split; auto).
      assert (pw 972 < pw 1022) by (apply bpow_lt; lia). lra. }
    assert (L2 : pw 1021 <= Rabs (a1 * b1)).
    { assert (Rabs (a * b) <= Rabs (a1 * b1) + pw 1000).
      { replace (a * b) with (a1 * b1 + - (a1 * b1 - a * b)) by ring. eapply Rle_trans; [apply Rabs_triang|]. rewrite Rabs_Ropp. lra. }
      assert (pw 1022 = 2 * pw 1021) by (rewrite <- p2split; auto).
      assert (pw 1000 < pw 1021) by (apply bpow_lt; lia). lra. }
    assert (La : pw 26 <= Rabs a).
    { apply Rnot_lt_le. intros C. rewrite Rabs_mult in L1.
      assert (Rabs a * Rabs b <= Rabs a * pw 996) by (apply Rmult_le_compat_l; [apply Rabs_pos|auto]).
      assert (Rabs a * pw 996 < pw 26 * pw 996) by (apply Rmult_lt_compat_r; [apply bpow_gt_0|auto]).
      rewrite <- bpow_plus in H1. change (26 + 996)%Z with 1022%Z in H1. lra. }
    assert (La1 : pw 25 <= Rabs a1).
    { assert (Rabs a <= Rabs a1 + pw (-26) * Rabs a).
      { replace a with (a1 + - (a1 - a)) at 1 by ring. eapply Rle_trans; [apply Rabs_triang|]. rewrite Rabs_Ropp. lra. }
      assert (pw (-26) <= / 8) by (replace (/8) with (pw (-3)) by (simpl; lra); apply bpow_le; lia).
      assert (pw (-26) * Rabs a <= / 8 * Rabs a) by (apply Rmult_le_compat_r; [apply Rabs_pos|auto]).
      assert (pw 26 = 2 * pw 25) by (rewrite <- p2split; auto). pose proof (bpow_gt_0 radix2 25). lra. }
    destruct (fmtv _ _ Sa1) as [Fa1 Ba1]. destruct (fmtv _ _ Hx) as [FX' BX].
    pose proof maxR_lt as ML.
    assert (Hm1 : pw (-1) = / 2) by reflexivity.
    assert (half : forall u, Rabs (u * pw (-1)) = Rabs u * / 2).
    { intros. rewrite Rabs_mult, (Rabs_pos_eq (pw (-1))), Hm1 by apply bpow_ge_0. auto. }
    assert (V1 : v64 (a1' *. p2 (-1)) = XR (a1 * pw (-1))).
    { apply vscale; auto; [lia| |].
      - apply FF_scale; auto. right. apply mag_ge in La1. lia.
      - rewrite half. pose proof (Rabs_pos a1). lra. }
    assert (V2 : v64 (x *. p2 (-1)) = XR (X * pw (-1))).
    { apply vscale; auto; [lia| |].
      - apply FF_scale; auto. right. apply Rlt_le, mag_ge in H. lia.
      - rewrite half. pose proof (Rabs_pos X). lra. }
    assert (S11 : RN (a1 * pw (-1) * b1) = RN (a1 * b1) * pw (-1)).
    { replace (a1 * pw (-1) * b1) with (a1 * b1 * pw (-1)) by ring. apply rnd_scale. right. split.
      - eapply Rle_trans; [|apply L2]. apply bpow_le; lia.
      - rewrite half. apply Rle_trans with (pw 1020); [apply bpow_le; lia|].
        assert (pw 1021 = 2 * pw 1020) by (rewrite <- p2split; auto). lra. }
    assert (V3 : v64 (a1' *. p2 (-1) *. b1') = XR (RN (a1 * b1) * pw (-1))).
    { rewrite <- S11. apply vmul; auto. apply (fits_le (pw 1023 + pw 1002)); auto.
      replace (a1 * pw (-1) * b1) with (a1 * b1 * pw (-1)) by ring. rewrite half. lra. }
    assert (Mp : mult2 (1020 - 52) (RN (a1 * b1) - X)).
    { apply mult2_minus; apply mult2_big; try apply FF_RN.
      - apply abs_round_ge_generic; auto with typeclass_instances; [apply FF_pw; lia|]. 
        eapply Rle_trans; [|apply L2]. apply bpow_le; lia.
      - apply Rle_trans with (pw 1023); [apply bpow_le; lia|lra]. }
    assert (S12 : RN (RN (a1 * b1) * pw (-1) - X * pw (-1)) = RN (RN (a1 * b1) - X) * pw (-1)).
    { rewrite <- Rmult_minus_distr_r. apply rnd_scale.
      destruct (Req_dec (RN (a1 * b1) - X) 0) as [Z|Z]; auto. right.
      pose proof (mult2_ge _ _ Mp Z) as G. split.
      - eapply Rle_trans; [|apply G]. apply bpow_le; lia.
      - rewrite half. apply Rle_trans with (pw 967); [apply bpow_le; lia|].
        assert (pw (1020 - 52) = 2 * pw 967) by (rewrite <- p2split; auto). lra. }
    assert (V4 : v64 (a1' *. p2 (-1) *. b1' -. x *. p2 (-1)) = XR (RN (RN (a1 * b1) - X) * pw (-1))).
    { rewrite <- S12. apply vsub; auto. apply (fits_pw 1001); [lia|].
      rewrite <- Rmult_minus_distr_r, half. pose proof (Rabs_pos (RN (a1 * b1) - X)). lra. }
    assert (V5 : v64 (bdy 2 0) = XR 2). { rewrite bdy_v by lia. f_equal. simpl. ring. }
    assert (E2 : RN (RN (a1 * b1) - X) * pw (-1) * 2 = RN (RN (a1 * b1) - X)) by (rewrite Hm1; field).
    change (bdy 1 (-1)) with (p2 (-1)).
    rewrite (vmul _ _ _ _ V4 V5).
    + rewrite E2. f_equal. apply RN_id, FF_RN.
    + rewrite E2. apply (fits_pw 1001); [lia|]. apply (fw 1001%Z); [lia|auto].
  - apply vsub; auto; [|apply (fits_pw 1001); [lia|auto]].
    apply vmul; auto. apply (fits_le (pw 1023 + pw 1002)); auto.
    assert (Rabs (a * b) <= Rabs X + pw 972).
    { replace (a * b) with (X + - (X - a * b)) by ring. eapply Rle_trans; [apply Rabs_triang|]. rewrite Rabs_Ropp. lra. }
    lra.
Qed.

Lemma err_FF a b e f : FF a -> FF b -> mult2 e a -> mult2 f b -> (-1074 <= e + f)%Z -> FF (a * b - RN (a * b)).
Proof. intros. rewrite <- (dekker_real a b e f); auto. apply FF_RN. Qed.
Lemma vfma (x y z : b64) a b c : v64 x = XR a -> v64 y = XR b -> v64 z = XR c -> fits (a * b + c) ->
  v64 (Bfma mode_NE x y z) = XR (RN (a * b + c)).
Proof.
  intros Hx Hy Hz F. apply v64_XR in Hx as [Fx Ex]. apply v64_XR in Hy as [Fy Ey]. apply v64_XR in Hz as [Fz Ez].
  pose proof (Bfma_correct 53 1024 _ _ mode_NE x y z Fx Fy Fz) as H. cbv zeta in H. rewrite Ex, Ey, Ez in H.
  change (round radix2 (SpecFloat.fexp 53 1024) (round_mode mode_NE) (a * b + c)) with (RN (a * b + c)) in H.
  rewrite Rlt_bool_true in H by auto. destruct H as (H1 & H2 & _). rewrite v64_fin, H1; auto.
Qed.

Lemma twoproduct_v fma x y a b e f : v64 x = XR a -> v64 y = XR b -> fits (a * b) ->
  mult2 e a -> mult2 f b -> (-1074 <= e + f)%Z ->
  v64 (fst (twoproduct fma x y)) = XR (RN (a * b)) /\ v64 (snd (twoproduct fma x y)) = XR (a * b - RN (a * b)).
Proof.
  intros Hx Hy Fi Me Mf Le. pose proof (vmul x y a b Hx Hy Fi) as Hr.
  rewrite twoproduct_fst. split; auto.
  destruct (fmtv _ _ Hx) as [Fa Ba]. destruct (fmtv _ _ Hy) as [Fb Bb].
  pose proof maxR_lt as ML. pose proof (fits_lt _ Fi) as Lt.
  assert (Er : Rabs (a * b - RN (a * b)) <= pw 972).
  { replace (a * b - RN (a * b)) with (- (RN (a * b) - a * b)) by ring. rewrite Rabs_Ropp. apply RN_abs_err.
    assert (pw 1024 < pw 1025) by (apply bpow_lt; lia). lra. }
  unfold twoproduct. destruct fma.
  - cbn [snd]. rewrite (vfma _ _ _ a b (- RN (a * b))); auto.
    + change (a * b + - RN (a * b)) with (a * b - RN (a * b)). rewrite RN_id; auto. eapply err_FF; eauto.
    + apply vopp; auto.
    + apply (fits_pw 972); [lia|auto].
  - assert (K : forall na nb A B e' f', v64 na = XR A -> v64 nb = XR B -> A * B = a * b -> Rabs A <= pw 996 -> Rabs B <= pw 996 ->
       mult2 e' A -> mult2 f' B -> (-1074 <= e' + f')%Z ->
       v64 (snd (let '(a1, a2) := split na in let '(b1, b2) := split nb in
        if p2 1023 <. Babs (x *. y) then
         (x *. y, (((((a1 *. bdy 1 (-1)) *. b1) -. ((x *. y) *. bdy 1 (-1))) *. bdy 2 0 +. a2 *. b1) +. a1 *. b2) +. a2 *. b2)
        else (x *. y, (((a1 *. b1 -. (x *. y)) +. a2 *. b1) +. a1 *. b2) +. a2 *. b2))) = XR (a * b - RN (a * b))).
    { intros na nb A B e' f' H1 H2 E P1 P2 M1 M2 L. rewrite <- E in * .
      rewrite <- (tp_core_v na nb (x *. y) A B e' f'); auto. unfold tp_core.
      destruct (split na) as [? ?]; destruct (split nb) as [? ?]; destruct (p2 1023 <. Babs (x *. y)); reflexivity. }
    rewrite (vlt _ _ (pw 996) (Rabs a)); [|apply p2_v; lia|apply vabs; auto].
    rewrite (vlt _ _ (pw 996) (Rabs b)); [|apply p2_v; lia|apply vabs; auto].
    assert (EE : forall u v, u * pw (-28) * (v * pw 28) = u * v).
    { intros. transitivity (u * v * (pw (-28) * pw 28)); [ring|]. rewrite <- bpow_plus. change (pw (-28 + 28)) with 1. ring. }
    assert (Big : forall u v, FF u -> FF v -> Rabs u < pw 1024 -> Rabs (u * v) < pw 1024 -> pw 996 < Rabs u ->
       FF (u * pw (-28)) /\ Rabs (u * pw (-28)) <= pw 996 /\ Rabs (v * pw 28) <= pw 996).
    { intros u v Fu Fv Bu Buv G. split; [|split].
      - apply FF_scale; auto. right. apply Rlt_le, mag_ge in G. lia.
      - rewrite Rabs_mult, (Rabs_pos_eq (pw (-28))) by apply bpow_ge_0.
        change 996%Z with (1024 + -28)%Z. rewrite bpow_plus. apply Rmult_le_compat_r; [apply bpow_ge_0|lra].
      - rewrite Rabs_mult, (Rabs_pos_eq (pw 28)) by apply bpow_ge_0.
        apply Rle_trans with (pw 28 * pw 28).
        + apply Rmult_le_compat_r; [apply bpow_ge_0|]. apply Rnot_lt_le. intros C.
          rewrite Rabs_mult in Buv. change 1024%Z with (996 + 28)%Z in Buv. rewrite bpow_plus in Buv.
          pose proof (bpow_gt_0 radix2 996). pose proof (bpow_gt_0 radix2 28). nra.
        + rewrite <- bpow_plus. apply bpow_le; lia. }
    assert (L996 : pw 996 < pw 1024) by (apply bpow_lt; lia).
    destruct (Rlt_bool_spec (pw 996) (Rabs a)) as [L1|L1]; [|destruct (Rlt_bool_spec (pw 996) (Rabs b)) as [L2|L2]].
    + destruct (Big a b) as (F1 & F2 & F3); auto; [lra|].
      apply (K _ _ (a * pw (-28)) (b * pw 28) (e + -28)%Z (f + 28)%Z); auto using mult2_scale.
      * apply vscale; auto; [lia|lra].
      * apply vscale; auto; [lia|apply FF_scale_up; [lia|auto]|lra].
      * lia.
    + destruct (Big b a) as (F1 & F2 & F3); auto; [lra|rewrite Rmult_comm; auto|].
      apply (K _ _ (a * pw 28) (b * pw (-28)) (e + 28)%Z (f + -28)%Z); auto using mult2_scale.
      * apply vscale; auto; [lia|apply FF_scale_up; [lia|auto]|lra].
      * apply vscale; auto; [lia|lra].
      * rewrite Rmult_comm, EE. ring.
      * lia.
    + apply (K x y a b e f); auto.
Qed.

(* the granularity condition holds as soon as the rounded product is at least 2^-969 *)
Lemma gran a b : FF a -> FF b -> pw (-969) <= Rabs (RN (a * b)) ->
  exists e f, mult2 e a /\ mult2 f b /\ (-1074 <= e + f)%Z.
Proof.
  intros Fa Fb L.
  assert (Na : a <> 0). { intros ->. rewrite Rmult_0_l, rnd_0, Rabs_R0 in L. pose proof (bpow_gt_0 radix2 (-969)). lra. }
  assert (Nb : b <> 0). { intros ->. rewrite Rmult_0_r, rnd_0, Rabs_R0 in L. pose proof (bpow_gt_0 radix2 (-969)). lra. }
  destruct (mag_le_ulp a Fa Na) as (e & _ & _ & Be & Me & _). destruct (mag_le_ulp b Fb Nb) as (f & _ & _ & Bf & Mf & _).
  exists e, f. split; [auto|split; auto]. apply Z.nlt_ge. intros C.
  assert (Bab : Rabs (a * b) <= pw (-969) - pw (-1022)).
  { rewrite Rabs_mult. apply Rle_trans with ((pw (e + 53) - pw e) * (pw (f + 53) - pw f)).
    - apply Rmult_le_compat; auto using Rabs_pos.
    - rewrite !bpow_plus. replace ((pw e * pw 53 - pw e) * (pw f * pw 53 - pw f)) with (pw e * pw f * (pw 53 * pw 53 - 2 * pw 53 + 1)) by ring.
      rewrite <- !bpow_plus. apply Rle_trans with (pw (-1075) * (pw (53 + 53) - 2 * pw 53 + 1)).
      + apply Rmult_le_compat_r; [|apply bpow_le; lia].
        assert (pw (53 + 53) = pw 53 * pw 53) by (rewrite <- bpow_plus; auto).
        assert (2 <= pw 53) by (change 2 with (pw 1); apply bpow_le; lia). nra.
      + assert (pw (-1075) * pw (53 + 53) = pw (-969)) by (rewrite <- bpow_plus; auto).
        assert (pw (-1075) * pw 53 = pw (-1022)) by (rewrite <- bpow_plus; auto).
        assert (pw (-1075) <= pw (-1022)) by (apply bpow_le; lia). lra. }
  assert (Fp : FF (pw (-969) - pw (-1022))).
  { assert (PRED (pw (-969)) = pw (-969) - pw (-1022)) as <-. { rewrite pred_bpow. unfold FX, FLT_exp. simpl Z.max. auto. }
    apply generic_format_pred; auto with typeclass_instances. apply FF_pw; lia. }
  pose proof (RN_abs_le _ _ Fp Bab). pose proof (bpow_gt_0 radix2 (-1022)). lra.
Qed.

Definition xltb a b := match a, b with
  | XR x, XR y => Rlt_bool x y | XR _, Xp | Xm, XR _ | Xm, Xp => true | _, _ => false end.
Definition xeqb a b := match a, b with
  | XR x, XR y => Req_bool x y | Xp, Xp | Xm, Xm => true | _, _ => false end.
Definition xleb a b := match a, b with
  | XR x, XR y => Rle_bool x y | XR _, Xp | Xm, XR _ | Xm, Xp | Xm, Xm | Xp, Xp => true | _, _ => false end.
Lemma ltb_x (x y : b64) : (x <. y) = xltb (v64 x) (v64 y).
Proof.
  apply eq_true_iff_eq. rewrite Bltb_v. destruct (v64 x), (v64 y); simpl; try tauto; try (split; intros; (discriminate || tauto)).
  destruct (Rlt_bool_spec r r0); split; intros; auto; try discriminate; lra.
Qed.
Lemma leb_x (x y : b64) : (x <=. y) = xleb (v64 x) (v64 y).
Proof.
  apply eq_true_iff_eq. rewrite Bleb_v. destruct (v64 x), (v64 y); simpl; try tauto; try (split; intros; (discriminate || tauto)).
  destruct (Rle_bool_spec r r0); split; intros; auto; try discriminate; lra.
Qed.
Lemma eqb_x (x y : b64) : (x ==. y) = xeqb (v64 x) (v64 y).
Proof.
  apply eq_true_iff_eq. rewrite Beqb_v. destruct (v64 x), (v64 y); simpl; try tauto; try (split; intros; (discriminate || tauto)).
  destruct (Req_bool_spec r r0); split; intros; auto; try discriminate; lra.
Qed.

(* comparing an exact product with a binary64 number *)
Lemma cmp_tp fma (p q t : b64) P Q T : v64 p = XR P -> v64 q = XR Q -> v64 t = XR T ->
  (pw (-969) <= Rabs T \/ exists e f, mult2 e P /\ mult2 f Q /\ (-1074 <= e + f)%Z) ->
  let r := fst (twoproduct fma p q) in let r2 := snd (twoproduct fma p q) in
  ((r <. t) || ((r ==. t) && (r2 <. b0))) = Rlt_bool (P * Q) T /\
  ((t <. r) || ((r ==. t) && (b0 <. r2))) = Rlt_bool T (P * Q).
Proof.
  intros Hp Hq Ht G r r2.
  destruct (fmtv _ _ Hp) as [Fp _]. destruct (fmtv _ _ Hq) as [Fq _]. destruct (fmtv _ _ Ht) as [FT BT].
  pose proof (abs_lt_1024 _ BT) as B'.
  destruct (fits_dec (P * Q)) as [Fi|NFi].
  - pose proof (vmul p q P Q Hp Hq Fi) as Hr. rewrite <- (twoproduct_fst fma) in Hr. fold r in Hr.
    rewrite (vlt _ _ _ _ Hr Ht), (vlt _ _ _ _ Ht Hr), (veq _ _ _ _ Hr Ht).
    destruct (Req_bool_spec (RN (P * Q)) T) as [E|E].
    + assert (exists e f, mult2 e P /\ mult2 f Q /\ (-1074 <= e + f)%Z) as (e & f & Me & Mf & Le).
      { destruct G as [G|G]; auto. apply gran; auto. rewrite E; auto. }
      destruct (twoproduct_v fma p q P Q e f) as [_ H2]; auto. fold r2 in H2.
      rewrite (vlt _ b0 _ 0 H2), (vlt b0 _ 0 _ eq_refl H2) by reflexivity.
      rewrite E. rewrite !(Rlt_bool_false T T) by lra. simpl.
      split; destruct (Rlt_bool_spec (P * Q) T), (Rlt_bool_spec T (P * Q)); first [apply Rlt_bool_true; lra|apply Rlt_bool_false; lra|lra].
    + simpl. rewrite !andb_false_l || idtac. rewrite !orb_false_r.
      pose proof (cmp_lt T (P * Q) FT) as C1. pose proof (cmp_gt T (P * Q) FT) as C2.
      split; [destruct (Rlt_bool_spec (RN (P * Q)) T) | destruct (Rlt_bool_spec T (RN (P * Q)))]; symmetry.
      * apply Rlt_bool_true. apply C2. auto.
      * apply Rlt_bool_false. apply Rnot_lt_le. intros C. apply C2 in C. lra.
      * apply Rlt_bool_true. apply C1. auto.
      * apply Rlt_bool_false. apply Rnot_lt_le. intros C. apply C1 in C. lra.
  - assert (Hr : v64 r = if Rlt_bool (P * Q) 0 then Xm else Xp).
    { unfold r. rewrite twoproduct_fst, Bmult_v, Hp, Hq. simpl xmul. rewrite ovf_NE; auto. }
    rewrite !ltb_x, eqb_x, Hr, Ht.
    assert (Bg : ~ Rabs (P * Q) <= maxR). { intros C. apply NFi, fits_max; auto. }
    apply Rabs_le_inv in BT.
    destruct (Rlt_bool_spec (P * Q) 0) as [N|N]; simpl.
    + rewrite Rabs_left in Bg by auto. rewrite Rlt_bool_true, Rlt_bool_false by lra. auto.
    + rewrite Rabs_pos_eq in Bg by auto. rewrite Rlt_bool_false, Rlt_bool_true by lra. auto.
Qed.
