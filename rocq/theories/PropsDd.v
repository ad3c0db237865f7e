(* Double-double arithmetic: C35, C36, C37. *)
From Coq Require Import Reals Lra Lia ZArith Bool.
From Flocq Require Import Core BinarySingleNaN.
From Verif Require Import Ext Scalar Fp64 RDoubleHw NohwModel NohwBase DdModel DdSpec DdProofs DdArith DdDiv DdSqrt DdCmp.
Open Scope R_scope.

(* the back ends of rop<dd>: hardware rounding or emulation, each with or without fma *)
Inductive ddback := DHw (fma : bool) | DNohw (fma : bool).
Definition dop (k : ddback) : dops := match k with DHw f => ops_hw f | DNohw f => ops_nohw f end.
Lemma dop_ok k : opsok (dop k).
Proof. destruct k; [apply ops_hw_ok|apply ops_nohw_ok]. Qed.

(* ---- C35: the directed operations bound the exact result; d = true is up, false is down ---- *)
Theorem C35_add : forall k d x y, ddok x -> ddok y -> bounds d (xadd (ddval x) (ddval y)) (dd_add (dop k) d x y).
Proof. intros k d x y. exact (dd_add_ok (dop k) (dop_ok k) d x y). Qed.
Theorem C35_sub : forall k d x y, ddok x -> ddok y -> bounds d (xsub (ddval x) (ddval y)) (dd_sub (dop k) d x y).
Proof. intros k d x y. exact (dd_sub_ok (dop k) (dop_ok k) d x y). Qed.
Theorem C35_mul : forall k d x y, ddok x -> ddok y -> bounds d (xmul (ddval x) (ddval y)) (dd_mul (dop k) d x y).
Proof. intros k d x y. exact (dd_mul_ok (dop k) (dop_ok k) d x y). Qed.
Theorem C35_sqrt : forall k d x, ddok x -> bounds d (xsqrt (ddval x)) (dd_sqrt (dop k) d x).
Proof. intros k d x. exact (dd_sqrt_ok (dop k) (dop_ok k) d x). Qed.
(* missing: dividends beyond 2^1022 whose low part, or the divisor's, cannot be halved exactly *)
Theorem C35_div_partial : forall k d x y, ddok x -> ddok y -> ddval y <> XR 0 -> div_scope x y ->
  bounds d (xdiv (ddval x) (ddval y)) (dd_div (dop k) d x y).
Proof. intros k d x y. exact (dd_div_ok (dop k) (dop_ok k) d x y). Qed.

(* the excluded case is wrong in every back end: div_up returns less than the quotient, because
   y.a2 * 0.5 rounds the smallest subnormal to zero *)
Definition wx : dd := mkdd bmax (bdy (-1) 969).
Definition wy : dd := mkdd (bdy 3 (-1)) (bdy (-1) (-1074)).
Lemma w969 : bpow radix2 971 = 4 * bpow radix2 969.
Proof. change 971%Z with (2 + 969)%Z. rewrite bpow_plus. reflexivity. Qed.
Lemma wmax : maxR = 9007199254740991 * bpow radix2 971.
Proof.
  unfold maxR. replace (bpow radix2 1024) with (bpow radix2 53 * bpow radix2 971) by (rewrite <- bpow_plus; reflexivity).
  change (bpow radix2 53) with 9007199254740992. ring.
Qed.
Lemma w1024 : bpow radix2 1024 = 9007199254740992 * bpow radix2 971.
Proof.
  change 1024%Z with (53 + 971)%Z. rewrite bpow_plus. reflexivity.
Qed.
Lemma wx_v : v64 (a1 wx) = XR maxR /\ v64 (a2 wx) = XR (- bpow radix2 969).
Proof. split; [exact bmax_v|]. cbn [a2 wx]. rewrite bdy_v by lia. f_equal. ring. Qed.
Lemma wy_v : v64 (a1 wy) = XR (3 / 2) /\ v64 (a2 wy) = XR (- bpow radix2 (-1074)).
Proof.
  split; cbn [a1 a2 wy]; rewrite bdy_v by lia; apply f_equal; [|ring]. change (bpow radix2 (-1)) with (/ 2). field.
Qed.
Lemma wx_ok : ddok wx.
Proof. apply ddok_check; vm_compute; reflexivity. Qed.
Lemma wy_ok : ddok wy.
Proof. apply ddok_check; vm_compute; reflexivity. Qed.
Lemma v64_SF (z : b64) s m e : B2SF z = SpecFloat.S754_finite s m e -> v64 z = XR (IZR (cond_Zopp s (Zpos m)) * bpow radix2 e).
Proof. destruct z; simpl; try discriminate. intros H. injection H as -> -> ->. reflexivity. Qed.
Lemma w_div k : B2SF (a1 (dd_div (dop k) true wx wy)) = SpecFloat.S754_finite false 6004799503160660 971 /\
  B2SF (a2 (dd_div (dop k) true wx wy)) = SpecFloat.S754_finite false 4503599627370496 918.
Proof. destruct k as [[|]|[|]]; vm_compute; split; reflexivity. Qed.
Theorem C35_div_refuted : exists x y, ddok x /\ ddok y /\ ddval y <> XR 0 /\
  forall k, ~ bounds true (xdiv (ddval x) (ddval y)) (dd_div (dop k) true x y).
Proof.
  pose proof (bpow_gt_0 radix2 969) as P. pose proof (bpow_gt_0 radix2 (-1074)) as Q.
  assert (L : bpow radix2 (-1074) < 1) by (change 1 with (bpow radix2 0); apply bpow_lt; lia).
  assert (VX : ddval wx = XR (maxR + - bpow radix2 969)) by (unfold ddval; destruct wx_v as [-> ->]; reflexivity).
  assert (VY : ddval wy = XR (3 / 2 + - bpow radix2 (-1074))) by (unfold ddval; destruct wy_v as [-> ->]; reflexivity).
  exists wx, wy. split; [exact wx_ok|]. split; [exact wy_ok|]. rewrite VX, VY. split.
  { intros K. injection K. lra. }
  intros k B. destruct B as [_ B]; [discriminate|].
  destruct (w_div k) as [E1 E2]. apply v64_SF in E1, E2. unfold ddval in B. rewrite E1, E2 in B. clear E1 E2. cbn [xadd xdiv xup cond_Zopp] in B.
  assert (E : IZR 4503599627370496 * bpow radix2 918 = 2 * bpow radix2 969).
  { change (IZR 4503599627370496) with (bpow radix2 52). rewrite <- bpow_plus. change (52 + 918)%Z with (1 + 969)%Z. rewrite bpow_plus. reflexivity. }
  rewrite E in B. rewrite wmax, w969 in B. set (u := bpow radix2 969) in * . set (h := bpow radix2 (-1074)) in * .
  apply (Rmult_le_compat_r (3 / 2 + - h)) in B; [|lra].
  unfold Rdiv in B. rewrite Rmult_assoc, Rinv_l, Rmult_1_r in B by lra. nra.
Qed.

(* rdd-avx512.hpp: add_down and sub_down carry the overflow tests of the up versions, and the last
   twosum of add_up is not tested *)
Lemma mx_ok : ddok (mkdd bmax b0).
Proof. apply ddok_check; vm_compute; reflexivity. Qed.
Theorem C35_avx512_add_down_refuted :
  (exists x y, ddok x /\ ddok y /\ ~ bounds false (xadd (ddval x) (ddval y)) (avx512_add false x y)) /\
  (exists x y, ddok x /\ ddok y /\ ddval x = Xm /\ ~ bounds false (xadd (ddval x) (ddval y)) (avx512_add false x y)).
Proof.
  split.
  - exists (mkdd bmax b0), (mkdd bmax b0). split; [exact mx_ok|]. split; [exact mx_ok|]. intros B.
    assert (V : ddval (mkdd bmax b0) = XR (maxR + 0)) by (unfold ddval; cbn [a1 a2]; rewrite bmax_v; reflexivity).
    rewrite V in B. destruct B as [_ B]; [discriminate|].
    assert (E : ddval (avx512_add false (mkdd bmax b0) (mkdd bmax b0)) = Xp) by (vm_compute; reflexivity).
    rewrite E in B. exact B.
  - exists (mkdd bninf b0), (mkdd b1 b0). split; [reflexivity|]. split; [apply ddok_check; vm_compute; reflexivity|].
    split; [reflexivity|]. intros B.
    assert (V : ddval (mkdd b1 b0) = XR (1 + 0)) by (unfold ddval; cbn [a1 a2]; rewrite b1_v; reflexivity).
    rewrite V in B. destruct B as [_ B]; [discriminate|]. cbn [ddval a1 a2 xadd xdown] in B. simpl in B.
    assert (E : is_finite (a1 (avx512_add false (mkdd bninf b0) (mkdd b1 b0))) = true) by (vm_compute; reflexivity).
    apply v64_fin in E. unfold ddval in B. rewrite E in B. destruct (v64 (a2 _)) in B; discriminate.
Qed.
Theorem C35_avx512_sub_down_refuted :
  exists x y, ddok x /\ ddok y /\ ~ bounds false (xsub (ddval x) (ddval y)) (avx512_sub false x y).
Proof.
  exists (mkdd bmax b0), (mkdd (Bopp bmax) b0). split; [exact mx_ok|].
  split; [apply ddok_check; vm_compute; reflexivity|]. intros B.
  assert (V : ddval (mkdd bmax b0) = XR (maxR + 0)) by (unfold ddval; cbn [a1 a2]; rewrite bmax_v; reflexivity).
  assert (W : ddval (mkdd (Bopp bmax) b0) = XR (- maxR + 0)) by (unfold ddval; cbn [a1 a2]; rewrite (vopp _ _ bmax_v); reflexivity).
  rewrite V, W in B. destruct B as [_ B]; [discriminate|].
  assert (E : ddval (avx512_sub false (mkdd bmax b0) (mkdd (Bopp bmax) b0)) = Xp) by (vm_compute; reflexivity).
  rewrite E in B. exact B.
Qed.
Theorem C35_avx512_add_up_refuted :
  exists x y, ddok x /\ ddok y /\ ~ bounds true (xadd (ddval x) (ddval y)) (avx512_add true x y).
Proof.
  exists (mkdd bmax ddmax2), (mkdd (bdy 1 969) b0). split; [apply ddok_check; vm_compute; reflexivity|].
  split; [apply ddok_check; vm_compute; reflexivity|]. intros B.
  assert (V : ddval (mkdd bmax ddmax2) = XR (maxR + mx2)) by (unfold ddval; cbn [a1 a2]; rewrite bmax_v, ddmax2_v; reflexivity).
  assert (W : ddval (mkdd (bdy 1 969) b0) = XR (1 * bpow radix2 969 + 0)) by (unfold ddval; cbn [a1 a2]; rewrite bdy_v by lia; reflexivity).
  rewrite V, W in B. destruct B as [B _]; [discriminate|]. vm_compute in B. exact B.
Qed.

(* non-trivial operands: a 106-bit sum, a product whose first part overflows, 1/3, the largest square *)
Definition ex_x : dd := mkdd (bdy 1 0) (bdy 1 (-80)).
Definition ex_y : dd := mkdd (bdy 3 0) (bdy (-1) (-70)).
Example C35_hyp : ddok ex_x /\ ddok ex_y /\ ddval ex_y <> XR 0 /\ div_scope ex_x ex_y /\
  (a2 (dd_add (ops_hw false) true ex_x ex_y) ==. b0) = false /\
  dd_lt (dd_div (ops_hw false) false ex_x ex_y) (dd_div (ops_hw false) true ex_x ex_y) = true /\
  dd_lt (dd_sqrt (ops_nohw false) false ex_y) (dd_sqrt (ops_nohw false) true ex_y) = true /\
  dd_lt (dd_mul (ops_nohw true) false ex_y ex_y) (dd_mul (ops_nohw true) true ex_y ex_y) = true.
Proof.
  split; [apply ddok_check; vm_compute; reflexivity|]. split; [apply ddok_check; vm_compute; reflexivity|].
  split.
  { unfold ddval, ex_y. cbn [a1 a2]. rewrite !bdy_v by lia. intros K. injection K.
    assert (bpow radix2 (-70) < 1) by (change 1 with (bpow radix2 0); apply bpow_lt; lia). simpl (bpow radix2 0). lra. }
  split.
  { left. unfold ex_x. cbn [a1]. intros r H. rewrite bdy_v in H by lia. injection H as <-.
    rewrite Rmult_1_l, Rabs_pos_eq by lra. apply (bpow_le radix2 0 1022); lia. }
  split; [vm_compute; reflexivity|]. split; [vm_compute; reflexivity|]. split; [vm_compute; reflexivity|]. vm_compute; reflexivity.
Qed.

(* ---- C36: comparisons ---- *)
Theorem C36_compare : forall x y, ddok x -> ddok y ->
  (dd_lt x y = true <-> xlt (ddval x) (ddval y)) /\ (dd_le x y = true <-> xle (ddval x) (ddval y)) /\
  (dd_gt x y = true <-> xlt (ddval y) (ddval x)) /\ (dd_ge x y = true <-> xle (ddval y) (ddval x)) /\
  (dd_eq x y = true <-> xeq (ddval x) (ddval y)) /\ (dd_ne x y = true <-> ~ xeq (ddval x) (ddval y)).
Proof.
  intros x y Hx Hy. pose proof (dd_eq_ok x y Hx Hy) as E.
  split; [apply dd_lt_ok; auto|]. split; [apply dd_le_ok; auto|]. split; [apply dd_gt_ok; auto|].
  split; [apply dd_ge_ok; auto|]. split; [exact E|]. rewrite dd_ne_ok, <- E. destruct (dd_eq x y); simpl; split; congruence.
Qed.
Theorem C36_compare_double : forall x c, ddok x -> v64 c <> Xn ->
  (dd_lt_d x c = true <-> xlt (ddval x) (v64 c)) /\ (d_lt_dd c x = true <-> xlt (v64 c) (ddval x)) /\
  (dd_le_d x c = true <-> xle (ddval x) (v64 c)) /\ (d_le_dd c x = true <-> xle (v64 c) (ddval x)) /\
  (dd_eq_d x c = true <-> xeq (ddval x) (v64 c)) /\ (dd_ne_d x c = true <-> ~ xeq (ddval x) (v64 c)).
Proof.
  intros x c Hx Hc. destruct (dd_of_ok c Hc) as [Oc <-].
  destruct (C36_compare x (dd_of c) Hx Oc) as (H1 & H2 & _ & _ & H5 & H6). destruct (C36_compare (dd_of c) x Oc Hx) as (G1 & G2 & _).
  split; [exact H1|]. split; [exact G1|]. split; [exact H2|]. split; [exact G2|]. split; [exact H5|exact H6].
Qed.
(* outside the normalised values: a NaN compares by its second part *)
Theorem C36_nan_less : dd_lt (mkdd B754_nan b0) (mkdd b1 bdmin) = true /\ ddok (mkdd b1 bdmin).
Proof. split; [vm_compute; reflexivity|apply ddok_check; vm_compute; reflexivity]. Qed.
Example C36_hyp : let x := mkdd (bdy 1 0) (bdy 1 (-60)) in let y := mkdd (bdy 1 0) (bdy 1 (-61)) in
  ddok x /\ ddok y /\ dd_lt y x = true /\ dd_le x y = false /\ dd_ne x y = true.
Proof. cbv zeta. do 2 (split; [apply ddok_check; vm_compute; reflexivity|]). vm_compute. auto. Qed.

(* ---- C37: conversions of intervals ---- *)
Theorem C37_dd_to_double : forall k l u r, ddok l -> ddok u -> lb (ddval l) r -> ub (ddval u) r ->
  lb (v64 (fst (iddtoidouble (dop k) l u))) r /\ ub (v64 (snd (iddtoidouble (dop k) l u))) r.
Proof.
  intros k l u r Hl Hu L U. cbn [iddtoidouble fst snd]. rewrite !ddtodouble_ok by (auto using dop_ok). split.
  - destruct (ddval l) as [a| | |]; simpl in *; try tauto. eapply lb_le; [apply (rx_bnd false)|auto].
  - destruct (ddval u) as [a| | |]; simpl in *; try tauto. eapply ub_le; [apply (rx_bnd true)|auto].
Qed.
(* and it is the smallest such interval of doubles: each end is the correctly rounded one *)
Theorem C37_dd_to_double_rounded : forall k l u, ddok l -> ddok u ->
  v64 (fst (iddtoidouble (dop k) l u)) = xr mode_DN (ddval l) /\ v64 (snd (iddtoidouble (dop k) l u)) = xr mode_UP (ddval u).
Proof. intros k l u Hl Hu. split; cbn [iddtoidouble fst snd]; rewrite ddtodouble_ok; auto using dop_ok. Qed.
Theorem C37_double_to_dd : forall l u, v64 l <> Xn -> v64 u <> Xn ->
  ddok (fst (idoubletoidd l u)) /\ ddok (snd (idoubletoidd l u)) /\
  ddval (fst (idoubletoidd l u)) = v64 l /\ ddval (snd (idoubletoidd l u)) = v64 u.
Proof. intros l u Hl Hu. destruct (dd_of_ok l Hl), (dd_of_ok u Hu). cbn [idoubletoidd fst snd]. auto. Qed.
Example C37_hyp : ddok ex_x /\ (fst (iddtoidouble (ops_hw false) ex_x ex_x) <. snd (iddtoidouble (ops_hw false) ex_x ex_x)) = true.
Proof. split; [apply ddok_check; vm_compute; reflexivity|vm_compute; reflexivity]. Qed.

Definition dd_all := (C35_add, C35_sub, C35_mul, C35_sqrt, C35_div_partial, C35_div_refuted, C35_avx512_add_down_refuted,
  C35_avx512_sub_down_refuted, C35_avx512_add_up_refuted, C36_compare, C36_compare_double, C36_nan_less,
  C37_dd_to_double, C37_dd_to_double_rounded, C37_double_to_dd).
Print Assumptions dd_all.
