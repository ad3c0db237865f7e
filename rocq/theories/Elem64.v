(* The scalar laws behind the elementary functions hold for double, with any of the back ends. *)
From Coq Require Import Reals Lra Lia Psatz ZArith Bool List SpecFloat.
From Flocq Require Import Core BinarySingleNaN Mult_error Sterbenz Relative.
From Verif Require Import Ext Scalar IntervalModel IntervalSpec IntervalProofs IntervalEncl IntervalSets IntervalDivPow IntervalMore Fp64 RDoubleHw IntervalMid ElemModel RealFun RealConst RealInv ElemGen ElemExp ElemLog ElemTrig.
Open Scope R_scope.

Notation F := (generic_format radix2 FX).
(* m * 2^e with |m| <= 2^53, e >= -1074 is a double *)
Lemma F_dy m e : (Z.abs m <= 2 ^ 53)%Z -> (-1074 <= e)%Z -> F (IZR m * bpow radix2 e).
Proof.
  intros Hm He. destruct (Z.eq_dec (Z.abs m) (2 ^ 53)) as [E|E].
  - replace (IZR m * bpow radix2 e) with (IZR (m / 2 ^ 52) * bpow radix2 (e + 52)).
    + apply generic_format_FLT. exists (Float radix2 (m / 2 ^ 52) (e + 52)); simpl; auto; try lia.
      destruct (Z.abs_eq_or_opp m) as [A|A]; rewrite A in E.
      * rewrite E. compute. auto. * replace m with (- 2 ^ 53)%Z by lia. compute. auto.
    + rewrite bpow_plus. destruct (Z.abs_eq_or_opp m) as [A|A]; rewrite A in E.
      * rewrite E. change (2 ^ 53 / 2 ^ 52)%Z with 2%Z. change (bpow radix2 52) with (IZR (2 ^ 52)). replace (2 ^ 53)%Z with (2 * 2 ^ 52)%Z by reflexivity. rewrite mult_IZR. ring.
      * replace m with (- 2 ^ 53)%Z by lia. change (- 2 ^ 53 / 2 ^ 52)%Z with (-2)%Z. change (bpow radix2 52) with (IZR (2 ^ 52)). replace (- 2 ^ 53)%Z with ((-2) * 2 ^ 52)%Z by reflexivity. rewrite mult_IZR. ring.
  - apply generic_format_FLT. exists (Float radix2 m e); simpl; auto. change (Z.pow_pos 2 53) with (2 ^ 53)%Z. lia.
Qed.
Lemma F_int n : (Z.abs n <= 2 ^ 53)%Z -> F (IZR n).
Proof. intros. replace (IZR n) with (IZR n * bpow radix2 0) by (simpl; ring). apply F_dy; auto; lia. Qed.
Lemma F_decomp v : F v -> exists m e, v = IZR m * bpow radix2 e /\ (Z.abs m < 2 ^ 53)%Z /\ (-1074 <= e)%Z.
Proof.
  intros H. apply FLT_format_generic in H; [|reflexivity]. destruct H as [[m e] H1 H2 H3]. simpl in *. exists m, e. auto.
Qed.
(* |v| >= 2^k: v is a multiple of 2^(k-52) *)
Lemma F_grid v k : F v -> bpow radix2 k <= Rabs v -> exists m, v = IZR m * bpow radix2 (k - 52).
Proof.
  intros H L. assert (NZ : v <> 0) by (intros ->; rewrite Rabs_R0 in L; pose proof (bpow_gt_0 radix2 k); lra).
  assert (C : (k - 52 <= cexp radix2 FX v)%Z).
  { unfold cexp, FX, FLT_exp. pose proof (mag_ge_bpow radix2 v (k + 1)) as M.
    replace (k + 1 - 1)%Z with k in M by ring. specialize (M L). lia. }
  unfold generic_format in H. exists (Ztrunc (scaled_mantissa radix2 FX v) * 2 ^ (cexp radix2 FX v - (k - 52)))%Z.
  rewrite mult_IZR. change 2%Z with (radix_val radix2). rewrite IZR_Zpower by lia. rewrite Rmult_assoc, <- bpow_plus.
  replace (cexp radix2 FX v - (k - 52) + (k - 52))%Z with (cexp radix2 FX v) by ring. exact H.
Qed.
Lemma F_big_int v : F v -> bpow radix2 52 <= Rabs v -> exists n, v = IZR n.
Proof. intros H L. destruct (F_grid v 52 H L) as (m & E). exists m. rewrite E. simpl. ring. Qed.
(* subtracting an integer close by is exact *)
Lemma F_sub_int v k : F v -> Rabs (v - IZR k) <= 1 -> Rabs (v - IZR k) <= Rabs v -> F (v - IZR k).
Proof.
  intros H L1 L2. destruct (F_decomp v H) as (m & e & E & Hm & He).
  destruct (Z_le_gt_dec 0 e) as [P|P].
  - assert (v - IZR k = IZR (m * 2 ^ e - k)) as EE.
    { rewrite minus_IZR, mult_IZR. change 2%Z with (radix_val radix2). rewrite IZR_Zpower by auto. rewrite E. auto. }
    rewrite EE in *. apply F_int. rewrite <- abs_IZR in L1. apply le_IZR in L1. lia.
  - assert (v - IZR k = IZR (m - k * 2 ^ (- e)) * bpow radix2 e) as EE.
    { rewrite minus_IZR, mult_IZR. change 2%Z with (radix_val radix2). rewrite IZR_Zpower by lia.
      rewrite E, Rmult_minus_distr_r, Rmult_assoc, <- bpow_plus. replace (- e + e)%Z with 0%Z by ring. simpl. ring. }
    rewrite EE in *. apply F_dy; auto. rewrite E in L2. rewrite !Rabs_mult in L2.
    apply Rmult_le_reg_r in L2; [|apply Rabs_pos_lt, Rgt_not_eq, bpow_gt_0]. rewrite <- !abs_IZR in L2. apply le_IZR in L2. lia.
Qed.
Lemma rx_exact m e : F e -> Rabs e <= maxR -> rx m e = XR e.
Proof.
  intros H L. unfold rx, rnd. rewrite round_generic by auto with typeclass_instances.
  rewrite Rlt_bool_true; auto. pose proof max_lt. lra.
Qed.
Lemma big_max : bpow radix2 1023 <= maxR.
Proof.
  unfold maxR. change 1024%Z with (1023 + 1)%Z. rewrite bpow_plus. change (bpow radix2 1) with 2.
  assert (bpow radix2 971 <= bpow radix2 1023) by (apply bpow_le; lia). lra.
Qed.
Lemma small_max e r : (e <= 1023)%Z -> Rabs r <= bpow radix2 e -> Rabs r <= maxR.
Proof. intros H L. pose proof big_max. assert (bpow radix2 e <= bpow radix2 1023) by (apply bpow_le; lia). lra. Qed.
Lemma small16 r : Rabs r <= 16 -> Rabs r <= maxR.
Proof. intros. apply (small_max 4); [lia|]. simpl. lra. Qed.
(* the rounded value of a small number, in any mode *)
Lemma rx_small m e : Rabs e <= 16 -> rx m e = XR (rnd m e).
Proof.
  intros H. assert (Rabs (rnd m e) <= 16).
  { apply rnd_fmt_abs; auto. change 16 with (IZR 16). apply F_int. lia. }
  unfold rx. rewrite Rlt_bool_true; auto. pose proof (small16 _ H0). pose proof max_lt. lra.
Qed.
Lemma rnd_range m e a b : F a -> F b -> a <= e <= b -> a <= rnd m e <= b.
Proof. intros Fa Fb [L U]. unfold rnd. split; [apply round_ge_generic|apply round_le_generic]; auto with typeclass_instances. Qed.
Lemma rnd_id m a : F a -> rnd m a = a.
Proof. intros H. unfold rnd. apply round_generic; auto with typeclass_instances. Qed.
Lemma v64_F (x : b64) v : v64 x = XR v -> F v /\ Rabs v <= maxR.
Proof. intros E. apply v64_XR in E as [_ <-]. split; [apply fmt_B2R|apply B2R_le_max]. Qed.
Lemma rnd_rel m e : bpow radix2 (-1022) <= Rabs e -> Rabs (rnd m e - e) <= bpow radix2 (-52) * Rabs e.
Proof.
  intros H. left. unfold rnd, FX. apply (relative_error_FLT radix2 (-1074) 53 eq_refl (round_mode m) e H).
Qed.
(* value of a concrete double *)
Definition sf2x (x : spec_float) : ext :=
  match x with S754_zero _ => XR 0 | S754_infinity s => if s then Xm else Xp | S754_nan => Xn
  | S754_finite s m e => XR (F2R (Float radix2 (cond_Zopp s (Zpos m)) e)) end.
Lemma v64_sf (x : b64) : v64 x = sf2x (B2SF x).
Proof. destruct x as [|[]| |]; reflexivity. Qed.
Lemma v64_lit (x : b64) s m e : B2SF x = S754_finite s m e -> v64 x = XR (IZR (cond_Zopp s (Zpos m)) * bpow radix2 e).
Proof. intros H. rewrite v64_sf, H. reflexivity. Qed.

(* parameters of the elementary functions for double: kv/rdouble.hpp 20-42 (the decimal strings
   converted downward / upward), std::frexp, std::sqrt *)
Definition frexp64 (x : b64) : Z :=
  match x with B754_finite _ m e _ => (Zpos (digits2_pos m) + e)%Z | _ => 0%Z end.
Section P64.
Variables au ad su sd mu md du dd : b64 -> b64 -> b64. Variables qu qd : b64 -> b64.
Definition P64 : elemp (mk64 au ad su sd mu md du dd qu qd) :=
  mkelemp (mk64 au ad su sd mu md du dd qu qd)
    (mkiv (S := mk64 au ad su sd mu md du dd qu qd) (bdy 6121026514868073 (-51)) (bdy 6121026514868074 (-51)))
    (mkiv (S := mk64 au ad su sd mu md du dd qu qd) (bdy 7074237752028440 (-51)) (bdy 7074237752028441 (-51)))
    (mkiv (S := mk64 au ad su sd mu md du dd qu qd) (bdy 6243314768165359 (-53)) (bdy 6243314768165360 (-53)))
    frexp64 (Bsqrt mode_NE).
End P64.

Section Laws.
Variables au ad su sd mu md du dd : b64 -> b64 -> b64. Variables qu qd : b64 -> b64.
Hypothesis ID : ideal64 au ad su sd mu md du dd qu qd.
Let S := mk64 au ad su sd mu md du dd qu qd.
Let P := P64 au ad su sd mu md du dd qu qd.
Let OK : scal_ok S := mk64_ok _ _ _ _ _ _ _ _ _ _ ID.

Lemma plus_exact (x y : b64) a b : v64 x = XR a -> v64 y = XR b -> F (a + b) -> Rabs (a + b) <= maxR -> v64 (Bplus mode_NE x y) = XR (a + b).
Proof. intros E1 E2 H1 H2. rewrite Bplus_v, E1, E2. simpl xadd. cbn [xr]. apply rx_exact; auto. Qed.
Lemma minus_exact (x y : b64) a b : v64 x = XR a -> v64 y = XR b -> F (a - b) -> Rabs (a - b) <= maxR -> v64 (Bminus mode_NE x y) = XR (a - b).
Proof. intros E1 E2 H1 H2. rewrite Bminus_v, E1, E2. unfold xsub. simpl xneg. simpl xadd. cbn [xr]. apply rx_exact; auto. Qed.
Lemma mult_exact (x y : b64) a b : v64 x = XR a -> v64 y = XR b -> F (a * b) -> Rabs (a * b) <= maxR -> v64 (Bmult mode_NE x y) = XR (a * b).
Proof. intros E1 E2 H1 H2. rewrite Bmult_v, E1, E2. simpl xmul. cbn [xr]. apply rx_exact; auto. Qed.

Definition bsplit (x : b64) : b64 * b64 :=
  if Bleb b0 x then
    let x_i := Bnearbyint mode_DN x in
    let x_f := Bminus mode_NE x x_i in
    if Bleb (bdy 1 (-1)) x_f then (Bplus mode_NE x_i b1, Bminus mode_NE x_f b1) else (x_i, x_f)
  else
    let x_i := Bopp (Bnearbyint mode_DN (Bopp x)) in
    let x_f := Bminus mode_NE x x_i in
    if Bleb x_f (Bopp (bdy 1 (-1))) then (Bminus mode_NE x_i b1, Bplus mode_NE x_f b1) else (x_i, x_f).
Lemma split_eq (x : S) : exp_split S x = bsplit x. Proof. reflexivity. Qed.
Lemma F_frac w : F w -> 0 <= w -> F (w - IZR (Zfloor w)) /\ 0 <= w - IZR (Zfloor w) < 1 /\ 0 <= IZR (Zfloor w) <= w.
Proof.
  intros H P0. pose proof (Zfloor_lb w). pose proof (Zfloor_ub w).
  assert (0 <= IZR (Zfloor w)). { apply IZR_le. apply Zfloor_lub. auto. }
  split; [|lra]. apply F_sub_int; auto; rewrite ?Rabs_pos_eq; lra.
Qed.
Lemma F_frac_big w : F w -> 0 <= w -> / 2 <= w - IZR (Zfloor w) -> w < bpow radix2 52.
Proof.
  intros H P0 L. destruct (Rlt_or_le w (bpow radix2 52)) as [|G]; auto. exfalso.
  destruct (F_big_int w H) as (n & ->); [rewrite Rabs_pos_eq; auto|]. rewrite Zfloor_IZR in L. lra.
Qed.
Lemma F_floor w : F w -> 0 <= w -> F (IZR (Zfloor w)).
Proof.
  intros H P0. destruct (Rlt_or_le w (bpow radix2 52)) as [L|G].
  - apply F_int. pose proof (Zfloor_lb w). assert (0 <= Zfloor w)%Z by (apply Zfloor_lub; auto).
    assert (IZR (Zfloor w) <= IZR (2 ^ 52)). { change (IZR (2 ^ 52)) with (bpow radix2 52). lra. } apply le_IZR in H2. lia.
  - destruct (F_big_int w H) as (n & ->); [rewrite Rabs_pos_eq; auto|]. rewrite Zfloor_IZR. auto.
Qed.
Lemma half64 : v64 (bdy 1 (-1)) = XR (/ 2). Proof. apply half_v. Qed.
Lemma L_split (x : S) v : swf x -> sval x = XR v -> exists k f,
    swf (fst (exp_split S x)) /\ swf (snd (exp_split S x)) /\
    sval (fst (exp_split S x)) = XR (IZR k) /\ sval (snd (exp_split S x)) = XR f /\ v = IZR k + f /\ Rabs f <= / 2.
Proof.
  intros _ E. rewrite split_eq. change (v64 x = XR v) in E. destruct (v64_F _ _ E) as [FV MV].
  unfold bsplit. destruct (Bleb b0 x) eqn:C.
  - apply Bleb_v in C. rewrite E in C. simpl in C.
    destruct (F_frac v FV C) as (F1 & F2 & F3). set (k := Zfloor v) in *.
    assert (E1 : v64 (Bnearbyint mode_DN x) = XR (IZR k)) by (rewrite nearby_v, E; reflexivity).
    assert (E2 : v64 (Bminus mode_NE x (Bnearbyint mode_DN x)) = XR (v - IZR k)) by (apply minus_exact; auto; apply small16; rewrite Rabs_pos_eq; lra).
    cbv zeta. destruct (Bleb (bdy 1 (-1)) _) eqn:C2.
    + apply Bleb_v in C2. rewrite half64, E2 in C2. simpl in C2.
      pose proof (F_frac_big v FV C C2) as B52.
      exists (k + 1)%Z, (v - IZR k - 1). simpl fst; simpl snd. split; [exact I|]. split; [exact I|].
      assert (KB : (Z.abs (k + 1) <= 2 ^ 53)%Z).
      { assert (IZR k <= IZR (2 ^ 52)) by (change (IZR (2 ^ 52)) with (bpow radix2 52); lra). apply le_IZR in H. destruct F3 as [F3 _]. apply le_IZR in F3. lia. }
      split.
      { change (v64 (Bplus mode_NE (Bnearbyint mode_DN x) b1) = XR (IZR (k + 1))). rewrite plus_IZR. apply plus_exact; auto using b1_v.
        - rewrite <- plus_IZR. apply F_int; auto.
        - rewrite <- plus_IZR. apply (small_max 53); [lia|]. rewrite <- abs_IZR. change (bpow radix2 53) with (IZR (2 ^ 53)). apply IZR_le. auto. }
      split.
      { apply (minus_exact _ _ (v - IZR k) 1); auto using b1_v. 2: apply small16; apply Rabs_le; lra.
        change 1 with (IZR 1). apply F_sub_int; auto; rewrite ?(Rabs_pos_eq (v - IZR k)) by lra; apply Rabs_le; lra. }
      rewrite plus_IZR. split; [ring|apply Rabs_le; lra].
    + exists k, (v - IZR k). simpl fst; simpl snd. split; [exact I|]. split; [exact I|]. split; [exact E1|]. split; [exact E2|]. split; [ring|].
      assert (~ / 2 <= v - IZR k). { intros L. assert (Bleb (bdy 1 (-1)) (Bminus mode_NE x (Bnearbyint mode_DN x)) = true); [|congruence]. apply Bleb_v. rewrite half64, E2. exact L. }
      rewrite Rabs_pos_eq; lra.
  - assert (NC : ~ 0 <= v). { intros L. assert (Bleb b0 x = true); [|congruence]. apply Bleb_v. rewrite E. exact L. }
    set (w := - v). assert (FW : F w) by (apply generic_format_opp; auto). assert (W0 : 0 <= w) by (unfold w; lra).
    destruct (F_frac w FW W0) as (F1 & F2 & F3). set (k := Zfloor w) in *.
    assert (E1 : v64 (Bopp (Bnearbyint mode_DN (Bopp x))) = XR (- IZR k)).
    { rewrite Bopp_v, nearby_v, Bopp_v, E. reflexivity. }
    assert (E2 : v64 (Bminus mode_NE x (Bopp (Bnearbyint mode_DN (Bopp x)))) = XR (v - - IZR k)).
    { apply minus_exact; auto. replace (v - - IZR k) with (- (w - IZR k)) by (unfold w; ring). apply generic_format_opp; auto.
      apply small16; apply Rabs_le; unfold w in *; lra. }
    cbv zeta. destruct (Bleb _ (Bopp (bdy 1 (-1)))) eqn:C2.
    + apply Bleb_v in C2. rewrite Bopp_v, half64, E2 in C2. simpl in C2.
      pose proof (F_frac_big w FW W0 ltac:(unfold w in *; fold k; lra)) as B52.
      exists (- k - 1)%Z, (v - - IZR k + 1). simpl fst; simpl snd. split; [exact I|]. split; [exact I|].
      assert (KB : (Z.abs (- k - 1) <= 2 ^ 53)%Z).
      { assert (IZR k <= IZR (2 ^ 52)) by (change (IZR (2 ^ 52)) with (bpow radix2 52); lra). apply le_IZR in H. destruct F3 as [F3 _]. apply le_IZR in F3. lia. }
      split.
      { change (v64 (Bminus mode_NE (Bopp (Bnearbyint mode_DN (Bopp x))) b1) = XR (IZR (- k - 1))).
        assert (Q : IZR (- k - 1) = - IZR k - 1) by (rewrite minus_IZR, opp_IZR; auto). rewrite Q. apply minus_exact; auto using b1_v.
        - rewrite <- Q. apply F_int; auto.
        - rewrite <- Q. apply (small_max 53); [lia|]. rewrite <- abs_IZR. change (bpow radix2 53) with (IZR (2 ^ 53)). apply IZR_le. auto. }
      split.
      { apply (plus_exact _ _ (v - - IZR k) 1); auto using b1_v. 2: apply small16; apply Rabs_le; unfold w in *; lra.
        replace (v - - IZR k + 1) with (- ((w - IZR k) - IZR 1)) by (unfold w; ring). apply generic_format_opp.
        apply F_sub_int; auto; rewrite ?(Rabs_pos_eq (w - IZR k)) by lra; apply Rabs_le; unfold w in *; lra. }
      rewrite minus_IZR, opp_IZR. split; [ring|apply Rabs_le; unfold w in *; lra].
    + exists (- k)%Z, (v - - IZR k). simpl fst; simpl snd. split; [exact I|]. split; [exact I|]. rewrite opp_IZR. split; [exact E1|]. split; [exact E2|]. split; [ring|].
      assert (~ v - - IZR k <= - / 2). { intros L. assert (Bleb (Bminus mode_NE x (Bopp (Bnearbyint mode_DN (Bopp x)))) (Bopp (bdy 1 (-1))) = true); [|congruence]. apply Bleb_v. rewrite Bopp_v, half64, E2. exact L. }
      apply Rabs_le. unfold w in *. lra.
Qed.

Lemma two_v : v64 (bdy 2 0) = XR 2. Proof. rewrite bdy_v by lia. f_equal. simpl. ring. Qed.
Lemma mtwo_v : v64 (bdy (-2) 0) = XR (-2). Proof. rewrite bdy_v by lia. f_equal. simpl. ring. Qed.
Lemma maxv_64 : maxv S = maxR.
Proof. unfold maxv. change (@sval S smax) with (v64 bmax). rewrite bmax_v. auto. Qed.
Lemma rep_rx r : rep S (rx mode_NE r) r \/ F r /\ rx mode_NE r <> XR r \/ ~ F r.
Proof.
  destruct (generic_format_EM radix2 FX r) as [H|H]; auto.
  unfold rx. rewrite (rnd_id mode_NE r) by auto. unfold rep. rewrite maxv_64.
  destruct (Rlt_bool_spec (Rabs r) (bpow radix2 1024)) as [L|G]; [auto|]. left.
  simpl. pose proof max_lt. destruct (Rlt_bool_spec r 0).
  - rewrite Rabs_left in G by auto. lra. - rewrite Rabs_pos_eq in G by auto. lra.
Qed.
Lemma rep_rx_F r : F r -> rep S (rx mode_NE r) r.
Proof.
  intros H. unfold rx. rewrite (rnd_id mode_NE r) by auto. unfold rep. rewrite maxv_64.
  destruct (Rlt_bool_spec (Rabs r) (bpow radix2 1024)) as [L|G]; [auto|].
  simpl. pose proof max_lt. destruct (Rlt_bool_spec r 0).
  - rewrite Rabs_left in G by auto. lra. - rewrite Rabs_pos_eq in G by auto. lra.
Qed.
Lemma xsgn_pos p r : 0 < r -> xsgn_inf r p = if p then Xp else Xm.
Proof. intros. unfold xsgn_inf. rewrite Rcompare_Gt by auto. auto. Qed.
Lemma xsgn_neg p r : r < 0 -> xsgn_inf r p = if p then Xm else Xp.
Proof. intros. unfold xsgn_inf. rewrite Rcompare_Lt by auto. auto. Qed.

Lemma exp_laws64 : exp_laws S P.
Proof.
  constructor.
  - apply isin_ends; try exact I; change (v64 (bdy 6121026514868073 (-51))) with (v64 (bdy 6121026514868073 (-51)));
      pose proof e_bounds as B; unfold e_lo, e_hi in B.
    + change (lb (v64 (bdy 6121026514868073 (-51))) (exp 1)). rewrite bdy_v by lia. simpl. lra.
    + change (ub (v64 (bdy 6121026514868074 (-51))) (exp 1)). rewrite bdy_v by lia. simpl. lra.
  - exact L_split.
  - intros x n _ E. split; [exact I|]. change (v64 x = XR (IZR n)) in E. change (v64 (Bmult mode_NE x (bdy 1 (-1))) = XR (IZR n / 2)).
    destruct (v64_F _ _ E) as [H1 H2]. apply mult_exact; auto using half64.
    + destruct (Rlt_or_le 1 (Rabs (IZR n))) as [L|L]. { apply half_exact; auto. }
      rewrite <- abs_IZR in L. apply le_IZR in L. change (/ 2) with (bpow radix2 (-1)). apply F_dy; lia.
    + rewrite Rabs_mult, (Rabs_pos_eq (/ 2)) by lra. pose proof (Rabs_pos (IZR n)). lra.
  - intros x v _ E. split; [exact I|]. change (v64 x = XR v) in E. change (v64 (Bnearbyint mode_DN x) = XR (IZR (Zfloor v))).
    rewrite nearby_v, E. auto.
  - intros x w _ R. split; [exact I|]. change (rep S (v64 x) w) in R. change (rep S (v64 (Bmult mode_NE (bdy 2 0) x)) (2 * w)).
    rewrite Bmult_v, two_v. destruct (v64 x) as [v| | |] eqn:E; simpl in R; try tauto.
    + subst w. cbn [xmul xr]. apply rep_rx_F. apply F_twice. apply (v64_F _ _ E).
    + cbn [xmul]. rewrite xsgn_pos by lra. simpl. rewrite maxv_64 in *. pose proof maxR_pos. lra.
    + cbn [xmul]. rewrite xsgn_pos by lra. simpl. rewrite maxv_64 in *. pose proof maxR_pos. lra.
  - intros x w _ R. split; [exact I|]. change (rep S (v64 x) w) in R. change (rep S (v64 (Bmult mode_NE (bdy (-2) 0) x)) (-2 * w)).
    rewrite Bmult_v, mtwo_v. destruct (v64 x) as [v| | |] eqn:E; simpl in R; try tauto.
    + subst w. cbn [xmul xr]. apply rep_rx_F. replace (-2 * v) with (- (2 * v)) by ring. apply generic_format_opp, F_twice. apply (v64_F _ _ E).
    + cbn [xmul]. rewrite xsgn_neg by lra. simpl. rewrite maxv_64 in *. pose proof maxR_pos. lra.
    + cbn [xmul]. rewrite xsgn_neg by lra. simpl. rewrite maxv_64 in *. pose proof maxR_pos. lra.
  - intros d E. change (v64 bdmin = XR d) in E. rewrite bdmin_v in E. assert (d = bpow radix2 (-1074)) as -> by congruence. rewrite maxv_64.
    rewrite bpow_exp. apply exp_mono. assert (1074 <= maxR).
    { pose proof big_max. assert (bpow radix2 11 <= bpow radix2 1023) by (apply bpow_le; lia). simpl (bpow radix2 11) in *. lra. }
    assert (ln (IZR (radix_val radix2)) <= 1). { rewrite <- (ln_exp 1). apply ln_mono; [simpl; lra|]. pose proof (exp_ineq1 1). simpl. lra. }
    assert (0 < ln (IZR (radix_val radix2))) by (simpl; rewrite <- ln_1; apply ln_increasing; lra).
    simpl in *. nra.
Qed.

(* log *)
Ltac lit t H := let r := eval vm_compute in (B2SF t) in
  match r with S754_finite ?s ?m ?e =>
    assert (H : v64 t = XR (IZR (cond_Zopp s (Zpos m)) * bpow radix2 e)) by (apply v64_lit; vm_compute; reflexivity)
  end; simpl cond_Zopp in H.
Definition bs2 : b64 := Bsqrt mode_NE (bdy 2 0).
Definition bth1 := Bminus mode_NE (Bmult mode_NE (bdy 4 0) bs2) (bdy 4 0).
Definition bth2 := Bminus mode_NE (bdy 4 0) (Bmult mode_NE (bdy 2 0) bs2).
Definition bth3 := Bminus mode_NE (bdy 2 0) bs2.
Definition bth4 := Bminus mode_NE (Bmult mode_NE (bdy 2 0) bs2) (bdy 2 0).
Definition bth5 := Bminus mode_NE (bdy 3 0) (Bmult mode_NE (bdy 2 0) bs2).
Definition bsq2p1 := Bplus mode_NE bs2 b1.
Definition bsq2m1 := Bminus mode_NE bs2 b1.
Definition bsq6d3 := Bdiv mode_NE (Bsqrt mode_NE (bdy 6 0)) (bdy 3 0).

Lemma F_1 : F 1. Proof. change 1 with (IZR 1). apply F_int. lia. Qed.
Lemma sub_exact1 (x y : b64) a b : v64 x = XR a -> v64 y = XR b -> b / 2 <= a <= 2 * b -> Rabs (a - b) <= 16 -> v64 (Bminus mode_NE x y) = XR (a - b).
Proof.
  intros E1 E2 H H'. apply minus_exact; auto using small16.
  apply sterbenz; auto with typeclass_instances; [apply (v64_F _ _ E1)|apply (v64_F _ _ E2)].
Qed.
Lemma L_1mx (x : S) v : swf x -> sval x = XR v -> / 2 <= v <= 1 -> swf (nsub s1 x) /\ sval (nsub s1 x) = XR (1 - v).
Proof. intros _ E H. split; [exact I|]. apply (sub_exact1 b1 x); auto using b1_v. lra. apply Rabs_le; lra. Qed.
Lemma L_1px (x : S) v : swf x -> sval x = XR v -> - 1 <= v <= - / 2 -> swf (nadd s1 x) /\ sval (nadd s1 x) = XR (1 + v).
Proof.
  intros _ E H. split; [exact I|]. change (v64 x = XR v) in E. apply (plus_exact b1 x); auto using b1_v. 2: apply small16, Rabs_le; lra.
  replace (1 + v) with (1 - - v) by ring. apply sterbenz; auto with typeclass_instances. apply F_1. apply generic_format_opp. apply (v64_F _ _ E). lra.
Qed.
Lemma sq2_bounds : 181 / 128 <= sqrt 2 <= 1449 / 1024.
Proof.
  split.
  - rewrite <- (sqrt_Rsqr (181 / 128)) by lra. apply sqrt_le_1; unfold Rsqr; lra.
  - rewrite <- (sqrt_Rsqr (1449 / 1024)) by lra. apply sqrt_le_1; unfold Rsqr; lra.
Qed.
Lemma F_181 : F (181 / 128). Proof. replace (181 / 128) with (IZR 181 * bpow radix2 (-7)) by (simpl; lra). apply F_dy; lia. Qed.
Lemma F_1449 : F (1449 / 1024). Proof. replace (1449 / 1024) with (IZR 1449 * bpow radix2 (-10)) by (simpl; lra). apply F_dy; lia. Qed.
Lemma rx_sq2 m : exists t, rx m (sqrt 2) = XR t /\ 181 / 128 <= t <= 1449 / 1024.
Proof.
  pose proof sq2_bounds. exists (rnd m (sqrt 2)). split.
  - apply rx_small. rewrite Rabs_pos_eq; lra.
  - apply rnd_range; auto using F_181, F_1449.
Qed.
Lemma sqrt2_iv (s : iv S) : isqrt (ipt (sint S 2)) = Ok s -> exists a b, v64 (lo s) = XR a /\ v64 (hi s) = XR b /\
  181 / 128 <= a <= 1449 / 1024 /\ 181 / 128 <= b <= 1449 / 1024.
Proof.
  intros H. unfold isqrt in H. destruct (slt _ _); [discriminate|]. injection H as <-. cbn [lo hi].
  change (exists a b, v64 (qd (bdy 2 0)) = XR a /\ v64 (qu (bdy 2 0)) = XR b /\ 181 / 128 <= a <= 1449 / 1024 /\ 181 / 128 <= b <= 1449 / 1024).
  rewrite (id_qd _ _ _ _ _ _ _ _ _ _ ID), (id_qu _ _ _ _ _ _ _ _ _ _ ID), two_v. unfold xsqrt.
  rewrite Rlt_bool_false by lra. cbn [xr].
  destruct (rx_sq2 mode_DN) as (a & E1 & H1). destruct (rx_sq2 mode_UP) as (b & E2 & H2). exists a, b. auto.
Qed.
Lemma rnd_near m e : / 4 <= e <= 16 -> exists t, rx m e = XR t /\ e - e * / 1000 <= t <= e + e * / 1000 /\ / 4 <= t.
Proof.
  intros H. exists (rnd m e). split; [apply rx_small; rewrite Rabs_pos_eq; lra|].
  assert (Rabs (rnd m e - e) <= bpow radix2 (-52) * Rabs e) as K.
  { apply rnd_rel. rewrite Rabs_pos_eq by lra. apply Rle_trans with (bpow radix2 (-2)); [apply bpow_le; lia|simpl; lra]. }
  rewrite (Rabs_pos_eq e) in K by lra. apply Rabs_bnd in K.
  assert (bpow radix2 (-52) <= / 1000). { apply Rle_trans with (bpow radix2 (-10)); [apply bpow_le; lia|simpl; lra]. }
  split; [nra|]. apply (rnd_range m e (/ 4) 16); auto. change (/ 4) with (bpow radix2 (-2)). rewrite <- (Rmult_1_l (bpow _ _)). apply F_dy; lia.
  change 16 with (IZR 16). apply F_int; lia.
Qed.
Lemma L_l2 up (s : iv S) (x : S) a t : isqrt (ipt (sint S 2)) = Ok s -> swf x -> sval x = XR a -> 1 <= a <= 2 ->
    iSdiv x s = Ok t -> exists b, sval (pick S up t) = XR b /\ 0 < b <= 4 / 5 * a.
Proof.
  intros HS _ E HA H. destruct (sqrt2_iv s HS) as (c & d & E1 & E2 & B1 & B2). change (v64 x = XR a) in E.
  unfold iSdiv in H. destruct (slt _ _ || slt _ _); [|discriminate].
  assert (sle (@s0 S) x = true) as LE. { apply Bleb_v. rewrite E. simpl. lra. }
  rewrite LE in H. assert (t = mkiv (divd x (hi s)) (divu x (lo s))) as -> by congruence.
  assert (G : forall m y, 181 / 128 <= y <= 1449 / 1024 -> exists b, rx m (a / y) = XR b /\ 0 < b <= 4 / 5 * a).
  { intros m y HY. assert (IY : 1024 / 1449 <= / y <= 128 / 181).
    { split; [replace (1024 / 1449) with (/ (1449 / 1024)) by field; apply Rinv_le; lra|replace (128 / 181) with (/ (181 / 128)) by field; apply Rinv_le; lra]. }
    destruct (rnd_near m (a / y)) as (b & E3 & B3 & B4). unfold Rdiv. nra. exists b. split; auto. split; [lra|]. unfold Rdiv in B3. nra. }
  destruct up; cbn [pick lo hi].
  - change (exists b, v64 (du x (lo s)) = XR b /\ 0 < b <= 4 / 5 * a). rewrite (id_du _ _ _ _ _ _ _ _ _ _ ID), E, E1 by (rewrite E1; injection; lra).
    unfold xdiv. cbn [xr]. apply G; auto.
  - change (exists b, v64 (dd x (hi s)) = XR b /\ 0 < b <= 4 / 5 * a). rewrite (id_dd _ _ _ _ _ _ _ _ _ _ ID), E, E2 by (rewrite E2; injection; lra).
    unfold xdiv. cbn [xr]. apply G; auto.
Qed.
Lemma L_l4 up (s : iv S) (x : S) a : isqrt (ipt (sint S 2)) = Ok s -> swf x -> sval x = XR a -> / 2 <= a <= 1 ->
    exists b, sval (pick S up (iSmul x s)) = XR b /\ 5 / 4 * a <= b <= 3 / 2 * a.
Proof.
  intros HS _ E HA. destruct (sqrt2_iv s HS) as (c & d & E1 & E2 & B1 & B2). change (v64 x = XR a) in E.
  unfold iSmul. assert (slt (@s0 S) x = true) as ->. { apply Bltb_v. rewrite E. simpl. lra. }
  assert (G : forall m y, 181 / 128 <= y <= 1449 / 1024 -> exists b, rx m (a * y) = XR b /\ 5 / 4 * a <= b <= 3 / 2 * a).
  { intros m y HY. destruct (rnd_near m (a * y)) as (b & E3 & B3 & B4). nra. exists b. split; auto. nra. }
  destruct up; cbn [pick lo hi].
  - change (exists b, v64 (mu x (hi s)) = XR b /\ 5 / 4 * a <= b <= 3 / 2 * a). rewrite (id_mu _ _ _ _ _ _ _ _ _ _ ID), E, E2. cbn [xmul xr]. apply G; auto.
  - change (exists b, v64 (md x (lo s)) = XR b /\ 5 / 4 * a <= b <= 3 / 2 * a). rewrite (id_md _ _ _ _ _ _ _ _ _ _ ID), E, E1. cbn [xmul xr]. apply G; auto.
Qed.
Lemma L_range (x : S) v : swf x -> sval x = XR v -> v <> 0 -> bpow radix2 (-1074) <= Rabs v <= bpow radix2 1024.
Proof.
  intros _ E NZ. change (v64 x = XR v) in E. destruct (v64_F _ _ E) as [H1 H2]. pose proof max_lt. split; [|lra].
  destruct (F_decomp v H1) as (m & e & -> & Hm & He). rewrite Rabs_mult, (Rabs_pos_eq (bpow _ _)) by apply bpow_ge_0.
  assert (m <> 0%Z) by (intros ->; lra). rewrite <- abs_IZR. assert (1 <= IZR (Z.abs m)) by (apply IZR_le; lia).
  assert (bpow radix2 (-1074) <= bpow radix2 e) by (apply bpow_le; lia). pose proof (bpow_gt_0 radix2 (-1074)). nra.
Qed.
Lemma L_frexp (x : S) v : swf x -> sval x = XR v -> 0 < v -> (Z.abs (frexp_e P x) <= 1100)%Z.
Proof.
  intros _ E HP. change (Z.abs (frexp64 x) <= 1100)%Z. change (v64 x = XR v) in E.
  clear E. destruct x as [s|s| |s m e B]; cbn [frexp64]; try lia.
  unfold SpecFloat.bounded, canonical_mantissa in B. apply andb_prop in B as [B1 B2].
  apply Zeq_bool_eq in B1. apply Zle_bool_imp_le in B2. unfold SpecFloat.fexp, SpecFloat.emin in B1.
  pose proof (Zgt_pos_0 (digits2_pos m)). lia.
Qed.
Lemma L_p (p : S) m d : swf p -> sval p = XR (IZR m / 2) -> (Z.abs m <= 100000)%Z -> 
    (d = s1 \/ d = shalf) -> let k := IZR m / 2 in let t := match sval d with XR t => t | _ => 0 end in
    swf (nadd p d) /\ sval (nadd p d) = XR (k + t) /\ swf (nsub p d) /\ sval (nsub p d) = XR (k - t).
Proof.
  intros _ E HM HD. cbv zeta. change (v64 p = XR (IZR m / 2)) in E.
  assert (exists j, (j = 1 \/ j = 2)%Z /\ v64 d = XR (IZR j / 2)) as (j & HJ & ED).
  { destruct HD as [-> | ->]; [exists 2%Z|exists 1%Z]; split; auto.
    - change (v64 b1 = XR (2 / 2)). rewrite b1_v. f_equal. lra. - change (v64 (bdy 1 (-1)) = XR (1 / 2)). rewrite half64. f_equal. lra. }
  change (@sval S d) with (v64 d). rewrite ED.
  assert (FF : forall n, (Z.abs n <= 100010)%Z -> F (IZR n / 2) /\ Rabs (IZR n / 2) <= maxR).
  { intros n Hn. split. { change (IZR n / 2) with (IZR n * bpow radix2 (-1)). apply F_dy; lia. }
    apply (small_max 53); [lia|]. unfold Rdiv. rewrite Rabs_mult, (Rabs_pos_eq (/ 2)), <- abs_IZR by lra.
    apply IZR_le in Hn. assert (bpow radix2 17 <= bpow radix2 53) by (apply bpow_le; lia). simpl (bpow radix2 17) in *. lra. }
  destruct (FF (m + j)%Z) as [Q1 Q2]; [lia|]. destruct (FF (m - j)%Z) as [Q3 Q4]; [lia|].
  rewrite plus_IZR in Q1, Q2. rewrite minus_IZR in Q3, Q4.
  replace ((IZR m + IZR j) / 2) with (IZR m / 2 + IZR j / 2) in * by field.
  replace ((IZR m - IZR j) / 2) with (IZR m / 2 - IZR j / 2) in * by field.
  split; [exact I|]. split; [apply (plus_exact p d); auto|]. split; [exact I|]. apply (minus_exact p d); auto.
Qed.
Lemma log_laws64 : log_laws S P.
Proof.
  constructor.
  - apply isin_ends; try exact I; pose proof ln2_bounds as B; unfold ln2_lo, ln2_hi in B.
    + change (lb (v64 (bdy 6243314768165359 (-53))) (ln 2)). rewrite bdy_v by lia. simpl. lra.
    + change (ub (v64 (bdy 6243314768165360 (-53))) (ln 2)). rewrite bdy_v by lia. simpl. lra.
  - exact L_p.
  - exact L_frexp.
  - exact L_range.
  - intros x v _ E H. split; [exact I|]. change (v64 x = XR v) in E. destruct (v64_F _ _ E). apply (mult_exact x (bdy 1 (-1))); auto using half64.
    apply half_exact; auto. rewrite Rabs_pos_eq; lra. rewrite Rabs_pos_eq in * by lra. lra.
  - intros x v _ E H. split; [exact I|]. change (v64 x = XR v) in E. destruct (v64_F _ _ E). apply (mult_exact x (bdy 2 0)); auto using two_v.
    rewrite Rmult_comm. apply F_twice; auto. apply small16. rewrite Rabs_pos_eq; lra.
  - intros x _ H. split; [exact I|]. change (xle (v64 x) (XR 0)) in H. change (xle (v64 (Bmult mode_NE x (bdy 2 0))) (XR 0)).
    rewrite Bmult_v, two_v. destruct (v64 x) as [v| | |] eqn:E; simpl in H; try tauto.
    + cbn [xmul xr]. unfold rx. destruct (Rlt_bool_spec (Rabs (rnd mode_NE (v * 2))) (bpow radix2 1024)).
      * simpl. rewrite <- (rnd_0 mode_NE). apply N_mono. lra.
      * simpl. destruct (Rlt_bool_spec (v * 2) 0); simpl; auto.
        assert (v = 0) by lra. subst v. rewrite Rmult_0_l, rnd_0, Rabs_R0 in *. pose proof (bpow_gt_0 radix2 1024). lra.
    + cbn [xmul]. rewrite xsgn_pos by lra. simpl. auto.
  - intros x _ H. split; [exact I|]. change (v64 x = Xp) in H. change (v64 (Bmult mode_NE x (bdy 1 (-1))) = Xp).
    rewrite Bmult_v, half64, H. cbn [xmul]. rewrite xsgn_pos by lra. auto.
  - exact L_l2.
  - exact L_l4.
  - intros x v _ E H. split; [exact I|]. change (v64 x = XR v) in E. apply (sub_exact1 x b1); auto using b1_v. lra. apply Rabs_le; lra.
  - exact L_1mx.
  - exact L_1px.
  - intros x v _ E H. split; [exact I|]. change (v64 x = XR v) in E. destruct (v64_F _ _ E). apply (mult_exact (bdy 2 0) x); auto using two_v.
    apply F_twice; auto. apply small16. rewrite Rabs_mult, (Rabs_pos_eq 2) by lra. lra.
  - split; [exact I|]. lit bth1 K. eexists. split; [exact K|simpl; lra].
  - split; [exact I|]. lit bth2 K. eexists. split; [exact K|simpl; lra].
  - split; [exact I|]. lit bth3 K. eexists. split; [exact K|simpl; lra].
  - split; [exact I|]. lit bth4 K. eexists. split; [exact K|simpl; lra].
  - split; [exact I|]. lit bth5 K. eexists. split; [exact K|simpl; lra].
Qed.

(* trigonometric functions *)
Definition plo : R := IZR 7074237752028440 * bpow radix2 (-51).
Definition phi : R := IZR 7074237752028441 * bpow radix2 (-51).
Lemma plo_v : v64 (bdy 7074237752028440 (-51)) = XR plo. Proof. apply bdy_v; lia. Qed.
Lemma phi_v : v64 (bdy 7074237752028441 (-51)) = XR phi. Proof. apply bdy_v; lia. Qed.
Lemma plo_phi : plo < PI < phi /\ 3 < plo /\ phi < 315 / 100 /\ phi - plo <= bpow radix2 (-50).
Proof.
  pose proof pi_strict as H. unfold pi_lo, pi_hi in H. unfold plo, phi. simpl. lra.
Qed.
Lemma pi64 : isin (c_pi P) PI.
Proof.
  pose proof plo_phi. apply isin_ends; try exact I.
  - change (lb (v64 (bdy 7074237752028440 (-51))) PI). rewrite plo_v. simpl. lra.
  - change (ub (v64 (bdy 7074237752028441 (-51))) PI). rewrite phi_v. simpl. lra.
Qed.
(* multiples of the enclosure of pi *)
Lemma err64 m e : Rabs e <= 16 -> exists t, rx m e = XR t /\ Rabs (t - e) <= bpow radix2 (-40).
Proof.
  intros H. exists (rnd m e). split; [apply rx_small; auto|].
  destruct (Rlt_or_le (Rabs e) (bpow radix2 (-1022))) as [L|G].
  - assert (Rabs (rnd m e) <= bpow radix2 (-1022)). { apply rnd_fmt_abs; [rewrite <- (Rmult_1_l (bpow _ _)); apply F_dy; lia|lra]. }
    assert (bpow radix2 (-1022) <= bpow radix2 (-41)) by (apply bpow_le; lia).
    assert (bpow radix2 (-40) = 2 * bpow radix2 (-41)) by (simpl; lra).
    unfold Rminus. pose proof (Rabs_triang (rnd m e) (- e)). rewrite Rabs_Ropp in *. lra.
  - pose proof (rnd_rel m e G) as K. assert (bpow radix2 (-52) * Rabs e <= bpow radix2 (-52) * 16) by (apply Rmult_le_compat_l; [apply bpow_ge_0|auto]).
    assert (bpow radix2 (-52) * 16 <= bpow radix2 (-40)) by (simpl; lra). lra.
Qed.
Lemma mulS_pos (X : iv S) (y : S) a b c : v64 (lo X) = XR a -> v64 (hi X) = XR b -> v64 y = XR c -> 0 < c ->
  v64 (lo (imulS X y)) = rx mode_DN (a * c) /\ v64 (hi (imulS X y)) = rx mode_UP (b * c).
Proof.
  intros E1 E2 E3 H. unfold imulS. assert (slt (@s0 S) y = true) as ->. { apply Bltb_v. rewrite E3. simpl. auto. }
  cbn [lo hi]. change (v64 (md (lo X) y) = rx mode_DN (a * c) /\ v64 (mu (hi X) y) = rx mode_UP (b * c)).
  rewrite (id_md _ _ _ _ _ _ _ _ _ _ ID), (id_mu _ _ _ _ _ _ _ _ _ _ ID), E1, E2, E3. auto.
Qed.
Lemma plo_c : v64 (lo (c_pi P)) = XR plo. Proof. exact plo_v. Qed.
Lemma phi_c : v64 (hi (c_pi P)) = XR phi. Proof. exact phi_v. Qed.
Lemma nplo_c : v64 (hi (ineg (c_pi P))) = XR (- plo).
Proof. change (v64 (Bopp (bdy 7074237752028440 (-51))) = XR (- plo)). rewrite Bopp_v, plo_v. auto. Qed.
Lemma nphi_c : v64 (lo (ineg (c_pi P))) = XR (- phi).
Proof. change (v64 (Bopp (bdy 7074237752028441 (-51))) = XR (- phi)). rewrite Bopp_v, phi_v. auto. Qed.

Lemma narrow_mul (X : iv S) (y : S) a b c r : isin X r -> v64 (lo X) = XR a -> v64 (hi X) = XR b -> v64 y = XR c -> 0 < c <= 4 ->
  Rabs a <= 4 -> Rabs b <= 4 -> b - a <= bpow radix2 (-50) -> narrow (imulS X y) (r * c).
Proof.
  intros HX E1 E2 E3 HC HA HB HW. destruct (mulS_pos X y a b c E1 E2 E3 ltac:(lra)) as [M1 M2].
  pose proof (isin_mulS OK X y r c HX I E3) as (_ & _ & K3 & K4).
  assert (HS : forall z, Rabs z <= 4 -> Rabs (z * c) <= 16).
  { intros z HZ. rewrite Rabs_mult, (Rabs_pos_eq c) by lra. pose proof (Rabs_pos z). nra. }
  destruct (err64 mode_DN (a * c) (HS a HA)) as (a' & Ea & Da). destruct (err64 mode_UP (b * c) (HS b HB)) as (b' & Eb & Db).
  rewrite Ea in M1. rewrite Eb in M2. change (lb (v64 (lo (imulS X y))) (r * c)) in K3. change (ub (v64 (hi (imulS X y))) (r * c)) in K4.
  rewrite M1 in K3. rewrite M2 in K4. simpl in K3, K4.
  split; [exact I|]. split; [exact I|]. exists a', b'. split; [exact M1|]. split; [exact M2|]. split; [lra|].
  apply Rabs_bnd in Da. apply Rabs_bnd in Db.
  assert (bpow radix2 (-40) * 2 + bpow radix2 (-50) * 4 <= bpow radix2 (-30)) by (simpl; lra).
  assert (b * c - a * c <= bpow radix2 (-50) * 4). { pose proof (bpow_ge_0 radix2 (-50)). nra. } lra.
Qed.
Lemma dy_v m e c : (Z.abs m <= 2 ^ 53)%Z -> (-900 <= e <= 900)%Z -> IZR m * bpow radix2 e = c -> v64 (@sdy S m e) = XR c.
Proof. intros. subst c. change (v64 (bdy m e) = XR (IZR m * bpow radix2 e)). apply bdy_v; lia. Qed.
Lemma L_narrow : forall C c, In (C, c) (extrema P) -> narrow C c.
Proof.
  destruct plo_phi as (H1 & H2 & H3 & H4). pose proof pi64 as HP. pose proof (isin_neg OK _ _ HP) as HN.
  assert (A1 : Rabs plo <= 4) by (rewrite Rabs_pos_eq; lra). assert (A2 : Rabs phi <= 4) by (rewrite Rabs_pos_eq; lra).
  assert (A3 : Rabs (- plo) <= 4) by (rewrite Rabs_Ropp; auto). assert (A4 : Rabs (- phi) <= 4) by (rewrite Rabs_Ropp; auto).
  assert (W50 : bpow radix2 (-50) <= bpow radix2 (-30)) by (apply bpow_le; lia).
  intros C c HI. unfold extrema in HI. cbn [In] in HI.
  destruct HI as [E|[E|[E|[E|[E|[E|[E|[E|[]]]]]]]]]; apply pair_equal_spec in E as [<- <-].
  - replace (PI / 2) with (PI * / 2) by field. apply (narrow_mul _ _ plo phi); auto using plo_c, phi_c; try lra. apply dy_v; try lia; simpl; lra.
  - replace (5 / 2 * PI) with (PI * (5 / 2)) by ring. apply (narrow_mul _ _ plo phi); auto using plo_c, phi_c; try lra. apply dy_v; try lia; simpl; lra.
  - replace (- PI / 2) with (- PI * / 2) by field. apply (narrow_mul _ _ (- phi) (- plo)); auto using nplo_c, nphi_c; try lra. apply dy_v; try lia; simpl; lra.
  - replace (3 / 2 * PI) with (PI * (3 / 2)) by ring. apply (narrow_mul _ _ plo phi); auto using plo_c, phi_c; try lra. apply dy_v; try lia; simpl; lra.
  - replace (2 * PI) with (PI * 2) by ring. apply (narrow_mul _ _ plo phi); auto using plo_c, phi_c; try lra. apply dy_v; try lia; simpl; lra.
  - split; [exact I|]. split; [exact I|]. exists (- phi), (- plo). split; [apply nphi_c|]. split; [apply nplo_c|]. lra.
  - split; [exact I|]. split; [exact I|]. exists plo, phi. split; [apply plo_c|]. split; [apply phi_c|]. lra.
  - replace (3 * PI) with (PI * 3) by ring. apply (narrow_mul _ _ plo phi); auto using plo_c, phi_c; try lra. apply dy_v; try lia; simpl; lra.
Qed.

Lemma L_red (per X : iv S) v : (per = pi2 P \/ per = c_pi P) -> swf (lo X) -> sval (lo X) = XR v ->
    swf (redn per X) /\ exists k, sval (redn per X) = XR (IZR k).
Proof.
  intros HP _ E. split; [exact I|]. change (v64 (lo X) = XR v) in E. destruct (v64_F _ _ E) as [FV MV].
  assert (exists p, v64 (lo per) = XR p /\ 2 <= p) as (p & EP & HP2).
  { destruct plo_phi as (H1 & H2 & H3 & H4). destruct HP as [-> | ->].
    - destruct (mulS_pos (c_pi P) (sint S 2) plo phi 2 plo_c phi_c two_v ltac:(lra)) as [M1 _].
      assert (B : Rabs (plo * 2) <= 16) by (rewrite Rabs_pos_eq; lra). rewrite (rx_small _ _ B) in M1. exists (rnd mode_DN (plo * 2)). split; [exact M1|].
      apply (rnd_range mode_DN (plo * 2) 2 16); [change 2 with (IZR 2); apply F_int; lia|change 16 with (IZR 16); apply F_int; lia|lra].
    - exists plo. split; [apply plo_c|lra]. }
  change (exists k, v64 (Bnearbyint mode_DN (Bplus mode_NE (Bdiv mode_NE (lo X) (lo per)) (bdy 1 (-1)))) = XR (IZR k)).
  rewrite nearby_v, Bplus_v, half64, Bdiv_v, E, EP by (rewrite EP; injection; lra). unfold xdiv. cbn [xr].
  assert (Q : Rabs (v / p) <= bpow radix2 1023).
  { unfold Rdiv. rewrite Rabs_mult, (Rabs_pos_eq (/ p)) by (left; apply Rinv_0_lt_compat; lra).
    assert (/ p <= / 2) by (apply Rinv_le; lra). pose proof max_lt. pose proof (Rabs_pos v).
    assert (bpow radix2 1024 = 2 * bpow radix2 1023) by (change 1024%Z with (1023 + 1)%Z; rewrite bpow_plus; change (bpow radix2 1) with 2; ring).
    assert (0 < / p) by (apply Rinv_0_lt_compat; lra). nra. }
  assert (F23 : F (bpow radix2 1023)) by (rewrite <- (Rmult_1_l (bpow _ _)); apply F_dy; lia).
  assert (Q1 : Rabs (rnd mode_NE (v / p)) <= bpow radix2 1023) by (apply rnd_fmt_abs; auto).
  assert (E2 : rx mode_NE (v / p) = XR (rnd mode_NE (v / p))). { apply rx_in. pose proof big_max. lra. }
  rewrite E2. cbn [xadd xr]. set (r := rnd mode_NE (v / p)) in *.
  assert (F2 : F (bpow radix2 1023 + bpow radix2 1022)).
  { replace (bpow radix2 1023 + bpow radix2 1022) with (IZR 3 * bpow radix2 1022). apply F_dy; lia.
    change 1023%Z with (1022 + 1)%Z. rewrite bpow_plus. change (bpow radix2 1) with 2. ring. }
  assert (Q2 : Rabs (rnd mode_NE (r + / 2)) <= bpow radix2 1023 + bpow radix2 1022).
  { apply rnd_fmt_abs; auto. pose proof (Rabs_triang r (/ 2)). rewrite (Rabs_pos_eq (/ 2)) in * by lra.
    assert (bpow radix2 0 <= bpow radix2 1022) by (apply bpow_le; lia). simpl (bpow radix2 0) in *. lra. }
  assert (E3 : rx mode_NE (r + / 2) = XR (rnd mode_NE (r + / 2))).
  { apply rx_in. assert (bpow radix2 1023 + bpow radix2 1022 <= maxR); [|lra]. unfold maxR.
    change 1024%Z with (1022 + 1 + 1)%Z. change 1023%Z with (1022 + 1)%Z. rewrite !bpow_plus. change (bpow radix2 1) with 2.
    assert (bpow radix2 971 <= bpow radix2 1022) by (apply bpow_le; lia). lra. }
  rewrite E3. eauto.
Qed.
Lemma per_pos (per : iv S) : (per = pi2 P \/ per = c_pi P) -> exists a b, v64 (lo per) = XR a /\ v64 (hi per) = XR b /\ 2 <= a /\ 2 <= b <= 13 / 2.
Proof.
  destruct plo_phi as (H1 & H2 & H3 & H4). intros [-> | ->].
  - destruct (mulS_pos (c_pi P) (sint S 2) plo phi 2 plo_c phi_c two_v ltac:(lra)) as [M1 M2].
    rewrite rx_small in M1 by (rewrite Rabs_pos_eq; lra). rewrite rx_small in M2 by (rewrite Rabs_pos_eq; lra).
    exists (rnd mode_DN (plo * 2)), (rnd mode_UP (phi * 2)). split; [exact M1|]. split; [exact M2|].
    assert (F2 : F 2) by (change 2 with (IZR 2); apply F_int; lia).
    assert (F13 : F (13 / 2)) by (replace (13 / 2) with (IZR 13 * bpow radix2 (-1)) by (simpl; lra); apply F_dy; lia).
    split; [apply (rnd_range mode_DN (plo * 2) 2 (13 / 2)); auto; lra|apply (rnd_range mode_UP (phi * 2) 2 (13 / 2)); auto; lra].
  - exists plo, phi. split; [apply plo_c|]. split; [apply phi_c|]. lra.
Qed.
Lemma L_red_inf (per X : iv S) : (per = pi2 P \/ per = c_pi P) -> swf (lo X) -> swf (hi X) -> sval (lo X) = Xm ->
    swf (lo (isub X (iSmul (redn per X) per))) /\ sval (lo (isub X (iSmul (redn per X) per))) = Xn.
Proof.
  intros HP _ _ E. split; [exact I|]. change (v64 (lo X) = Xm) in E. destruct (per_pos per HP) as (a & b & E1 & E2 & H1 & H2).
  assert (ER : v64 (redn per X) = Xm).
  { change (v64 (Bnearbyint mode_DN (Bplus mode_NE (Bdiv mode_NE (lo X) (lo per)) (bdy 1 (-1)))) = Xm).
    rewrite nearby_v, Bplus_v, half64, Bdiv_v, E, E1 by (rewrite E1; injection; lra). unfold xdiv.
    destruct (Req_EM_T a 0); [lra|]. rewrite ?xsgn_pos by lra. reflexivity || (simpl; rewrite ?Rcompare_Gt, ?Rlt_bool_false by lra; reflexivity). }
  unfold isub, iSmul. assert (slt (@s0 S) (redn per X) = false) as ->.
  { apply not_true_is_false. intros C. apply Bltb_v in C. rewrite ER in C. simpl in C. auto. }
  assert (slt (redn per X) (@s0 S) = true) as ->. { apply Bltb_v. rewrite ER. simpl. auto. }
  cbn [lo hi]. change (v64 (sd (lo X) (mu (redn per X) (lo per))) = Xn).
  rewrite (id_sd _ _ _ _ _ _ _ _ _ _ ID), (id_mu _ _ _ _ _ _ _ _ _ _ ID), E, ER, E1. unfold xsub. cbn [xmul]. rewrite xsgn_pos by lra. reflexivity.
Qed.
Lemma L_width (x y : S) l h : swf x -> swf y -> sval x = XR l -> sval y = XR h ->
    sle (hi (pi2 P)) (subd y x) = false -> h - l <= 13 / 2.
Proof.
  intros _ _ E1 E2 C. change (v64 x = XR l) in E1. change (v64 y = XR h) in E2.
  destruct (per_pos (pi2 P) (or_introl eq_refl)) as (a & b & _ & EB & _ & HB).
  destruct (Rle_or_lt (h - l) (13 / 2)) as [|G]; auto. exfalso.
  assert (sle (hi (pi2 P)) (subd y x) = true); [|congruence]. apply Bleb_v.
  change (@sle S (hi (pi2 P)) (subd y x)) with (Bleb (hi (pi2 P)) (sd y x)) in *.
  change (xle (v64 (hi (pi2 P))) (v64 (sd y x))).
  refine (eq_ind_r (fun z => xle z (v64 (sd y x))) _ EB). rewrite (id_sd _ _ _ _ _ _ _ _ _ _ ID), E1, E2. unfold xsub. cbn [xneg xadd xr].
  assert (F13 : F (13 / 2)) by (replace (13 / 2) with (IZR 13 * bpow radix2 (-1)) by (simpl; lra); apply F_dy; lia).
  assert (13 / 2 <= rnd mode_DN (h + - l)). { unfold rnd. apply round_ge_generic; auto with typeclass_instances. lra. }
  unfold rx. destruct (Rlt_bool_spec (Rabs (rnd mode_DN (h + - l))) (bpow radix2 1024)).
  - simpl. lra.
  - rewrite Rlt_bool_false by lra. simpl. pose proof (small16 16). rewrite Rabs_pos_eq in * by lra. lra.
Qed.
Lemma L_grid (x : S) v : swf x -> sval x = XR v -> 1 - bpow radix2 (-54) <= v -> 1 <= v.
Proof.
  intros _ E H. change (v64 x = XR v) in E. destruct (v64_F _ _ E) as [FV _].
  destruct (Rle_or_lt 1 v) as [|L]; auto. exfalso.
  assert (H54 : bpow radix2 (-54) <= / 4) by (apply Rle_trans with (bpow radix2 (-2)); [apply bpow_le; lia|simpl; lra]).
  destruct (F_grid v (-1)) as (m & E2); auto. { rewrite Rabs_pos_eq by lra. simpl. lra. }
  change (-1 - 52)%Z with (-53)%Z in E2. assert (E53 : 1 = IZR (2 ^ 53) * bpow radix2 (-53)) by (simpl; lra).
  pose proof (bpow_gt_0 radix2 (-53)) as B53.
  assert (m < 2 ^ 53)%Z. { apply lt_IZR. apply Rmult_lt_reg_r with (bpow radix2 (-53)); auto. lra. }
  assert (m <= 2 ^ 53 - 1)%Z as M1 by lia. apply IZR_le in M1. rewrite minus_IZR in M1.
  assert (v <= 1 - bpow radix2 (-53)) by nra. assert (bpow radix2 (-54) < bpow radix2 (-53)) by (apply bpow_lt; lia). lra.
Qed.
Lemma hpih : v64 (hi (pih P)) = XR (phi * / 2).
Proof.
  destruct plo_phi as (H1 & H2 & H3 & H4).
  destruct (mulS_pos (c_pi P) shalf plo phi (/ 2) plo_c phi_c half64 ltac:(lra)) as [_ M2]. refine (eq_trans M2 _).
  apply rx_exact. { apply half_exact. apply (v64_F _ _ phi_v). rewrite Rabs_pos_eq; lra. } apply small16. rewrite Rabs_pos_eq; lra.
Qed.
Lemma L_adj (x : S) v p : swf x -> sval x = XR v -> sval (hi (pih P)) = XR p -> v < p -> v < PI / 2.
Proof.
  intros _ E EP H. change (v64 x = XR v) in E. change (v64 (hi (pih P)) = XR p) in EP. rewrite hpih in EP. injection EP as <-.
  destruct (v64_F _ _ E) as [FV _]. destruct plo_phi as (H1 & H2 & H3 & H4).
  destruct (Rlt_or_le v 1) as [|G]; [lra|].
  destruct (F_grid v 0) as (m & E2); auto. { rewrite Rabs_pos_eq by lra. simpl. lra. }
  change (0 - 52)%Z with (-52)%Z in E2. pose proof (bpow_gt_0 radix2 (-52)) as B52.
  assert (EH : forall z, IZR z * bpow radix2 (-51) * / 2 = IZR z * bpow radix2 (-52)) by (intros; change (bpow radix2 (-51)) with (bpow radix2 (1 + -52)); rewrite bpow_plus; change (bpow radix2 1) with 2; field).
  unfold phi in H. rewrite EH, E2 in H. apply Rmult_lt_reg_r in H; auto. apply lt_IZR in H.
  assert (m <= 7074237752028440)%Z as M1 by lia. apply IZR_le in M1.
  assert (v <= plo * / 2). { unfold plo. rewrite EH, E2. apply Rmult_le_compat_r; lra. } lra.
Qed.
(* a NaN interval never leaves the series loop *)
Definition inan (X : iv S) : Prop := v64 (lo X) = Xn /\ v64 (hi X) = Xn.
Lemma nle_l (x y : S) : v64 x = Xn -> sle x y = false.
Proof. intros E. apply not_true_is_false. intros C. apply Bleb_v in C. rewrite E in C. exact C. Qed.
Lemma nle_r (x y : S) : v64 y = Xn -> sle x y = false.
Proof. intros E. apply not_true_is_false. intros C. apply Bleb_v in C. rewrite E in C. destruct (v64 x); exact C. Qed.
Lemma nlt_l (x y : S) : v64 x = Xn -> slt x y = false.
Proof. intros E. apply not_true_is_false. intros C. apply Bltb_v in C. rewrite E in C. exact C. Qed.
Lemma nlt_r (x y : S) : v64 y = Xn -> slt x y = false.
Proof. intros E. apply not_true_is_false. intros C. apply Bltb_v in C. rewrite E in C. destruct (v64 x); exact C. Qed.
Lemma xmul_n_r a : xmul a Xn = Xn. Proof. destruct a; reflexivity. Qed.
Lemma xmul_n_l a : xmul Xn a = Xn. Proof. destruct a; reflexivity. Qed.
Lemma md_n (x y : b64) : v64 x = Xn \/ v64 y = Xn -> v64 (md x y) = Xn.
Proof. intros [E|E]; rewrite (id_md _ _ _ _ _ _ _ _ _ _ ID), E, ?xmul_n_l, ?xmul_n_r; auto. Qed.
Lemma mu_n (x y : b64) : v64 x = Xn \/ v64 y = Xn -> v64 (mu x y) = Xn.
Proof. intros [E|E]; rewrite (id_mu _ _ _ _ _ _ _ _ _ _ ID), E, ?xmul_n_l, ?xmul_n_r; auto. Qed.
Lemma imul_nan (Y X : iv S) : inan X -> inan Y \/ v64 (lo Y) = XR 1 /\ v64 (hi Y) = XR 1 -> inan (imul Y X).
Proof.
  intros [X1 X2] HY. unfold imul. rewrite (nle_r _ (lo X) X1), (nle_l (hi X) _ X2).
  destruct HY as [[Y1 Y2]|[Y1 Y2]].
  - rewrite (nle_r _ (lo Y) Y1), (nle_l (hi Y) _ Y2). cbv zeta.
    change (@slt S (muld (hi Y) (lo X)) (muld (lo Y) (hi X))) with (Bltb (md (hi Y) (lo X)) (md (lo Y) (hi X))).
    change (@slt S (mulu (lo Y) (lo X)) (mulu (hi Y) (hi X))) with (Bltb (mu (lo Y) (lo X)) (mu (hi Y) (hi X))).
    split; cbn [lo hi].
    + destruct (Bltb _ _); [apply (md_n (hi Y) (lo X))|apply (md_n (lo Y) (hi X))]; auto.
    + destruct (Bltb _ _); [apply (mu_n (hi Y) (hi X))|apply (mu_n (lo Y) (lo X))]; auto.
  - assert (sle (@s0 S) (lo Y) = true) as ->. { apply Bleb_v. rewrite Y1. simpl. lra. }
    assert (seqb (hi Y) (@s0 S) = false) as ->. { apply not_true_is_false. intros C. apply Beqb_v in C. rewrite Y2 in C. simpl in C. lra. }
    split; cbn [lo hi]; [apply (md_n (hi Y) (lo X))|apply (mu_n (hi Y) (hi X))]; auto.
Qed.
Lemma idivS_nan (Y Q : iv S) (y : S) : inan Y -> idivS Y y = Ok Q -> inan Q.
Proof.
  intros [Y1 Y2] H. unfold idivS in H.
  assert (DN : forall a : b64, v64 a = Xn -> v64 y <> XR 0 -> v64 (dd a y) = Xn /\ v64 (du a y) = Xn).
  { intros a E NZ. rewrite (id_dd _ _ _ _ _ _ _ _ _ _ ID), (id_du _ _ _ _ _ _ _ _ _ _ ID), E by auto. destruct (v64 y); auto. }
  destruct (slt s0 y) eqn:C1.
  - assert (v64 y <> XR 0). { intros E. apply Bltb_v in C1. rewrite E in C1. simpl in C1. lra. }
    assert (Q = mkiv (divd (lo Y) y) (divu (hi Y) y)) as -> by congruence. split; cbn [lo hi]; [apply (DN (lo Y))|apply (DN (hi Y))]; auto.
  - destruct (slt y s0) eqn:C2; [|discriminate]. assert (v64 y <> XR 0). { intros E. apply Bltb_v in C2. rewrite E in C2. simpl in C2. lra. }
    assert (Q = mkiv (divd (hi Y) y) (divu (lo Y) y)) as -> by congruence. split; cbn [lo hi]; [apply (DN (hi Y))|apply (DN (lo Y))]; auto.
Qed.
Lemma mag_nan (Y : iv S) : inan Y -> v64 (mag Y) = Xn.
Proof.
  intros [Y1 Y2]. unfold mag. rewrite (nle_r _ (lo Y) Y1), (nle_l (hi Y) _ Y2). cbv zeta.
  rewrite (nlt_r _ (hi Y) Y2). change (v64 (Bopp (lo Y)) = Xn). rewrite Bopp_v, Y1. auto.
Qed.
Lemma sc_nan f : forall odd X i r Y Q, inan X -> inan Y \/ v64 (lo Y) = XR 1 /\ v64 (hi Y) = XR 1 -> sc_loop S f odd X i r Y <> Ok Q.
Proof.
  induction f as [|f IH]; intros odd X i r Y Q HX HY; cbn [sc_loop]; [discriminate|].
  destruct (intmax <? i)%Z; [discriminate|]. intros H. apply bind_ok in H as (T & HT & H).
  pose proof (imul_nan Y X HX HY) as NI. apply idivS_nan in HT; auto. rewrite (nlt_l (mag T)) in H by (apply mag_nan; auto).
  apply IH in H; auto.
Qed.
Lemma one_iv : v64 (lo (ipt (@s1 S))) = XR 1 /\ v64 (hi (ipt (@s1 S))) = XR 1.
Proof. split; apply b1_v. Qed.
Lemma sin_origin_nan f X Q : inan X -> sin_origin S f X <> Ok Q.
Proof. intros H. apply sc_nan; auto. right. apply one_iv. Qed.
Lemma cos_origin_nan f X Q : inan X -> cos_origin S f X <> Ok Q.
Proof. intros H. apply sc_nan; auto. right. apply one_iv. Qed.
Lemma isub_nan X Y : inan Y -> inan (isub X Y).
Proof.
  intros [Y1 Y2]. split; [change (v64 (sd (lo X) (hi Y)) = Xn)|change (v64 (su (hi X) (lo Y)) = Xn)].
  - rewrite (id_sd _ _ _ _ _ _ _ _ _ _ ID), Y2. destruct (v64 (lo X)); auto.
  - rewrite (id_su _ _ _ _ _ _ _ _ _ _ ID), Y1. destruct (v64 (hi X)); auto.
Qed.
Lemma L_nan f (x : S) Q : sval x = Xn -> sin_point S P f (ipt x) <> Ok Q /\ cos_point S P f (ipt x) <> Ok Q.
Proof.
  intros E. change (v64 x = Xn) in E. assert (HX : inan (ipt x)) by (split; auto).
  assert (N1 : forall y : S, sle y (lo (ipt x)) = false) by (intros; apply nle_r; auto).
  assert (N2 : forall y : S, sle (hi (ipt x)) y = false) by (intros; apply nle_l; auto).
  split.
  - destruct f; cbn [sin_point]; rewrite !N1, !N2; apply sin_origin_nan, isub_nan; auto.
  - destruct f; cbn [cos_point]; rewrite !N1, !N2; unfold rneg; intros H; apply bind_ok in H as (T & HT & _);
      revert HT; apply cos_origin_nan, isub_nan; auto.
Qed.

Lemma trig_laws64 : trig_laws S P.
Proof.
  destruct plo_phi as (H1 & H2 & H3 & H4).
  constructor.
  - exact pi64.
  - exists phi. split; [apply phi_c|lra].
  - exists (phi * / 2). apply hpih.
  - exact L_red.
  - exact L_red_inf.
  - intros f x Q. apply L_nan.
  - exact L_width.
  - exact L_narrow.
  - exact L_grid.
  - exact L_adj.
  - split; [exact I|]. lit bsq2p1 K. eexists. split; [exact K|simpl; lra].
  - split; [exact I|]. lit bsq2m1 K. eexists. split; [exact K|simpl; lra].
  - split; [exact I|]. lit bsq6d3 K. eexists. split; [exact K|simpl; lra].
  - intros x v _ E. split; [exact I|]. change (v64 x = XR v) in E. change (v64 (Babs x) = XR (Rabs v)). rewrite Babs_v, E. auto.
  - intros e _ E. split; [exact I|]. change (v64 e = Xm) in E. change (v64 (Babs e) = Xp). rewrite Babs_v, E. auto.
  - exact L_1mx.
  - exact L_1px.
Qed.
End Laws.
