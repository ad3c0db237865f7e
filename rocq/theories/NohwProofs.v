(* The emulated directed operations return the correctly rounded results. *)
From Coq Require Import Reals Lra Lia Psatz ZArith Bool.
From Flocq Require Import Core BinarySingleNaN.
From Verif Require Import Ext Scalar Fp64 RDoubleHw NohwModel NohwReal NohwBase NohwProd.
Open Scope R_scope.

Lemma bpinf_v : v64 bpinf = Xp. Proof. reflexivity. Qed.
Lemma bninf_v : v64 bninf = Xm. Proof. reflexivity. Qed.
Lemma b0_v : v64 b0 = XR 0. Proof. reflexivity. Qed.
Lemma bmaxneg_v : v64 bmaxneg = XR (- maxR).
Proof. unfold bmaxneg. apply vopp, bmax_v. Qed.

Ltac xb := rewrite ?ltb_x, ?leb_x, ?eqb_x, ?Babs_v, ?bpinf_v, ?bninf_v, ?b0_v.

Lemma succ64_nan x : v64 x = Xn -> v64 (succ64 x) = Xn.
Proof. intros H. apply v64_Xn in H. subst. reflexivity. Qed.
Lemma pred64_nan x : v64 x = Xn -> v64 (pred64 x) = Xn.
Proof. intros H. apply v64_Xn in H. subst. reflexivity. Qed.

(* the common tail of the finite case *)
Lemma fin_up (r : b64) e (c : bool) : v64 r = xr mode_NE (XR e) -> (fits e -> c = Rlt_bool (RN e) e) ->
  v64 (if r ==. bpinf then r else if r ==. bninf then bmaxneg else if c then succ64 r else r) = xr mode_UP (XR e).
Proof.
  intros Hr Hc. xb. destruct (fits_dec e) as [F|F].
  - rewrite xr_fits in Hr by auto. rewrite Hr. simpl xeqb. cbn match.
    change (xr mode_UP (XR e)) with (rx mode_UP e). rewrite up_fin by auto. rewrite (Hc F).
    destruct (Rlt_bool (RN e) e); auto using succ64_v.
  - rewrite ovf_NE in Hr by auto. rewrite ovf_UP by auto. rewrite Hr.
    destruct (Rlt_bool e 0); simpl; auto using bmaxneg_v.
Qed.
Lemma fin_dn (r : b64) e (c : bool) : v64 r = xr mode_NE (XR e) -> (fits e -> c = Rlt_bool e (RN e)) ->
  v64 (if r ==. bpinf then bmax else if r ==. bninf then r else if c then pred64 r else r) = xr mode_DN (XR e).
Proof.
  intros Hr Hc. xb. destruct (fits_dec e) as [F|F].
  - rewrite xr_fits in Hr by auto. rewrite Hr. simpl xeqb. cbn match.
    change (xr mode_DN (XR e)) with (rx mode_DN e). rewrite dn_fin by auto. rewrite (Hc F).
    destruct (Rlt_bool e (RN e)); auto using pred64_v.
  - rewrite ovf_NE in Hr by auto. rewrite ovf_DN by auto. rewrite Hr.
    destruct (Rlt_bool e 0); simpl; auto using bmax_v.
Qed.
(* and of the non-finite case *)
Lemma inf_up (r : b64) w (c t : bool) : v64 r = w -> (w = Xp \/ w = Xm \/ w = Xn) -> (w = Xm -> t = true) ->
  v64 (if r ==. bpinf then r else if r ==. bninf then (if t then r else bmaxneg) else if c then succ64 r else r) = w.
Proof.
  intros Hr W T. xb. rewrite Hr. destruct W as [->|[->| ->]]; simpl; auto.
  - rewrite T; auto.
  - destruct c; auto using succ64_nan.
Qed.
Lemma inf_dn (r : b64) w (c t : bool) : v64 r = w -> (w = Xp \/ w = Xm \/ w = Xn) -> (w = Xp -> t = true) ->
  v64 (if r ==. bpinf then (if t then r else bmax) else if r ==. bninf then r else if c then pred64 r else r) = w.
Proof.
  intros Hr W T. xb. rewrite Hr. destruct W as [->|[->| ->]]; simpl; auto.
  - rewrite T; auto.
  - destruct c; auto using pred64_nan.
Qed.

(* sums *)
Lemma add_up_gen x y' (t : bool) : (forall a, v64 x = XR a -> forall b, v64 y' = XR b -> t = false) ->
  (v64 x = Xm \/ v64 y' = Xm -> t = true) ->
  v64 (let '(r, r2) := twosum x y' in
   if r ==. bpinf then r else if r ==. bninf then (if t then r else bmaxneg) else if b0 <. r2 then succ64 r else r)
  = xr mode_UP (xadd (v64 x) (v64 y')).
Proof.
  intros T1 T2. pose proof (twosum_fst x y') as Hf. pose proof (twosum_v x y') as Hs.
  destruct (twosum x y') as [r r2]. cbn [fst snd] in Hf, Hs.
  pose proof (Bplus_v mode_NE x y') as Hp. rewrite <- Hf in Hp.
  destruct (v64 x) as [a| | |] eqn:Ex, (v64 y') as [b| | |] eqn:Ey; simpl xadd in * ;
    try (apply inf_up; [exact Hp|auto|intros K; try discriminate K; auto]; fail).
  rewrite (T1 a eq_refl b eq_refl). apply fin_up; auto.
  intros F. destruct (Hs a b eq_refl eq_refl F) as [_ H2]. rewrite (vlt _ _ _ _ b0_v H2).
  destruct (Rlt_bool_spec (RN (a + b)) (a + b)); [apply Rlt_bool_true|apply Rlt_bool_false]; lra.
Qed.
Lemma add_dn_gen x y' (t : bool) : (forall a, v64 x = XR a -> forall b, v64 y' = XR b -> t = false) ->
  (v64 x = Xp \/ v64 y' = Xp -> t = true) ->
  v64 (let '(r, r2) := twosum x y' in
   if r ==. bpinf then (if t then r else bmax) else if r ==. bninf then r else if r2 <. b0 then pred64 r else r)
  = xr mode_DN (xadd (v64 x) (v64 y')).
Proof.
  intros T1 T2. pose proof (twosum_fst x y') as Hf. pose proof (twosum_v x y') as Hs.
  destruct (twosum x y') as [r r2]. cbn [fst snd] in Hf, Hs.
  pose proof (Bplus_v mode_NE x y') as Hp. rewrite <- Hf in Hp.
  destruct (v64 x) as [a| | |] eqn:Ex, (v64 y') as [b| | |] eqn:Ey; simpl xadd in * ;
    try (apply inf_dn; [exact Hp|auto|intros K; try discriminate K; auto]; fail).
  rewrite (T1 a eq_refl b eq_refl). apply fin_dn; auto.
  intros F. destruct (Hs a b eq_refl eq_refl F) as [_ H2]. rewrite (vlt _ _ _ _ H2 b0_v).
  destruct (Rlt_bool_spec (a + b) (RN (a + b))); [apply Rlt_bool_true|apply Rlt_bool_false]; lra.
Qed.
Lemma nh_add_up_v x y : v64 (nh_add_up x y) = xr mode_UP (xadd (v64 x) (v64 y)).
Proof.
  apply add_up_gen; xb.
  - intros a -> b ->. auto.
  - intros [->| ->]; simpl; auto. apply orb_true_r.
Qed.
Lemma nh_add_down_v x y : v64 (nh_add_down x y) = xr mode_DN (xadd (v64 x) (v64 y)).
Proof.
  apply add_dn_gen; xb.
  - intros a -> b ->. auto.
  - intros [->| ->]; simpl; auto. apply orb_true_r.
Qed.
Lemma xadd_opp_sub a b : xadd a (xneg b) = xsub a b.
Proof. reflexivity. Qed.
Lemma nh_sub_up_v x y : v64 (nh_sub_up x y) = xr mode_UP (xsub (v64 x) (v64 y)).
Proof.
  rewrite <- xadd_opp_sub, <- Bopp_v. apply add_up_gen; rewrite Bopp_v; xb.
  - intros a -> b. destruct (v64 y); simpl; auto; discriminate.
  - intros [->|H]; simpl; auto. destruct (v64 y); simpl in * ; try discriminate. apply orb_true_r.
Qed.
Lemma nh_sub_down_v x y : v64 (nh_sub_down x y) = xr mode_DN (xsub (v64 x) (v64 y)).
Proof.
  rewrite <- xadd_opp_sub, <- Bopp_v. apply add_dn_gen; rewrite Bopp_v; xb.
  - intros a -> b. destruct (v64 y); simpl; auto; discriminate.
  - intros [->|H]; simpl; auto. destruct (v64 y); simpl in * ; try discriminate. apply orb_true_r.
Qed.

(* products *)
Section Mul.
Variable fma : bool.

Lemma small_mult a b : FF a -> FF b -> a <> 0 -> b <> 0 -> Rabs (RN (a * b)) < pw (-969) -> Rabs a <= pw 106.
Proof.
  intros Fa Fb Na Nb L. pose proof (mult2_ge (-1074) b (mult2_FF b Fb) Nb) as Lb.
  apply Rnot_lt_le. intros C.
  assert (pw (-968) <= Rabs (a * b)).
  { change (-968)%Z with (106 + -1074)%Z. rewrite bpow_plus, Rabs_mult. apply Rmult_le_compat; try apply bpow_ge_0; lra. }
  assert (pw (-968) <= Rabs (RN (a * b))) by (apply abs_round_ge_generic; auto with typeclass_instances; apply FF_pw; lia).
  assert (pw (-969) < pw (-968)) by (apply bpow_lt; lia). lra.
Qed.

(* the scaled comparison of the small case *)
Lemma mul_small x y a b : v64 x = XR a -> v64 y = XR b -> Rabs (RN (a * b)) < pw (-969) ->
  let s := fst (twoproduct fma (x *. p2 537) (y *. p2 537)) in
  let s2 := snd (twoproduct fma (x *. p2 537) (y *. p2 537)) in
  let r := x *. y in let t := (r *. p2 537) *. p2 537 in
  ((t <. s) || ((t ==. s) && (b0 <. s2))) = Rlt_bool (RN (a * b)) (a * b) /\
  ((s <. t) || ((t ==. s) && (s2 <. b0))) = Rlt_bool (a * b) (RN (a * b)).
Proof.
  intros Hx Hy L s s2 r t.
  destruct (fmtv _ _ Hx) as [Fa _]. destruct (fmtv _ _ Hy) as [Fb _].
  assert (P : forall u, Rabs u <= pw 106 -> Rabs (u * pw 537) < pw 1024 /\ Rabs (u * pw 537 * pw 537) < pw 1024 * pw 537).
  { intros u Hu. assert (A : Rabs (u * pw 537) < pw 1024).
    { rewrite Rabs_mult, (Rabs_pos_eq (pw 537)) by apply bpow_ge_0.
      apply Rle_lt_trans with (pw 106 * pw 537); [apply Rmult_le_compat_r; [apply bpow_ge_0|auto]|].
      rewrite <- bpow_plus. apply bpow_lt; lia. }
    split; auto. rewrite Rabs_mult, (Rabs_pos_eq (pw 537)) by apply bpow_ge_0.
    apply Rmult_lt_compat_r; [apply bpow_gt_0|auto]. }
  assert (Hr : v64 r = XR (RN (a * b))).
  { apply vmul; auto. unfold fits. eapply Rlt_trans; [apply L|apply bpow_lt; lia]. }
  assert (Fr : FF (RN (a * b))) by apply FF_RN.
  assert (Lr1 : Rabs (RN (a * b) * pw 537) < pw (-432)).
  { rewrite Rabs_mult, (Rabs_pos_eq (pw 537)) by apply bpow_ge_0.
    change (-432)%Z with (-969 + 537)%Z. rewrite bpow_plus. apply Rmult_lt_compat_r; [apply bpow_gt_0|auto]. }
  assert (Lr2 : Rabs (RN (a * b) * pw 537 * pw 537) < pw 105).
  { rewrite Rabs_mult, (Rabs_pos_eq (pw 537)) by apply bpow_ge_0.
    change 105%Z with (-432 + 537)%Z. rewrite bpow_plus. apply Rmult_lt_compat_r; [apply bpow_gt_0|auto]. }
  assert (Ht : v64 t = XR (RN (a * b) * pw 537 * pw 537)).
  { apply vscale; [apply vscale; auto; [lia|apply FF_scale_up; [lia|auto]|]|lia|apply FF_scale_up; [lia|apply FF_scale_up; [lia|auto]]|].
    - eapply Rlt_trans; [apply Lr1|apply bpow_lt; lia].
    - eapply Rlt_trans; [apply Lr2|apply bpow_lt; lia]. }
  destruct (Req_dec a 0) as [Za|Za]; [|destruct (Req_dec b 0) as [Zb|Zb]].
  - (* a = 0 *)
    subst a. rewrite Rmult_0_l, rnd_0 in * . rewrite !Rmult_0_l in Ht. rewrite Rlt_bool_false by lra.
    assert (Hxs : v64 (x *. p2 537) = XR 0).
    { replace 0 with (0 * pw 537) by ring. apply vscale; auto; [lia| |]; rewrite Rmult_0_l; auto using FF_0.
      rewrite Rabs_R0. apply bpow_gt_0. }
    assert (Hys : v64 (y *. p2 537) = xr mode_NE (XR (b * pw 537))).
    { rewrite Bmult_v, Hy, p2_v by lia. auto. }
    destruct (fits_dec (b * pw 537)) as [Fi|Fi].
    + rewrite xr_fits in Hys by auto.
      assert (Fb5 : fits (0 * RN (b * pw 537))). { unfold fits. rewrite Rmult_0_l, rnd_0, Rabs_R0. apply bpow_gt_0. }
      destruct (twoproduct_v fma _ _ 0 (RN (b * pw 537)) 1000 (-1074) Hxs Hys Fb5) as [S1 S2].
      { apply mult2_0. } { apply mult2_FF, FF_RN. } { lia. }
      fold s in S1. fold s2 in S2. rewrite Rmult_0_l, rnd_0 in S1, S2. rewrite Rminus_0_r in S2.
      rewrite (vlt _ _ _ _ Ht S1), (vlt _ _ _ _ S1 Ht), (vlt _ _ _ _ S2 b0_v), (vlt _ _ _ _ b0_v S2).
      rewrite Rlt_bool_false by lra. rewrite andb_false_r. auto.
    + assert (S1 : v64 s = Xn). { unfold s. rewrite twoproduct_fst, Bmult_v, Hxs, Hys, ovf_NE by auto.
        destruct (Rlt_bool (b * pw 537) 0); simpl; unfold xsgn_inf; rewrite Rcompare_Eq; auto. }
      rewrite !ltb_x, eqb_x, S1, Ht. auto.
  - subst b. rewrite Rmult_0_r, rnd_0 in * . rewrite !Rmult_0_l in Ht. rewrite Rlt_bool_false by lra.
    assert (Hys : v64 (y *. p2 537) = XR 0).
    { replace 0 with (0 * pw 537) by ring. apply vscale; auto; [lia| |]; rewrite Rmult_0_l; auto using FF_0.
      rewrite Rabs_R0. apply bpow_gt_0. }
    assert (Hxs : v64 (x *. p2 537) = xr mode_NE (XR (a * pw 537))).
    { rewrite Bmult_v, Hx, p2_v by lia. auto. }
    destruct (fits_dec (a * pw 537)) as [Fi|Fi].
    + rewrite xr_fits in Hxs by auto.
      assert (Fb5 : fits (RN (a * pw 537) * 0)). { unfold fits. rewrite Rmult_0_r, rnd_0, Rabs_R0. apply bpow_gt_0. }
      destruct (twoproduct_v fma _ _ (RN (a * pw 537)) 0 (-1074) 1000 Hxs Hys Fb5) as [S1 S2].
      { apply mult2_FF, FF_RN. } { apply mult2_0. } { lia. }
      fold s in S1. fold s2 in S2. rewrite Rmult_0_r, rnd_0 in S1, S2. rewrite Rminus_0_r in S2.
      rewrite (vlt _ _ _ _ Ht S1), (vlt _ _ _ _ S1 Ht), (vlt _ _ _ _ S2 b0_v), (vlt _ _ _ _ b0_v S2).
      rewrite Rlt_bool_false by lra. rewrite andb_false_r. auto.
    + assert (S1 : v64 s = Xn). { unfold s. rewrite twoproduct_fst, Bmult_v, Hxs, Hys, ovf_NE by auto.
        destruct (Rlt_bool (a * pw 537) 0); simpl; unfold xsgn_inf; rewrite Rcompare_Eq; auto. }
      rewrite !ltb_x, eqb_x, S1, Ht. auto.
  - pose proof (small_mult a b Fa Fb Za Zb L) as Ba.
    assert (Bb : Rabs b <= pw 106) by (apply (small_mult b a); auto; rewrite Rmult_comm; auto).
    destruct (P a Ba) as [A1 _]. destruct (P b Bb) as [B1 _].
    assert (Hxs : v64 (x *. p2 537) = XR (a * pw 537)) by (apply vscale; auto; [lia|apply FF_scale_up; [lia|auto]]).
    assert (Hys : v64 (y *. p2 537) = XR (b * pw 537)) by (apply vscale; auto; [lia|apply FF_scale_up; [lia|auto]]).
    destruct (cmp_tp fma _ _ t _ _ _ Hxs Hys Ht) as [C1 C2].
    { right. exists (-1074 + 537)%Z, (-1074 + 537)%Z. split; [|split; [|lia]]; apply mult2_scale, mult2_FF; auto. }
    fold s in C1, C2. fold s2 in C1, C2.
    assert (Es : (t ==. s) = (s ==. t)). { rewrite !eqb_x. destruct (v64 t), (v64 s); simpl; auto.
      destruct (Req_bool_spec r0 r1), (Req_bool_spec r1 r0); auto; lra. }
    rewrite Es, C1, C2.
    assert (E : a * pw 537 * (b * pw 537) = a * b * (pw 537 * pw 537)) by ring.
    assert (E2 : RN (a * b) * pw 537 * pw 537 = RN (a * b) * (pw 537 * pw 537)) by ring.
    rewrite E, E2. assert (Pp : 0 < pw 537 * pw 537) by (apply Rmult_lt_0_compat; apply bpow_gt_0).
    split.
    + destruct (Rlt_bool_spec (RN (a * b)) (a * b)); [apply Rlt_bool_true|apply Rlt_bool_false]; nra.
    + destruct (Rlt_bool_spec (a * b) (RN (a * b))); [apply Rlt_bool_true|apply Rlt_bool_false]; nra.
Qed.

Lemma if_if (A : Type) (c d e : bool) (u v : A) : (if c then (if d then u else v) else (if e then u else v)) = if (if c then d else e) then u else v.
Proof. destruct c; auto. Qed.

Lemma mul_cond x y a b : v64 x = XR a -> v64 y = XR b -> fits (a * b) ->
  let r := fst (twoproduct fma x y) in let r2 := snd (twoproduct fma x y) in
  let s := fst (twoproduct fma (x *. p2 537) (y *. p2 537)) in
  let s2 := snd (twoproduct fma (x *. p2 537) (y *. p2 537)) in
  let t := (r *. p2 537) *. p2 537 in
  (if p2 (-969) <=. Babs r then b0 <. r2 else (t <. s) || ((t ==. s) && (b0 <. s2))) = Rlt_bool (RN (a * b)) (a * b) /\
  (if p2 (-969) <=. Babs r then r2 <. b0 else (s <. t) || ((t ==. s) && (s2 <. b0))) = Rlt_bool (a * b) (RN (a * b)).
Proof.
  intros Hx Hy Fi r r2 s s2 t.
  destruct (fmtv _ _ Hx) as [Fa _]. destruct (fmtv _ _ Hy) as [Fb _].
  assert (Hr : v64 r = XR (RN (a * b))). { unfold r. rewrite twoproduct_fst. apply vmul; auto. }
  rewrite (vle _ _ (pw (-969)) (Rabs (RN (a * b)))); [|apply p2_v; lia|apply vabs; auto].
  destruct (Rle_bool_spec (pw (-969)) (Rabs (RN (a * b)))) as [L|L].
  - destruct (gran a b Fa Fb L) as (e & f & Me & Mf & Le).
    destruct (twoproduct_v fma x y a b e f Hx Hy Fi Me Mf Le) as [_ H2]. fold r2 in H2.
    rewrite (vlt _ _ _ _ b0_v H2), (vlt _ _ _ _ H2 b0_v). split.
    + destruct (Rlt_bool_spec (RN (a * b)) (a * b)); [apply Rlt_bool_true|apply Rlt_bool_false]; lra.
    + destruct (Rlt_bool_spec (a * b) (RN (a * b))); [apply Rlt_bool_true|apply Rlt_bool_false]; lra.
  - destruct (mul_small x y a b Hx Hy L) as [C1 C2].
    unfold t, r. rewrite twoproduct_fst. split; [exact C1|exact C2].
Qed.

Lemma nh_mul_up_eq x y : nh_mul_up fma x y =
  let r := fst (twoproduct fma x y) in let r2 := snd (twoproduct fma x y) in
  let s := fst (twoproduct fma (x *. p2 537) (y *. p2 537)) in
  let s2 := snd (twoproduct fma (x *. p2 537) (y *. p2 537)) in
  let t := (r *. p2 537) *. p2 537 in
  if r ==. bpinf then r
  else if r ==. bninf then (if (Babs x ==. bpinf) || (Babs y ==. bpinf) then r else bmaxneg)
  else if (if p2 (-969) <=. Babs r then b0 <. r2 else (t <. s) || ((t ==. s) && (b0 <. s2))) then succ64 r else r.
Proof.
  unfold nh_mul_up. destruct (twoproduct fma x y) as [r r2].
  destruct (twoproduct fma (x *. p2 537) (y *. p2 537)) as [s s2]. cbn [fst snd]. cbv zeta. rewrite <- if_if. reflexivity.
Qed.
Lemma nh_mul_down_eq x y : nh_mul_down fma x y =
  let r := fst (twoproduct fma x y) in let r2 := snd (twoproduct fma x y) in
  let s := fst (twoproduct fma (x *. p2 537) (y *. p2 537)) in
  let s2 := snd (twoproduct fma (x *. p2 537) (y *. p2 537)) in
  let t := (r *. p2 537) *. p2 537 in
  if r ==. bpinf then (if (Babs x ==. bpinf) || (Babs y ==. bpinf) then r else bmax)
  else if r ==. bninf then r
  else if (if p2 (-969) <=. Babs r then r2 <. b0 else (s <. t) || ((t ==. s) && (s2 <. b0))) then pred64 r else r.
Proof.
  unfold nh_mul_down. destruct (twoproduct fma x y) as [r r2].
  destruct (twoproduct fma (x *. p2 537) (y *. p2 537)) as [s s2]. cbn [fst snd]. cbv zeta. rewrite <- if_if. reflexivity.
Qed.

Lemma xmul_nf a b : (forall x, a <> XR x) \/ (forall y, b <> XR y) ->
  (xmul a b = Xp \/ xmul a b = Xm \/ xmul a b = Xn) /\
  (xmul a b = Xm \/ xmul a b = Xp -> xeqb (match a with XR r => XR (Rabs r) | Xn => Xn | _ => Xp end) Xp || xeqb (match b with XR r => XR (Rabs r) | Xn => Xn | _ => Xp end) Xp = true).
Proof.
  intros H. destruct a as [u| | |], b as [v| | |]; try (exfalso; destruct H as [H|H]; eapply H; reflexivity);
  simpl; unfold xsgn_inf; try destruct (Rcompare _ 0); split; auto; try (intros [K|K]; discriminate K); rewrite ?orb_true_r; auto.
Qed.
Lemma Babs_v' (x : b64) : v64 (Babs x) = match v64 x with XR r => XR (Rabs r) | Xn => Xn | _ => Xp end.
Proof. rewrite Babs_v. destruct (v64 x); auto. Qed.

Lemma nh_mul_up_v x y : v64 (nh_mul_up fma x y) = xr mode_UP (xmul (v64 x) (v64 y)).
Proof.
  rewrite nh_mul_up_eq. pose proof (mul_cond x y) as Hc. cbv zeta in * .
  pose proof (Bmult_v mode_NE x y) as Hp. rewrite <- (twoproduct_fst fma) in Hp.
  assert (N : ((forall u, v64 x <> XR u) \/ (forall u, v64 y <> XR u)) \/ exists a b, v64 x = XR a /\ v64 y = XR b).
  { destruct (v64 x), (v64 y); eauto; left; ((left; discriminate) || (right; discriminate)). }
  destruct N as [N|(a & b & Ha & Hb)].
  - destruct (xmul_nf _ _ N) as [W T]. 
    assert (E : forall m, xr m (xmul (v64 x) (v64 y)) = xmul (v64 x) (v64 y)) by (intros m; destruct W as [->|[->| ->]]; auto).
    rewrite E in Hp. rewrite E. apply inf_up; auto. intros K. xb. rewrite <- T by auto. rewrite <- !Babs_v'. rewrite !Babs_v. reflexivity.
  - rewrite Ha, Hb in Hp. simpl xmul in Hp. rewrite Ha, Hb. simpl xmul.
    assert ((Babs x ==. bpinf) || (Babs y ==. bpinf) = false) as ->. { rewrite !eqb_x, !Babs_v', Ha, Hb. auto. }
    apply fin_up; auto. intros Fi. apply (Hc a b Ha Hb Fi).
Qed.
Lemma nh_mul_down_v x y : v64 (nh_mul_down fma x y) = xr mode_DN (xmul (v64 x) (v64 y)).
Proof.
  rewrite nh_mul_down_eq. pose proof (mul_cond x y) as Hc. cbv zeta in * .
  pose proof (Bmult_v mode_NE x y) as Hp. rewrite <- (twoproduct_fst fma) in Hp.
  assert (N : ((forall u, v64 x <> XR u) \/ (forall u, v64 y <> XR u)) \/ exists a b, v64 x = XR a /\ v64 y = XR b).
  { destruct (v64 x), (v64 y); eauto; left; ((left; discriminate) || (right; discriminate)). }
  destruct N as [N|(a & b & Ha & Hb)].
  - destruct (xmul_nf _ _ N) as [W T]. 
    assert (E : forall m, xr m (xmul (v64 x) (v64 y)) = xmul (v64 x) (v64 y)) by (intros m; destruct W as [->|[->| ->]]; auto).
    rewrite E in Hp. rewrite E. apply inf_dn; auto. intros K. xb. rewrite <- T by auto. rewrite <- !Babs_v'. rewrite !Babs_v. reflexivity.
  - rewrite Ha, Hb in Hp. simpl xmul in Hp. rewrite Ha, Hb. simpl xmul.
    assert ((Babs x ==. bpinf) || (Babs y ==. bpinf) = false) as ->. { rewrite !eqb_x, !Babs_v', Ha, Hb. auto. }
    apply fin_dn; auto. intros Fi. apply (Hc a b Ha Hb Fi).
Qed.
End Mul.
