(* rop<dd>: addition, subtraction, multiplication. *)
From Coq Require Import Reals Lra Lia Psatz ZArith Bool.
From Flocq Require Import Core BinarySingleNaN.
From Verif Require Import Ext Scalar Fp64 RDoubleHw NohwModel NohwReal NohwBase NohwProd NohwProofs NohwDiv DdModel DdSpec DdProofs.
Open Scope R_scope.

Definition sg (d : bool) (r : R) : R := if d then - r else r.
Lemma far_v d c r : v64 c = XR r -> v64 (far d c) = XR (sg d r).
Proof. intros H. destruct d; simpl; auto. apply vopp; auto. Qed.
Definition res_ok (d : bool) (z : dd) (t : R) : Prop := ddok z /\ bnd d (ddval z) t.

Lemma far_res d t : dle d t (sg d ovf) -> res_ok d (mkdd (far d ddmax1) (far d ddmax2)) t.
Proof.
  intros H. unfold res_ok, ddok, ddval. cbn [a1 a2].
  rewrite (far_v d ddmax1 maxR bmax_v), (far_v d ddmax2 mx2 ddmax2_v). pose proof ddmax_le. pose proof ddmax_norm as N. split.
  - destruct d; simpl; auto. replace (- maxR + - mx2) with (- (maxR + mx2)) by ring. rewrite RN_opp. f_equal. auto.
  - destruct d; simpl in *; lra.
Qed.
Lemma inf_res (d : bool) z t : v64 z = (if d then Xp else Xm) -> res_ok d (mkdd z b0) t.
Proof. intros H. unfold res_ok, ddok, ddval. cbn [a1 a2]. rewrite H. destruct d; simpl; auto. Qed.
Lemma norm_res d x y p q t : v64 x = XR (RN (p + q)) -> v64 y = XR (p + q - RN (p + q)) -> dle d t (p + q) -> res_ok d (mkdd x y) t.
Proof.
  intros Hx Hy H. unfold res_ok, ddok, ddval. cbn [a1 a2]. rewrite Hx, Hy. split.
  - replace (RN (p + q) + (p + q - RN (p + q))) with (p + q) by ring. reflexivity.
  - apply bnd_XR. replace (RN (p + q) + (p + q - RN (p + q))) with (p + q) by ring. auto.
Qed.

Lemma inf_v d : v64 (inf_ d) = if d then Xp else Xm.
Proof. destruct d; reflexivity. Qed.
Lemma eq_inf d z : (z ==. inf_ d) = match v64 z, d with Xp, true => true | Xm, false => true | _, _ => false end.
Proof. rewrite eqb_x, inf_v. destruct (v64 z), d; reflexivity. Qed.
Lemma isinf_v z : isinf z = match v64 z with Xp | Xm => true | _ => false end.
Proof. unfold isinf. rewrite eqb_x, Babs_v, bpinf_v. destruct (v64 z); reflexivity. Qed.

Lemma fin_ok d z1 z2 p r t : v64 z1 = XR p -> bnd d (v64 z2) r -> dle d t (p + r) -> res_ok d (fin d z1 z2) t.
Proof.
  intros H1 H2 Ht. unfold fin. pose proof (twosum_fst z1 z2) as Ef.
  destruct (v64 z2) as [q| | |] eqn:E2.
  - assert (Hq : dle d t (p + q)) by (destruct d; simpl in *; lra).
    destruct (fits_dec (p + q)) as [F|F].
    + destruct (twosum_v z1 z2 p q H1 E2 F) as [T1 T2]. destruct (twosum z1 z2) as [z3 z4]. cbn [fst snd] in * .
      rewrite !eq_inf, T1. eapply norm_res; eauto.
    + assert (T1 : v64 (fst (twosum z1 z2)) = if Rlt_bool (p + q) 0 then Xm else Xp).
      { rewrite Ef, Bplus_v, H1, E2. apply (ovf_NE (p + q)); auto. }
      destruct (twosum z1 z2) as [z3 z4]. cbn [fst snd] in * .
      apply not_fits_ge in F. unfold Rabs in F. 
      rewrite !eq_inf. destruct (Rlt_bool_spec (p + q) 0) as [L|L]; rewrite T1; destruct d; cbn [negb].
      * apply far_res. simpl in * . destruct (Rcase_abs _); lra.
      * apply inf_res; auto.
      * apply inf_res; auto.
      * apply far_res. simpl in * . destruct (Rcase_abs _); lra.
  - assert (T1 : v64 (fst (twosum z1 z2)) = Xp) by (rewrite Ef, Bplus_v, H1, E2; reflexivity).
    destruct (twosum z1 z2) as [z3 z4]. cbn [fst snd] in * . destruct d; simpl in H2; [|tauto].
    rewrite eq_inf, T1. apply inf_res; auto.
  - assert (T1 : v64 (fst (twosum z1 z2)) = Xm) by (rewrite Ef, Bplus_v, H1, E2; reflexivity).
    destruct (twosum z1 z2) as [z3 z4]. cbn [fst snd] in * . destruct d; simpl in H2; [tauto|].
    rewrite eq_inf, T1. apply inf_res; auto.
  - destruct d; simpl in H2; tauto.
Qed.

(* the shared shape of add, sub and mul after the leading double operation *)
Lemma lead_ok (O : dops) d (zz : b64 * b64) (m : b64 -> b64) e s t :
  opsok O ->
  v64 (fst zz) = xr mode_NE (XR e) ->
  (fits e -> bnd d (v64 (snd zz)) (e - RN e)) ->
  (forall z r, bnd d (v64 z) r -> bnd d (v64 (m z)) (r + s)) ->
  dle d t (e + s) ->
  res_ok d (let '(z1, z2) := zz in
    if z1 ==. inf_ d then mkdd z1 b0
    else
      let '(z1, z2) := if z1 ==. inf_ (negb d) then (far d ddmax1, far d ddmax2) else (z1, z2) in
      fin d z1 (m z2)) t.
Proof.
  intros OK H1 H2 Hm Ht. destruct zz as [z1 z2]. cbn [fst snd] in H1, H2.
  destruct (fits_dec e) as [F|F].
  - rewrite xr_fits in H1 by auto. rewrite !eq_inf, H1. apply (fin_ok d z1 _ (RN e) (e - RN e + s)); auto.
    destruct d; simpl in *; lra.
  - rewrite ovf_NE in H1 by auto. apply not_fits_ge in F. unfold Rabs in F.
    assert (K : dle d t (sg d ovf + s) -> res_ok d (fin d (far d ddmax1) (m (far d ddmax2))) t).
    { intros L. apply (fin_ok d _ _ (sg d maxR) (sg d mx2 + s)).
      - apply far_v, bmax_v.
      - apply Hm. rewrite (far_v d _ _ ddmax2_v). apply bnd_refl.
      - pose proof ddmax_le. destruct d; simpl in *; lra. }
    rewrite !eq_inf. destruct (Rlt_bool_spec e 0) as [L|L]; rewrite H1; destruct d; cbn [negb];
      try (apply inf_res; auto; fail); apply K; simpl in *; destruct (Rcase_abs _); lra.
Qed.

(* the cases of a normalised operand *)
Lemma ddok_cases x : ddok x ->
  (exists r s, v64 (a1 x) = XR r /\ v64 (a2 x) = XR s /\ RN (r + s) = r /\ ddval x = XR (r + s)) \/
  (v64 (a1 x) = Xp /\ v64 (a2 x) = XR 0 /\ ddval x = Xp) \/ (v64 (a1 x) = Xm /\ v64 (a2 x) = XR 0 /\ ddval x = Xm).
Proof.
  unfold ddok, ddval. destruct (v64 (a1 x)) as [r| | |], (v64 (a2 x)) as [s| | |]; try tauto; intros H.
  - left. exists r, s. auto.
  - subst. auto.
  - subst. auto.
Qed.
Lemma res_bounds d z t : res_ok d z t -> bounds d (XR t) z.
Proof. intros [H1 H2] _. split; [exact H1|]. destruct d; simpl in H2; [apply xup_ub|apply xdown_lb]; auto. Qed.
(* a result with an infinite operand: the double operation already has the exact value *)
Lemma plain_bounds d e z : v64 z = e -> e = Xp \/ e = Xm \/ e = XR 0 \/ e = Xn -> bounds d e (mkdd z b0).
Proof.
  intros H W N. unfold ddok, ddval. cbn [a1 a2]. rewrite H.
  destruct W as [->|[->|[->| ->]]]; try congruence; split; try reflexivity; try (destruct d; reflexivity); simpl.
  - rewrite Rplus_0_r. apply rnd_0.
  - destruct d; simpl; lra.
Qed.

Lemma norm_sign a (y : b64) b : v64 y = XR b -> RN (a + b) = a -> Rcompare (a + b) 0 = Rcompare a 0.
Proof.
  intros Hy E. destruct (fmtv _ _ Hy) as [F _]. destruct (Rcompare_spec a 0) as [L|L|L].
  - apply Rcompare_Lt, Rnot_le_lt. intros C. pose proof (RN_ge_fmt (a + b) 0 FF_0 C). lra.
  - subst. rewrite Rplus_0_l in * . rewrite RN_id in E by auto. apply Rcompare_Eq; auto.
  - apply Rcompare_Gt, Rnot_le_lt. intros C. pose proof (RN_le_fmt (a + b) 0 FF_0 C). lra.
Qed.

Section S.
Variable O : dops.
Hypothesis OK : opsok O.

Theorem dd_add_ok d x y : ddok x -> ddok y -> bounds d (xadd (ddval x) (ddval y)) (dd_add O d x y).
Proof.
  intros Hx Hy. unfold dd_add. rewrite !isinf_v.
  destruct (ddok_cases x Hx) as [(r & s & X1 & X2 & _ & ->)|[(X1 & X2 & ->)|(X1 & X2 & ->)]];
  destruct (ddok_cases y Hy) as [(r' & s' & Y1 & Y2 & _ & ->)|[(Y1 & Y2 & ->)|(Y1 & Y2 & ->)]];
  rewrite X1, Y1; cbn [orb];
  try (apply plain_bounds; [rewrite Bplus_v, X1, Y1; reflexivity|simpl; auto]; fail).
  simpl xadd. apply res_bounds.
  apply (lead_ok O d (twosum (a1 x) (a1 y)) (fun z => add_ O d z (add_ O d (a2 x) (a2 y))) (r + r') (s + s')); auto.
  - rewrite twosum_fst, Bplus_v, X1, Y1. reflexivity.
  - intros F. destruct (twosum_v _ _ _ _ X1 Y1 F) as [_ ->]. apply bnd_refl.
  - intros z q Hz. apply add_b; auto. apply add_b; auto; apply exact_b; auto.
  - destruct d; simpl; lra.
Qed.

Theorem dd_sub_ok d x y : ddok x -> ddok y -> bounds d (xsub (ddval x) (ddval y)) (dd_sub O d x y).
Proof.
  intros Hx Hy. unfold dd_sub. rewrite !isinf_v.
  destruct (ddok_cases x Hx) as [(r & s & X1 & X2 & _ & ->)|[(X1 & X2 & ->)|(X1 & X2 & ->)]];
  destruct (ddok_cases y Hy) as [(r' & s' & Y1 & Y2 & _ & ->)|[(Y1 & Y2 & ->)|(Y1 & Y2 & ->)]];
  rewrite X1, Y1; cbn [orb];
  try (apply plain_bounds; [rewrite Bminus_v, X1, Y1; reflexivity|simpl; auto]; fail).
  unfold xsub. simpl xneg. simpl xadd. apply res_bounds.
  pose proof (vopp _ _ Y1) as Y1'.
  apply (lead_ok O d (twosum (a1 x) (Bopp (a1 y))) (fun z => add_ O d z (sub_ O d (a2 x) (a2 y))) (r + - r') (s - s')); auto.
  - rewrite twosum_fst, Bplus_v, X1, Y1'. reflexivity.
  - intros F. destruct (twosum_v _ _ _ _ X1 Y1' F) as [_ ->]. apply bnd_refl.
  - intros z q Hz. apply add_b; auto. apply sub_b; auto; apply exact_b; auto.
  - destruct d; simpl; lra.
Qed.

Theorem dd_mul_ok d x y : ddok x -> ddok y -> bounds d (xmul (ddval x) (ddval y)) (dd_mul O d x y).
Proof.
  intros Hx Hy. unfold dd_mul. rewrite !isinf_v.
  destruct (ddok_cases x Hx) as [(r & s & X1 & X2 & Nx & ->)|[(X1 & X2 & ->)|(X1 & X2 & ->)]];
  destruct (ddok_cases y Hy) as [(r' & s' & Y1 & Y2 & Ny & ->)|[(Y1 & Y2 & ->)|(Y1 & Y2 & ->)]];
  rewrite X1, Y1; cbn [orb].
  1:{ simpl xmul. apply res_bounds.
  apply (lead_ok O d (tpd O d (a1 x) (a1 y))
    (fun z => add_ O d z (add_ O d (add_ O d (mul_ O d (a1 x) (a2 y)) (mul_ O d (a2 x) (a1 y))) (mul_ O d (a2 x) (a2 y))))
    (r * r') (r * s' + s * r' + s * s')); auto.
  - rewrite tpd_fst, Bmult_v, X1, Y1. reflexivity.
  - intros F. destruct (tpd_ok O OK d _ _ _ _ X1 Y1 F) as (_ & T & _). auto.
  - intros z q Hz. repeat (apply add_b; auto; try (apply mul_b; auto)).
  - destruct d; simpl; lra. }
  (* an infinite operand: the sign of a finite operand is that of its first component *)
  all: apply plain_bounds; [rewrite Bmult_v, X1, Y1|]; try reflexivity; simpl; auto.
  all: unfold xsgn_inf; rewrite ?(norm_sign _ _ _ X2 Nx), ?(norm_sign _ _ _ Y2 Ny); destruct (Rcompare _ 0); auto.
Qed.
End S.
