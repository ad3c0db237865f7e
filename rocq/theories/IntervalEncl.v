(* Enclosure and order properties of the interval operations, generic in the scalar type. *)
From Coq Require Import Reals Lra Lia Psatz ZArith Bool.
From Flocq Require Import Core.
From Verif Require Import Ext Scalar IntervalModel IntervalSpec IntervalProofs.
Open Scope R_scope.

Section Encl.
Context {S : scal} (OK : scal_ok S).
Implicit Types X Y : iv S.
Implicit Types x y : R.
Implicit Types a b : S.

Lemma wf0 : swf (@s0 S). Proof. apply (ok_s0 _ OK). Qed.
Lemma val0 : sval (@s0 S) = XR 0. Proof. apply (ok_s0 _ OK). Qed.
Lemma wf1 : swf (@s1 S). Proof. apply (ok_s1 _ OK). Qed.
Lemma val1 : sval (@s1 S) = XR 1. Proof. apply (ok_s1 _ OK). Qed.
Hint Resolve wf0 wf1 : core.

Lemma isin_i0 : isin (@i0 S) 0.
Proof. unfold isin, i0; simpl. rewrite val0. repeat split; auto; simpl; lra. Qed.

Lemma isin_pt a r : swf a -> sval a = XR r -> isin (ipt a) r.
Proof. intros W E. unfold isin, ipt; simpl. rewrite E. repeat split; auto; simpl; lra. Qed.

(* rewrite the boolean tests into facts about the extended reals *)
Ltac nn := first [ assumption | rewrite val0; discriminate
  | (eapply is_lo_nn; eapply lb_is_lo; eassumption)
  | (eapply is_hi_nn; eapply ub_is_hi; eassumption) ].
Lemma xeq0 e : xeq e (XR 0) -> e = XR 0.
Proof. destruct e; simpl; try tauto. intros ->; auto. Qed.
Lemma nxeq0_hi e : is_hi e -> ~ xeq e (XR 0) -> xle (XR 0) e -> xlt (XR 0) e.
Proof. destruct e; simpl; try tauto; lra. Qed.

Lemma le0_true a : swf a -> sle s0 a = true -> xle (XR 0) (sval a).
Proof. intros W H. apply (sle_true OK) in H; auto. rewrite val0 in H; auto. Qed.
Lemma le0_false a : swf a -> sval a <> Xn -> sle s0 a = false -> xlt (sval a) (XR 0).
Proof. intros W N H. apply (sle_false OK) in H; auto. rewrite val0 in H; auto. rewrite val0; discriminate. Qed.
Lemma ge0_true a : swf a -> sle a s0 = true -> xle (sval a) (XR 0).
Proof. intros W H. apply (sle_true OK) in H; auto. rewrite val0 in H; auto. Qed.
Lemma ge0_false a : swf a -> sval a <> Xn -> sle a s0 = false -> xlt (XR 0) (sval a).
Proof. intros W N H. apply (sle_false OK) in H; auto. rewrite val0 in H; auto. rewrite val0; discriminate. Qed.
Lemma lt0_true a : swf a -> slt s0 a = true -> xlt (XR 0) (sval a).
Proof. intros W H. apply (slt_true OK) in H; auto. rewrite val0 in H; auto. Qed.
Lemma lt0_false a : swf a -> sval a <> Xn -> slt s0 a = false -> xle (sval a) (XR 0).
Proof. intros W N H. apply (slt_false OK) in H; auto. rewrite val0 in H; auto. rewrite val0; discriminate. Qed.
Lemma gt0_true a : swf a -> slt a s0 = true -> xlt (sval a) (XR 0).
Proof. intros W H. apply (slt_true OK) in H; auto. rewrite val0 in H; auto. Qed.
Lemma gt0_false a : swf a -> sval a <> Xn -> slt a s0 = false -> xle (XR 0) (sval a).
Proof. intros W N H. apply (slt_false OK) in H; auto. rewrite val0 in H; auto. rewrite val0; discriminate. Qed.
Lemma eq0_true a : swf a -> seqb a s0 = true -> sval a = XR 0.
Proof. intros W H. apply (ok_eq _ OK) in H; auto. rewrite val0 in H; auto. apply xeq0; auto. Qed.
Lemma eq0_false a : swf a -> seqb a s0 = false -> sval a <> XR 0.
Proof.
  intros W H E. assert (seqb a s0 = true); [|congruence]. apply (ok_eq _ OK); auto.
  rewrite val0, E. simpl; auto.
Qed.

Ltac bconv E :=
  match type of E with
  | sle s0 ?a = true => apply le0_true in E; [|assumption]
  | sle s0 ?a = false => apply le0_false in E; [|assumption|nn]
  | sle ?a s0 = true => apply ge0_true in E; [|assumption]
  | sle ?a s0 = false => apply ge0_false in E; [|assumption|nn]
  | slt s0 ?a = true => apply lt0_true in E; [|assumption]
  | slt s0 ?a = false => apply lt0_false in E; [|assumption|nn]
  | slt ?a s0 = true => apply gt0_true in E; [|assumption]
  | slt ?a s0 = false => apply gt0_false in E; [|assumption|nn]
  | seqb ?a s0 = true => apply eq0_true in E; [|assumption]
  | seqb ?a s0 = false => apply eq0_false in E; [|assumption]
  end.
Ltac bsplit :=
  repeat match goal with
  | |- isin (if ?c then _ else _) _ => let E := fresh "E" in destruct c eqn:E; bconv E
  end.

Lemma isin_add X Y x y : isin X x -> isin Y y -> isin (iadd X Y) (x + y).
Proof.
  intros (A1&A2&A3&A4) (B1&B2&B3&B4). unfold isin, iadd; simpl.
  destruct (ok_addd _ OK (lo X) (lo Y)) as [W D]; auto.
  destruct (ok_addu _ OK (hi X) (hi Y)) as [W' U]; auto.
  repeat split; auto.
  - eapply xdown_lb'; eauto. destruct (sval (lo X)), (sval (lo Y)); xcase.
  - eapply xup_ub'; eauto. destruct (sval (hi X)), (sval (hi Y)); xcase.
Qed.
Lemma isin_sub X Y x y : isin X x -> isin Y y -> isin (isub X Y) (x - y).
Proof.
  intros (A1&A2&A3&A4) (B1&B2&B3&B4). unfold isin, isub; simpl.
  destruct (ok_subd _ OK (lo X) (hi Y)) as [W D]; auto.
  destruct (ok_subu _ OK (hi X) (lo Y)) as [W' U]; auto.
  repeat split; auto.
  - eapply xdown_lb'; eauto. unfold xsub. destruct (sval (lo X)), (sval (hi Y)); xcase.
  - eapply xup_ub'; eauto. unfold xsub. destruct (sval (hi X)), (sval (lo Y)); xcase.
Qed.
Lemma isin_neg X x : isin X x -> isin (ineg X) (- x).
Proof.
  intros (A1&A2&A3&A4). unfold isin, ineg; simpl.
  destruct (ok_neg _ OK (lo X)) as [W ->]; auto. destruct (ok_neg _ OK (hi X)) as [W' ->]; auto.
  repeat split; auto using ub_neg, lb_neg.
Qed.
Lemma isin_addS X b x y : isin X x -> swf b -> sval b = XR y -> isin (iaddS X b) (x + y).
Proof. intros H W E. exact (isin_add X (ipt b) x y H (isin_pt _ _ W E)). Qed.
Lemma isin_Sadd b X x y : swf b -> sval b = XR y -> isin X x -> isin (iSadd b X) (y + x).
Proof. intros W E H. exact (isin_add (ipt b) X y x (isin_pt _ _ W E) H). Qed.
Lemma isin_subS X b x y : isin X x -> swf b -> sval b = XR y -> isin (isubS X b) (x - y).
Proof. intros H W E. exact (isin_sub X (ipt b) x y H (isin_pt _ _ W E)). Qed.
Lemma isin_Ssub b X x y : swf b -> sval b = XR y -> isin X x -> isin (iSsub b X) (y - x).
Proof. intros W E H. exact (isin_sub (ipt b) X y x (isin_pt _ _ W E) H). Qed.

(* if one of two lower candidates is fine, the smaller one is fine *)
Lemma pick_min a b r : swf a -> swf b -> sval a <> Xn -> sval b <> Xn ->
  lb (sval a) r \/ lb (sval b) r -> lb (sval (if slt b a then b else a)) r.
Proof.
  intros Wa Wb Na Nb H. destruct (slt b a) eqn:E.
  - apply (slt_true OK) in E; auto. destruct H; auto. eapply lb_xle; eauto using xlt_xle.
  - apply (slt_false OK) in E; auto. destruct H; auto. eapply lb_xle; eauto.
Qed.
Lemma pick_max a b r : swf a -> swf b -> sval a <> Xn -> sval b <> Xn ->
  ub (sval a) r \/ ub (sval b) r -> ub (sval (if slt a b then b else a)) r.
Proof.
  intros Wa Wb Na Nb H. destruct (slt a b) eqn:E.
  - apply (slt_true OK) in E; auto. destruct H; auto. eapply ub_xle; eauto using xlt_xle.
  - apply (slt_false OK) in E; auto. destruct H; auto. eapply ub_xle; eauto.
Qed.
Lemma xdown_nn e t : e <> Xn -> xdown e t -> t <> Xn.
Proof. destruct e, t; simpl; congruence || tauto. Qed.
Lemma xup_nn e t : e <> Xn -> xup e t -> t <> Xn.
Proof. destruct e, t; simpl; congruence || tauto. Qed.
Lemma xmul_nn p q : p <> Xn -> q <> Xn -> p <> XR 0 -> q <> XR 0 -> xmul p q <> Xn.
Proof.
  destruct p, q; simpl; try congruence; intros; unfold xsgn_inf;
  destruct (Rcompare_spec r 0); congruence.
Qed.

Lemma muld_wf a b : swf a -> swf b -> swf (muld a b).
Proof. intros; apply (ok_muld _ OK); auto. Qed.
Lemma mulu_wf a b : swf a -> swf b -> swf (mulu a b).
Proof. intros; apply (ok_mulu _ OK); auto. Qed.
Lemma muld_lb a b r : swf a -> swf b -> lb (xmul (sval a) (sval b)) r -> lb (sval (muld a b)) r.
Proof. intros W W' L. eapply xdown_lb'; [apply (ok_muld _ OK)|]; eauto. Qed.
Lemma mulu_ub a b r : swf a -> swf b -> ub (xmul (sval a) (sval b)) r -> ub (sval (mulu a b)) r.
Proof. intros W W' L. eapply xup_ub'; [apply (ok_mulu _ OK)|]; eauto. Qed.
Lemma divd_wf a b : swf a -> swf b -> sval b <> XR 0 -> swf (divd a b).
Proof. intros; apply (ok_divd _ OK); auto. Qed.
Lemma divu_wf a b : swf a -> swf b -> sval b <> XR 0 -> swf (divu a b).
Proof. intros; apply (ok_divu _ OK); auto. Qed.
Lemma divd_lb a b r : swf a -> swf b -> sval b <> XR 0 -> lb (xdiv (sval a) (sval b)) r -> lb (sval (divd a b)) r.
Proof. intros W W' N L. eapply xdown_lb'; [apply (ok_divd _ OK)|]; eauto. Qed.
Lemma divu_ub a b r : swf a -> swf b -> sval b <> XR 0 -> ub (xdiv (sval a) (sval b)) r -> ub (sval (divu a b)) r.
Proof. intros W W' N L. eapply xup_ub'; [apply (ok_divu _ OK)|]; eauto. Qed.

Ltac mk := unfold isin; simpl; repeat split;
  [apply muld_wf; auto|apply mulu_wf; auto|apply muld_lb; auto|apply mulu_ub; auto].

Lemma isin_mul X Y x y : isin X x -> isin Y y -> isin (imul X Y) (x * y).
Proof.
  intros (A1&A2&A3&A4) (B1&B2&B3&B4). unfold imul.
  assert (Zx : sval (hi X) = XR 0 -> xle (XR 0) (sval (lo X)) -> x = 0).
  { intros E1 E2. rewrite E1 in A4. destruct (sval (lo X)); simpl in *; try tauto; lra. }
  assert (Zy : sval (hi Y) = XR 0 -> xle (XR 0) (sval (lo Y)) -> y = 0).
  { intros E1 E2. rewrite E1 in B4. destruct (sval (lo Y)); simpl in *; try tauto; lra. }
  assert (Px : sval (hi X) <> XR 0 -> xle (XR 0) (sval (lo X)) -> xlt (XR 0) (sval (hi X))).
  { intros E1 E2. destruct (sval (lo X)), (sval (hi X)); simpl in *; try tauto.
    assert (r0 <> 0) by (intros ->; auto). lra. }
  assert (Py : sval (hi Y) <> XR 0 -> xle (XR 0) (sval (lo Y)) -> xlt (XR 0) (sval (hi Y))).
  { intros E1 E2. destruct (sval (lo Y)), (sval (hi Y)); simpl in *; try tauto.
    assert (r0 <> 0) by (intros ->; auto). lra. }
  bsplit.
  - rewrite Zx, Rmult_0_l by auto. apply isin_i0.
  - rewrite Zy, Rmult_0_r by auto. apply isin_i0.
  - mk; [eapply m_pp_l|eapply m_pp_u]; eauto.
  - mk; [eapply m_pn_l|eapply m_pn_u]; eauto.
  - mk; [eapply m_pm_l|eapply m_pm_u]; eauto.
  - rewrite Zy, Rmult_0_r by auto. apply isin_i0.
  - mk; [eapply m_np_l|eapply m_np_u]; eauto.
  - mk; [eapply m_nn_l|eapply m_nn_u]; eauto.
  - mk; [eapply m_nm_l|eapply m_nm_u]; eauto.
  - rewrite Zy, Rmult_0_r by auto. apply isin_i0.
  - mk; [eapply m_mp_l|eapply m_mp_u]; eauto.
  - mk; [eapply m_mn_l|eapply m_mn_u]; eauto.
  - assert (N1 : sval (lo X) <> Xn) by nn. assert (N2 : sval (hi X) <> Xn) by nn.
    assert (N3 : sval (lo Y) <> Xn) by nn. assert (N4 : sval (hi Y) <> Xn) by nn.
    pose proof (xlt_nz _ E). pose proof (xlt_nz' _ E0). pose proof (xlt_nz _ E1). pose proof (xlt_nz' _ E2).
    assert (K1 : sval (muld (lo X) (hi Y)) <> Xn).
    { eapply xdown_nn; [|apply (ok_muld _ OK); auto]. apply xmul_nn; auto. }
    assert (K2 : sval (muld (hi X) (lo Y)) <> Xn).
    { eapply xdown_nn; [|apply (ok_muld _ OK); auto]. apply xmul_nn; auto. }
    assert (K3 : sval (mulu (lo X) (lo Y)) <> Xn).
    { eapply xup_nn; [|apply (ok_mulu _ OK); auto]. apply xmul_nn; auto. }
    assert (K4 : sval (mulu (hi X) (hi Y)) <> Xn).
    { eapply xup_nn; [|apply (ok_mulu _ OK); auto]. apply xmul_nn; auto. }
    unfold isin; cbn [lo hi]. repeat split.
    + destruct slt; auto using muld_wf.
    + destruct slt; auto using mulu_wf.
    + apply pick_min; auto using muld_wf.
      destruct (m_mm_l _ _ _ _ x y A3 A4 B3 B4) as [L|L]; auto; [left|right]; apply muld_lb; auto.
    + apply pick_max; auto using mulu_wf.
      destruct (m_mm_u _ _ _ _ x y A3 A4 B3 B4) as [L|L]; auto; [left|right]; apply mulu_ub; auto.
Qed.

Lemma isin_mulS X b x y : isin X x -> swf b -> sval b = XR y -> isin (imulS X b) (x * y).
Proof.
  intros (A1&A2&A3&A4) W E. unfold imulS.
  assert (Nb : sval b <> Xn) by congruence.
  bsplit; rewrite E in *.
  - mk; rewrite E; [destruct (sval (lo X))|destruct (sval (hi X))]; xcase.
  - mk; rewrite E; [destruct (sval (hi X))|destruct (sval (lo X))]; xcase.
  - simpl in *. replace y with 0 by lra. rewrite Rmult_0_r. apply isin_i0.
Qed.
Lemma isin_Smul b X x y : swf b -> sval b = XR y -> isin X x -> isin (iSmul b X) (y * x).
Proof.
  intros W E (A1&A2&A3&A4). unfold iSmul.
  assert (Nb : sval b <> Xn) by congruence.
  bsplit; rewrite E in *.
  - mk; rewrite E; [destruct (sval (lo X))|destruct (sval (hi X))]; xcase.
  - mk; rewrite E; [destruct (sval (hi X))|destruct (sval (lo X))]; xcase.
  - simpl in *. replace y with 0 by lra. rewrite Rmult_0_l. apply isin_i0.
Qed.

Ltac mkd := unfold isin; simpl; repeat split;
  [apply divd_wf; auto|apply divu_wf; auto|apply divd_lb; auto|apply divu_ub; auto].

Lemma isin_div X Y Q x y : idiv X Y = Ok Q -> isin X x -> isin Y y -> y <> 0 /\ isin Q (x / y).
Proof.
  intros H (A1&A2&A3&A4) (B1&B2&B3&B4). revert H. unfold idiv.
  destruct (slt s0 (lo Y)) eqn:E.
  - apply lt0_true in E; auto. intros H; injection H as <-.
    pose proof (xlt_nz' _ E) as N1. pose proof (bh_nz _ _ _ B3 B4 E) as N2.
    split. { intros ->. destruct (sval (lo Y)); simpl in *; try tauto; lra. }
    bsplit; mkd.
    + eapply d_p_l1; eauto.
    + eapply d_p_u1; eauto. destruct (sval (lo X)), (sval (hi X)); simpl in *; try tauto; lra.
    + eapply d_p_l2; eauto.
    + eapply d_p_u2; eauto.
    + eapply d_p_l2; eauto.
    + eapply d_p_u1; eauto using xlt_xle.
  - apply lt0_false in E; auto; [|nn]. destruct (slt (hi Y) s0) eqn:F; [|discriminate].
    apply gt0_true in F; auto. intros H; injection H as <-.
    pose proof (xlt_nz _ F) as N1. pose proof (bl_nz _ _ _ B3 B4 F) as N2.
    split. { intros ->. destruct (sval (hi Y)); simpl in *; try tauto; lra. }
    bsplit; mkd.
    + eapply d_n_l1; eauto. destruct (sval (lo X)), (sval (hi X)); simpl in *; try tauto; lra.
    + eapply d_n_u1; eauto.
    + eapply d_n_l2; eauto.
    + eapply d_n_u2; eauto.
    + eapply d_n_l1; eauto using xlt_xle.
    + eapply d_n_u2; eauto.
Qed.

Lemma isin_divS X b Q x y : idivS X b = Ok Q -> isin X x -> swf b -> sval b = XR y ->
  y <> 0 /\ isin Q (x / y).
Proof.
  intros H (A1&A2&A3&A4) W E. revert H. unfold idivS.
  assert (Nb : sval b <> Xn) by congruence.
  destruct (slt s0 b) eqn:P.
  - apply lt0_true in P; auto. pose proof (xlt_nz' _ P) as N. rewrite E in *. simpl in P.
    intros H; injection H as <-. split; [lra|].
    assert (xlt (XR 0) (sval b)) by (rewrite E; auto).
    mkd; rewrite E; try congruence.
    + destruct (sval (lo X)); xcase. apply Rmult_le_compat_r; auto. apply Rlt_le, Rinv_0_lt_compat; auto.
    + destruct (sval (hi X)); xcase. apply Rmult_le_compat_r; auto. apply Rlt_le, Rinv_0_lt_compat; auto.
  - destruct (slt b s0) eqn:Q'; [|discriminate].
    apply gt0_true in Q'; auto. pose proof (xlt_nz _ Q') as N. rewrite E in *. simpl in Q'.
    intros H; injection H as <-. split; [lra|].
    mkd; rewrite E; try congruence.
    + destruct (sval (hi X)); xcase. pose proof (Rinv_lt_0_compat _ Q'). unfold Rdiv; nra.
    + destruct (sval (lo X)); xcase. pose proof (Rinv_lt_0_compat _ Q'). unfold Rdiv; nra.
Qed.

Lemma isin_Sdiv b Y Q x y : iSdiv b Y = Ok Q -> swf b -> sval b = XR x -> isin Y y ->
  y <> 0 /\ isin Q (x / y).
Proof.
  intros H W E (B1&B2&B3&B4). revert H. unfold iSdiv.
  assert (Nb : sval b <> Xn) by congruence.
  assert (Lx : lb (sval b) x) by (rewrite E; simpl; lra).
  assert (Ux : ub (sval b) x) by (rewrite E; simpl; lra).
  destruct (slt s0 (lo Y)) eqn:P; [|destruct (slt (hi Y) s0) eqn:P']; simpl; [| |discriminate].
  - apply lt0_true in P; auto. intros H; injection H as <-.
    pose proof (xlt_nz' _ P) as N1. pose proof (bh_nz _ _ _ B3 B4 P) as N2.
    split. { intros ->. destruct (sval (lo Y)); simpl in *; try tauto; lra. }
    bsplit; mkd.
    + eapply d_p_l1; eauto.
    + eapply d_p_u1; eauto.
    + eapply d_p_l2; eauto.
    + eapply d_p_u2; eauto using xlt_xle.
  - apply gt0_true in P'; auto. intros H; injection H as <-.
    pose proof (xlt_nz _ P') as N1. pose proof (bl_nz _ _ _ B3 B4 P') as N2.
    split. { intros ->. destruct (sval (hi Y)); simpl in *; try tauto; lra. }
    bsplit; mkd.
    + eapply d_n_l1; eauto.
    + eapply d_n_u1; eauto.
    + eapply d_n_l2; eauto using xlt_xle.
    + eapply d_n_u2; eauto.
Qed.

Lemma isin_sqrt X Q x : isqrt X = Ok Q -> isin X x -> 0 <= x /\ isin Q (sqrt x).
Proof.
  intros H (A1&A2&A3&A4). revert H. unfold isqrt.
  destruct (slt (lo X) s0) eqn:E; [discriminate|]. intros H; injection H as <-.
  apply gt0_false in E; auto; [|nn].
  assert (P : 0 <= x) by (destruct (sval (lo X)); simpl in *; try tauto; lra).
  split; auto.
  destruct (ok_sqrd _ OK (lo X)) as [W D]; auto. destruct (ok_sqru _ OK (hi X)) as [W' U]; auto.
  unfold isin; simpl. repeat split; auto.
  - eapply xdown_lb'; eauto. destruct (sval (lo X)); simpl in *; try tauto.
    rewrite Rlt_bool_false by auto. simpl. apply sqrt_le_1; lra.
  - eapply xup_ub'; eauto. destruct (sval (hi X)); simpl in *; try tauto.
    rewrite Rlt_bool_false by lra. simpl. apply sqrt_le_1; lra.
Qed.

End Encl.
