(* Enclosure proofs for the interval operations of IntervalModel.v, for any scalar type
   satisfying scal_ok. *)
From Coq Require Import Reals Lra Lia Psatz ZArith Bool.
From Flocq Require Import Core.
From Verif Require Import Ext Scalar IntervalModel IntervalSpec.
Open Scope R_scope.

Lemma isin_valid {S : scal} (I : iv S) r : isin I r -> ivalid I.
Proof.
  intros (W1 & W2 & A & B). repeat split; auto.
  - eapply lb_is_lo; eauto.
  - eapply ub_is_hi; eauto.
  - eapply lb_ub_xle; eauto.
Qed.

Lemma valid_isin {S : scal} (I : iv S) : ivalid I -> exists r, isin I r.
Proof.
  intros (W1 & W2 & A & B & C). unfold isin.
  destruct (sval (lo I)) as [a| | |] eqn:E1, (sval (hi I)) as [b| | |] eqn:E2; simpl in *; try tauto.
  - exists a. repeat split; simpl; auto; lra.
  - exists a. repeat split; simpl; auto; lra.
  - exists b. repeat split; simpl; auto; lra.
  - exists 0. repeat split; simpl; auto; lra.
Qed.

Lemma xdown_lb' e t r : xdown e t -> lb e r -> lb t r.
Proof. destruct e; simpl; intros H L; subst; try tauto; destruct t; simpl; tauto || lra. Qed.
Lemma xup_ub' e t r : xup e t -> ub e r -> ub t r.
Proof. destruct e; simpl; intros H L; subst; try tauto; destruct t; simpl; tauto || lra. Qed.

Ltac xcase :=
  simpl in *; try tauto; try lra; unfold xsgn_inf;
  repeat match goal with
  | |- context [Rcompare ?a 0] => destruct (Rcompare_spec a 0)
  | H : context [Rcompare ?a 0] |- _ => destruct (Rcompare_spec a 0)
  end; simpl in *; try tauto; try lra; try nra.

Section Ext.
Variables (al ah bl bh : ext) (x y : R).
Hypotheses (Al : lb al x) (Ah : ub ah x) (Bl : lb bl y) (Bh : ub bh y).

Ltac go := destruct al, ah, bl, bh; simpl in *; try tauto; xcase.

Lemma lb_add : lb (xadd al bl) (x + y).
Proof. go. Qed.
Lemma ub_add : ub (xadd ah bh) (x + y).
Proof. go. Qed.
Lemma lb_sub : lb (xsub al bh) (x - y).
Proof. unfold xsub; go. Qed.
Lemma ub_sub : ub (xsub ah bl) (x - y).
Proof. unfold xsub; go. Qed.

Let Z := XR 0.
(* the nine sign cases of multiplication *)
Lemma m_pp_l : xle Z al -> xle Z bl -> lb (xmul al bl) (x * y). Proof. go. Qed.
Lemma m_pp_u : xle Z al -> xlt Z ah -> xle Z bl -> xlt Z bh -> ub (xmul ah bh) (x * y). Proof. go. Qed.
Lemma m_pn_l : xle Z al -> xlt Z ah -> xlt bl Z -> xle bh Z -> lb (xmul ah bl) (x * y). Proof. go. Qed.
Lemma m_pn_u : xle Z al -> xle bh Z -> ub (xmul al bh) (x * y). Proof. go. Qed.
Lemma m_pm_l : xle Z al -> xlt Z ah -> xlt bl Z -> lb (xmul ah bl) (x * y). Proof. go. Qed.
Lemma m_pm_u : xle Z al -> xlt Z ah -> xlt Z bh -> ub (xmul ah bh) (x * y). Proof. go. Qed.
Lemma m_np_l : xlt al Z -> xle ah Z -> xle Z bl -> xlt Z bh -> lb (xmul al bh) (x * y). Proof. go. Qed.
Lemma m_np_u : xle ah Z -> xle Z bl -> ub (xmul ah bl) (x * y). Proof. go. Qed.
Lemma m_nn_l : xle ah Z -> xle bh Z -> lb (xmul ah bh) (x * y). Proof. go. Qed.
Lemma m_nn_u : xlt al Z -> xle ah Z -> xlt bl Z -> xle bh Z -> ub (xmul al bl) (x * y). Proof. go. Qed.
Lemma m_nm_l : xlt al Z -> xle ah Z -> xlt Z bh -> lb (xmul al bh) (x * y). Proof. go. Qed.
Lemma m_nm_u : xlt al Z -> xle ah Z -> xlt bl Z -> ub (xmul al bl) (x * y). Proof. go. Qed.
Lemma m_mp_l : xlt al Z -> xle Z bl -> xlt Z bh -> lb (xmul al bh) (x * y). Proof. go. Qed.
Lemma m_mp_u : xlt Z ah -> xle Z bl -> xlt Z bh -> ub (xmul ah bh) (x * y). Proof. go. Qed.
Lemma m_mn_l : xlt Z ah -> xlt bl Z -> xle bh Z -> lb (xmul ah bl) (x * y). Proof. go. Qed.
Lemma m_mn_u : xlt al Z -> xlt bl Z -> xle bh Z -> ub (xmul al bl) (x * y). Proof. go. Qed.
End Ext.

Section Ext2.
Variables (al ah bl bh : ext) (x y : R).
Hypotheses (Al : lb al x) (Ah : ub ah x) (Bl : lb bl y) (Bh : ub bh y).
Let Z := XR 0.

Lemma m_mm_l : xlt al Z -> xlt Z ah -> xlt bl Z -> xlt Z bh ->
  lb (xmul al bh) (x * y) \/ lb (xmul ah bl) (x * y).
Proof.
  intros. destruct (Rle_dec 0 x) as [P|P], (Rle_dec 0 y) as [Q|Q].
  - left. destruct al, ah, bl, bh; xcase.
  - right. destruct al, ah, bl, bh; xcase.
  - left. destruct al, ah, bl, bh; xcase.
  - left. destruct al, ah, bl, bh; xcase.
Qed.
Lemma m_mm_u : xlt al Z -> xlt Z ah -> xlt bl Z -> xlt Z bh ->
  ub (xmul al bl) (x * y) \/ ub (xmul ah bh) (x * y).
Proof.
  intros. destruct (Rle_dec 0 x) as [P|P], (Rle_dec 0 y) as [Q|Q].
  - right. destruct al, ah, bl, bh; xcase.
  - right. destruct al, ah, bl, bh; xcase.
  - right. destruct al, ah, bl, bh; xcase.
  - left. destruct al, ah, bl, bh; xcase.
Qed.

Lemma div_le_pp a b c d : 0 <= a -> a <= b -> 0 < d -> d <= c -> a / c <= b / d.
Proof.
  intros. unfold Rdiv. apply Rmult_le_compat; auto.
  - apply Rlt_le, Rinv_0_lt_compat; lra.
  - apply Rinv_le; auto.
Qed.

Ltac dgo := destruct al, ah, bl, bh; simpl in *; try tauto; try lra;
  unfold xsgn_inf;
  repeat match goal with |- context [Rcompare ?a 0] => destruct (Rcompare_spec a 0) end;
  simpl; try tauto; try lra.
Ltac d0 := apply Rmult_le_pos; [lra|apply Rlt_le, Rinv_0_lt_compat; lra].

Lemma quo_nn a b : 0 <= a -> 0 < b -> 0 <= a / b.
Proof. intros. apply Rmult_le_pos; [lra|apply Rlt_le, Rinv_0_lt_compat; lra]. Qed.
Lemma quo_np a b : a <= 0 -> 0 < b -> a / b <= 0.
Proof. intros. pose proof (quo_nn (-a) b). unfold Rdiv in *. lra. Qed.
Lemma div_le_np a b c d : b <= 0 -> a <= b -> 0 < c -> c <= d -> a / c <= b / d.
Proof.
  intros. pose proof (div_le_pp (-b) (-a) d c). unfold Rdiv in *. lra.
Qed.
Lemma div_le_m a b c d : a <= 0 -> a <= b -> 0 < c -> c <= d -> a / c <= b / d.
Proof.
  intros. destruct (Rle_dec b 0).
  - apply div_le_np; auto.
  - apply Rle_trans with 0. apply quo_np; lra. apply quo_nn; lra.
Qed.

(* divisor positive *)
Lemma d_p_l1 : xlt Z bl -> xle Z al -> lb (xdiv al bh) (x / y).
Proof. intros; dgo; first [apply div_le_pp; lra|apply quo_nn; lra]. Qed.
Lemma d_p_l2 : xlt Z bl -> xlt al Z -> lb (xdiv al bl) (x / y).
Proof. intros; dgo; apply div_le_m; lra. Qed.
Lemma div_le_m' a b c d : 0 <= b -> a <= b -> 0 < d -> d <= c -> a / c <= b / d.
Proof. intros. pose proof (div_le_m (-b) (-a) d c). unfold Rdiv in *. lra. Qed.
Lemma d_p_u1 : xlt Z bl -> xle Z ah -> ub (xdiv ah bl) (x / y).
Proof. intros; dgo; apply div_le_m'; lra. Qed.
Lemma d_p_u2 : xlt Z bl -> xle ah Z -> ub (xdiv ah bh) (x / y).
Proof. intros; dgo; first [apply div_le_np; lra|apply quo_np; lra]. Qed.
End Ext2.

Lemma lb_opp e r : lb e (- r) <-> ub (xneg e) r.
Proof. destruct e; simpl; try tauto; split; lra. Qed.
Lemma ub_opp e r : ub e (- r) <-> lb (xneg e) r.
Proof. destruct e; simpl; try tauto; split; lra. Qed.
Lemma xdiv_neg_r a b : b <> XR 0 -> xdiv a (xneg b) = xneg (xdiv a b).
Proof.
  intros N. destruct a, b; simpl; auto; unfold xsgn_inf.
  - f_equal. unfold Rdiv. rewrite Rinv_opp. ring.
  - f_equal; ring.
  - f_equal; ring.
  - assert (r <> 0) by (intros ->; apply N; auto).
    destruct (Rcompare_spec r 0); [rewrite Rcompare_Gt|tauto|rewrite Rcompare_Lt]; auto; lra.
  - assert (r <> 0) by (intros ->; apply N; auto).
    destruct (Rcompare_spec r 0); [rewrite Rcompare_Gt|tauto|rewrite Rcompare_Lt]; auto; lra.
Qed.

Section Ext3.
Variables (al ah bl bh : ext) (x y : R).
Hypotheses (Al : lb al x) (Ah : ub ah x) (Bl : lb bl y) (Bh : ub bh y).
Let Z := XR 0.
Lemma xlt_opp a : xlt a (XR 0) -> xlt (XR 0) (xneg a).
Proof. destruct a; simpl; auto; lra. Qed.
Lemma xlt_nz a : xlt a (XR 0) -> a <> XR 0.
Proof. intros H ->. simpl in H; lra. Qed.
Lemma xlt_nz' a : xlt (XR 0) a -> a <> XR 0.
Proof. intros H ->. simpl in H; lra. Qed.
Lemma quo_opp a b : a / - b = - (a / b).
Proof. unfold Rdiv. rewrite Rinv_opp. ring. Qed.

Lemma bl_nz : xlt bh Z -> bl <> XR 0.
Proof. intros H ->. destruct bh; simpl in *; try tauto; lra. Qed.
Lemma bh_nz : xlt Z bl -> bh <> XR 0.
Proof. intros H ->. destruct bl; simpl in *; try tauto; lra. Qed.

(* divisor negative, by negating the divisor *)
Lemma d_n_u1 : xlt bh Z -> xle Z al -> ub (xdiv al bl) (x / y).
Proof.
  intros H1 H2. pose proof (bl_nz H1) as N.
  pose proof (d_p_l1 al ah (xneg bh) (xneg bl) x (- y) Al Ah (ub_neg _ _ Bh) (lb_neg _ _ Bl) (xlt_opp _ H1) H2) as K.
  rewrite xdiv_neg_r in K by auto. rewrite quo_opp, lb_opp, xneg_invol in K. auto.
Qed.
Lemma d_n_u2 : xlt bh Z -> xlt al Z -> ub (xdiv al bh) (x / y).
Proof.
  intros H1 H2. pose proof (xlt_nz _ H1) as N.
  pose proof (d_p_l2 al ah (xneg bh) (xneg bl) x (- y) Al Ah (ub_neg _ _ Bh) (lb_neg _ _ Bl) (xlt_opp _ H1) H2) as K.
  rewrite xdiv_neg_r in K by auto. rewrite quo_opp, lb_opp, xneg_invol in K. auto.
Qed.
Lemma d_n_l1 : xlt bh Z -> xle Z ah -> lb (xdiv ah bh) (x / y).
Proof.
  intros H1 H2. pose proof (xlt_nz _ H1) as N.
  pose proof (d_p_u1 al ah (xneg bh) (xneg bl) x (- y) Al Ah (ub_neg _ _ Bh) (lb_neg _ _ Bl) (xlt_opp _ H1) H2) as K.
  rewrite xdiv_neg_r in K by auto. rewrite quo_opp, ub_opp, xneg_invol in K. auto.
Qed.
Lemma d_n_l2 : xlt bh Z -> xle ah Z -> lb (xdiv ah bl) (x / y).
Proof.
  intros H1 H2. pose proof (bl_nz H1) as N.
  pose proof (d_p_u2 al ah (xneg bh) (xneg bl) x (- y) Al Ah (ub_neg _ _ Bh) (lb_neg _ _ Bl) (xlt_opp _ H1) H2) as K.
  rewrite xdiv_neg_r in K by auto. rewrite quo_opp, ub_opp, xneg_invol in K. auto.
Qed.
End Ext3.
