(* Optimality of interval arithmetic when the scalar operations are correctly rounded:
   no interval of the same scalar type that encloses the exact range is smaller.  Inclusion
   isotonicity follows. *)
From Coq Require Import Reals Lra Lia Psatz ZArith Bool.
From Flocq Require Import Core BinarySingleNaN.
From Verif Require Import Ext Scalar IntervalModel IntervalSpec IntervalProofs IntervalEncl IntervalSets IntervalDivPow IntervalMore Fp64 RDoubleHw.
Open Scope R_scope.

(* directed results are the best ones *)
Record scal_best (S : scal) : Prop := mkbest {
  be_addu : forall x y z : S, xle (xadd (sval x) (sval y)) (sval z) -> xle (sval (addu x y)) (sval z);
  be_addd : forall x y z : S, xle (sval z) (xadd (sval x) (sval y)) -> xle (sval z) (sval (addd x y));
  be_subu : forall x y z : S, xle (xsub (sval x) (sval y)) (sval z) -> xle (sval (subu x y)) (sval z);
  be_subd : forall x y z : S, xle (sval z) (xsub (sval x) (sval y)) -> xle (sval z) (sval (subd x y));
  be_mulu : forall x y z : S, xle (xmul (sval x) (sval y)) (sval z) -> xle (sval (mulu x y)) (sval z);
  be_muld : forall x y z : S, xle (sval z) (xmul (sval x) (sval y)) -> xle (sval z) (sval (muld x y));
  be_muln : forall x y : S, xmul (sval x) (sval y) = Xn -> sval (mulu x y) = Xn /\ sval (muld x y) = Xn;
  be_divn : forall x y : S, sval y <> XR 0 -> xdiv (sval x) (sval y) = Xn -> sval (divu x y) = Xn /\ sval (divd x y) = Xn;
  be_divu : forall x y z : S, sval y <> XR 0 -> xle (xdiv (sval x) (sval y)) (sval z) -> xle (sval (divu x y)) (sval z);
  be_divd : forall x y z : S, sval y <> XR 0 -> xle (sval z) (xdiv (sval x) (sval y)) -> xle (sval z) (sval (divd x y));
  be_sqru : forall x z : S, xle (xsqrt (sval x)) (sval z) -> xle (sval (sqru x)) (sval z);
  be_sqrd : forall x z : S, xle (sval z) (xsqrt (sval x)) -> xle (sval z) (sval (sqrd x))
}.

Lemma xr_best_dn (z : b64) e : xle (v64 z) e -> xle (v64 z) (xr mode_DN e).
Proof.
  destruct e as [r| | |]; simpl xr; auto. intros H. destruct (v64 z) as [a| | |] eqn:E; simpl in H; try contradiction.
  2: { unfold rx. destruct (Rlt_bool (Rabs _) _), (Rlt_bool r 0); exact I. }
  apply v64_XR in E as [F E]. assert (G : generic_format radix2 FX a) by (rewrite <- E; apply fmt_B2R).
  assert (Ba : Rabs a <= maxR) by (rewrite <- E; apply B2R_le_max).
  assert (L : a <= rnd mode_DN r). { unfold rnd. apply round_ge_generic; auto with typeclass_instances. }
  unfold rx. destruct (Rlt_bool_spec (Rabs (rnd mode_DN r)) (bpow radix2 1024)) as [B|B]; [simpl; auto|].
  pose proof maxR_pos. assert (maxR < bpow radix2 1024). { unfold maxR. pose proof (bpow_gt_0 radix2 971). lra. }
  destruct (Rlt_bool_spec r 0) as [N|N]; simpl.
  - assert (rnd mode_DN r <= 0). { unfold rnd. apply round_le_generic; auto with typeclass_instances. apply generic_format_0. lra. }
    rewrite Rabs_left1 in B by auto. apply Rabs_le_inv in Ba. lra.
  - apply Rabs_le_inv in Ba. lra.
Qed.
Lemma xr_best_up (z : b64) e : xle e (v64 z) -> xle (xr mode_UP e) (v64 z).
Proof.
  intros H. assert (H' : xle (v64 (Bopp z)) (xneg e)). { rewrite Bopp_v. destruct e, (v64 z); simpl in *; auto; lra. }
  apply xr_best_dn in H'. rewrite Bopp_v in H'.
  assert (E : xr mode_UP e = xneg (xr mode_DN (xneg e))) by (rewrite <- xr_opp, xneg_invol; auto). rewrite E.
  destruct (v64 z), (xr mode_DN (xneg e)); simpl in *; auto; lra.
Qed.
Lemma best64 au ad su sd mu md du dd qu qd : ideal64 au ad su sd mu md du dd qu qd -> scal_best (mk64 au ad su sd mu md du dd qu qd).
Proof.
  intros []. constructor; cbv [mk64 sT sval addu addd subu subd mulu muld divu divd sqru sqrd]; intros.
  - rewrite id_au. apply xr_best_up; auto.
  - rewrite id_ad. apply xr_best_dn; auto.
  - rewrite id_su. apply xr_best_up; auto.
  - rewrite id_sd. apply xr_best_dn; auto.
  - rewrite id_mu. apply xr_best_up; auto.
  - rewrite id_md. apply xr_best_dn; auto.
  - rewrite id_mu, id_md, H. auto.
  - rewrite id_du, id_dd, H0 by auto. auto.
  - rewrite id_du by auto. apply xr_best_up; auto.
  - rewrite id_dd by auto. apply xr_best_dn; auto.
  - rewrite id_qu. apply xr_best_up; auto.
  - rewrite id_qd. apply xr_best_dn; auto.
Qed.

(* lb/ub of an endpoint and xle *)
Lemma lb_xle_pt z r : lb z r <-> xle z (XR r).
Proof. destruct z; simpl; tauto. Qed.
Lemma ub_xle_pt z r : ub z r <-> xle (XR r) z.
Proof. destruct z; simpl; tauto. Qed.

Section Tight.
Context {S : scal} (OK : scal_ok S) (BE : scal_best S).
Implicit Types X Y Z Q : iv S.

(* a is an end of X: attained, or X is unbounded in that direction *)
Definition endp X (a : ext) : Prop :=
  match a with
  | XR p => isin X p
  | Xp => forall M, exists x, isin X x /\ M <= x
  | Xm => forall M, exists x, isin X x /\ x <= M
  | Xn => False
  end.
Lemma endp_lo X : ivalid X -> endp X (sval (lo X)).
Proof.
  intros V. destruct (sval (lo X)) as [p| | |] eqn:E; simpl.
  - apply valid_lo_att; auto.
  - destruct V as (_ & _ & L & _). rewrite E in L. elim L.
  - intros M. apply (valid_lo_pt X M V). rewrite E. simpl; auto.
  - destruct V as (_ & _ & L & _). rewrite E in L. elim L.
Qed.
Lemma endp_hi X : ivalid X -> endp X (sval (hi X)).
Proof.
  intros V. destruct (sval (hi X)) as [p| | |] eqn:E; simpl.
  - apply valid_hi_att; auto.
  - intros M. apply (valid_hi_pt X M V). rewrite E. simpl; auto.
  - destruct V as (_ & _ & _ & L & _). rewrite E in L. elim L.
  - destruct V as (_ & _ & _ & L & _). rewrite E in L. elim L.
Qed.

Lemma lbn z r : lb z r -> xle z Xp.
Proof. destruct z; simpl; auto. Qed.
Lemma ubn z r : ub z r -> xle Xm z.
Proof. destruct z; simpl; auto. Qed.

(* z bounds x op y on X x Y, so it bounds the value at ends a, b *)
Section Bin.
Variables (X Y : iv S) (a b : ext).
Hypothesis (Ea : endp X a) (Eb : endp Y b) (VX : ivalid X) (VY : ivalid Y).
Lemma add_glb z : (forall x y, isin X x -> isin Y y -> lb z (x + y)) -> xadd a b <> Xn -> xle z (xadd a b).
Proof.
  intros H N. destruct (valid_isin X VX) as [x0 I0], (valid_isin Y VY) as [y0 J0].
  pose proof (H x0 y0 I0 J0) as H0.
  destruct a as [p| | |], b as [q| | |]; simpl in *; try (elim Ea; fail); try (elim Eb; fail); try congruence;
  try (apply (lbn _ _ H0)); try (apply lb_xle_pt; apply H; auto; fail);
  destruct z as [t| | |]; simpl in *; auto; try tauto.
  - destruct (Eb (t - p - 1)) as (y & Hy & L). specialize (H p y Ea Hy). lra.
  - destruct (Ea (t - q - 1)) as (x & Hx & L). specialize (H x q Hx Eb). lra.
  - destruct (Ea (t - y0 - 1)) as (x & Hx & L). specialize (H x y0 Hx J0). lra.
Qed.
Lemma sub_glb z : (forall x y, isin X x -> isin Y y -> lb z (x - y)) -> xsub a b <> Xn -> xle z (xsub a b).
Proof.
  unfold xsub. intros H N. destruct (valid_isin X VX) as [x0 I0], (valid_isin Y VY) as [y0 J0].
  pose proof (H x0 y0 I0 J0) as H0.
  destruct a as [p| | |], b as [q| | |]; simpl in *; try (elim Ea; fail); try (elim Eb; fail); try congruence;
  try (apply (lbn _ _ H0)); try (apply lb_xle_pt; replace (p + - q) with (p - q) by ring; apply H; auto; fail);
  destruct z as [t| | |]; simpl in *; auto; try tauto.
  - destruct (Eb (p - t + 1)) as (y & Hy & L). specialize (H p y Ea Hy). lra.
  - destruct (Ea (t + q - 1)) as (x & Hx & L). specialize (H x q Hx Eb). lra.
  - destruct (Ea (t + y0 - 1)) as (x & Hx & L). specialize (H x y0 Hx J0). lra.
Qed.
Lemma mul_glb z : (forall x y, isin X x -> isin Y y -> lb z (x * y)) -> xmul a b <> Xn -> xle z (xmul a b).
Proof.
  intros H N. destruct (valid_isin X VX) as [x0 I0], (valid_isin Y VY) as [y0 J0].
  pose proof (H x0 y0 I0 J0) as H0.
  destruct a as [p| | |], b as [q| | |]; simpl in *; try (elim Ea; fail); try (elim Eb; fail); try congruence;
  unfold xsgn_inf in *;
  try (destruct (Rcompare_spec p 0)); try (destruct (Rcompare_spec q 0)); try congruence;
  try (apply (lbn _ _ H0)); try (apply lb_xle_pt; apply H; auto; fail);
  destruct z as [t| | |]; simpl in *; auto; try tauto.
  - destruct (Eb (t / p + 1)) as (y & Hy & L). specialize (H p y Ea Hy).
    assert (p * y <= p * (t / p + 1)) by nra. replace (p * (t / p + 1)) with (t + p) in * by (field; lra). lra.
  - destruct (Eb (t / p - 1)) as (y & Hy & L). specialize (H p y Ea Hy).
    assert (p * y <= p * (t / p - 1)) by nra. replace (p * (t / p - 1)) with (t - p) in * by (field; lra). lra.
  - destruct (Ea (t / q + 1)) as (y & Hy & L). specialize (H y q Hy Eb).
    assert (q * y <= q * (t / q + 1)) by nra. replace (q * (t / q + 1)) with (t + q) in * by (field; lra). lra.
  - destruct (Ea (Rabs t + 1)) as (x & Hx & L). destruct (Eb (- (Rabs t + 1))) as (y & Hy & L').
    specialize (H x y Hx Hy). pose proof (Rle_abs (- t)). rewrite Rabs_Ropp in *. pose proof (Rabs_pos t).
    assert (x * y <= - ((Rabs t + 1) * (Rabs t + 1))) by nra. nra.
  - destruct (Ea (t / q - 1)) as (y & Hy & L). specialize (H y q Hy Eb).
    assert (q * y <= q * (t / q - 1)) by nra. replace (q * (t / q - 1)) with (t - q) in * by (field; lra). lra.
  - destruct (Ea (- (Rabs t + 1))) as (x & Hx & L). destruct (Eb (Rabs t + 1)) as (y & Hy & L').
    specialize (H x y Hx Hy). pose proof (Rle_abs (- t)). rewrite Rabs_Ropp in *. pose proof (Rabs_pos t).
    assert (x * y <= - ((Rabs t + 1) * (Rabs t + 1))) by nra. nra.
Qed.
(* x / y with y large *)
Lemma div_glb z : (forall x y, isin X x -> isin Y y -> lb z (x / y)) -> b <> XR 0 -> xdiv a b <> Xn -> xle z (xdiv a b).
Proof.
  intros H Nb N. destruct (valid_isin X VX) as [x0 I0], (valid_isin Y VY) as [y0 J0].
  pose proof (H x0 y0 I0 J0) as H0.
  assert (LIM : forall p t, 0 < t -> exists M, 0 < M /\ forall y, M <= Rabs y -> p / y < t).
  { intros p t T. exists ((Rabs p + 1) / t). pose proof (Rabs_pos p). split; [apply Rdiv_lt_0_compat; lra|].
    intros y Hy. assert (B1 : 0 < (Rabs p + 1) / t) by (apply Rdiv_lt_0_compat; lra).
    assert (B2 : Rabs p + 1 <= t * Rabs y).
    { apply (Rmult_le_compat_l t) in Hy; [|lra]. replace (t * ((Rabs p + 1) / t)) with (Rabs p + 1) in Hy by (field; lra). auto. }
    assert (Ny : y <> 0) by (intros ->; rewrite Rabs_R0 in *; lra).
    apply Rle_lt_trans with (Rabs (p / y)); [apply Rle_abs|].
    unfold Rdiv. rewrite Rabs_mult, Rabs_inv by auto. apply (Rmult_lt_reg_r (Rabs y)); [lra|].
    rewrite Rmult_assoc, Rinv_l by lra. lra. }
  destruct a as [p| | |], b as [q| | |]; simpl in *; try (elim Ea; fail); try (elim Eb; fail); try congruence;
  unfold xsgn_inf in *;
  try (assert (Nq : q <> 0) by congruence);
  try (destruct (Rcompare_spec q 0)); try congruence;
  try (apply (lbn _ _ H0)); try (apply lb_xle_pt; apply H; auto; fail);
  destruct z as [t| | |]; simpl in *; auto; try tauto.
  - apply Rnot_lt_le. intros T. destruct (LIM p t T) as (M & PM & HM). destruct (Eb M) as (y & Hy & L).
    specialize (H p y Ea Hy). specialize (HM y). rewrite Rabs_pos_eq in HM by lra. specialize (HM L). lra.
  - apply Rnot_lt_le. intros T. destruct (LIM p t T) as (M & PM & HM). destruct (Eb (- M)) as (y & Hy & L).
    specialize (H p y Ea Hy). specialize (HM y). rewrite Rabs_left1 in HM by lra. assert (M <= - y) by lra. specialize (HM H1). lra.
  - destruct (Ea (t * q + 1)) as (x & Hx & L). specialize (H x q Hx Eb).
    assert (t * q >= x / q * q) by nra. replace (x / q * q) with x in * by (field; auto). lra.
  - destruct (Ea (t * q - 1)) as (x & Hx & L). specialize (H x q Hx Eb).
    assert (t * q <= x / q * q) by nra. replace (x / q * q) with x in * by (field; auto). lra.
Qed.
End Bin.

(* upper bounds, by negating *)
Lemma xle_neg a b : xle (xneg a) (xneg b) <-> xle b a.
Proof. destruct a, b; simpl; split; auto; lra. Qed.
Lemma lb_xneg z r : lb (xneg z) r <-> ub z (- r).
Proof. destruct z; simpl; split; auto; lra. Qed.
Lemma endp_neg X a : ivalid X -> endp X a -> endp (ineg X) (xneg a).
Proof.
  intros V. destruct a as [p| | |]; simpl; intros H.
  - apply (isin_neg OK); auto.
  - intros M. destruct (H (- M)) as (x & Hx & L). exists (- x). split; [apply (isin_neg OK); auto|lra].
  - intros M. destruct (H (- M)) as (x & Hx & L). exists (- x). split; [apply (isin_neg OK); auto|lra].
  - auto.
Qed.
Lemma add_lub X Y a b z : endp X a -> endp Y b -> ivalid X -> ivalid Y ->
  (forall x y, isin X x -> isin Y y -> ub z (x + y)) -> xadd a b <> Xn -> xle (xadd a b) z.
Proof.
  intros Ea Eb VX VY H N.
  apply xle_neg. rewrite <- xadd_opp.
  apply (add_glb (ineg X) (ineg Y)); auto using endp_neg, (valid_neg OK).
  - intros x y Hx Hy. apply (isin_neg_iff OK) in Hx, Hy; auto. apply lb_xneg. replace (- (x + y)) with (- x + - y) by ring. auto.
  - rewrite xadd_opp. destruct (xadd a b); simpl; congruence.
Qed.
Lemma sub_lub X Y a b z : endp X a -> endp Y b -> ivalid X -> ivalid Y ->
  (forall x y, isin X x -> isin Y y -> ub z (x - y)) -> xsub a b <> Xn -> xle (xsub a b) z.
Proof.
  intros Ea Eb VX VY H N.
  apply xle_neg. unfold xsub in *. rewrite <- xadd_opp.
  apply (sub_glb (ineg X) (ineg Y)); auto using endp_neg, (valid_neg OK).
  - intros x y Hx Hy. apply (isin_neg_iff OK) in Hx, Hy; auto. apply lb_xneg. replace (- (x - y)) with (- x - - y) by ring. auto.
  - unfold xsub. rewrite xadd_opp. destruct (xadd a (xneg b)); simpl; congruence.
Qed.
Lemma mul_lub X Y a b z : endp X a -> endp Y b -> ivalid X -> ivalid Y ->
  (forall x y, isin X x -> isin Y y -> ub z (x * y)) -> xmul a b <> Xn -> xle (xmul a b) z.
Proof.
  intros Ea Eb VX VY H N.
  apply xle_neg. rewrite <- xmul_opp_l.
  apply (mul_glb (ineg X) Y); auto using endp_neg, (valid_neg OK).
  - intros x y Hx Hy. apply (isin_neg_iff OK) in Hx; auto. apply lb_xneg. replace (- (x * y)) with (- x * y) by ring. auto.
  - rewrite xmul_opp_l. destruct (xmul a b); simpl; congruence.
Qed.
Lemma div_lub X Y a b z : endp X a -> endp Y b -> ivalid X -> ivalid Y ->
  (forall x y, isin X x -> isin Y y -> ub z (x / y)) -> b <> XR 0 -> xdiv a b <> Xn -> xle (xdiv a b) z.
Proof.
  intros Ea Eb VX VY H Nb N.
  apply xle_neg. rewrite <- xdiv_opp_l.
  apply (div_glb (ineg X) Y); auto using endp_neg, (valid_neg OK).
  - intros x y Hx Hy. apply (isin_neg_iff OK) in Hx; auto. apply lb_xneg. replace (- (x / y)) with (- x / y) by (unfold Rdiv; ring). auto.
  - rewrite xdiv_opp_l. destruct (xdiv a b); simpl; congruence.
Qed.

(* from bounds on the ends to inclusion of intervals *)
Definition encl2 X Y Z (f : R -> R -> R) := forall x y, isin X x -> isin Y y -> isin Z (f x y).
Lemma ends_incl X Z : (exists r, isin Z r) -> xle (sval (lo Z)) (sval (lo X)) -> xle (sval (hi X)) (sval (hi Z)) ->
  forall r, isin X r -> isin Z r.
Proof.
  intros (z & W1 & W2 & _) L U r (_ & _ & Lr & Ur). split; auto. split; auto. split.
  - eapply lb_xle; eauto. - eapply ub_xle; eauto.
Qed.

Lemma tight_add X Y Z : ivalid X -> ivalid Y -> encl2 X Y Z Rplus -> forall r, isin (iadd X Y) r -> isin Z r.
Proof.
  intros VX VY H. destruct (valid_isin X VX) as [x0 I0], (valid_isin Y VY) as [y0 J0].
  pose proof VX as (_ & _ & LX & HX & _). pose proof VY as (_ & _ & LY & HY & _).
  apply ends_incl; [eauto| |]; cbn [iadd lo hi].
  - apply (be_addd _ BE). apply (add_glb X Y); auto using endp_lo.
    + intros x y Hx Hy. apply (H x y Hx Hy).
    + destruct (sval (lo X)), (sval (lo Y)); simpl in *; congruence || tauto.
  - apply (be_addu _ BE). apply (add_lub X Y); auto using endp_hi.
    + intros x y Hx Hy. apply (H x y Hx Hy).
    + destruct (sval (hi X)), (sval (hi Y)); simpl in *; congruence || tauto.
Qed.
Lemma tight_sub X Y Z : ivalid X -> ivalid Y -> encl2 X Y Z Rminus -> forall r, isin (isub X Y) r -> isin Z r.
Proof.
  intros VX VY H. destruct (valid_isin X VX) as [x0 I0], (valid_isin Y VY) as [y0 J0].
  pose proof VX as (_ & _ & LX & HX & _). pose proof VY as (_ & _ & LY & HY & _).
  apply ends_incl; [eauto| |]; cbn [isub lo hi].
  - apply (be_subd _ BE). apply (sub_glb X Y); auto using endp_lo, endp_hi.
    + intros x y Hx Hy. apply (H x y Hx Hy).
    + destruct (sval (lo X)), (sval (hi Y)); simpl in *; congruence || tauto.
  - apply (be_subu _ BE). apply (sub_lub X Y); auto using endp_hi, endp_lo.
    + intros x y Hx Hy. apply (H x y Hx Hy).
    + destruct (sval (hi X)), (sval (lo Y)); simpl in *; congruence || tauto.
Qed.

(* one end of a product *)
Lemma muld_ok X Y Z (a b : S) : endp X (sval a) -> endp Y (sval b) -> ivalid X -> ivalid Y -> encl2 X Y Z Rmult ->
  sval (muld a b) = Xn \/ xle (sval (lo Z)) (sval (muld a b)).
Proof.
  intros Ea Eb VX VY H. destruct (sval (muld a b)) eqn:E; auto; right; rewrite <- E;
  (apply (be_muld _ BE); apply (mul_glb X Y); auto; [intros; apply H; auto|intros N; apply (be_muln _ BE) in N; destruct N; congruence]).
Qed.
Lemma mulu_ok X Y Z (a b : S) : endp X (sval a) -> endp Y (sval b) -> ivalid X -> ivalid Y -> encl2 X Y Z Rmult ->
  sval (mulu a b) = Xn \/ xle (sval (mulu a b)) (sval (hi Z)).
Proof.
  intros Ea Eb VX VY H. destruct (sval (mulu a b)) eqn:E; auto; right; rewrite <- E;
  (apply (be_mulu _ BE); apply (mul_lub X Y); auto; [intros; apply H; auto|intros N; apply (be_muln _ BE) in N; destruct N; congruence]).
Qed.
Lemma divd_ok X Y Z (a b : S) : endp X (sval a) -> endp Y (sval b) -> ivalid X -> ivalid Y -> sval b <> XR 0 -> encl2 X Y Z Rdiv ->
  sval (divd a b) = Xn \/ xle (sval (lo Z)) (sval (divd a b)).
Proof.
  intros Ea Eb VX VY N0 H. destruct (sval (divd a b)) eqn:E; auto; right; rewrite <- E;
  (apply (be_divd _ BE); auto; apply (div_glb X Y); auto; [intros; apply H; auto|intros N; apply (be_divn _ BE) in N; auto; destruct N; congruence]).
Qed.
Lemma divu_ok X Y Z (a b : S) : endp X (sval a) -> endp Y (sval b) -> ivalid X -> ivalid Y -> sval b <> XR 0 -> encl2 X Y Z Rdiv ->
  sval (divu a b) = Xn \/ xle (sval (divu a b)) (sval (hi Z)).
Proof.
  intros Ea Eb VX VY N0 H. destruct (sval (divu a b)) eqn:E; auto; right; rewrite <- E;
  (apply (be_divu _ BE); auto; apply (div_lub X Y); auto; [intros; apply H; auto|intros N; apply (be_divn _ BE) in N; auto; destruct N; congruence]).
Qed.
Lemma mk_incl Q Z : ivalid Q -> (exists r, isin Z r) ->
  (sval (lo Q) = Xn \/ xle (sval (lo Z)) (sval (lo Q))) -> (sval (hi Q) = Xn \/ xle (sval (hi Q)) (sval (hi Z))) ->
  forall r, isin Q r -> isin Z r.
Proof.
  intros (_ & _ & L & U & _) E HL HU. apply ends_incl; auto.
  - destruct HL as [N|]; auto. rewrite N in L. elim L.
  - destruct HU as [N|]; auto. rewrite N in U. elim U.
Qed.
Lemma i0_incl X Y Z : (exists x y, isin X x /\ isin Y y /\ x * y = 0) -> encl2 X Y Z Rmult -> forall r, isin (@i0 S) r -> isin Z r.
Proof.
  intros (x & y & Hx & Hy & E) H r (_ & _ & L & U). unfold i0 in L, U. cbn [lo hi] in L, U. rewrite (val0 OK) in L, U. simpl in L, U.
  replace r with (x * y) by lra. auto.
Qed.
Lemma tight_mul X Y Z : ivalid X -> ivalid Y -> encl2 X Y Z Rmult -> forall r, isin (imul X Y) r -> isin Z r.
Proof.
  intros VX VY H. pose proof (valid_mul OK X Y VX VY) as VQ. revert VQ.
  destruct (valid_isin X VX) as [x0 I0], (valid_isin Y VY) as [y0 J0].
  assert (NE : exists r, isin Z r) by eauto.
  pose proof (endp_lo X VX) as X1. pose proof (endp_hi X VX) as X2. pose proof (endp_lo Y VY) as Y1. pose proof (endp_hi Y VY) as Y2.
  assert (ZX : seqb (hi X) s0 = true -> exists x y, isin X x /\ isin Y y /\ x * y = 0).
  { intros E. apply (eq0_true OK) in E; [|apply VX]. exists 0, y0. split; [|split; [auto|ring]]. apply (valid_hi_att X 0 VX E). }
  assert (ZY : seqb (hi Y) s0 = true -> exists x y, isin X x /\ isin Y y /\ x * y = 0).
  { intros E. apply (eq0_true OK) in E; [|apply VY]. exists x0, 0. split; [auto|split; [|ring]]. apply (valid_hi_att Y 0 VY E). }
  unfold imul. cbv zeta.
  repeat match goal with
  | |- ivalid (if ?c then _ else _) -> _ => destruct c eqn:?
  end; intros VQ;
  try (apply (i0_incl X Y Z); auto; fail);
  (apply mk_incl; auto; cbn [lo hi]); try match goal with |- context [slt ?p ?q] => destruct (slt p q) end;
  first [apply (muld_ok X Y)|apply (mulu_ok X Y)]; auto.
Qed.
Lemma nz_of_valid Y (b : S) : ivalid Y -> ~ isin Y 0 -> endp Y (sval b) -> sval b <> XR 0.
Proof. intros V N E E0. rewrite E0 in E. simpl in E. auto. Qed.
Lemma tight_div X Y Q Z : ivalid X -> ivalid Y -> idiv X Y = Ok Q -> encl2 X Y Z Rdiv -> forall r, isin Q r -> isin Z r.
Proof.
  intros VX VY EQ H. pose proof (valid_div OK X Y Q VX VY EQ) as VQ.
  assert (N0 : ~ isin Y 0). { intros I. apply (idiv_throws OK X Y VY) in I. congruence. }
  revert EQ VQ.
  destruct (valid_isin X VX) as [x0 I0], (valid_isin Y VY) as [y0 J0].
  assert (NE : exists r, isin Z r) by eauto.
  pose proof (endp_lo X VX) as X1. pose proof (endp_hi X VX) as X2. pose proof (endp_lo Y VY) as Y1. pose proof (endp_hi Y VY) as Y2.
  pose proof (nz_of_valid Y _ VY N0 Y1) as N1. pose proof (nz_of_valid Y _ VY N0 Y2) as N2.
  unfold idiv.
  repeat match goal with
  | |- (if ?c then _ else _) = _ -> _ => destruct c eqn:?
  | |- Ok (if ?c then _ else _) = _ -> _ => destruct c eqn:?
  end; intros EQ VQ; try discriminate; injection EQ as EQ; subst Q;
  (apply mk_incl; auto; cbn [lo hi]); first [apply (divd_ok X Y)|apply (divu_ok X Y)]; auto.
Qed.
Lemma tight_sqrt X Q Z : ivalid X -> isqrt X = Ok Q -> (forall x, isin X x -> isin Z (sqrt x)) -> forall r, isin Q r -> isin Z r.
Proof.
  intros VX EQ H. destruct (valid_isin X VX) as [x0 I0].
  pose proof (endp_lo X VX) as X1. pose proof (endp_hi X VX) as X2.
  assert (P : forall x, isin X x -> 0 <= x) by (intros; apply (isin_sqrt OK X Q x EQ); auto).
  unfold isqrt in EQ. destruct slt; [discriminate|]. injection EQ as <-.
  apply ends_incl; [eauto| |]; cbn [lo hi].
  - apply (be_sqrd _ BE). destruct (sval (lo X)) as [a| | |] eqn:E; simpl in X1.
    + simpl. rewrite Rlt_bool_false by auto. apply lb_xle_pt. apply H; auto.
    + pose proof VX as (_ & _ & L & _). rewrite E in L. elim L.
    + destruct (X1 (-1)) as (x & Hx & L). specialize (P x Hx). lra.
    + elim X1.
  - apply (be_sqru _ BE). destruct (sval (hi X)) as [a| | |] eqn:E; simpl in X2.
    + simpl. rewrite Rlt_bool_false by auto. apply ub_xle_pt. apply H; auto.
    + simpl. destruct (sval (hi Z)) as [t| | |] eqn:EZ; simpl; auto.
      * destruct (X2 (Rmax 1 (t * t + 1))) as (x & Hx & L). specialize (H x Hx). destruct H as (_ & _ & _ & U). rewrite EZ in U. simpl in U.
        pose proof (Rmax_l 1 (t * t + 1)). pose proof (Rmax_r 1 (t * t + 1)).
        pose proof (sqrt_sqrt x ltac:(lra)). pose proof (sqrt_pos x). nra.
      * destruct (H x0 I0) as (_ & _ & _ & U). rewrite EZ in U. auto.
      * destruct (H x0 I0) as (_ & _ & _ & U). rewrite EZ in U. auto.
    + pose proof VX as (_ & _ & _ & L & _). rewrite E in L. elim L.
    + elim X2.
Qed.

(* inclusion isotonicity *)
Definition sub_iv X Y := forall r, isin X r -> isin Y r.
Lemma iso_add X1 X2 Y1 Y2 : ivalid X1 -> ivalid Y1 -> sub_iv X1 X2 -> sub_iv Y1 Y2 -> sub_iv (iadd X1 Y1) (iadd X2 Y2).
Proof. intros V W HX HY. intros r; apply tight_add; auto. intros x y Hx Hy. apply (isin_add OK); auto. Qed.
Lemma iso_sub X1 X2 Y1 Y2 : ivalid X1 -> ivalid Y1 -> sub_iv X1 X2 -> sub_iv Y1 Y2 -> sub_iv (isub X1 Y1) (isub X2 Y2).
Proof. intros V W HX HY. intros r; apply tight_sub; auto. intros x y Hx Hy. apply (isin_sub OK); auto. Qed.
Lemma iso_mul X1 X2 Y1 Y2 : ivalid X1 -> ivalid Y1 -> sub_iv X1 X2 -> sub_iv Y1 Y2 -> sub_iv (imul X1 Y1) (imul X2 Y2).
Proof. intros V W HX HY. intros r; apply tight_mul; auto. intros x y Hx Hy. apply (isin_mul OK); auto. Qed.
Lemma iso_div X1 X2 Y1 Y2 Q2 : ivalid X1 -> ivalid Y1 -> sub_iv X1 X2 -> sub_iv Y1 Y2 -> idiv X2 Y2 = Ok Q2 ->
  exists Q1, idiv X1 Y1 = Ok Q1 /\ sub_iv Q1 Q2.
Proof.
  intros V W HX HY E. destruct (valid_isin X1 V) as [x0 I0], (valid_isin Y1 W) as [y0 J0].
  assert (V2 : ivalid Y2) by (eapply isin_valid; eauto).
  assert (N0 : ~ isin Y1 0). { intros I. apply HY in I. apply (idiv_throws OK X2 Y2 V2) in I. congruence. }
  destruct (idiv_total OK X1 Y1 W N0) as [Q1 E1]. exists Q1; split; auto.
  intros r; eapply (tight_div X1 Y1); eauto. intros x y Hx Hy. eapply (isin_div OK); eauto.
Qed.
Lemma iso_sqrt X1 X2 Q2 : ivalid X1 -> sub_iv X1 X2 -> isqrt X2 = Ok Q2 -> exists Q1, isqrt X1 = Ok Q1 /\ sub_iv Q1 Q2.
Proof.
  intros V HX E. destruct (isqrt_total OK X1 V) as [Q1 E1].
  { intros x Hx. apply (isin_sqrt OK X2 Q2 x E); auto. }
  exists Q1; split; auto. intros r; eapply (tight_sqrt X1); eauto. intros x Hx. eapply (isin_sqrt OK); eauto.
Qed.
Lemma iso_neg X1 X2 : ivalid X1 -> sub_iv X1 X2 -> sub_iv (ineg X1) (ineg X2).
Proof.
  intros V H r Hr. apply (isin_neg_iff OK) in Hr; auto. apply H in Hr. replace r with (- - r) by ring. apply (isin_neg OK); auto.
Qed.
Lemma iso_abs X1 X2 : ivalid X1 -> sub_iv X1 X2 -> sub_iv (iabs X1) (iabs X2).
Proof.
  intros V H r Hr. apply (isin_abs OK) in Hr; auto. destruct Hr as (x & Hx & ->). apply H in Hx. apply (isin_abs OK); eauto.
  eapply isin_valid; eauto.
Qed.
Lemma iso_max X1 X2 Y1 Y2 : ivalid X1 -> ivalid Y1 -> sub_iv X1 X2 -> sub_iv Y1 Y2 -> sub_iv (imax X1 Y1) (imax X2 Y2).
Proof.
  intros V W H H' r Hr. apply (isin_max OK) in Hr; auto. destruct Hr as (x & y & Hx & Hy & ->). apply H in Hx. apply H' in Hy.
  apply (isin_max OK); [eapply isin_valid; eauto|eapply isin_valid; eauto|eauto].
Qed.
Lemma iso_min X1 X2 Y1 Y2 : ivalid X1 -> ivalid Y1 -> sub_iv X1 X2 -> sub_iv Y1 Y2 -> sub_iv (imin X1 Y1) (imin X2 Y2).
Proof.
  intros V W H H' r Hr. apply (isin_min OK) in Hr; auto. destruct Hr as (x & y & Hx & Hy & ->). apply H in Hx. apply H' in Hy.
  apply (isin_min OK); [eapply isin_valid; eauto|eapply isin_valid; eauto|eauto].
Qed.
End Tight.
