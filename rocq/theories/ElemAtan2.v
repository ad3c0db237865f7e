(* atan2 encloses the angle of every point other than the origin. *)
From Coq Require Import Reals Lra Lia Psatz ZArith Bool List.
From Flocq Require Import Core.
From Verif Require Import Ext Scalar IntervalModel IntervalSpec IntervalProofs IntervalEncl IntervalSets IntervalDivPow IntervalMore ElemModel RealFun RealConst RealInv ElemGen ElemExp ElemLog ElemTrig.
Open Scope R_scope.

(* the principal angle of (x, y), in (-pi, pi] *)
Definition ratan2 (y x : R) : R :=
  if Rlt_dec 0 x then atan (y / x)
  else if Rlt_dec x 0 then if Rle_dec 0 y then PI + atan (y / x) else - PI + atan (y / x)
  else if Rlt_dec 0 y then PI / 2 else - PI / 2.

Lemma ratan2_rt y x : 0 < x -> ratan2 y x = atan (y / x).
Proof. intros. unfold ratan2. destruct (Rlt_dec 0 x); [auto|lra]. Qed.
Lemma ratan2_lfp y x : x < 0 -> 0 <= y -> ratan2 y x = PI + atan (y / x).
Proof. intros. unfold ratan2. destruct (Rlt_dec 0 x); [lra|]. destruct (Rlt_dec x 0); [|lra]. destruct (Rle_dec 0 y); [auto|lra]. Qed.
Lemma ratan2_lfm y x : x < 0 -> y < 0 -> ratan2 y x = - PI + atan (y / x).
Proof. intros. unfold ratan2. destruct (Rlt_dec 0 x); [lra|]. destruct (Rlt_dec x 0); [|lra]. destruct (Rle_dec 0 y); [lra|auto]. Qed.
Lemma quot_pos a b : 0 < a -> 0 < b -> 0 < a / b.
Proof. intros. apply Rmult_lt_0_compat; auto. now apply Rinv_0_lt_compat. Qed.
Lemma ratan2_up y x : 0 < y -> ratan2 y x = PI / 2 - atan (x / y).
Proof.
  intros H. destruct (Rtotal_order x 0) as [K|[-> |K]].
  - rewrite ratan2_lfp by lra. assert (y / x < 0) by (replace (y / x) with (- (y / - x)) by (field; lra); pose proof (quot_pos y (- x) H ltac:(lra)); lra).
    rewrite at1 by lra. replace (1 / (y / x)) with (x / y) by (field; lra). lra.
  - unfold ratan2. destruct (Rlt_dec 0 0); [lra|]. destruct (Rlt_dec 0 y); [|lra]. replace (0 / y) with 0 by (field; lra). rewrite atan_0. lra.
  - rewrite ratan2_rt by lra. rewrite at5 by now apply quot_pos. replace (1 / (y / x)) with (x / y) by (field; lra). lra.
Qed.
Lemma ratan2_dn y x : y < 0 -> ratan2 y x = - PI / 2 - atan (x / y).
Proof.
  intros H. destruct (Rtotal_order x 0) as [K|[-> |K]].
  - rewrite ratan2_lfm by lra. assert (0 < y / x) by (replace (y / x) with (- y / - x) by (field; lra); apply quot_pos; lra).
    rewrite at5 by lra. replace (1 / (y / x)) with (x / y) by (field; lra). lra.
  - unfold ratan2. destruct (Rlt_dec 0 0); [lra|]. destruct (Rlt_dec 0 y); [lra|]. replace (0 / y) with 0 by (field; lra). rewrite atan_0. lra.
  - rewrite ratan2_rt by lra. assert (y / x < 0) by (replace (y / x) with (- (- y / x)) by (field; lra); pose proof (quot_pos (- y) x ltac:(lra) K); lra).
    rewrite at1 by lra. replace (1 / (y / x)) with (x / y) by (field; lra). lra.
Qed.
Lemma ratan2_range y x : x <> 0 \/ y <> 0 -> - PI < ratan2 y x <= PI.
Proof.
  intros H. pose proof PI_RGT_0. destruct (Rtotal_order y 0) as [K|[-> |K]].
  - rewrite ratan2_dn by auto. pose proof (atan_lt_pih (x / y)). lra.
  - destruct (Rtotal_order x 0) as [K|[-> |K]]; [|tauto|].
    + rewrite ratan2_lfp by lra. unfold Rdiv. rewrite Rmult_0_l, atan_0. lra.
    + rewrite ratan2_rt by lra. unfold Rdiv. rewrite Rmult_0_l, atan_0. lra.
  - rewrite ratan2_up by auto. pose proof (atan_lt_pih (x / y)). lra.
Qed.
(* ratan2 y x is an angle of the point (x, y) *)
Lemma cos_atan_r q : cos (atan q) = / sqrt (1 + q²).
Proof. rewrite cos_atan. field. apply Rgt_not_eq, sqrt_lt_R0. pose proof (Rle_0_sqr q). lra. Qed.
Lemma sq_scale a b : 0 < a -> sqrt (a * a + b * b) = a * sqrt (1 + (b / a)²).
Proof.
  intros H. rewrite <- (sqrt_Rsqr a) at 3 by lra. rewrite <- sqrt_mult_alt by apply Rle_0_sqr. f_equal. unfold Rsqr. field. lra.
Qed.
Lemma ratan2_angle y x : x <> 0 \/ y <> 0 ->
  x = sqrt (x * x + y * y) * cos (ratan2 y x) /\ y = sqrt (x * x + y * y) * sin (ratan2 y x).
Proof.
  intros H. assert (Q : forall q, 0 < sqrt (1 + q²)) by (intros q; apply sqrt_lt_R0; pose proof (Rle_0_sqr q); lra).
  destruct (Rtotal_order x 0) as [K|[-> |K]].
  - assert (E : sqrt (x * x + y * y) = - x * sqrt (1 + (y / x)²)).
    { replace (x * x + y * y) with ((- x) * (- x) + (- y) * (- y)) by ring. rewrite sq_scale by lra. replace (- y / - x) with (y / x) by (field; lra). auto. }
    rewrite E. pose proof (Q (y / x)) as QQ. destruct (Rle_dec 0 y) as [Y|Y].
    + rewrite ratan2_lfp by lra. rewrite (Rplus_comm PI), neg_cos, neg_sin, cos_atan_r, sin_atan. split; field; repeat split; lra.
    + rewrite ratan2_lfm by lra. replace (- PI + atan (y / x)) with (- (PI + - atan (y / x))) by ring.
      rewrite cos_neg, sin_neg, (Rplus_comm PI), neg_cos, neg_sin, cos_neg, sin_neg, cos_atan_r, sin_atan. split; field; repeat split; lra.
  - rewrite Rmult_0_l, Rplus_0_l. destruct (Rtotal_order y 0) as [Y|[-> |Y]]; [|tauto|].
    + rewrite ratan2_dn by lra. replace (0 / y) with 0 by (field; lra). rewrite atan_0. replace (- PI / 2 - 0) with (- (PI / 2)) by lra.
      rewrite cos_neg, sin_neg, cos_PI2, sin_PI2. replace (y * y) with ((- y)²) by (unfold Rsqr; ring). rewrite sqrt_Rsqr by lra. lra.
    + rewrite ratan2_up by lra. replace (0 / y) with 0 by (field; lra). rewrite atan_0, Rminus_0_r, cos_PI2, sin_PI2.
      replace (y * y) with (y²) by (unfold Rsqr; ring). rewrite sqrt_Rsqr by lra. lra.
  - rewrite ratan2_rt by lra. rewrite sq_scale by lra. rewrite cos_atan_r, sin_atan. pose proof (Q (y / x)). split; field; lra.
Qed.

Definition xatan2 (y x : ext) : R :=
  match y, x with
  | XR y, XR x => ratan2 y x
  | XR y, Xm => if Rle_dec 0 y then PI else - PI
  | Xp, _ => PI / 2 | Xm, _ => - PI / 2
  | _, _ => 0
  end.
Definition xpt (y x : ext) : Prop :=
  match y, x with
  | XR y, XR x => x <> 0 \/ y <> 0
  | XR _, (Xp | Xm) | (Xp | Xm), XR _ => True
  | _, _ => False
  end.
Lemma quot_le n d n' d' : 0 < d * d' -> n * d' <= n' * d -> n / d <= n' / d'.
Proof.
  intros H K. assert (d <> 0) by (intros ->; lra). assert (d' <> 0) by (intros ->; lra).
  apply Rmult_le_reg_r with (d * d'); auto. replace (n / d * (d * d')) with (n * d') by (field; auto).
  replace (n' / d' * (d * d')) with (n' * d) by (field; auto). auto.
Qed.
Lemma atan_le n d n' d' : 0 < d * d' -> n * d' <= n' * d -> atan (n / d) <= atan (n' / d').
Proof. intros. apply atan_mono. now apply quot_le. Qed.
Lemma atan_ge0 n d : 0 <= n * d -> d <> 0 -> 0 <= atan (n / d).
Proof.
  intros H K. rewrite <- atan_0. apply atan_mono. replace (n / d) with ((n * d) / (d * d)) by (field; auto).
  apply Rmult_le_pos; auto. left. apply Rinv_0_lt_compat. nra.
Qed.
Lemma atan_le0 n d : n * d <= 0 -> d <> 0 -> atan (n / d) <= 0.
Proof.
  intros H K. pose proof (atan_ge0 (- n) d ltac:(lra) K) as E. replace (- n / d) with (- (n / d)) in E by (field; auto). rewrite atan_opp in E. lra.
Qed.

Section ElemAtan2.
Context {S : scal} (OK : scal_ok S) (P : elemp S) (L : trig_laws S P).
Notation iv := (iv S).
Implicit Types (X Y Q : iv) (x : R).
Notation PII := (tl_pi _ _ L).
Local Ltac inv H := apply bind_ok in H as (? & ? & H).

Lemma idiv_pt (a b : S) Q : idiv (ipt a) (ipt b) = Ok Q -> Q = mkiv (divd a b) (divu a b).
Proof.
  unfold idiv. simpl. destruct (slt s0 b); [|destruct (slt b s0); [|discriminate]];
    destruct (sle s0 a); try destruct (sle a s0); intros H; injection H as <-; auto.
Qed.
Lemma idiv_inf (a b : S) v Q : swf a -> swf b -> sval a = XR v -> sval b = Xp \/ sval b = Xm -> idiv (ipt a) (ipt b) = Ok Q -> isin Q 0.
Proof.
  intros Wa Wb Ea Eb H. apply idiv_pt in H as ->.
  destruct (ok_divd _ OK a b) as [W1 D1]; auto; [destruct Eb as [-> | ->]; discriminate|].
  destruct (ok_divu _ OK a b) as [W2 D2]; auto; [destruct Eb as [-> | ->]; discriminate|].
  rewrite Ea in D1, D2. apply isin_ends; simpl; auto.
  - apply xdown_lb. destruct Eb as [E|E]; rewrite E in D1; exact D1.
  - apply xup_ub. destruct Eb as [E|E]; rewrite E in D2; exact D2.
Qed.
Lemma isin_pih : isin (imulS (c_pi P) shalf) (PI / 2).
Proof. replace (PI / 2) with (PI * / 2) by lra. apply isin_half; auto. apply PII. Qed.
Lemma isin_mpih : isin (imulS (ineg (c_pi P)) shalf) (- PI / 2).
Proof. replace (- PI / 2) with (- PI * / 2) by lra. apply isin_half; auto. apply isin_neg; auto. apply PII. Qed.
Lemma isin_mpi : isin (ineg (c_pi P)) (- PI).
Proof. apply isin_neg; auto. apply PII. Qed.

Lemma atan2_point_ok f (y x : S) Q : swf y -> swf x -> xpt (sval y) (sval x) -> atan2_point S P f y x = Ok Q ->
  isin Q (xatan2 (sval y) (sval x)).
Proof.
  intros Wy Wx D H. unfold atan2_point in H.
  assert (Z : isin (ipt (@s0 S)) 0) by (apply isin_0; auto).
  assert (TY : forall a, sval y = XR a -> (sle s0 y = true <-> 0 <= a)).
  { intros a E. rewrite (ok_le _ OK); auto; [|apply s0_wf; auto]. rewrite (s0_v OK), E. simpl. tauto. }
  destruct (sval y) as [a| | |] eqn:Ey; destruct (sval x) as [b| | |] eqn:Ex; simpl in D; try tauto.
  - (* both finite *)
    assert (C1 : sle y x = true <-> a <= b) by (rewrite (ok_le _ OK), Ey, Ex by auto; simpl; tauto).
    assert (C2 : slt (sneg x) y = true <-> - b < a).
    { rewrite (ok_lt _ OK), (sneg_v OK), Ey, Ex by auto using sneg_wf. simpl. tauto. }
    assert (C3 : slt x y = true <-> b < a) by (rewrite (ok_lt _ OK), Ey, Ex by auto; simpl; tauto).
    assert (C4 : sle y (sneg x) = true <-> a <= - b).
    { rewrite (ok_le _ OK), (sneg_v OK), Ey, Ex by auto using sneg_wf. simpl. tauto. }
    pose proof (isin_pt _ _ Wy Ey) as HY. pose proof (isin_pt _ _ Wx Ex) as HX. cbn [xatan2].
    destruct (sle y x && slt (sneg x) y) eqn:B1.
    { apply andb_true_iff in B1 as [B1 B1']. apply C1 in B1. apply C2 in B1'. inv H.
      destruct (isin_div OK _ _ _ _ _ H0 HY HX) as [_ K]. rewrite ratan2_rt by lra. eapply iatan_encl; eauto. }
    destruct (slt x y && slt (sneg x) y) eqn:B2.
    { apply andb_true_iff in B2 as [B2 B2']. apply C3 in B2. apply C2 in B2'. inv H. inv H. injection H as <-.
      destruct (isin_div OK _ _ _ _ _ H0 HX HY) as [_ K]. rewrite ratan2_up by lra. apply isin_sub; auto using isin_pih. eapply iatan_encl; eauto. }
    destruct (slt x y && sle y (sneg x)) eqn:B3.
    { apply andb_true_iff in B3 as [B3 B3']. apply C3 in B3. apply C4 in B3'. inv H. inv H.
      destruct (isin_div OK _ _ _ _ _ H0 HY HX) as [_ K].
      pose proof (TY _ eq_refl) as TY'. destruct (sle s0 y) eqn:SG; injection H as <-.
      - assert (0 <= a) by now apply TY'. rewrite ratan2_lfp by lra. apply isin_add; auto using PII. eapply iatan_encl; eauto.
      - assert (~ 0 <= a) by (intros G; apply TY' in G; congruence). rewrite ratan2_lfm by lra. apply isin_add; auto using isin_mpi. eapply iatan_encl; eauto. }
    inv H. inv H. injection H as <-.
    destruct (isin_div OK _ _ _ _ _ H0 HX HY) as [_ K].
    assert (a < 0).
    { assert (D' : b < 0 \/ b > 0 \/ a < 0 \/ a > 0) by (destruct D as [D|D]; apply Rdichotomy in D; tauto). clear D.
      apply andb_false_iff in B1, B2, B3. assert (N : forall (c : bool) A, (c = true <-> A) -> c = false -> ~ A) by (intros c A I -> T; apply I in T; discriminate).
      repeat match goal with [K : _ \/ _ |- _] => destruct K as [K|K] end;
      repeat match goal with
      | [K : sle y x = false |- _] => apply (N _ _ C1) in K | [K : slt (sneg x) y = false |- _] => apply (N _ _ C2) in K
      | [K : slt x y = false |- _] => apply (N _ _ C3) in K | [K : sle y (sneg x) = false |- _] => apply (N _ _ C4) in K end;
      lra. }
    rewrite ratan2_dn by lra. apply isin_sub; auto using isin_mpih. eapply iatan_encl; eauto.
  - (* x = +inf *)
    assert (sle y x = true) as C1 by (apply (ok_le _ OK); auto; rewrite Ey, Ex; simpl; auto).
    assert (slt (sneg x) y = true) as C2 by (apply (ok_lt _ OK); auto using sneg_wf; rewrite (sneg_v OK), Ey, Ex by auto; simpl; auto).
    rewrite C1, C2 in H. cbn [andb] in H. inv H. pose proof (idiv_inf _ _ _ _ Wy Wx Ey (or_introl Ex) H0) as K.
    cbn [xatan2]. rewrite <- atan_0. eapply iatan_encl; eauto.
  - (* x = -inf *)
    assert (sle y x = false) as C1 by (apply not_true_is_false; intros C; apply (ok_le _ OK) in C; auto; rewrite Ey, Ex in C; simpl in C; auto).
    assert (slt (sneg x) y = false) as C2 by (apply not_true_is_false; intros C; apply (ok_lt _ OK) in C; auto using sneg_wf; rewrite (sneg_v OK), Ey, Ex in C by auto; simpl in C; auto).
    assert (slt x y = true) as C3 by (apply (ok_lt _ OK); auto; rewrite Ey, Ex; simpl; auto).
    assert (sle y (sneg x) = true) as C4 by (apply (ok_le _ OK); auto using sneg_wf; rewrite (sneg_v OK), Ey, Ex by auto; simpl; auto).
    rewrite C1, C2, C3, C4 in H. cbn [andb] in H. inv H. pose proof (idiv_inf _ _ _ _ Wy Wx Ey (or_intror Ex) H0) as K. inv H.
    pose proof (iatan_encl OK _ L _ _ _ _ H1 K) as T. rewrite atan_0 in T. cbn [xatan2].
    pose proof (TY _ eq_refl) as TY'. destruct (sle s0 y) eqn:SG; injection H as <-; destruct (Rle_dec 0 a) as [G|G].
    + replace PI with (PI + 0) by ring. apply isin_add; auto using PII.
    + elim G. now apply TY'.
    + apply TY' in G. congruence.
    + replace (- PI) with (- PI + 0) by ring. apply isin_add; auto using isin_mpi.
  - (* y = +inf *)
    assert (sle y x = false) as C1 by (apply not_true_is_false; intros C; apply (ok_le _ OK) in C; auto; rewrite Ey, Ex in C; simpl in C; auto).
    assert (slt x y = true) as C3 by (apply (ok_lt _ OK); auto; rewrite Ey, Ex; simpl; auto).
    assert (slt (sneg x) y = true) as C2 by (apply (ok_lt _ OK); auto using sneg_wf; rewrite (sneg_v OK), Ey, Ex by auto; simpl; auto).
    rewrite C1, C2, C3 in H. cbn [andb] in H. inv H. pose proof (idiv_inf _ _ _ _ Wx Wy Ex (or_introl Ey) H0) as K. inv H. injection H as <-.
    pose proof (iatan_encl OK _ L _ _ _ _ H1 K) as T. rewrite atan_0 in T. cbn [xatan2].
    rewrite <- (Rminus_0_r (PI / 2)). apply isin_sub; auto using isin_pih.
  - (* y = -inf *)
    assert (slt x y = false) as C3 by (apply not_true_is_false; intros C; apply (ok_lt _ OK) in C; auto; rewrite Ey, Ex in C; simpl in C; auto).
    assert (slt (sneg x) y = false) as C2 by (apply not_true_is_false; intros C; apply (ok_lt _ OK) in C; auto using sneg_wf; rewrite (sneg_v OK), Ey, Ex in C by auto; simpl in C; auto).
    rewrite C2, C3 in H. rewrite andb_false_r in H. cbn [andb] in H. inv H. pose proof (idiv_inf _ _ _ _ Wx Wy Ex (or_intror Ey) H0) as K. inv H. injection H as <-.
    pose proof (iatan_encl OK _ L _ _ _ _ H1 K) as T. rewrite atan_0 in T. cbn [xatan2].
    rewrite <- (Rminus_0_r (- PI / 2)). apply isin_sub; auto using isin_mpih.
Qed.

Lemma not0 X x : isin X x -> zero_in X = false -> (slt s0 (lo X) = true /\ 0 < x /\ exists a, sval (lo X) = XR a /\ 0 < a <= x) \/
  (slt s0 (lo X) = false /\ x < 0 /\ exists b, sval (hi X) = XR b /\ x <= b < 0).
Proof.
  intros (A1 & A2 & A3 & A4) Z. unfold zero_in in Z. destruct (ok_s0 _ OK) as [W0 V0].
  destruct (slt s0 (lo X)) eqn:C.
  - left. apply (ok_lt _ OK) in C; auto. rewrite V0 in C. destruct (sval (lo X)) as [a| | |]; simpl in *; try tauto.
    split; auto. split; [lra|]. exists a. auto.
  - right. split; auto. apply (slt_false OK) in C; auto; try (rewrite V0; discriminate); [|destruct (sval (lo X)); simpl in A3; congruence || tauto].
    assert (sle (lo X) s0 = true) as T by (apply (ok_le _ OK); auto). rewrite T in Z. cbn [andb] in Z.
    apply (sle_false OK) in Z; auto; try (rewrite V0; discriminate); [|destruct (sval (hi X)); simpl in A4; congruence || tauto].
    rewrite V0 in Z. destruct (sval (hi X)) as [b| | |]; simpl in *; try tauto. split; [lra|]. exists b. auto.
Qed.

Lemma glue_ok a b r1 r2 r Q : (forall Z, a = Ok Z -> isin Z r1) -> (forall Z, b = Ok Z -> isin Z r2) -> r1 <= r <= r2 -> glue S a b = Ok Q -> isin Q r.
Proof. intros HA HB H G. unfold glue in G. inv G. inv G. injection G as <-. eapply isin_mk; eauto. Qed.

(* the branch past pi is taken exactly when the box crosses the negative real axis from below *)
Definition crosses Y X : bool := negb (zero_in X) && zero_in Y && negb (igtS X s0) && slt (lo Y) s0.
Lemma iatan2_encl f Y X y x Q : iatan2 S P f Y X = Ok Q -> isin Y y -> isin X x -> x <> 0 \/ y <> 0 ->
  isin Q (if crosses Y X then if Rlt_dec y 0 then ratan2 y x + 2 * PI else ratan2 y x else ratan2 y x).
Proof.
  intros H HY HX NZ. unfold iatan2 in H. unfold crosses, igtS in *. pose proof PI_RGT_0 as PP.
  destruct (ok_s0 _ OK) as [W0 V0].
  pose proof HY as (Y1 & Y2 & Y3 & Y4). pose proof HX as (X1 & X2 & X3 & X4).
  assert (ZX : zero_in X = true -> isin X 0) by (intros Z; apply (zero_in_spec OK X) in Z; auto; eapply isin_valid; eauto).
  assert (ZY : zero_in Y = true -> isin Y 0) by (intros Z; apply (zero_in_spec OK Y) in Z; auto; eapply isin_valid; eauto).
  assert (PT : forall a b Z, swf a -> swf b -> xpt (sval a) (sval b) -> atan2_point S P f a b = Ok Z -> isin Z (xatan2 (sval a) (sval b))) by (intros; eapply atan2_point_ok; eauto).
  destruct (zero_in X) eqn:CX.
  - cbn [negb andb]. specialize (ZX eq_refl). destruct ZX as (_ & _ & Z3 & Z4).
    destruct (zero_in Y) eqn:CY.
    { injection H as <-. pose proof (ratan2_range y x NZ) as RR. pose proof PII as (P1 & P2 & P3 & P4).
      apply isin_ends; simpl; auto using sneg_wf.
      - rewrite (sneg_v OK) by auto. destruct (sval (hi (c_pi P))); simpl in *; try tauto; lra.
      - eapply ub_le; [exact P4|lra]. }
    destruct (not0 _ _ HY CY) as [(EY & K & a & Ea & Ha)|(EY & K & b & Eb & Hb)]; rewrite EY in H.
    + assert (XX : forall z, (sval z = sval (hi X) \/ sval z = sval (lo X)) -> swf z -> forall Z, atan2_point S P f (lo Y) z = Ok Z -> isin Z (xatan2 (XR a) (sval z))).
      { intros z Ez Wz Z G. rewrite <- Ea. apply (PT (lo Y) z Z); auto. rewrite Ea. destruct Ez as [-> | ->].
        - destruct (sval (hi X)); simpl in *; auto; right; lra. - destruct (sval (lo X)); simpl in *; auto; right; lra. }
      refine (glue_ok _ _ _ _ _ _ (XX (hi X) (or_introl eq_refl) X2) (XX (lo X) (or_intror eq_refl) X1) _ H).
      rewrite (ratan2_up y x) by auto. pose proof (atan_lt_pih (x / y)). split.
      * destruct (sval (hi X)) as [c| | |]; simpl in *; try tauto; [|lra]. rewrite ratan2_up by lra.
        assert (atan (x / y) <= atan (c / a)) by (apply atan_le; nra). lra.
      * destruct (sval (lo X)) as [c| | |]; simpl in *; try tauto; [|destruct (Rle_dec 0 a); lra]. rewrite ratan2_up by lra.
        assert (atan (c / a) <= atan (x / y)) by (apply atan_le; nra). lra.
    + assert (XX : forall z, (sval z = sval (hi X) \/ sval z = sval (lo X)) -> swf z -> forall Z, atan2_point S P f (hi Y) z = Ok Z -> isin Z (xatan2 (XR b) (sval z))).
      { intros z Ez Wz Z G. rewrite <- Eb. apply (PT (hi Y) z Z); auto. rewrite Eb. destruct Ez as [-> | ->].
        - destruct (sval (hi X)); simpl in *; auto; right; lra. - destruct (sval (lo X)); simpl in *; auto; right; lra. }
      refine (glue_ok _ _ _ _ _ _ (XX (lo X) (or_intror eq_refl) X1) (XX (hi X) (or_introl eq_refl) X2) _ H).
      rewrite (ratan2_dn y x) by auto. pose proof (atan_lt_pih (x / y)). split.
      * destruct (sval (lo X)) as [c| | |]; simpl in *; try tauto; [|destruct (Rle_dec 0 b); lra]. rewrite ratan2_dn by lra.
        assert (atan (x / y) <= atan (c / b)) by (apply atan_le; nra). lra.
      * destruct (sval (hi X)) as [c| | |]; simpl in *; try tauto; [|lra]. rewrite ratan2_dn by lra.
        assert (atan (c / b) <= atan (x / y)) by (apply atan_le; nra). lra.
  - cbn [negb andb]. destruct (zero_in Y) eqn:CY.
    + specialize (ZY eq_refl). destruct ZY as (_ & _ & Z3 & Z4). cbn [andb].
      destruct (not0 _ _ HX CX) as [(EX & K & a & Ea & Ha)|(EX & K & b & Eb & Hb)]; rewrite EX in *; cbn [negb andb].
      * assert (XX : forall z, (sval z = sval (hi Y) \/ sval z = sval (lo Y)) -> swf z -> forall Z, atan2_point S P f z (lo X) = Ok Z -> isin Z (xatan2 (sval z) (XR a))).
        { intros z Ez Wz Z G. rewrite <- Ea. apply (PT z (lo X) Z); auto. rewrite Ea. destruct Ez as [-> | ->].
          - destruct (sval (hi Y)); simpl in *; auto; left; lra. - destruct (sval (lo Y)); simpl in *; auto; left; lra. }
        refine (glue_ok _ _ _ _ _ _ (XX (lo Y) (or_intror eq_refl) Y1) (XX (hi Y) (or_introl eq_refl) Y2) _ H).
        rewrite (ratan2_rt y x) by auto. pose proof (atan_lt_pih (y / x)). split.
        -- destruct (sval (lo Y)) as [c| | |]; simpl in *; try tauto; [|lra]. rewrite ratan2_rt by lra. apply atan_le; nra.
        -- destruct (sval (hi Y)) as [c| | |]; simpl in *; try tauto; [|lra]. rewrite ratan2_rt by lra. apply atan_le; nra.
      * assert (XX : forall z, (sval z = sval (hi Y) \/ sval z = sval (lo Y)) -> swf z -> forall Z, atan2_point S P f z (hi X) = Ok Z -> isin Z (xatan2 (sval z) (XR b))).
        { intros z Ez Wz Z G. rewrite <- Eb. apply (PT z (hi X) Z); auto. rewrite Eb. destruct Ez as [-> | ->].
          - destruct (sval (hi Y)); simpl in *; auto; left; lra. - destruct (sval (lo Y)); simpl in *; auto; left; lra. }
        assert (RV : (if Rlt_dec y 0 then ratan2 y x + 2 * PI else ratan2 y x) = PI + atan (y / x)).
        { destruct (Rlt_dec y 0); [rewrite ratan2_lfm by lra; lra|rewrite ratan2_lfp by lra; auto]. }
        assert (B1 : xatan2 (sval (hi Y)) (XR b) <= PI + atan (y / x)).
        { pose proof (atan_lt_pih (y / x)). destruct (sval (hi Y)) as [c| | |]; simpl in *; try tauto; [|lra].
          rewrite ratan2_lfp by lra. apply Rplus_le_compat_l. apply atan_le; nra. }
        destruct (slt (lo Y) s0) eqn:SY.
        { rewrite RV. apply (ok_lt _ OK) in SY; auto. rewrite V0 in SY.
          refine (glue_ok _ _ _ (2 * PI + xatan2 (sval (lo Y)) (XR b)) _ _ (XX (hi Y) (or_introl eq_refl) Y2) _ _ H).
          - intros Z G. inv G. injection G as <-. apply (isin_add OK); [|apply (XX (lo Y)); auto]. { destruct (sint_ok OK 2) as [S1 S2]; try lia. rewrite Rmult_comm. apply isin_mulS; auto using PII. }
          - split; auto. pose proof (atan_lt_pih (y / x)). destruct (sval (lo Y)) as [c| | |]; simpl in *; try tauto; [|lra].
            rewrite ratan2_lfm by lra. assert (atan (y / x) <= atan (c / b)) by (apply atan_le; nra). lra. }
        apply (slt_false OK) in SY; auto; try (rewrite V0; discriminate); [|destruct (sval (lo Y)); simpl in Y3; congruence || tauto].
        rewrite V0 in SY. assert (0 <= y) by (destruct (sval (lo Y)); simpl in *; try tauto; lra).
        destruct (Rlt_dec y 0); [lra|]. rewrite RV.
        refine (glue_ok _ _ _ _ _ _ (XX (hi Y) (or_introl eq_refl) Y2) (XX (lo Y) (or_intror eq_refl) Y1) _ H).
        split; auto. destruct (sval (lo Y)) as [c| | |]; simpl in *; try tauto. assert (c = 0) by lra. subst c.
        rewrite ratan2_lfp by lra. apply Rplus_le_compat_l. apply atan_le; nra.
    + cbn [andb].
      destruct (not0 _ _ HX CX) as [(EX & K & a & Ea & Ha)|(EX & K & b & Eb & Hb)]; rewrite EX in *; cbn [negb andb];
      destruct (not0 _ _ HY CY) as [(EY & K' & a' & Ea' & Ha')|(EY & K' & b' & Eb' & Hb')]; rewrite EY in *; cbn [negb andb].
      * refine (glue_ok _ _ (xatan2 (sval (lo Y)) (sval (hi X))) (xatan2 (sval (hi Y)) (sval (lo X))) _ _ _ _ _ H).
        -- intros Z. apply PT; auto. rewrite Ea'. destruct (sval (hi X)); simpl in *; auto; left; lra.
        -- intros Z. apply PT; auto. rewrite Ea. destruct (sval (hi Y)); simpl in *; auto; left; lra.
        -- rewrite Ea, Ea', (ratan2_rt y x) by auto. pose proof (atan_lt_pih (y / x)). split.
           ++ destruct (sval (hi X)) as [c| | |]; simpl in *; try tauto. rewrite ratan2_rt by lra. apply atan_le; nra. apply atan_ge0; nra.
           ++ destruct (sval (hi Y)) as [c| | |]; simpl in *; try tauto; [|lra]. rewrite ratan2_rt by lra. apply atan_le; nra.
      * refine (glue_ok _ _ (xatan2 (sval (lo Y)) (sval (lo X))) (xatan2 (sval (hi Y)) (sval (hi X))) _ _ _ _ _ H).
        -- intros Z. apply PT; auto. rewrite Ea. destruct (sval (lo Y)); simpl in *; auto; left; lra.
        -- intros Z. apply PT; auto. rewrite Eb'. destruct (sval (hi X)); simpl in *; auto; left; lra.
        -- rewrite Ea, Eb', (ratan2_rt y x) by auto. pose proof (atan_lt_pih (y / x)). split.
           ++ destruct (sval (lo Y)) as [c| | |]; simpl in *; try tauto; [|lra]. rewrite ratan2_rt by lra. apply atan_le; nra.
           ++ destruct (sval (hi X)) as [c| | |]; simpl in *; try tauto. rewrite ratan2_rt by lra. apply atan_le; nra. apply atan_le0; nra.
      * refine (glue_ok _ _ (xatan2 (sval (hi Y)) (sval (hi X))) (xatan2 (sval (lo Y)) (sval (lo X))) _ _ _ _ _ H).
        -- intros Z. apply PT; auto. rewrite Eb. destruct (sval (hi Y)); simpl in *; auto; left; lra.
        -- intros Z. apply PT; auto. rewrite Ea'. destruct (sval (lo X)); simpl in *; auto; left; lra.
        -- rewrite Eb, Ea', (ratan2_lfp y x) by lra. pose proof (atan_lt_pih (y / x)). split.
           ++ destruct (sval (hi Y)) as [c| | |]; simpl in *; try tauto; [|lra]. rewrite ratan2_lfp by lra. apply Rplus_le_compat_l, atan_le; nra.
           ++ destruct (sval (lo X)) as [c| | |]; simpl in *; try tauto. rewrite ratan2_lfp by lra. apply Rplus_le_compat_l, atan_le; nra.
              destruct (Rle_dec 0 a'); [|lra]. assert (atan (y / x) <= 0) by (apply atan_le0; nra). lra.
      * refine (glue_ok _ _ (xatan2 (sval (hi Y)) (sval (lo X))) (xatan2 (sval (lo Y)) (sval (hi X))) _ _ _ _ _ H).
        -- intros Z. apply PT; auto. rewrite Eb'. destruct (sval (lo X)); simpl in *; auto; left; lra.
        -- intros Z. apply PT; auto. rewrite Eb. destruct (sval (lo Y)); simpl in *; auto; left; lra.
        -- rewrite Eb, Eb', (ratan2_lfm y x) by lra. pose proof (atan_lt_pih (y / x)). split.
           ++ destruct (sval (lo X)) as [c| | |]; simpl in *; try tauto. rewrite ratan2_lfm by lra. apply Rplus_le_compat_l, atan_le; nra.
              destruct (Rle_dec 0 b'); [lra|]. assert (0 <= atan (y / x)) by (apply atan_ge0; nra). lra.
           ++ destruct (sval (lo Y)) as [c| | |]; simpl in *; try tauto; [|lra]. rewrite ratan2_lfm by lra. apply Rplus_le_compat_l, atan_le; nra.
Qed.
End ElemAtan2.
