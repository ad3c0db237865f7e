(* The Lobachevsky function: Euler's integral of log(2 sin t) over (0, pi/2), the reflection at pi/2, signs near 0.  Reals only. *)
From Coq Require Import Reals ZArith Bool List Lra Lia Psatz Arith.
From Coquelicot Require Import Coquelicot.
From Verif Require Import SingReal.
Open Scope R_scope.

Definition lsin (t : R) : R := ln (2 * sin t).
(* - the integral of log(2 sin t) from 0 to x for 0 <= x < pi, periodic and odd *)
Inductive is_lob : R -> R -> Prop :=
| Lob0 : is_lob 0 0
| Lobp x v : 0 < x < PI -> improper lsin 0 x v -> is_lob x (- v)
| Lobper x L : PI <= x -> is_lob (x - PI) L -> is_lob x L
| Lobneg x L : x < 0 -> is_lob (- x) L -> is_lob x (- L).
Lemma lob_0 L : is_lob 0 L -> L = 0.
Proof. intros H. pose proof PI_RGT_0. inversion H; subst; auto; lra. Qed.
Lemma lob_in x L : 0 < x < PI -> is_lob x L -> improper lsin 0 x (- L).
Proof. intros Hx H. inversion H; subst; try lra. now rewrite Ropp_involutive. Qed.
Lemma lob_unique x L L' : is_lob x L -> is_lob x L' -> L = L'.
Proof.
  intros H. revert L'. pose proof PI_RGT_0. induction H as [|x v Hx Hv|x L Hx K IH|x L Hx K IH]; intros L' H'.
  - symmetry. now apply lob_0.
  - apply (lob_in x L' Hx) in H'. rewrite (improper_unique lsin 0 x v (- L')); auto; lra.
  - inversion H'; subst; try lra. now apply IH.
  - inversion H' as [|?? X1 X2|?? X1 X2|x0 L0 X1 X2]; subst; try lra. now rewrite (IH L0).
Qed.
Lemma sin_p t : 0 < t < PI -> 0 < sin t.
Proof. intros H. apply sin_gt_0; lra. Qed.
Lemma lsin_cont t : 0 < t < PI -> continuous lsin t.
Proof. intros H. apply (ex_derive_continuous (V:=R_NormedModule)). unfold lsin. auto_derive. pose proof (sin_p t H). lra. Qed.
Lemma lsin_int u v : 0 < u < PI -> 0 < v < PI -> exists w, is_RInt lsin u v w.
Proof.
  intros Hu Hv. apply (ex_RInt_continuous lsin). intros z Hz. apply lsin_cont. split.
  - apply Rlt_le_trans with (Rmin u v); [apply Rmin_glb_lt; lra|apply Hz].
  - apply Rle_lt_trans with (Rmax u v); [apply Hz|apply Rmax_lub_lt; lra].
Qed.
(* an integral over (0, x) gives one over (0, y) *)
Lemma lsin_move x y v w : 0 < x < PI -> 0 < y < PI -> improper lsin 0 x v -> is_RInt lsin x y w -> improper lsin 0 y (v + w).
Proof.
  intros Hx Hy HV HW eps He. destruct (HV eps He) as (d & Hd & A). exists (Rmin d x). split; [apply Rmin_glb_lt; lra|]. intros u Hu Huy. pose proof (Rmin_l d x). pose proof (Rmin_r d x).
  destruct (A u ltac:(lra) ltac:(lra)) as (q & Iq & Lq). exists (q + w). split; [exact (is_RInt_Chasles lsin u x y q w Iq HW)|]. now replace (q + w - (v + w)) with (q - v) by ring.
Qed.
(* sin 2s = 2 sin s cos s *)
Lemma duplication u w : 0 < u < PI / 2 -> is_RInt lsin u (PI / 2) w -> exists p, is_RInt lsin (u / 2) (PI / 2 - u / 2) p /\ w = 2 * p.
Proof.
  intros Hu HW. pose proof PI_RGT_0. destruct (lsin_int (u / 2) (PI / 4)) as [p Ip]; try lra. destruct (lsin_int (PI / 4) (PI / 2 - u / 2)) as [q Iq]; try lra.
  exists (p + q). split; [exact (is_RInt_Chasles lsin (u / 2) (PI / 4) (PI / 2 - u / 2) p q Ip Iq)|].
  assert (I1 : is_RInt (fun s => 2 * lsin (2 * s)) (u / 2) (PI / 4) w).
  { apply (is_RInt_ext (fun s => Hierarchy.scal 2 (lsin (2 * s + 0)))); [intros s _; unfold Hierarchy.scal; simpl; unfold mult; simpl; now rewrite Rplus_0_r|].
    apply (is_RInt_comp_lin (V:=R_NormedModule) lsin 2 0 (u / 2) (PI / 4)). replace (2 * (u / 2) + 0) with u by field. replace (2 * (PI / 4) + 0) with (PI / 2) by field. exact HW. }
  assert (I2 : is_RInt (fun s => lsin (PI / 2 - s)) (u / 2) (PI / 4) q).
  { apply (is_RInt_ext (fun s => -1 * Hierarchy.scal (-1) (lsin (-1 * s + PI / 2)))).
    { intros s _. unfold Hierarchy.scal; simpl; unfold mult; simpl. replace (-1 * s + PI / 2) with (PI / 2 - s) by ring. ring. }
    replace q with (-1 * (- q)) by ring. apply (is_RInt_scal (V:=R_NormedModule) (fun s => Hierarchy.scal (-1) (lsin (-1 * s + PI / 2)))).
    apply (is_RInt_comp_lin (V:=R_NormedModule) lsin (-1) (PI / 2) (u / 2) (PI / 4)). replace (-1 * (u / 2) + PI / 2) with (PI / 2 - u / 2) by field. replace (-1 * (PI / 4) + PI / 2) with (PI / 4) by field.
    exact (is_RInt_swap (V:=R_NormedModule) lsin _ _ _ Iq). }
  assert (I3 : is_RInt (fun s => 2 * lsin (2 * s)) (u / 2) (PI / 4) (2 * (p + q))).
  { apply (is_RInt_ext (fun s => 2 * (lsin s + lsin (PI / 2 - s)))).
    - intros s Hs. rewrite Rmin_left, Rmax_right in Hs by lra. f_equal. unfold lsin. rewrite sin_2a, <- (cos_shift s). assert (0 < sin s) by (apply sin_p; lra). assert (0 < cos s) by (apply cos_gt_0; lra).
      rewrite <- ln_mult by (try rewrite cos_shift; rewrite ?sin_shift; lra). f_equal. rewrite cos_shift, sin_shift. ring.
    - apply (is_RInt_scal (V:=R_NormedModule) (fun s => lsin s + lsin (PI / 2 - s))). now apply (is_RInt_plus (V:=R_NormedModule)). }
  rewrite <- (is_RInt_unique _ _ _ _ I1). now apply is_RInt_unique.
Qed.
Lemma lsin_low t : PI / 6 <= t <= PI / 2 -> 0 <= lsin t <= 1.
Proof.
  intros Ht. pose proof PI_RGT_0. assert (S1 : / 2 <= sin t) by (rewrite <- (Rmult_1_l (/ 2)); change (1 * / 2) with (1 / 2); rewrite <- sin_PI6; apply sin_incr_1; lra). pose proof (SIN_bound t) as [_ S2]. unfold lsin. split.
  - rewrite <- ln_1. apply ln_le; lra.
  - pose proof (exp_ineq1 1 ltac:(lra)). rewrite <- (ln_exp 1). apply ln_le; lra.
Qed.
(* Euler *)
Lemma euler J : improper lsin 0 (PI / 2) J -> J = 0.
Proof.
  intros HJ. pose proof PI_RGT_0. destruct (Req_dec J 0) as [|N]; auto. exfalso. set (e := Rabs J / 8). assert (E0 : 0 < Rabs J) by (now apply Rabs_pos_lt). destruct (HJ e ltac:(unfold e; lra)) as (d & Hd & A).
  set (u := Rmin (Rmin d (PI / 4)) e / 2). pose proof (Rmin_l (Rmin d (PI / 4)) e). pose proof (Rmin_r (Rmin d (PI / 4)) e). pose proof (Rmin_l d (PI / 4)). pose proof (Rmin_r d (PI / 4)).
  assert (U0 : 0 < Rmin (Rmin d (PI / 4)) e) by (repeat apply Rmin_glb_lt; unfold e; lra).
  assert (Hu : 0 < u < PI / 2) by (unfold u; lra).
  destruct (A u ltac:(unfold u; lra) ltac:(lra)) as (w & Iw & Lw). destruct (A (u / 2) ltac:(unfold u; lra) ltac:(lra)) as (w2 & Iw2 & Lw2).
  destruct (duplication u w Hu Iw) as (p & Ip & ->). destruct (lsin_int (PI / 2 - u / 2) (PI / 2)) as [q Iq]; try lra.
  assert (EW : w2 = p + q). { rewrite <- (is_RInt_unique _ _ _ _ Iw2). apply is_RInt_unique. exact (is_RInt_Chasles lsin _ _ _ _ _ Ip Iq). }
  assert (Q : 0 <= q <= u / 2).
  { assert (CI : forall c, is_RInt (fun _ => c) (PI / 2 - u / 2) (PI / 2) (u / 2 * c)). { intros c. replace (u / 2 * c) with (Hierarchy.scal (PI / 2 - (PI / 2 - u / 2)) (c : R_NormedModule)) by (unfold Hierarchy.scal; simpl; unfold mult; simpl; ring). apply is_RInt_const. }
    split.
    - apply (is_RInt_le (fun _ => 0) lsin (PI / 2 - u / 2) (PI / 2) 0 q); auto; try lra; [pose proof (CI 0) as C0; rewrite Rmult_0_r in C0; exact C0|]. intros t Ht. apply lsin_low. unfold u in Ht. lra.
    - apply (is_RInt_le lsin (fun _ => 1) (PI / 2 - u / 2) (PI / 2) q (u / 2)); auto; try lra; [pose proof (CI 1) as C0; rewrite Rmult_1_r in C0; exact C0|]. intros t Ht. apply lsin_low. unfold u in Ht. lra. }
  apply Rabs_def2 in Lw. apply Rabs_def2 in Lw2. assert (u <= e) by (unfold u; lra). assert (Rabs J <= 4 * e); [|unfold e in *; lra]. apply Rabs_le. lra.
Qed.
Lemma refl_int x y w : 0 < x < PI -> 0 < y < PI -> is_RInt lsin (PI - x) (PI - y) w -> is_RInt lsin x y (- w).
Proof.
  intros Hx Hy H. apply (is_RInt_ext (fun s => -1 * Hierarchy.scal (-1) (lsin (-1 * s + PI)))).
  { intros s _. unfold Hierarchy.scal; simpl; unfold mult; simpl. replace (-1 * s + PI) with (PI - s) by ring. unfold lsin. rewrite sin_PI_x. ring. }
  replace (- w) with (-1 * w) by ring. apply (is_RInt_scal (V:=R_NormedModule) (fun s => Hierarchy.scal (-1) (lsin (-1 * s + PI)))).
  apply (is_RInt_comp_lin (V:=R_NormedModule) lsin (-1) PI x y). replace (-1 * x + PI) with (PI - x) by ring. replace (-1 * y + PI) with (PI - y) by ring. exact H.
Qed.
(* the reflection *)
Lemma lsin_refl x v : 0 < x < PI -> improper lsin 0 (PI - x) v -> improper lsin 0 x (- v).
Proof.
  intros Hx HV. pose proof PI_RGT_0. destruct (lsin_int (PI - x) (PI / 2)) as [w Iw]; try lra. pose proof (lsin_move (PI - x) (PI / 2) v w ltac:(lra) ltac:(lra) HV Iw) as HJ. pose proof (euler _ HJ) as E.
  replace (PI / 2) with (PI - PI / 2) in Iw by field. pose proof (refl_int x (PI / 2) w Hx ltac:(lra) Iw) as I2. pose proof (is_RInt_swap (V:=R_NormedModule) lsin _ _ _ I2) as I3.
  replace (- v) with (v + w + opp (- w)) by (unfold opp; simpl; lra). now apply (lsin_move (PI / 2) x); try lra.
Qed.
Lemma lob_shift x L : PI / 2 <= x -> is_lob (x - PI) L -> is_lob x L.
Proof.
  intros Hx H. pose proof PI_RGT_0. destruct (Rle_or_lt PI x) as [|N]; [now apply Lobper|].
  inversion H as [|? ? X1 X2|? ? X1 X2|x0 L0 X1 X2]; subst; try lra. replace (- (x - PI)) with (PI - x) in X2 by ring. apply lob_in in X2; [|lra].
  apply Lobp; [lra|]. replace L0 with (- - L0) by ring. now apply lsin_refl; [lra|].
Qed.
Lemma lob_odd x L : is_lob x L -> - PI < x < PI -> is_lob (- x) (- L).
Proof.
  intros H Hx. destruct (Rtotal_order x 0) as [N|[->|N]].
  - inversion H; subst; try lra. now rewrite Ropp_involutive.
  - apply lob_0 in H. subst. rewrite Ropp_0. apply Lob0.
  - apply Lobneg; [lra|]. now rewrite Ropp_involutive.
Qed.
(* above 0 up to pi/6 *)
Lemma lob_up x L : 0 < x <= PI / 6 -> is_lob x L -> 0 <= L.
Proof.
  intros Hx H. pose proof PI_RGT_0. apply lob_in in H; [|lra]. destruct (Rle_or_lt 0 L) as [|N]; auto. exfalso. destruct (H (- L) ltac:(lra)) as (d & Hd & A).
  set (u := Rmin d x / 2). pose proof (Rmin_l d x). pose proof (Rmin_r d x). assert (0 < Rmin d x) by (apply Rmin_glb_lt; lra). destruct (A u ltac:(unfold u; lra) ltac:(unfold u; lra)) as (w & Iw & Lw). apply Rabs_def2 in Lw.
  assert (w <= 0); [|lra]. apply (is_RInt_le lsin (fun _ => 0) u x); auto; [unfold u; lra| |].
  - pose proof (is_RInt_const (V:=R_NormedModule) u x 0) as C0. unfold Hierarchy.scal in C0; simpl in C0; unfold mult in C0; simpl in C0. rewrite Rmult_0_r in C0. exact C0.
  - intros t Ht. assert (T : 0 < t) by (unfold u in Ht; lra). assert (sin t <= 1 / 2) by (rewrite <- sin_PI6; apply sin_incr_1; lra). pose proof (sin_p t ltac:(lra)). unfold lsin. rewrite <- ln_1. apply ln_le; lra.
Qed.
(* ---- the period and the extremal points ---- *)
Lemma lob_per x L : is_lob x L -> is_lob (x + PI) L.
Proof.
  intros H. pose proof PI_RGT_0. destruct (Rle_or_lt 0 x) as [N|N]; [apply Lobper; [lra|]; now replace (x + PI - PI) with x by ring|].
  inversion H as [|? ? X1 X2|? ? X1 X2|x0 L0 X1 X2]; subst; try lra. destruct (Rtotal_order x (- PI)) as [C|[C|C]].
  - inversion X2 as [|? ? Y1 Y2|? ? Y1 Y2|? ? Y1 Y2]; subst; try lra. apply Lobneg; [lra|]. now replace (- (x + PI)) with (- x - PI) by ring.
  - subst x. inversion X2 as [|? ? Y1 Y2|? ? Y1 Y2|? ? Y1 Y2]; subst; try lra. replace (- - PI - PI) with 0 in Y2 by ring. apply lob_0 in Y2. subst. rewrite Ropp_0. replace (- PI + PI) with 0 by ring. apply Lob0.
  - apply lob_in in X2; [|lra]. apply Lobp; [lra|]. replace L0 with (- - L0) by ring. apply lsin_refl; [lra|]. now replace (PI - (x + PI)) with (- x) by ring.
Qed.
Lemma lob_neg_all x L : is_lob x L -> is_lob (- x) (- L).
Proof.
  intros H. destruct (Rtotal_order x 0) as [N|[->|N]].
  - inversion H as [|? ? X1 X2|? ? X1 X2|x0 L0 X1 X2]; subst; try lra; pose proof PI_RGT_0; try lra. now rewrite Ropp_involutive.
  - apply lob_0 in H. subst. rewrite Ropp_0. apply Lob0.
  - apply Lobneg; [lra|]. now rewrite Ropp_involutive.
Qed.
Lemma lob_per_back x L : is_lob x L -> is_lob (x - PI) L.
Proof. intros H. apply lob_neg_all in H. apply lob_per in H. apply lob_neg_all in H. rewrite Ropp_involutive in H. now replace (- (- x + PI)) with (x - PI) in H by ring. Qed.
Lemma lob_int x L z : is_lob x L -> is_lob (x - IZR z * PI) L.
Proof.
  intros H. destruct (Z_le_dec 0 z) as [N|N].
  - rewrite <- (Z2Nat.id z N), <- INR_IZR_INZ. induction (Z.to_nat z) as [|k IH]; [simpl; now replace (x - 0 * PI) with x by ring|]. rewrite S_INR. replace (x - (INR k + 1) * PI) with (x - INR k * PI - PI) by ring. now apply lob_per_back.
  - replace z with (- Z.of_nat (Z.to_nat (- z)))%Z by lia. rewrite opp_IZR, <- INR_IZR_INZ. induction (Z.to_nat (- z)) as [|k IH]; [simpl; now replace (x - - 0 * PI) with x by ring|]. rewrite S_INR. replace (x - - (INR k + 1) * PI) with (x - - INR k * PI + PI) by ring. now apply lob_per.
Qed.
Lemma lob_diff a c La Lc : 0 < a < PI -> 0 < c < PI -> is_lob a La -> is_lob c Lc -> is_RInt lsin a c (La - Lc).
Proof.
  intros Ha Hc HA HC. apply lob_in in HA, HC; auto. destruct (lsin_int a c Ha Hc) as [w Hw]. pose proof (lsin_move a c _ w Ha Hc HA Hw) as K. pose proof PI_RGT_0.
  pose proof (improper_unique lsin 0 c _ _ ltac:(lra) K HC). replace (La - Lc) with w by lra. exact Hw.
Qed.
Lemma zero_rint a c : is_RInt (fun _ : R => 0) a c 0.
Proof. pose proof (is_RInt_const (V:=R_NormedModule) a c 0) as C0. unfold Hierarchy.scal in C0; simpl in C0; unfold mult in C0; simpl in C0. rewrite Rmult_0_r in C0. exact C0. Qed.
Lemma lob_incr0 a c La Lc : 0 < a <= c -> c <= PI / 6 -> is_lob a La -> is_lob c Lc -> La <= Lc.
Proof.
  intros Ha Hc HA HC. pose proof PI_RGT_0. pose proof (lob_diff a c La Lc ltac:(lra) ltac:(lra) HA HC) as K. assert (La - Lc <= 0); [|lra].
  apply (is_RInt_le lsin (fun _ => 0) a c); auto using zero_rint; [lra|]. intros t Ht. assert (sin t <= 1 / 2) by (rewrite <- sin_PI6; apply sin_incr_1; lra). pose proof (sin_p t ltac:(lra)). unfold lsin. rewrite <- ln_1. apply ln_le; lra.
Qed.
Lemma lsin_pos t : PI / 6 <= t <= 5 * (PI / 6) -> 0 <= lsin t.
Proof.
  intros Ht. pose proof PI_RGT_0. destruct (Rle_or_lt t (PI / 2)); [apply lsin_low; lra|]. replace (lsin t) with (lsin (PI - t)) by (unfold lsin; now rewrite sin_PI_x). apply lsin_low. lra.
Qed.
Lemma lob_decr a c La Lc : PI / 6 <= a <= c -> c <= 5 * (PI / 6) -> is_lob a La -> is_lob c Lc -> Lc <= La.
Proof.
  intros Ha Hc HA HC. pose proof PI_RGT_0. pose proof (lob_diff a c La Lc ltac:(lra) ltac:(lra) HA HC) as K. assert (0 <= La - Lc); [|lra].
  apply (is_RInt_le (fun _ => 0) lsin a c); auto using zero_rint; [lra|]. intros t Ht. apply lsin_pos. lra.
Qed.
Lemma lob_incr a c La Lc : - (PI / 6) <= a <= c -> c <= PI / 6 -> is_lob a La -> is_lob c Lc -> La <= Lc.
Proof.
  intros Ha Hc HA HC. assert (PV : forall x L, 0 <= x <= PI / 6 -> is_lob x L -> 0 <= L). { intros x L Hx H. destruct (Req_dec x 0) as [->|N]; [apply lob_0 in H; lra|]. apply (lob_up x); auto; lra. }
  destruct (Rlt_or_le 0 a) as [N|N]; [apply (lob_incr0 a c); auto; lra|].
  assert (QA : 0 <= - La) by (apply (PV (- a)); [lra|now apply lob_neg_all]).
  destruct (Rlt_or_le c 0) as [M|M].
  - enough (- Lc <= - La) by lra. apply (lob_incr0 (- c) (- a)); auto using lob_neg_all; lra.
  - pose proof (PV c Lc ltac:(lra) HC). lra.
Qed.
Lemma lob_shift_in x L : is_lob x L -> is_lob (PI - x) (- L).
Proof. intros H. apply lob_neg_all, lob_per in H. now replace (PI - x) with (- x + PI) by ring. Qed.
(* the largest value *)
Lemma lob_max M : is_lob (PI / 6) M -> forall x L, is_lob x L -> - M <= L <= M.
Proof.
  intros HM. pose proof PI_RGT_0. assert (M0 : 0 <= M) by (apply (lob_up (PI / 6)); auto; lra). assert (HN : is_lob (5 * (PI / 6)) (- M)) by (apply lob_shift_in in HM; now replace (5 * (PI / 6)) with (PI - PI / 6) by lra).
  intros x L H1. induction H1 as [|x v Hx Hv|x L Hx K IH|x L Hx K IH]; try lra. pose proof (Lobp x v Hx Hv) as HL.
  destruct (Rle_or_lt x (PI / 6)) as [C|C].
  - pose proof (lob_incr x (PI / 6) (- v) M ltac:(lra) ltac:(lra) HL HM). pose proof (lob_up x (- v) ltac:(lra) HL). lra.
  - destruct (Rle_or_lt x (5 * (PI / 6))) as [D|D].
    + pose proof (lob_decr (PI / 6) x M (- v) ltac:(lra) D HM HL). pose proof (lob_decr x (5 * (PI / 6)) (- v) (- M) ltac:(lra) ltac:(lra) HL HN). lra.
    + apply lob_shift_in in HL. pose proof (lob_incr (PI - x) (PI / 6) (- - v) M ltac:(lra) ltac:(lra) HL HM). pose proof (lob_up (PI - x) (- - v) ltac:(lra) HL). lra.
Qed.
(* if there is a value at one point of (0, pi), there is one at every point *)
Lemma lob_exists M : is_lob (PI / 6) M -> forall x, 0 < x < PI -> exists L, is_lob x L.
Proof.
  intros HM x Hx. pose proof PI_RGT_0. apply lob_in in HM; [|lra]. destruct (lsin_int (PI / 6) x) as [w Hw]; try lra. exists (- (- M + w)). apply Lobp; auto. now apply (lsin_move (PI / 6) x); try lra.
Qed.
(* between the extremal points *)
Definition extremal (e : R) : Prop := e = - (PI / 6) \/ e = PI / 6 \/ e = 5 * (PI / 6) \/ e = 7 * (PI / 6).
Lemma lob_between lw uw y (V : R -> Prop) Llw Luw L : - (5 * (PI / 6)) < lw -> uw < 11 * (PI / 6) -> lw <= y <= uw -> (forall p q r, V p -> V q -> p <= r <= q -> V r) ->
  is_lob lw Llw -> is_lob uw Luw -> V Llw -> V Luw -> (forall e, extremal e -> lw <= e <= uw -> exists E, is_lob e E /\ V E) -> is_lob y L -> V L.
Proof.
  intros B1 B2 HY CV HL HU VL VU HE H. pose proof PI_RGT_0.
  (* a piece from p to q *)
  assert (PC : forall p q s, (extremal p \/ p < lw) -> (extremal q \/ uw < q) -> p <= y <= q -> s = 1 \/ s = -1 ->
    (forall a c La Lc, p <= a <= c -> c <= q -> is_lob a La -> is_lob c Lc -> s * La <= s * Lc) -> V L).
  { intros p q s Hp Hq Hy Hs MON.
    assert (A : exists a La, is_lob a La /\ V La /\ p <= a <= y). { destruct (Rle_or_lt lw p) as [N|N]; [|exists lw, Llw; repeat split; auto; lra]. destruct Hp as [Hp|Hp]; [|lra]. destruct (HE p Hp ltac:(lra)) as (E & E1 & E2). exists p, E. repeat split; auto; lra. }
    assert (C : exists c Lc, is_lob c Lc /\ V Lc /\ y <= c <= q). { destruct (Rle_or_lt q uw) as [N|N]; [|exists uw, Luw; repeat split; auto; lra]. destruct Hq as [Hq|Hq]; [|lra]. destruct (HE q Hq ltac:(lra)) as (E & E1 & E2). exists q, E. repeat split; auto; lra. }
    destruct A as (a & La & A1 & A2 & A3). destruct C as (c & Lc & C1 & C2 & C3). pose proof (MON a y La L ltac:(lra) ltac:(lra) A1 H) as M1. pose proof (MON y c L Lc ltac:(lra) ltac:(lra) H C1) as M2.
    destruct Hs as [-> | ->]; [apply (CV La Lc)|apply (CV Lc La)]; auto; lra. }
  unfold extremal in PC. destruct (Rle_or_lt y (- (PI / 6))) as [Y1|Y1].
  { apply (PC (- (5 * (PI / 6))) (- (PI / 6)) (-1)); auto; [lra|]. intros a c La Lc Ha Hc HA HC. apply lob_per in HA, HC. pose proof (lob_decr (a + PI) (c + PI) La Lc ltac:(lra) ltac:(lra) HA HC). lra. }
  destruct (Rle_or_lt y (PI / 6)) as [Y2|Y2].
  { apply (PC (- (PI / 6)) (PI / 6) 1); auto; [lra|]. intros a c La Lc Ha Hc HA HC. pose proof (lob_incr a c La Lc ltac:(lra) ltac:(lra) HA HC). lra. }
  destruct (Rle_or_lt y (5 * (PI / 6))) as [Y3|Y3].
  { apply (PC (PI / 6) (5 * (PI / 6)) (-1)); auto; [lra|]. intros a c La Lc Ha Hc HA HC. pose proof (lob_decr a c La Lc ltac:(lra) ltac:(lra) HA HC). lra. }
  destruct (Rle_or_lt y (7 * (PI / 6))) as [Y4|Y4].
  { apply (PC (5 * (PI / 6)) (7 * (PI / 6)) 1); [tauto|tauto|lra|tauto|]. intros a c La Lc Ha Hc HA HC. apply lob_per_back in HA, HC. pose proof (lob_incr (a - PI) (c - PI) La Lc ltac:(lra) ltac:(lra) HA HC). lra. }
  apply (PC (7 * (PI / 6)) (11 * (PI / 6)) (-1)); [tauto|right; lra|lra|tauto|]. intros a c La Lc Ha Hc HA HC. apply lob_per_back in HA, HC. pose proof (lob_decr (a - PI) (c - PI) La Lc ltac:(lra) ltac:(lra) HA HC). lra.
Qed.
