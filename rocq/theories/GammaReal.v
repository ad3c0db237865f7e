(* The gamma function as an improper integral: tails, the functional equation, convexity. *)
From Coq Require Import Reals ZArith Bool List Lra Lia Psatz Arith.
From Coquelicot Require Import Coquelicot.
From Verif Require Import SingReal.
Open Scope R_scope.

(* t^(x-1) exp(-t) *)
Definition gint (x t : R) : R := Rpower t (x - 1) * exp (- t).
(* the integral over (0, oo) *)
Definition is_gamma (x G : R) : Prop :=
  forall eps, 0 < eps -> exists d M, 0 < d /\ forall u v, 0 < u < d -> M < v -> exists w, is_RInt (gint x) u v w /\ Rabs (w - G) < eps.
Lemma gint_pos x t : 0 < gint x t.
Proof. unfold gint. apply Rmult_lt_0_compat; [apply exp_pos|apply exp_pos]. Qed.
Lemma gint_cont x t : 0 < t -> continuous (gint x) t.
Proof. intros Ht. apply (ex_derive_continuous (V:=R_NormedModule)). unfold gint, Rpower. auto_derive. exact Ht. Qed.
Lemma gint_int x u v : 0 < u -> 0 < v -> exists w, is_RInt (gint x) u v w.
Proof.
  intros Hu Hv. apply (ex_RInt_continuous (gint x)). intros z Hz. apply gint_cont.
  apply Rlt_le_trans with (Rmin u v); [apply Rmin_glb_lt; auto|apply Hz].
Qed.
Lemma gamma_unique x G G' : is_gamma x G -> is_gamma x G' -> G = G'.
Proof.
  intros H H'. destruct (Req_dec G G') as [|N]; auto. exfalso. set (e := Rabs (G - G') / 2).
  assert (E : 0 < e) by (unfold e; assert (0 < Rabs (G - G')) by (apply Rabs_pos_lt; lra); lra).
  destruct (H e E) as (d & M & Hd & A). destruct (H' e E) as (d' & M' & Hd' & A').
  pose proof (Rmin_l d d'). pose proof (Rmin_r d d'). pose proof (Rmax_l M M'). pose proof (Rmax_r M M').
  assert (0 < Rmin d d') by (apply Rmin_glb_lt; auto).
  destruct (A (Rmin d d' / 2) (Rmax M M' + 1)) as (w & Iw & Lw); try lra. destruct (A' (Rmin d d' / 2) (Rmax M M' + 1)) as (w' & Iw' & Lw'); try lra.
  assert (w = w') by (rewrite <- (is_RInt_unique _ _ _ _ Iw); apply is_RInt_unique; auto). subst w'.
  pose proof (Rabs_triang (G - w) (w - G')) as T. replace (G - w + (w - G')) with (G - G') in T by ring. rewrite (Rabs_minus_sym G w) in T. unfold e in *. lra.
Qed.
(* ---- the tail ---- *)
Definition tail (x th L : R) : Prop := forall eps, 0 < eps -> exists M, forall v, M < v -> th <= v -> exists w, is_RInt (gint x) th v w /\ Rabs (w - L) < eps.
Lemma gamma_split x th J L : 0 < th -> improper (gint x) 0 th J -> tail x th L -> is_gamma x (J + L).
Proof.
  intros Ht HJ HL eps He. destruct (HJ (eps / 2) ltac:(lra)) as (d & Hd & A). destruct (HL (eps / 2) ltac:(lra)) as (M & A').
  exists (Rmin d th), (Rmax M th). split; [apply Rmin_glb_lt; auto|]. intros u v Hu Hv.
  pose proof (Rmin_l d th). pose proof (Rmin_r d th). pose proof (Rmax_l M th). pose proof (Rmax_r M th).
  destruct (A u ltac:(lra) ltac:(lra)) as (w1 & I1 & L1). destruct (A' v ltac:(lra) ltac:(lra)) as (w2 & I2 & L2).
  exists (w1 + w2). split; [exact (is_RInt_Chasles (gint x) u th v w1 w2 I1 I2)|].
  replace (w1 + w2 - (J + L)) with ((w1 - J) + (w2 - L)) by ring. eapply Rle_lt_trans; [apply Rabs_triang|]. lra.
Qed.
Lemma zero_int a b : is_RInt (fun _ : R => 0) a b 0.
Proof.
  pose proof (is_RInt_const a b (0 : R_NormedModule)) as H. replace (Hierarchy.scal (b - a) (0 : R_NormedModule)) with 0 in H; [exact H|]. unfold Hierarchy.scal; simpl. unfold mult; simpl. ring.
Qed.
Lemma te_int th v : is_RInt (fun t => t * exp (- t)) th v ((th + 1) * exp (- th) - (v + 1) * exp (- v)).
Proof.
  replace ((th + 1) * exp (- th) - (v + 1) * exp (- v)) with (minus ((fun t => - ((t + 1) * exp (- t))) v) ((fun t => - ((t + 1) * exp (- t))) th)) by (unfold minus, plus, opp; simpl; ring).
  apply (is_RInt_derive (fun t => - ((t + 1) * exp (- t)))).
  - intros t _. auto_derive; auto. ring.
  - intros t _. apply (ex_derive_continuous (V:=R_NormedModule)). auto_derive. auto.
Qed.
Lemma tail_ok x th : 1 <= th -> x <= 2 -> exists L, tail x th L /\ 0 <= L <= (th + 1) * exp (- th).
Proof.
  intros Ht Hx. set (T := fun v w => th <= v /\ is_RInt (gint x) th v w).
  assert (UB : forall v w, T v w -> 0 <= w <= (th + 1) * exp (- th)).
  { intros v w [Hv Iw]. split.
    - apply (is_RInt_le (fun _ => 0) (gint x) th v 0 w Hv); auto.
      + apply zero_int.
      + intros t _. left. apply gint_pos.
    - apply Rle_trans with ((th + 1) * exp (- th) - (v + 1) * exp (- v)).
      + apply (is_RInt_le (gint x) (fun t => t * exp (- t)) th v); auto; [apply te_int|].
        intros t Ht'. unfold gint. apply Rmult_le_compat_r; [left; apply exp_pos|]. rewrite <- (Rpower_1 t) at 2 by lra. apply Rle_Rpower; lra.
      + assert (0 <= (v + 1) * exp (- v)) by (apply Rmult_le_pos; [lra|left; apply exp_pos]). lra. }
  set (E := fun w => exists v, T v w).
  assert (NE : exists w, E w). { destruct (gint_int x th th) as [w Iw]; try lra. exists w, th. split; auto. lra. }
  assert (BE : bound E). { exists ((th + 1) * exp (- th)). intros w [v Hv]. now apply (UB v). }
  destruct (completeness E BE NE) as [L [L1 L2]]. exists L. split.
  - intros eps He. destruct (Classical_Prop.classic (exists w, E w /\ L - eps < w)) as [(w0 & [v0 [H0 I0]] & Hw0)|N].
    + exists v0. intros v Hv Hv'. destruct (gint_int x th v) as [w Iw]; try lra. exists w. split; auto.
      assert (w <= L) by (apply L1; exists v; split; auto).
      destruct (gint_int x v0 v) as [w1 I1]; try lra.
      assert (0 <= w1). { apply (is_RInt_le (fun _ => 0) (gint x) v0 v 0 w1); auto; try lra.
        - apply zero_int.
        - intros t _. left. apply gint_pos. }
      assert (EW : w = w0 + w1). { rewrite <- (is_RInt_unique _ _ _ _ Iw). apply is_RInt_unique. exact (is_RInt_Chasles (gint x) th v0 v w0 w1 I0 I1). }
      apply Rabs_def1; lra.
    + exfalso. assert (L <= L - eps); [|lra]. apply L2. intros w Hw. destruct (Rle_or_lt w (L - eps)); auto. exfalso. apply N. eauto.
  - destruct NE as (w & v & Hv). split.
    + apply Rle_trans with w; [apply (UB v w Hv)|]. apply L1. exists v. exact Hv.
    + apply L2. intros w' [v' Hv']. now apply (UB v').
Qed.
(* ---- the functional equation ---- *)
Lemma by_parts x u v w : 0 < u -> 0 < v -> is_RInt (gint x) u v w -> is_RInt (gint (x + 1)) u v (x * w + (gint (x + 1) u - gint (x + 1) v)).
Proof.
  intros Hu Hv I.
  assert (PO : forall t, Rmin u v <= t -> 0 < t) by (intros t H; apply Rlt_le_trans with (Rmin u v); auto; apply Rmin_glb_lt; auto).
  apply (is_RInt_ext (fun t => plus (Hierarchy.scal x (gint x t)) (- (x * gint x t) + gint (x + 1) t))).
  { intros t Ht. unfold plus, Hierarchy.scal; simpl. unfold mult; simpl. ring. }
  apply (is_RInt_plus (V:=R_NormedModule)); [apply (is_RInt_scal (V:=R_NormedModule)); exact I|].
  replace (gint (x + 1) u - gint (x + 1) v) with (minus ((fun t => - gint (x + 1) t) v) ((fun t => - gint (x + 1) t) u)) by (unfold minus, plus, opp; simpl; ring).
  apply (is_RInt_derive (fun t => - gint (x + 1) t)).
  - intros t Ht. specialize (PO t (proj1 Ht)). unfold gint, Rpower. auto_derive; auto.
    assert (E : exp ((x + 1 - 1) * ln t) = t * exp ((x - 1) * ln t)). { replace ((x + 1 - 1) * ln t) with (ln t + (x - 1) * ln t) by ring. rewrite exp_plus, exp_ln; auto. }
    rewrite E. field. lra.
  - intros t Ht. specialize (PO t (proj1 Ht)). apply (ex_derive_continuous (V:=R_NormedModule)). unfold gint, Rpower. auto_derive. auto.
Qed.
Lemma gint_left x : 0 < x -> forall eps, 0 < eps -> exists d, 0 < d /\ forall u, 0 < u < d -> gint (x + 1) u < eps.
Proof.
  intros Hx eps He. exists (Rpower eps (/ x)). split; [apply exp_pos|]. intros u Hu. unfold gint. replace (x + 1 - 1) with x by ring.
  assert (H : Rpower u x < eps). { replace eps with (Rpower (Rpower eps (/ x)) x); [apply Rlt_Rpower_l; auto|]. rewrite Rpower_mult, Rinv_l by lra. now apply Rpower_1. }
  apply Rle_lt_trans with (Rpower u x * 1); [|lra]. apply Rmult_le_compat_l; [left; apply exp_pos|]. rewrite <- exp_0. left. apply exp_increasing. lra.
Qed.
Lemma gint_right x : 0 < x -> forall eps, 0 < eps -> exists M, 0 < M /\ forall v, M < v -> gint (x + 1) v < eps.
Proof.
  intros Hx eps He. pose proof is_lim_div_ln_p as LL. apply is_lim_spec in LL. assert (E2 : 0 < / (2 * x)) by (apply Rinv_0_lt_compat; lra). destruct (LL (mkposreal _ E2)) as [M HM]. cbn [pos] in HM.
  exists (Rmax 1 (Rmax M (- 2 * ln eps))). split; [apply Rlt_le_trans with 1; [lra|apply Rmax_l]|]. intros v Hv.
  assert (1 < v) by (eapply Rle_lt_trans; [apply Rmax_l|exact Hv]). assert (H2 : Rmax M (- 2 * ln eps) < v) by (eapply Rle_lt_trans; [apply Rmax_r|exact Hv]).
  assert (M < v) by (eapply Rle_lt_trans; [apply Rmax_l|exact H2]). assert (- 2 * ln eps < v) by (eapply Rle_lt_trans; [apply Rmax_r|exact H2]).
  specialize (HM v ltac:(auto)). rewrite Rminus_0_r in HM. apply Rabs_def2 in HM as [HM _].
  unfold gint, Rpower. rewrite <- exp_plus. replace eps with (exp (ln eps)) by (now apply exp_ln). apply exp_increasing.
  assert (L : x * ln v < v / 2). { replace (x * ln v) with (x * v * (ln v / v)) by (field; lra). replace (v / 2) with (x * v * / (2 * x)) by (field; lra). apply Rmult_lt_compat_l; [nra|exact HM]. }
  replace (x + 1 - 1) with x by ring. lra.
Qed.
Lemma gamma_succ x G : 0 < x -> is_gamma x G -> is_gamma (x + 1) (x * G).
Proof.
  intros Hx H eps He. assert (E1 : 0 < eps / 4 / x) by (apply Rdiv_lt_0_compat; lra). destruct (H _ E1) as (d & M & Hd & A).
  destruct (gint_left x Hx (eps / 4) ltac:(lra)) as (d2 & Hd2 & A2). destruct (gint_right x Hx (eps / 4) ltac:(lra)) as (M2 & HM2 & A3).
  exists (Rmin d d2), (Rmax M M2). split; [apply Rmin_glb_lt; auto|]. intros u v Hu Hv.
  pose proof (Rmin_l d d2). pose proof (Rmin_r d d2). pose proof (Rmax_l M M2). pose proof (Rmax_r M M2).
  destruct (A u v ltac:(lra) ltac:(lra)) as (w & Iw & Lw). exists (x * w + (gint (x + 1) u - gint (x + 1) v)). split; [apply by_parts; auto; lra|].
  specialize (A2 u ltac:(lra)). specialize (A3 v ltac:(lra)). pose proof (gint_pos (x + 1) u). pose proof (gint_pos (x + 1) v).
  replace (x * w + (gint (x + 1) u - gint (x + 1) v) - x * G) with (x * (w - G) + (gint (x + 1) u - gint (x + 1) v)) by ring.
  assert (Rabs (x * (w - G)) < eps / 4). { rewrite Rabs_mult, (Rabs_pos_eq x) by lra. replace (eps / 4) with (x * (eps / 4 / x)) by (field; lra). apply Rmult_lt_compat_l; auto. }
  eapply Rle_lt_trans; [apply Rabs_triang|]. assert (Rabs (gint (x + 1) u - gint (x + 1) v) < eps / 2) by (apply Rabs_def1; lra). lra.
Qed.
Lemma gamma_pred x G : 0 < x -> is_gamma (x + 1) G -> is_gamma x (G / x).
Proof.
  intros Hx H eps He. assert (E1 : 0 < x * eps / 4) by nra. destruct (H _ E1) as (d & M & Hd & A).
  destruct (gint_left x Hx _ E1) as (d2 & Hd2 & A2). destruct (gint_right x Hx _ E1) as (M2 & HM2 & A3).
  exists (Rmin d d2), (Rmax M M2). split; [apply Rmin_glb_lt; auto|]. intros u v Hu Hv.
  pose proof (Rmin_l d d2). pose proof (Rmin_r d d2). pose proof (Rmax_l M M2). pose proof (Rmax_r M M2).
  destruct (A u v ltac:(lra) ltac:(lra)) as (w & Iw & Lw). destruct (gint_int x u v) as [w0 I0]; try lra. exists w0. split; auto.
  pose proof (by_parts x u v w0 ltac:(lra) ltac:(lra) I0) as BP. assert (EW : w = x * w0 + (gint (x + 1) u - gint (x + 1) v)) by (rewrite <- (is_RInt_unique _ _ _ _ Iw); apply is_RInt_unique; exact BP).
  specialize (A2 u ltac:(lra)). specialize (A3 v ltac:(lra)). pose proof (gint_pos (x + 1) u). pose proof (gint_pos (x + 1) v).
  replace (w0 - G / x) with ((w - G - (gint (x + 1) u - gint (x + 1) v)) / x) by (rewrite EW; field; lra).
  unfold Rdiv. rewrite Rabs_mult, (Rabs_pos_eq (/ x)) by (left; apply Rinv_0_lt_compat; lra). apply Rmult_lt_reg_r with x; auto. rewrite Rmult_assoc, Rinv_l, Rmult_1_r by lra.
  apply Rabs_def2 in Lw. apply Rabs_def1; nra.
Qed.
Lemma gamma_exists x : 0 < x -> exists G, is_gamma x G.
Proof.
  assert (B : forall x, 0 < x <= 2 -> exists G, is_gamma x G).
  { intros y Hy. destruct (pow_exists (y - 1) 1 (fun t => exp (- t)) ltac:(lra) ltac:(lra)) as [J HJ]; [|destruct (tail_ok y 1 ltac:(lra) ltac:(lra)) as (L & HL & _); exists (J + L); apply (gamma_split y 1); auto; lra].
    intros t _. apply (ex_derive_continuous (V:=R_NormedModule)). auto_derive. auto. }
  intros Hx. assert (K : forall n y, 0 < y <= 2 + INR n -> exists G, is_gamma y G).
  { induction n as [|n IH]; intros y Hy. { apply B. simpl in Hy. lra. }
    destruct (Rle_or_lt y 2); [apply B; lra|]. rewrite S_INR in Hy. destruct (IH (y - 1)) as [G HG]; [lra|]. exists ((y - 1) * G). replace y with (y - 1 + 1) at 1 by ring. apply gamma_succ; auto. lra. }
  destruct (nfloor_ex x) as [n Hn]; [lra|]. apply (K (S n)). rewrite S_INR. lra.
Qed.
(* ---- convexity ---- *)
Lemma exp_convex l p q : 0 <= l <= 1 -> exp (l * p + (1 - l) * q) <= l * exp p + (1 - l) * exp q.
Proof.
  intros Hl. set (m := l * p + (1 - l) * q).
  assert (T : forall y, exp m * (1 + (y - m)) <= exp y).
  { intros y. replace (exp y) with (exp m * exp (y - m)) by (rewrite <- exp_plus; f_equal; ring). apply Rmult_le_compat_l; [left; apply exp_pos|].
    destruct (Req_dec (y - m) 0) as [->|N]; [rewrite exp_0; lra|left; now apply exp_ineq1]. }
  pose proof (T p) as T1. pose proof (T q) as T2. assert (E : exp m = l * (exp m * (1 + (p - m))) + (1 - l) * (exp m * (1 + (q - m)))) by (unfold m; ring).
  rewrite E. apply Rplus_le_compat; apply Rmult_le_compat_l; auto; lra.
Qed.
Lemma gint_convex l a b t : 0 <= l <= 1 -> gint (l * a + (1 - l) * b) t <= l * gint a t + (1 - l) * gint b t.
Proof.
  intros Hl. unfold gint. rewrite <- !Rmult_assoc, <- Rmult_plus_distr_r. apply Rmult_le_compat_r; [left; apply exp_pos|]. unfold Rpower.
  replace ((l * a + (1 - l) * b - 1) * ln t) with (l * ((a - 1) * ln t) + (1 - l) * ((b - 1) * ln t)) by ring. now apply exp_convex.
Qed.
Lemma gamma_convex l a b A B X : 0 <= l <= 1 -> is_gamma a A -> is_gamma b B -> is_gamma (l * a + (1 - l) * b) X -> X <= l * A + (1 - l) * B.
Proof.
  intros Hl HA HB HX. destruct (Rle_or_lt X (l * A + (1 - l) * B)) as [|C]; auto. exfalso. set (e := (X - (l * A + (1 - l) * B)) / 4). assert (He : 0 < e) by (unfold e; lra).
  destruct (HA e He) as (d1 & M1 & D1 & K1). destruct (HB e He) as (d2 & M2 & D2 & K2). destruct (HX e He) as (d3 & M3 & D3 & K3).
  set (u := Rmin d1 (Rmin d2 d3) / 2). set (v := Rmax u (Rmax M1 (Rmax M2 M3)) + 1).
  assert (U0 : 0 < Rmin d1 (Rmin d2 d3)) by (repeat apply Rmin_glb_lt; auto).
  pose proof (Rmin_l d1 (Rmin d2 d3)). pose proof (Rmin_r d1 (Rmin d2 d3)). pose proof (Rmin_l d2 d3). pose proof (Rmin_r d2 d3).
  pose proof (Rmax_l u (Rmax M1 (Rmax M2 M3))). pose proof (Rmax_r u (Rmax M1 (Rmax M2 M3))). pose proof (Rmax_l M1 (Rmax M2 M3)). pose proof (Rmax_r M1 (Rmax M2 M3)). pose proof (Rmax_l M2 M3). pose proof (Rmax_r M2 M3).
  destruct (K1 u v) as (wa & Ia & La); [unfold u; lra|unfold v; lra|]. destruct (K2 u v) as (wb & Ib & Lb); [unfold u; lra|unfold v; lra|]. destruct (K3 u v) as (wx & Ix & Lx); [unfold u; lra|unfold v; lra|].
  assert (W : wx <= l * wa + (1 - l) * wb).
  { apply (is_RInt_le (gint (l * a + (1 - l) * b)) (fun t => plus (Hierarchy.scal l (gint a t)) (Hierarchy.scal (1 - l) (gint b t))) u v); auto; [unfold v; lra| |].
    - apply (is_RInt_plus (V:=R_NormedModule)); apply (is_RInt_scal (V:=R_NormedModule)); auto.
    - intros t _. exact (gint_convex l a b t Hl). }
  apply Rabs_def2 in La, Lb, Lx. unfold e in *. nra.
Qed.
Lemma conv_mid a b x : a < b -> a <= x <= b -> exists l, 0 <= l <= 1 /\ x = l * a + (1 - l) * b.
Proof.
  intros H K. exists ((b - x) / (b - a)). split; [|field; lra]. split; [apply Rdiv_le_0_compat; lra|]. apply Rmult_le_reg_r with (b - a); [lra|]. unfold Rdiv. rewrite Rmult_assoc, Rinv_l by lra. lra.
Qed.
(* between the values at the ends, above the minimum *)
Lemma gamma_upper l u x L U X : l <= x <= u -> is_gamma l L -> is_gamma u U -> is_gamma x X -> X <= Rmax L U.
Proof.
  intros H HL HU HX. pose proof (Rmax_l L U). pose proof (Rmax_r L U). destruct (Req_dec l u) as [E|N].
  - assert (x = l) by lra. subst x. rewrite (gamma_unique _ _ _ HX HL). auto.
  - destruct (conv_mid l u x ltac:(lra) H) as (m & Hm & ->). pose proof (gamma_convex m l u L U X Hm HL HU HX). nra.
Qed.
Lemma gamma_mono c Gc l x L X : is_gamma c Gc -> (c <= l <= x \/ x <= l <= c) -> is_gamma l L -> is_gamma x X -> Gc <= X -> L <= X.
Proof.
  intros HC H HL HX Hm. assert (K : L <= Rmax Gc X). { destruct H as [H|H]; [apply (gamma_upper c x l); auto|rewrite Rmax_comm; apply (gamma_upper x c l); auto]. }
  rewrite Rmax_right in K by auto. exact K.
Qed.
(* an integral of a positive function *)
Lemma gamma_positive x G : is_gamma x G -> 0 < G.
Proof.
  intros H. destruct (gint_int x 1 2) as [w0 I0]; try lra.
  assert (P0 : 0 < w0).
  { pose proof (RInt_gt_0 (gint x) 1 2 ltac:(lra) (fun t _ => gint_pos x t) (fun t Ht => gint_cont x t ltac:(lra))) as K. rewrite (is_RInt_unique _ _ _ _ I0) in K. exact K. }
  destruct (Rlt_or_le 0 G) as [|C]; auto. exfalso. destruct (H w0 P0) as (d & M & Hd & A).
  set (u := Rmin (d / 2) 1). set (v := Rmax (M + 1) 2). pose proof (Rmin_l (d / 2) 1). pose proof (Rmin_r (d / 2) 1). pose proof (Rmax_l (M + 1) 2). pose proof (Rmax_r (M + 1) 2).
  assert (U0 : 0 < u) by (unfold u; apply Rmin_glb_lt; lra).
  destruct (A u v) as (w & Iw & Lw); [unfold u in *; lra|unfold v in *; lra|].
  destruct (gint_int x u 1) as [w1 I1]; try lra. destruct (gint_int x 2 v) as [w2 I2]; try (unfold v in *; lra).
  assert (N1 : 0 <= w1). { apply (is_RInt_le (fun _ => 0) (gint x) u 1 0 w1); auto; [apply zero_int|]. intros t _. left. apply gint_pos. }
  assert (N2 : 0 <= w2). { apply (is_RInt_le (fun _ => 0) (gint x) 2 v 0 w2); auto; [apply zero_int|]. intros t _. left. apply gint_pos. }
  assert (EW : w = w1 + w0 + w2). { rewrite <- (is_RInt_unique _ _ _ _ Iw). apply is_RInt_unique. exact (is_RInt_Chasles (gint x) u 2 v (w1 + w0) w2 (is_RInt_Chasles (gint x) u 1 2 w1 w0 I1 I0) I2). }
  apply Rabs_def2 in Lw. lra.
Qed.
(* Gamma(1) = 1 *)
Lemma gamma_one : is_gamma 1 1.
Proof.
  intros eps He. exists (Rmin 1 (eps / 2)), (Rmax 1 (- ln (eps / 2))). split; [apply Rmin_glb_lt; lra|]. intros u v Hu Hv.
  pose proof (Rmin_r 1 (eps / 2)). pose proof (Rmin_l 1 (eps / 2)). pose proof (Rmax_l 1 (- ln (eps / 2))). pose proof (Rmax_r 1 (- ln (eps / 2))).
  exists (exp (- u) - exp (- v)). split.
  - replace (exp (- u) - exp (- v)) with (minus ((fun t => - exp (- t)) v) ((fun t => - exp (- t)) u)) by (unfold minus, plus, opp; simpl; ring).
    apply (is_RInt_derive (fun t => - exp (- t)) (gint 1)).
    + intros t Ht. assert (0 < t) by (apply Rlt_le_trans with (Rmin u v); [apply Rmin_glb_lt; lra|apply Ht]). unfold gint. replace (1 - 1) with 0 by ring. rewrite Rpower_O by auto. auto_derive; auto. ring.
    + intros t Ht. apply gint_cont. apply Rlt_le_trans with (Rmin u v); [apply Rmin_glb_lt; lra|apply Ht].
  - assert (E1 : exp (- v) < eps / 2). { rewrite <- (exp_ln (eps / 2)) by lra. apply exp_increasing. lra. }
    assert (E2 : 1 - u < exp (- u)). { replace (1 - u) with (1 + - u) by ring. apply exp_ineq1. lra. }
    assert (E3 : exp (- u) < 1). { rewrite <- exp_0. apply exp_increasing. lra. }
    pose proof (exp_pos (- v)). apply Rabs_def1; lra.
Qed.
