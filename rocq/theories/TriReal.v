(* The trigamma function as an improper integral: tails, the functional equation, monotonicity, the continuation to negative arguments.  Reals only. *)
From Coq Require Import Reals ZArith Bool List Lra Lia Psatz Arith.
From Coquelicot Require Import Coquelicot.
From Verif Require Import SingReal GammaReal.
Open Scope R_scope.

(* t exp(-x t) / (1 - exp(-t)) *)
Definition tint (x t : R) : R := t * exp (- (x * t)) / (1 - exp (- t)).
(* the integral over (0, oo) *)
Definition is_trigamma (x P : R) : Prop :=
  forall eps, 0 < eps -> exists d M, 0 < d /\ forall u v, 0 < u < d -> M < v -> exists w, is_RInt (tint x) u v w /\ Rabs (w - P) < eps.
Lemma den_pos t : 0 < t -> 0 < 1 - exp (- t).
Proof. intros H. assert (exp (- t) < exp 0) by (apply exp_increasing; lra). rewrite exp_0 in H0. lra. Qed.
Lemma tint_pos x t : 0 < t -> 0 < tint x t.
Proof. intros H. unfold tint. apply Rdiv_lt_0_compat; [apply Rmult_lt_0_compat; [auto|apply exp_pos]|now apply den_pos]. Qed.
Lemma tint_cont x t : 0 < t -> continuous (tint x) t.
Proof. intros Ht. apply (ex_derive_continuous (V:=R_NormedModule)). unfold tint. auto_derive. pose proof (den_pos t Ht). lra. Qed.
Lemma tint_int x u v : 0 < u -> 0 < v -> exists w, is_RInt (tint x) u v w.
Proof.
  intros Hu Hv. apply (ex_RInt_continuous (tint x)). intros z Hz. apply tint_cont.
  apply Rlt_le_trans with (Rmin u v); [apply Rmin_glb_lt; auto|apply Hz].
Qed.
Lemma trigamma_unique x P P' : is_trigamma x P -> is_trigamma x P' -> P = P'.
Proof.
  intros H H'. destruct (Req_dec P P') as [|N]; auto. exfalso. set (e := Rabs (P - P') / 2).
  assert (E : 0 < e) by (unfold e; assert (0 < Rabs (P - P')) by (apply Rabs_pos_lt; lra); lra).
  destruct (H e E) as (d & M & Hd & A). destruct (H' e E) as (d' & M' & Hd' & A').
  pose proof (Rmin_l d d'). pose proof (Rmin_r d d'). pose proof (Rmax_l M M'). pose proof (Rmax_r M M').
  assert (0 < Rmin d d') by (apply Rmin_glb_lt; auto).
  destruct (A (Rmin d d' / 2) (Rmax M M' + 1)) as (w & Iw & Lw); try lra. destruct (A' (Rmin d d' / 2) (Rmax M M' + 1)) as (w' & Iw' & Lw'); try lra.
  assert (w = w') by (rewrite <- (is_RInt_unique _ _ _ _ Iw); apply is_RInt_unique; auto). subst w'.
  pose proof (Rabs_triang (P - w) (w - P')) as T. replace (P - w + (w - P')) with (P - P') in T by ring. rewrite (Rabs_minus_sym P w) in T. unfold e in *. lra.
Qed.
(* ---- the tail ---- *)
Definition ttail (x th L : R) : Prop := forall eps, 0 < eps -> exists M, forall v, M < v -> th <= v -> exists w, is_RInt (tint x) th v w /\ Rabs (w - L) < eps.
Lemma tri_split x th J L : 0 < th -> improper (tint x) 0 th J -> ttail x th L -> is_trigamma x (J + L).
Proof.
  intros Ht HJ HL eps He. destruct (HJ (eps / 2) ltac:(lra)) as (d & Hd & A). destruct (HL (eps / 2) ltac:(lra)) as (M & A').
  exists (Rmin d th), (Rmax M th). split; [apply Rmin_glb_lt; auto|]. intros u v Hu Hv.
  pose proof (Rmin_l d th). pose proof (Rmin_r d th). pose proof (Rmax_l M th). pose proof (Rmax_r M th).
  destruct (A u ltac:(lra) ltac:(lra)) as (w1 & I1 & L1). destruct (A' v ltac:(lra) ltac:(lra)) as (w2 & I2 & L2).
  exists (w1 + w2). split; [exact (is_RInt_Chasles (tint x) u th v w1 w2 I1 I2)|].
  replace (w1 + w2 - (J + L)) with ((w1 - J) + (w2 - L)) by ring. eapply Rle_lt_trans; [apply Rabs_triang|]. lra.
Qed.
(* minus the antiderivative of t exp(-x t) *)
Definition tprim (x t : R) : R := (x * t + 1) * exp (- (x * t)) / (x * x).
Lemma txe_int x u v : 0 < x -> is_RInt (fun t => t * exp (- (x * t))) u v (tprim x u - tprim x v).
Proof.
  intros Hx. replace (tprim x u - tprim x v) with (minus ((fun t => - tprim x t) v) ((fun t => - tprim x t) u)) by (unfold minus, plus, opp; simpl; ring).
  apply (is_RInt_derive (fun t => - tprim x t)).
  - intros t _. unfold tprim. auto_derive; auto. field. lra.
  - intros t _. apply (ex_derive_continuous (V:=R_NormedModule)). auto_derive. auto.
Qed.
Lemma tprim_pos x t : 0 < x -> 0 <= t -> 0 < tprim x t.
Proof. intros Hx Ht. unfold tprim. apply Rdiv_lt_0_compat; [apply Rmult_lt_0_compat; [nra|apply exp_pos]|nra]. Qed.
Lemma ttail_ok x th : 0 < th -> 0 < x -> exists L, ttail x th L /\ 0 <= L <= tprim x th / (1 - exp (- th)).
Proof.
  intros Ht Hx. set (U := tprim x th / (1 - exp (- th))). set (T := fun v w => th <= v /\ is_RInt (tint x) th v w). pose proof (den_pos th Ht) as Dp.
  assert (UB : forall v w, T v w -> 0 <= w <= U).
  { intros v w [Hv Iw]. split.
    - apply (is_RInt_le (fun _ => 0) (tint x) th v 0 w Hv); auto.
      + apply zero_int.
      + intros t Ht'. left. apply tint_pos. lra.
    - apply Rle_trans with (/ (1 - exp (- th)) * (tprim x th - tprim x v)).
      + apply (is_RInt_le (tint x) (fun t => / (1 - exp (- th)) * (t * exp (- (x * t)))) th v); auto.
        * apply (is_RInt_scal (V:=R_NormedModule) (fun t => t * exp (- (x * t)))). now apply txe_int.
        * intros t Ht'. unfold tint, Rdiv. rewrite Rmult_comm. apply Rmult_le_compat_r; [apply Rmult_le_pos; [lra|left; apply exp_pos]|].
          apply Rinv_le_contravar; auto. assert (exp (- t) < exp (- th)) by (apply exp_increasing; lra). lra.
      + unfold U, Rdiv. rewrite Rmult_comm. apply Rmult_le_compat_r; [left; now apply Rinv_0_lt_compat|]. pose proof (tprim_pos x v Hx ltac:(lra)). lra. }
  set (E := fun w => exists v, T v w).
  assert (NE : exists w, E w). { destruct (tint_int x th th) as [w Iw]; try lra. exists w, th. split; auto. lra. }
  assert (BE : bound E). { exists U. intros w [v Hv]. now apply (UB v). }
  destruct (completeness E BE NE) as [L [L1 L2]]. exists L. split.
  - intros eps He. destruct (Classical_Prop.classic (exists w, E w /\ L - eps < w)) as [(w0 & [v0 [H0 I0]] & Hw0)|N].
    + exists v0. intros v Hv Hv'. destruct (tint_int x th v) as [w Iw]; try lra. exists w. split; auto.
      assert (w <= L) by (apply L1; exists v; split; auto).
      destruct (tint_int x v0 v) as [w1 I1]; try lra.
      assert (0 <= w1). { apply (is_RInt_le (fun _ => 0) (tint x) v0 v 0 w1); auto; try lra.
        - apply zero_int.
        - intros t Ht'. left. apply tint_pos. lra. }
      assert (EW : w = w0 + w1). { rewrite <- (is_RInt_unique _ _ _ _ Iw). apply is_RInt_unique. exact (is_RInt_Chasles (tint x) th v0 v w0 w1 I0 I1). }
      apply Rabs_def1; lra.
    + exfalso. assert (L <= L - eps); [|lra]. apply L2. intros w Hw. destruct (Rle_or_lt w (L - eps)); auto. exfalso. apply N. eauto.
  - destruct NE as (w & v & Hv). split.
    + apply Rle_trans with w; [apply (UB v w Hv)|]. apply L1. exists v. exact Hv.
    + apply L2. intros w' [v' Hv']. now apply (UB v').
Qed.
(* ---- the functional equation ---- *)
Lemma tint_diff x t : 0 < t -> tint (x + 1) t = tint x t - t * exp (- (x * t)).
Proof. intros Ht. pose proof (den_pos t Ht). unfold tint. replace (- ((x + 1) * t)) with (- (x * t) + - t) by ring. rewrite exp_plus. field. lra. Qed.
Lemma tprim_left x : 0 < x -> forall eps, 0 < eps -> exists d, 0 < d /\ forall u, 0 < u < d -> Rabs (tprim x u - / (x * x)) < eps.
Proof.
  intros Hx eps He. assert (C : continuous (tprim x) 0). { apply (ex_derive_continuous (V:=R_NormedModule)). unfold tprim. auto_derive. auto. }
  assert (E0 : tprim x 0 = / (x * x)). { unfold tprim. rewrite Rmult_0_r, Ropp_0, exp_0. field. lra. }
  destruct (proj1 (filterlim_locally _ _) C (mkposreal eps He)) as [d Hd]. exists d. split; [apply cond_pos|]. intros u Hu. rewrite <- E0. apply Hd.
  unfold ball; simpl. unfold AbsRing_ball, abs, minus, plus, opp; simpl. rewrite Ropp_0, Rplus_0_r. apply Rabs_def1; lra.
Qed.
Lemma tprim_right x : 0 < x -> forall eps, 0 < eps -> exists M, 0 < M /\ forall v, M < v -> tprim x v < eps.
Proof.
  intros Hx eps He. exists (4 / (eps * (x * x * x)) + / x). assert (0 < / x) by now apply Rinv_0_lt_compat. assert (Px : 0 < x * x) by nra. assert (0 < 4 / (eps * (x * x * x))) by (apply Rdiv_lt_0_compat; [lra|apply Rmult_lt_0_compat; nra]).
  split; [lra|]. intros v Hv. assert (V0 : 0 < v) by lra. set (y := x * v). assert (Hy : 1 < y). { unfold y. replace 1 with (x * / x) by (field; lra). apply Rmult_lt_compat_l; lra. }
  assert (Hy2 : 4 < eps * (x * x) * y). { unfold y. replace 4 with (eps * (x * x) * (x * (4 / (eps * (x * x * x))))) by (field; lra). apply Rmult_lt_compat_l; [nra|]. apply Rmult_lt_compat_l; lra. }
  (* exp y >= (1 + y/2)^2 *)
  assert (EH : (1 + y / 2) * (1 + y / 2) <= exp y). { replace (exp y) with (exp (y / 2) * exp (y / 2)) by (rewrite <- exp_plus; f_equal; field). pose proof (exp_ineq1 (y / 2) ltac:(lra)). apply Rmult_le_compat; lra. }
  unfold tprim. fold y. rewrite exp_Ropp. apply Rmult_lt_reg_r with (x * x); auto. unfold Rdiv. rewrite Rmult_assoc, Rinv_l, Rmult_1_r by lra.
  pose proof (exp_pos y). apply Rmult_lt_reg_r with (exp y); auto. rewrite Rmult_assoc, Rinv_l, Rmult_1_r by lra.
  apply Rlt_le_trans with (eps * (x * x) * ((1 + y / 2) * (1 + y / 2))); [|apply Rmult_le_compat_l; [nra|auto]]. nra.
Qed.
Lemma trigamma_shift x P : 0 < x -> is_trigamma x P <-> is_trigamma (x + 1) (P - / (x * x)).
Proof.
  intros Hx.
  assert (K : forall u v w, 0 < u -> 0 < v -> is_RInt (tint x) u v w -> is_RInt (tint (x + 1)) u v (w - (tprim x u - tprim x v))).
  { intros u v w Hu Hv I. apply (is_RInt_ext (fun t => tint x t - t * exp (- (x * t)))).
    - intros t Ht. symmetry. apply tint_diff. apply Rlt_trans with (Rmin u v); [apply Rmin_glb_lt; auto|apply Ht].
    - apply (is_RInt_minus (V:=R_NormedModule)); auto. now apply txe_int. }
  split; intros H eps He; destruct (H (eps / 4) ltac:(lra)) as (d & M & Hd & A); destruct (tprim_left x Hx (eps / 4) ltac:(lra)) as (d2 & Hd2 & A2); destruct (tprim_right x Hx (eps / 4) ltac:(lra)) as (M2 & HM2 & A3);
    exists (Rmin d d2), (Rmax M M2); (split; [apply Rmin_glb_lt; auto|]); intros u v Hu Hv;
    pose proof (Rmin_l d d2); pose proof (Rmin_r d d2); pose proof (Rmax_l M M2); pose proof (Rmax_r M M2);
    destruct (A u v ltac:(lra) ltac:(lra)) as (w & Iw & Lw); specialize (A2 u ltac:(lra)); specialize (A3 v ltac:(lra)); pose proof (tprim_pos x v Hx ltac:(lra)); apply Rabs_def2 in A2; apply Rabs_def2 in Lw.
  - exists (w - (tprim x u - tprim x v)). split; [apply K; auto; lra|]. apply Rabs_def1; lra.
  - destruct (tint_int x u v) as [w0 I0]; try lra. exists w0. split; auto. assert (EW : w = w0 - (tprim x u - tprim x v)). { rewrite <- (is_RInt_unique _ _ _ _ Iw). apply is_RInt_unique. apply K; auto; lra. }
    apply Rabs_def1; lra.
Qed.
(* ---- a value for every positive argument ---- *)
Lemma tint_bound x t : 0 < x -> 0 < t -> tint x t <= 1 + t.
Proof.
  intros Hx Ht. pose proof (den_pos t Ht) as Dp. unfold tint. apply Rmult_le_reg_r with (1 - exp (- t)); auto. unfold Rdiv. rewrite Rmult_assoc, Rinv_l, Rmult_1_r by lra.
  apply Rle_trans with (t * 1); [apply Rmult_le_compat_l; [lra|]; rewrite <- exp_0; left; apply exp_increasing; nra|].
  assert (T : (1 + t) * exp (- t) <= 1). { rewrite exp_Ropp. apply Rmult_le_reg_r with (exp t); [apply exp_pos|]. rewrite Rmult_assoc, Rinv_l by (apply Rgt_not_eq, exp_pos). pose proof (exp_ineq1 t ltac:(lra)). lra. }
  lra.
Qed.
Lemma left_exists x h : 0 < x -> 0 < h -> exists J, improper (tint x) 0 h J.
Proof.
  intros Hx Hh. set (E := fun w => exists u, 0 < u <= h /\ is_RInt (tint x) u h w).
  assert (BD : forall u v w, 0 < u <= v -> v <= h -> is_RInt (tint x) u v w -> 0 <= w <= (1 + h) * (v - u)).
  { intros u v w Hu Hv Iw. split.
    - apply (is_RInt_le (fun _ => 0) (tint x) u v 0 w); auto; try lra; [apply zero_int|]. intros t Ht. left. apply tint_pos. lra.
    - apply (is_RInt_le (tint x) (fun _ => 1 + h) u v w); auto; try lra.
      + replace ((1 + h) * (v - u)) with (Hierarchy.scal (v - u) ((1 + h) : R_NormedModule)) by (unfold Hierarchy.scal; simpl; unfold mult; simpl; ring). apply is_RInt_const.
      + intros t Ht. pose proof (tint_bound x t Hx ltac:(lra)). lra. }
  assert (NE : exists w, E w). { destruct (tint_int x h h) as [w Iw]; try lra. exists w, h. split; auto. lra. }
  assert (BE : bound E). { exists ((1 + h) * h). intros w (u & Hu & Iw). pose proof (BD u h w ltac:(lra) ltac:(lra) Iw). nra. }
  destruct (completeness E BE NE) as [L [L1 L2]]. exists L. intros eps He. 
  destruct (Classical_Prop.classic (exists w, E w /\ L - eps < w)) as [(w0 & (u0 & H0 & I0) & Hw0)|N].
  - exists u0. split; [lra|]. intros u Hu Huh. destruct (tint_int x u h) as [w Iw]; try lra. exists w. split; auto. assert (w <= L) by (apply L1; exists u; split; auto; lra).
    destruct (tint_int x u u0) as [w1 I1]; try lra. pose proof (BD u u0 w1 ltac:(lra) ltac:(lra) I1).
    assert (EW : w = w1 + w0). { rewrite <- (is_RInt_unique _ _ _ _ Iw). apply is_RInt_unique. exact (is_RInt_Chasles (tint x) u u0 h w1 w0 I1 I0). }
    apply Rabs_def1; lra.
  - exfalso. assert (L <= L - eps); [|lra]. apply L2. intros w Hw. destruct (Rle_or_lt w (L - eps)); auto. exfalso. apply N. eauto.
Qed.
Lemma trigamma_exists x : 0 < x -> exists P, is_trigamma x P.
Proof. intros Hx. destruct (left_exists x 1 Hx ltac:(lra)) as [J HJ]. destruct (ttail_ok x 1 ltac:(lra) Hx) as (L & HL & _). exists (J + L). apply (tri_split x 1); auto. lra. Qed.
(* ---- decreasing, positive ---- *)
Lemma trigamma_decr x y P Q : x <= y -> is_trigamma x P -> is_trigamma y Q -> Q <= P.
Proof.
  intros Hx HP HQ. destruct (Rle_or_lt Q P) as [|N]; auto. exfalso. destruct (HP ((Q - P) / 2) ltac:(lra)) as (d & M & Hd & A). destruct (HQ ((Q - P) / 2) ltac:(lra)) as (d' & M' & Hd' & A').
  pose proof (Rmin_l d d'). pose proof (Rmin_r d d'). pose proof (Rmax_l M M'). pose proof (Rmax_r M M'). assert (0 < Rmin d d') by (apply Rmin_glb_lt; auto).
  set (u := Rmin d d' / 2). set (v := Rmax (Rmax M M') u + 1). pose proof (Rmax_l (Rmax M M') u). pose proof (Rmax_r (Rmax M M') u).
  destruct (A u v) as (w & Iw & Lw); [unfold u; lra|unfold v; lra|]. destruct (A' u v) as (w' & Iw' & Lw'); [unfold u; lra|unfold v; lra|]. 
  assert (w' <= w). { apply (is_RInt_le (tint y) (tint x) u v); auto; [unfold v; lra|]. intros t Ht. assert (0 < t) by (unfold u in Ht; lra). unfold tint, Rdiv. apply Rmult_le_compat_r; [left; apply Rinv_0_lt_compat; now apply den_pos|].
    apply Rmult_le_compat_l; [lra|]. destruct (Req_dec x y) as [->|]; [lra|]. left. apply exp_increasing. nra. }
  apply Rabs_def2 in Lw. apply Rabs_def2 in Lw'. lra.
Qed.
Lemma trigamma_nonneg x P : is_trigamma x P -> 0 <= P.
Proof.
  intros HP. destruct (Rle_or_lt 0 P) as [|N]; auto. exfalso. destruct (HP (- P) ltac:(lra)) as (d & M & Hd & A). pose proof (Rmax_l M d). pose proof (Rmax_r M d).
  destruct (A (d / 2) (Rmax M d + 1)) as (w & Iw & Lw); try lra. apply Rabs_def2 in Lw.
  assert (0 <= w); [|lra]. apply (is_RInt_le (fun _ => 0) (tint x) (d / 2) (Rmax M d + 1) 0 w); auto; try lra; [apply zero_int|]. intros t Ht. left. apply tint_pos. lra.
Qed.
Lemma trigamma_positive x P : 0 < x -> is_trigamma x P -> 0 < P.
Proof. intros Hx H. apply (proj1 (trigamma_shift x P Hx)) in H. pose proof (trigamma_nonneg _ _ H). assert (0 < / (x * x)) by (apply Rinv_0_lt_compat; nra). lra. Qed.
(* ---- negative arguments ---- *)
(* trigamma(x) = trigamma(x + 1) + 1 / x^2; no value at 0, -1, -2, ... *)
Inductive is_Trigamma : R -> R -> Prop :=
| Tpos x P : 0 < x -> is_trigamma x P -> is_Trigamma x P
| Tneg x P : x < 0 -> is_Trigamma (x + 1) P -> is_Trigamma x (P + / (x * x)).
Lemma Trigamma_pos_inv x P : 0 < x -> is_Trigamma x P -> is_trigamma x P.
Proof. intros H K. inversion K; subst; auto. lra. Qed.
Lemma Trigamma_unique x P P' : is_Trigamma x P -> is_Trigamma x P' -> P = P'.
Proof.
  intros H. revert P'. induction H as [x P H K|x P H K IH]; intros P' H'.
  - apply (trigamma_unique x); auto. now apply Trigamma_pos_inv.
  - inversion H' as [|x0 P0 HX HK]; subst; [lra|]. now rewrite (IH P0).
Qed.
Lemma Trigamma_positive x P : is_Trigamma x P -> 0 < P.
Proof.
  intros H. induction H as [x P H K|x P H K IH]; [now apply (trigamma_positive x)|]. assert (0 < / (x * x)) by (apply Rinv_0_lt_compat; nra). lra.
Qed.
Lemma Trigamma_step x P : x <> 0 -> is_Trigamma (x + 1) P -> is_Trigamma x (P + / (x * x)).
Proof.
  intros N H. destruct (Rlt_or_le 0 x) as [Q|Q]; [|apply Tneg; auto; lra]. apply Tpos; auto. apply (proj2 (trigamma_shift x _ Q)). replace (P + / (x * x) - / (x * x)) with P by ring. apply Trigamma_pos_inv; auto. lra.
Qed.
Lemma Trigamma_exists x : (forall k : nat, x <> - INR k) -> exists P, is_Trigamma x P.
Proof.
  intros N. assert (K : forall k x, (forall k : nat, x <> - INR k) -> 0 < x + INR k -> exists P, is_Trigamma x P).
  { clear. induction k as [|k IH]; intros x N H.
    - simpl in H. destruct (trigamma_exists x ltac:(lra)) as [P HP]. exists P. apply Tpos; auto. lra.
    - rewrite S_INR in H. destruct (IH (x + 1)) as [P HP]; [|lra|]. { intros j E. apply (N (Datatypes.S j)). rewrite S_INR. lra. }
      exists (P + / (x * x)). apply Trigamma_step; auto. intros ->. apply (N 0%nat). simpl. lra. }
  destruct (nfloor_ex (Rabs x)) as [k Hk]; [apply Rabs_pos|]. apply (K (Datatypes.S k)); auto. rewrite S_INR. pose proof (Rle_abs (- x)). rewrite Rabs_Ropp in H. lra.
Qed.
