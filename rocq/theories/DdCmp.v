(* Comparisons of double-doubles, and conversions to and from double. *)
From Coq Require Import Reals Lra Lia Psatz ZArith Bool.
From Flocq Require Import Core BinarySingleNaN.
From Verif Require Import Ext Scalar Fp64 RDoubleHw NohwModel NohwReal NohwBase NohwProd NohwProofs NohwDiv DdModel DdSpec DdProofs DdArith.
Open Scope R_scope.

Lemma norm_lt r s r' s' : RN (r + s) = r -> RN (r' + s') = r' -> r < r' -> r + s < r' + s'.
Proof. intros E E' L. apply Rnot_le_lt. intros C. apply RN_le in C. lra. Qed.

Lemma dd_lt_ok x y : ddok x -> ddok y -> (dd_lt x y = true <-> xlt (ddval x) (ddval y)).
Proof.
  intros Hx Hy. unfold dd_lt.
  destruct (ddok_cases x Hx) as [(r & s & X1 & X2 & Nx & ->)|[(X1 & X2 & ->)|(X1 & X2 & ->)]];
  destruct (ddok_cases y Hy) as [(r' & s' & Y1 & Y2 & Ny & ->)|[(Y1 & Y2 & ->)|(Y1 & Y2 & ->)]];
  rewrite ?ltb_x, ?leb_x, X1, Y1, X2, Y2; cbn [xltb xleb xlt xle];
  rewrite ?(Rlt_bool_false 0 0), ?(Rle_bool_true 0 0) by lra;
  try (split; [congruence|tauto]); try (split; auto; fail).
  destruct (Rlt_bool_spec r r') as [L|L].
  - pose proof (norm_lt _ _ _ _ Nx Ny L). split; intros; auto; lra.
  - destruct (Rlt_bool_spec r' r) as [L'|L'].
    + pose proof (norm_lt _ _ _ _ Ny Nx L'). split; intros; [discriminate|lra].
    + assert (r = r') by lra. subst r'. destruct (Rlt_bool_spec s s'); split; intros; auto; try lra; discriminate.
Qed.
Lemma dd_le_ok x y : ddok x -> ddok y -> (dd_le x y = true <-> xle (ddval x) (ddval y)).
Proof.
  intros Hx Hy. unfold dd_le.
  destruct (ddok_cases x Hx) as [(r & s & X1 & X2 & Nx & ->)|[(X1 & X2 & ->)|(X1 & X2 & ->)]];
  destruct (ddok_cases y Hy) as [(r' & s' & Y1 & Y2 & Ny & ->)|[(Y1 & Y2 & ->)|(Y1 & Y2 & ->)]];
  rewrite ?ltb_x, ?leb_x, X1, Y1, X2, Y2; cbn [xltb xleb xlt xle];
  rewrite ?(Rlt_bool_false 0 0), ?(Rle_bool_true 0 0) by lra;
  try (split; [congruence|tauto]); try (split; auto; fail).
  destruct (Rlt_bool_spec r r') as [L|L].
  - pose proof (norm_lt _ _ _ _ Nx Ny L). split; intros; auto; lra.
  - destruct (Rlt_bool_spec r' r) as [L'|L'].
    + pose proof (norm_lt _ _ _ _ Ny Nx L'). split; intros; [discriminate|lra].
    + assert (r = r') by lra. subst r'. destruct (Rle_bool_spec s s'); split; intros; auto; try lra; discriminate.
Qed.
Lemma dd_gt_ok x y : ddok x -> ddok y -> (dd_gt x y = true <-> xlt (ddval y) (ddval x)).
Proof. intros Hx Hy. rewrite <- dd_lt_ok; auto. reflexivity. Qed.
Lemma dd_ge_ok x y : ddok x -> ddok y -> (dd_ge x y = true <-> xle (ddval y) (ddval x)).
Proof. intros Hx Hy. rewrite <- dd_le_ok; auto. reflexivity. Qed.
Lemma norm_eq r s r' s' : RN (r + s) = r -> RN (r' + s') = r' -> r + s = r' + s' -> r = r' /\ s = s'.
Proof. intros E E' H. rewrite H in E. split; lra. Qed.
Lemma dd_eq_ok x y : ddok x -> ddok y -> (dd_eq x y = true <-> xeq (ddval x) (ddval y)).
Proof.
  intros Hx Hy. unfold dd_eq.
  destruct (ddok_cases x Hx) as [(r & s & X1 & X2 & Nx & ->)|[(X1 & X2 & ->)|(X1 & X2 & ->)]];
  destruct (ddok_cases y Hy) as [(r' & s' & Y1 & Y2 & Ny & ->)|[(Y1 & Y2 & ->)|(Y1 & Y2 & ->)]];
  rewrite !eqb_x, X1, Y1, X2, Y2; cbn [xeqb xeq andb]; rewrite ?(Req_bool_true 0 0) by auto; try (split; [congruence|tauto]); try (split; auto; fail).
  destruct (Req_bool_spec r r'), (Req_bool_spec s s'); cbn [andb]; split; intros; auto; try discriminate; try lra;
    destruct (norm_eq _ _ _ _ Nx Ny H1); contradiction.
Qed.
Lemma dd_ne_ok x y : dd_ne x y = negb (dd_eq x y).
Proof. unfold dd_ne, dd_eq. destruct (a1 x ==. a1 y), (a2 x ==. a2 y); reflexivity. Qed.

Lemma dd_of_ok c : v64 c <> Xn -> ddok (dd_of c) /\ ddval (dd_of c) = v64 c.
Proof.
  intros H. unfold ddok, ddval, dd_of. cbn [a1 a2]. rewrite b0_v. destruct (v64 c) as [r| | |] eqn:E; try congruence; auto.
  rewrite Rplus_0_r. split; auto. apply (RN_id r). apply (fmtv c r E).
Qed.
Lemma dd_neg_ok x : ddok x -> ddok (dd_neg x) /\ ddval (dd_neg x) = xneg (ddval x).
Proof.
  intros Hx. unfold dd_neg, ddok, ddval at 1. cbn [a1 a2]. rewrite !Bopp_v.
  destruct (ddok_cases x Hx) as [(r & s & X1 & X2 & Nx & ->)|[(X1 & X2 & ->)|(X1 & X2 & ->)]];
  unfold ddval; rewrite X1, X2; simpl; try (split; auto; lra).
  replace (- r + - s) with (- (r + s)) by ring. split; auto. rewrite RN_opp. f_equal. auto.
Qed.

Lemma ddtodouble_ok O d x : opsok O -> ddok x -> v64 (ddtodouble O d x) = xr (dmode d) (ddval x).
Proof.
  intros OK Hx. unfold ddtodouble. rewrite (add_v O OK).
  destruct (ddok_cases x Hx) as [(r & s & X1 & X2 & _ & ->)|[(X1 & X2 & ->)|(X1 & X2 & ->)]]; rewrite X1, X2; reflexivity.
Qed.

(* checking by computation that a pair is normalised *)
Lemma ddok_check x : is_finite (a1 x) = true -> is_finite (a2 x) = true -> (a1 x +. a2 x ==. a1 x) = true -> ddok x.
Proof.
  intros F1 F2 E. apply Beqb_v in E. rewrite Bplus_v in E. unfold ddok. rewrite (v64_fin _ F1), (v64_fin _ F2) in * .
  simpl in E. unfold rx in E. destruct (Rlt_bool (Rabs _) _).
  - exact E.
  - simpl in E. destruct (Rlt_bool _ 0); simpl in E; contradiction.
Qed.
