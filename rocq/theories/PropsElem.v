(* Property theorems for the elementary functions of interval<double>: C20-C29.  The specification
   is the function on real numbers; `isin Q y` is membership of the real y in the interval Q. *)
From Coq Require Import Reals Lra Lia ZArith Bool SpecFloat.
From Flocq Require Import Core BinarySingleNaN.
From Verif Require Import Fp64 RDoubleHw NohwModel NohwDiv Ext Scalar IntervalModel IntervalSpec IntervalProofs
  IntervalEncl IntervalSets IntervalDivPow IntervalMore Expr Backends Ex64.
From Verif Require Import ElemModel RealFun RealConst RealInv ElemGen ElemExp ElemLog ElemTrig ElemAtan2 ElemConst Elem64 ElemMore ExprFun.
Open Scope R_scope.

(* the parameters of the elementary functions, per back end *)
Definition bpar (b : backend) : elemp (bscal b) :=
  match b with BHw => P64 _ _ _ _ _ _ _ _ _ _ | BAvx => P64 _ _ _ _ _ _ _ _ _ _ | BNohw f => P64 _ _ _ _ _ _ _ _ _ _ end.
Lemma bexp b : exp_laws (bscal b) (bpar b).
Proof. destruct b as [| |f]; [eapply exp_laws64; apply ideal_hw|eapply exp_laws64; apply ideal_avx|eapply exp_laws64; apply (ideal_nohw f)]. Qed.
Lemma blog b : log_laws (bscal b) (bpar b).
Proof. destruct b as [| |f]; [eapply log_laws64; apply ideal_hw|eapply log_laws64; apply ideal_avx|eapply log_laws64; apply (ideal_nohw f)]. Qed.
Lemma btrig b : trig_laws (bscal b) (bpar b).
Proof. destruct b as [| |f]; [eapply trig_laws64; apply ideal_hw|eapply trig_laws64; apply ideal_avx|eapply trig_laws64; apply (ideal_nohw f)]. Qed.
Notation bok := bscal_ok.
(* for the examples: the run with the hardware back end returns *)
Notation hw := (bpar BHw).
Definition returns {A} (x : res A) : bool := match x with Ok _ => true | Err _ => false end.

(* ---- C20 ---- *)
(* v is the value of the real expression at the point env of the box (and exists) *)
Theorem C20_fundamental : forall b fuel (e : expr ufun) (box : nat -> iv (bscal b)) (env : nat -> R) v Q,
  cst_ok e -> (forall n, isin (box n) (env n)) -> eev ufun_r env e v ->
  ieval (ufun_i (bpar b) fuel) box e = Ok Q -> isin Q v.
Proof.
  intros b f e box env v Q C HE EV H.
  exact (ieval_all (bok b) _ _ (ufun_encl (bok b) (bpar b) (bexp b) (blog b) (btrig b) f) box env e v HE EV C Q H).
Qed.
Print Assumptions C20_fundamental.
(* log(x*y + 1) - exp(sqrt y) at (1/2, 3/4), over [1/4, 1] x [1/4, 1] *)
Definition C20_e : expr ufun := ESub (EFun Flog (EAdd (EMul (EVar 0) (EVar 1)) (ECst 1 0))) (EFun Fexp (ESqrt (EVar 1))).
Example C20_case : returns (ieval (ufun_i hw 60) (fun _ => qiv 1 (-2) 1 0) C20_e) = true /\ cst_ok C20_e /\
  eev ufun_r (fun n => match n with O => / 2 | _ => 3 / 4 end) C20_e (ln (/ 2 * (3 / 4) + IZR 1 * bpow radix2 0) - exp (sqrt (3 / 4))).
Proof.
  split; [reflexivity|]. split; [unfold C20_e; cbn [cst_ok]; repeat split; lia|].
  unfold C20_e. apply ev_sub.
  - eapply ev_fun; [apply ev_add; [apply ev_mul; apply ev_var|apply ev_cst]|]. cbn [ufun_r]. rewrite exp_ln; auto. simpl. lra.
  - eapply ev_fun; [apply ev_sqrt; [apply ev_var|lra]|]. reflexivity.
Qed.

(* ---- C21 ---- *)
Theorem C21_exp_encloses : forall b fuel (X Q : iv (bscal b)) x,
  iexp _ (bpar b) fuel X = Ok Q -> isin X x -> isin Q (exp x).
Proof. intros b f X Q x. exact (iexp_encl (bok b) (bpar b) (bexp b) f X x Q). Qed.
Print Assumptions C21_exp_encloses.
Theorem C21_expm1_encloses : forall b fuel (X Q : iv (bscal b)) x,
  iexpm1 _ (bpar b) fuel X = Ok Q -> isin X x -> isin Q (exp x - 1).
Proof. intros b f X Q x. exact (iexpm1_encl (bok b) (bpar b) (bexp b) f X x Q). Qed.
Print Assumptions C21_expm1_encloses.
Example C21_case : returns (iexp _ hw 30 (qiv 1 (-1) 1 0)) = true /\ isin (qiv 1 (-1) 1 0) (3 / 4) /\
  returns (iexp _ hw 30 (qivl (-3) 0)) = true /\ isin (qivl (-3) 0) (-1000) /\
  returns (iexpm1 _ hw 30 (qiv 1 (-1) 1 0)) = true.
Proof. repeat (apply conj); try reflexivity; qin. Qed.

(* ---- C22 ---- *)
Theorem C22_log_encloses : forall b fuel (X Q : iv (bscal b)) x,
  ilog _ (bpar b) fuel X = Ok Q -> isin X x -> 0 < x -> isin Q (ln x).
Proof. intros b f X Q x. exact (ilog_encl (bok b) (bpar b) (blog b) f X x Q). Qed.
Print Assumptions C22_log_encloses.
Theorem C22_log1p_encloses : forall b fuel (X Q : iv (bscal b)) x,
  ilog1p _ (bpar b) fuel X = Ok Q -> isin X x -> -1 < x -> isin Q (ln (1 + x)).
Proof. intros b f X Q x. exact (ilog1p_encl (bok b) (bpar b) (blog b) f X x Q). Qed.
Print Assumptions C22_log1p_encloses.
Theorem C22_log_domain : forall b fuel (X : iv (bscal b)) x,
  isin X x -> x < 0 -> ilog _ (bpar b) fuel X = Err EDomain.
Proof.
  intros b f X x (A1 & _ & A3 & _) N. unfold ilog. assert (slt (lo X) s0 = true) as ->; auto.
  apply (ok_lt _ (bok b)); auto; [apply (s0_wf (bok b))|]. rewrite (s0_v (bok b)).
  destruct (sval (lo X)); simpl in *; try tauto; lra.
Qed.
Print Assumptions C22_log_domain.
Theorem C22_log1p_domain : forall b fuel (X : iv (bscal b)) x,
  isin X x -> x < -1 -> ilog1p _ (bpar b) fuel X = Err EDomain.
Proof.
  intros b f X x (A1 & _ & A3 & _) N. unfold ilog1p. destruct (m1_ok (bok b)) as [W E].
  assert (slt (lo X) (sneg s1) = true) as ->; auto.
  apply (ok_lt _ (bok b)); auto. rewrite E. destruct (sval (lo X)); simpl in *; try tauto; lra.
Qed.
Print Assumptions C22_log1p_domain.
Example C22_case : returns (ilog _ hw 60 (qiv 3 0 5 0)) = true /\ isin (qiv 3 0 5 0) 4 /\
  returns (ilog _ hw 60 (qiv 0 0 5 0)) = true /\ returns (ilog1p _ hw 60 (qiv (-1) (-4) 5 0)) = true /\
  isin (qiv (-1) (-4) 5 0) 0.
Proof. repeat (apply conj); try reflexivity; qin. Qed.

(* ---- C23: false.  log of an interval whose lower end is 2^1023 never returns: 2^-1024 is computed as
   1/[DBL_MAX, inf], its lower end is 0, x2 becomes 0 and the loop `while (x2 < 2 - sqrt 2) x2 *= 2`
   (1197-1200) runs forever.  At the other end of the range x2 becomes +inf (loop 1187-1190). *)
Definition bz (b : backend) (z : b64) : bscal b := match b with BHw => z | BAvx => z | BNohw _ => z end.
Lemma l1_stop b f z p : slt (th1 (bscal b) (bpar b)) z = false -> log_l1 (bscal b) (bpar b) f z p = Ok (z, p).
Proof. intros H. destruct f; cbn [log_l1]; rewrite H; reflexivity. Qed.
Lemma l2_stop b f s2 z p : slt (th2 (bscal b) (bpar b)) z = false -> log_l2 (bscal b) (bpar b) f false s2 z p = Ok (z, p).
Proof. intros H. destruct f; cbn [log_l2]; rewrite H; reflexivity. Qed.
Lemma l3_zero b s f p : log_l3 (bscal b) (bpar b) f (bz b (B754_zero s)) p = Err EFuel.
Proof.
  assert (C : slt (bz b (B754_zero s)) (th3 (bscal b) (bpar b)) = true) by (destruct b as [| |[]], s; vm_compute; reflexivity).
  assert (M : nmul (bz b (B754_zero s)) (sint (bscal b) 2) = bz b (B754_zero s)) by (destruct b as [| |[]], s; reflexivity).
  revert p. induction f as [|f IH]; intros p; cbn [log_l3]; rewrite C; [reflexivity|]. rewrite M. apply IH.
Qed.
Lemma l1_inf b f p : log_l1 (bscal b) (bpar b) f (bz b (B754_infinity false)) p = Err EFuel.
Proof.
  assert (C : slt (th1 (bscal b) (bpar b)) (bz b (B754_infinity false)) = true) by (destruct b as [| |[]]; vm_compute; reflexivity).
  assert (M : nmul (bz b (B754_infinity false)) shalf = bz b (B754_infinity false)) by (destruct b as [| |[]]; reflexivity).
  revert p. induction f as [|f IH]; intros p; cbn [log_l1]; rewrite C; [reflexivity|]. rewrite M. apply IH.
Qed.
Definition unbz (b : backend) : bscal b -> b64 := match b with BHw => fun z => z | BAvx => fun z => z | BNohw _ => fun z => z end.
Lemma bz_un b z : bz b (unbz b z) = z. Proof. destruct b; reflexivity. Qed.
Lemma log_top b f : log_point (bscal b) (bpar b) f (bz b (bdy 1 1023)) false = Err EFuel.
Proof.
  assert (R1 : returns (isqrt (ipt (sint (bscal b) 2))) = true) by (destruct b as [| |[]]; vm_compute; reflexivity).
  assert (R2 : match ipow (ipt (sint (bscal b) 2)) (- frexp_e (bpar b) (bz b (bdy 1 1023))) with
    Ok q => B2SF (unbz b (lo (iSmul (bz b (bdy 1 1023)) q))) | _ => S754_nan end = S754_zero false)
    by (destruct b as [| |[]]; vm_compute; reflexivity).
  assert (F1 : seqb (bz b (bdy 1 1023)) spinf = false) by (destruct b; reflexivity).
  assert (F2 : seqb (bz b (bdy 1 1023)) s0 = false) by (destruct b; reflexivity).
  unfold log_point. destruct isqrt as [s2|]; [|discriminate]. cbn [bind]. rewrite F1, F2.
  destruct ipow as [q|]; [|discriminate]. cbn [bind pick].
  assert (lo (iSmul (bz b (bdy 1 1023)) q) = bz b (B754_zero false)) as ->.
  { rewrite <- (bz_un b (lo _)). f_equal. revert R2. destruct (unbz b (lo _)) as [[]|[]| |]; intros; (discriminate || reflexivity). }
  rewrite l1_stop by (destruct b as [| |[]]; vm_compute; reflexivity). cbn [bind fst snd].
  rewrite l2_stop by (destruct b as [| |[]]; vm_compute; reflexivity). cbn [bind fst snd].
  rewrite l3_zero. reflexivity.
Qed.
Lemma log_bottom b f : log_point (bscal b) (bpar b) f (bz b (bdy 1 (-1074))) true = Err EFuel.
Proof.
  assert (R1 : returns (isqrt (ipt (sint (bscal b) 2))) = true) by (destruct b as [| |[]]; vm_compute; reflexivity).
  assert (R2 : match ipow (ipt (sint (bscal b) 2)) (- frexp_e (bpar b) (bz b (bdy 1 (-1074)))) with
    Ok q => B2SF (unbz b (hi (iSmul (bz b (bdy 1 (-1074))) q))) | _ => S754_nan end = S754_infinity false)
    by (destruct b as [| |[]]; vm_compute; reflexivity).
  assert (F1 : seqb (bz b (bdy 1 (-1074))) spinf = false) by (destruct b; reflexivity).
  assert (F2 : seqb (bz b (bdy 1 (-1074))) s0 = false) by (destruct b; reflexivity).
  unfold log_point. destruct isqrt as [s2|]; [|discriminate]. cbn [bind]. rewrite F1, F2.
  destruct ipow as [q|]; [|discriminate]. cbn [bind pick].
  assert (hi (iSmul (bz b (bdy 1 (-1074))) q) = bz b (B754_infinity false)) as ->.
  { rewrite <- (bz_un b (hi _)). f_equal. revert R2. destruct (unbz b (hi _)) as [[]|[]| |]; intros; (discriminate || reflexivity). }
  rewrite l1_inf. reflexivity.
Qed.
Theorem C23_log_terminates_refuted : forall b, exists X : iv (bscal b),
  (exists x, isin X x) /\ (forall x, isin X x -> bpow radix2 1023 <= x) /\ forall fuel, ilog _ (bpar b) fuel X = Err EFuel.
Proof.
  intros b. exists (ipt (bz b (bdy 1 1023))).
  assert (V : sval (bz b (bdy 1 1023)) = XR (bpow radix2 1023)).
  { assert (E : v64 (bdy 1 1023) = XR (bpow radix2 1023)); [|destruct b; exact E].
    rewrite (v64_lit (bdy 1 1023) false 4503599627370496 971) by reflexivity. f_equal. change (cond_Zopp false 4503599627370496%Z) with (Z.pow 2 52).
    rewrite (IZR_Zpower radix2) by lia. rewrite <- bpow_plus. reflexivity. }
  assert (W : swf (bz b (bdy 1 1023))) by (destruct b; exact I).
  split; [exists (bpow radix2 1023); apply isin_pt; auto|]. split.
  - intros x (_ & _ & H & _). cbn [ipt lo] in H. rewrite V in H. exact H.
  - intros f. unfold ilog. assert (slt (bz b (bdy 1 1023)) s0 = false) as E by (destruct b; reflexivity).
    cbn [ipt lo]. rewrite E, log_top. reflexivity.
Qed.
Print Assumptions C23_log_terminates_refuted.
(* and at the bottom of the range: for X = [lo, 2^-1074] the upper end never returns *)
Theorem C23_log_subnormal_refuted : forall b fuel (X : iv (bscal b)) Q,
  hi X = bz b (bdy 1 (-1074)) -> ilog _ (bpar b) fuel X <> Ok Q.
Proof.
  intros b f X Q H E. unfold ilog in E. destruct slt; [discriminate|]. inv E. rewrite H, log_bottom in E. discriminate.
Qed.
Print Assumptions C23_log_subnormal_refuted.

(* ---- C24 ---- *)
Theorem C24_sin_encloses : forall b fuel (X Q : iv (bscal b)) x,
  isin_ _ (bpar b) fuel X = Ok Q -> isin X x -> isin Q (sin x).
Proof. intros b f X Q x. exact (sin_encl (bok b) (bpar b) (btrig b) f X x Q). Qed.
Print Assumptions C24_sin_encloses.
Theorem C24_cos_encloses : forall b fuel (X Q : iv (bscal b)) x,
  icos _ (bpar b) fuel X = Ok Q -> isin X x -> isin Q (cos x).
Proof. intros b f X Q x. exact (cos_encl (bok b) (bpar b) (btrig b) f X x Q). Qed.
Print Assumptions C24_cos_encloses.
Theorem C24_range : forall b fuel (X Q : iv (bscal b)) y,
  isin_ _ (bpar b) fuel X = Ok Q \/ icos _ (bpar b) fuel X = Ok Q -> isin Q y -> -1 <= y <= 1.
Proof.
  intros b f X Q y [H|H]; [exact (sin_in_pm1 (bok b) (bpar b) f X Q y H)|exact (cos_in_pm1 (bok b) (bpar b) f X Q y H)].
Qed.
Print Assumptions C24_range.
Example C24_case : returns (isin_ _ hw 60 (qiv 1 0 2 0)) = true /\ isin (qiv 1 0 2 0) (3 / 2) /\
  returns (icos _ hw 60 (qiv 1 0 2 0)) = true /\ returns (isin_ _ hw 60 (qivl 2 0)) = true.
Proof. repeat (apply conj); try reflexivity; qin. Qed.

(* ---- C25 ---- *)
Theorem C25_tan_encloses : forall b fuel (X Q : iv (bscal b)) x,
  itan _ (bpar b) fuel X = Ok Q -> isin X x -> isin Q (tan x).
Proof. intros b f X Q x. exact (tan_encl (bok b) (bpar b) (btrig b) f X x Q). Qed.
Print Assumptions C25_tan_encloses.
Theorem C25_tan_pole_whole : forall b fuel (X Q : iv (bscal b)) x,
  itan _ (bpar b) fuel X = Ok Q -> isin X x -> cos x = 0 -> forall y, isin Q y.
Proof.
  intros b f X Q x H HX HC y. rewrite (tan_pole (bok b) (bpar b) (btrig b) f X x Q H HX HC). apply (isin_whole (bok b)).
Qed.
Print Assumptions C25_tan_pole_whole.
Example C25_case : returns (itan _ hw 60 (qiv 1 (-1) 1 0)) = true /\ isin (qiv 1 (-1) 1 0) (3 / 4) /\
  returns (itan _ hw 60 (qiv 1 0 2 0)) = true /\ isin (qiv 1 0 2 0) (PI / 2).
Proof.
  split; [reflexivity|]. split; [qin|]. split; [reflexivity|]. apply qiv_in; [reflexivity|]. simpl.
  pose proof pi_bounds. unfold pi_lo, pi_hi in * . lra.
Qed.

(* ---- C26 ---- *)
Theorem C26_atan_encloses : forall b fuel (X Q : iv (bscal b)) x,
  iatan _ (bpar b) fuel X = Ok Q -> isin X x -> isin Q (atan x).
Proof. intros b f X Q x. exact (iatan_encl (bok b) (bpar b) (btrig b) f X x Q). Qed.
Print Assumptions C26_atan_encloses.
Theorem C26_asin_encloses : forall b fuel (X Q : iv (bscal b)) x,
  iasin _ (bpar b) fuel X = Ok Q -> isin X x -> -1 <= x <= 1 /\ isin Q (asin x).
Proof. intros b f X Q x. exact (iasin_encl (bok b) (bpar b) (btrig b) f X x Q). Qed.
Print Assumptions C26_asin_encloses.
Theorem C26_acos_encloses : forall b fuel (X Q : iv (bscal b)) x,
  iacos _ (bpar b) fuel X = Ok Q -> isin X x -> -1 <= x <= 1 /\ isin Q (acos x).
Proof. intros b f X Q x. exact (iacos_encl (bok b) (bpar b) (btrig b) f X x Q). Qed.
Print Assumptions C26_acos_encloses.
(* the angle, up to one turn: theta is an angle of the point (x, y) *)
Theorem C26_atan2_encloses : forall b fuel (Y X Q : iv (bscal b)) y x,
  iatan2 _ (bpar b) fuel Y X = Ok Q -> isin Y y -> isin X x -> x <> 0 \/ y <> 0 ->
  exists theta, isin Q theta /\ x = sqrt (x * x + y * y) * cos theta /\ y = sqrt (x * x + y * y) * sin theta.
Proof.
  intros b f Y X Q y x H HY HX N. pose proof (iatan2_encl (bok b) (bpar b) (btrig b) f Y X y x Q H HY HX N) as K.
  destruct (ratan2_angle y x N) as [A1 A2].
  assert (P1 : forall t, cos (t + 2 * PI) = cos t /\ sin (t + 2 * PI) = sin t) by (intros t; split; [rewrite cos_plus, cos_2PI, sin_2PI; ring|rewrite sin_plus, cos_2PI, sin_2PI; ring]).
  destruct (crosses Y X); [destruct Rlt_dec|]; eexists; (split; [exact K|]);
    rewrite ?(proj1 (P1 _)), ?(proj2 (P1 _)); auto.
Qed.
Print Assumptions C26_atan2_encloses.
(* the principal value when the box does not meet the negative real axis from both sides *)
Theorem C26_atan2_principal : forall b fuel (Y X Q : iv (bscal b)) y x,
  iatan2 _ (bpar b) fuel Y X = Ok Q -> isin Y y -> isin X x -> 0 < x -> isin Q (atan (y / x)) \/ isin Q (atan (y / x) + 2 * PI).
Proof.
  intros b f Y X Q y x H HY HX N. pose proof (iatan2_encl (bok b) (bpar b) (btrig b) f Y X y x Q H HY HX (or_introl (Rgt_not_eq _ _ N))) as K.
  rewrite (ratan2_rt y x N) in K. destruct (crosses Y X); [destruct Rlt_dec|]; auto.
Qed.
Print Assumptions C26_atan2_principal.
(* a box around the origin: every angle *)
Theorem C26_atan2_origin : forall b fuel (Y X Q : iv (bscal b)),
  isin Y 0 -> isin X 0 -> iatan2 _ (bpar b) fuel Y X = Ok Q -> forall r, - PI <= r <= PI -> isin Q r.
Proof.
  intros b f Y X Q HY HX H r Hr. unfold iatan2 in H.
  rewrite (proj2 (zero_in_spec (bok b) X (isin_valid _ _ HX)) HX) in H. rewrite (proj2 (zero_in_spec (bok b) Y (isin_valid _ _ HY)) HY) in H.
  injection H as <-. destruct (tl_pi _ _ (btrig b)) as (A1 & A2 & A3 & A4). apply isin_ends; cbn [lo hi]; auto using (sneg_wf (bok b)).
  - rewrite (sneg_v (bok b)) by auto. destruct (sval (hi (c_pi (bpar b)))); simpl in *; auto; lra.
  - eapply ub_le; [exact A4|lra].
Qed.
Print Assumptions C26_atan2_origin.
Example C26_case : returns (iatan _ hw 60 (qiv 1 (-1) 1 0)) = true /\ isin (qiv 1 (-1) 1 0) (3 / 4) /\
  returns (iasin _ hw 60 (qiv 1 (-2) 1 0)) = true /\ returns (iacos _ hw 60 (qiv 1 (-2) 1 0)) = true /\ isin (qiv 1 (-2) 1 0) (3 / 4) /\
  returns (iatan2 _ hw 60 (qiv 1 0 2 0) (qiv (-2) 0 (-1) 0)) = true /\ isin (qiv (-2) 0 (-1) 0) (- 1).
Proof. repeat (apply conj); try reflexivity; qin. Qed.

(* ---- C27 ---- *)
Theorem C27_sinh_encloses : forall b fuel (X Q : iv (bscal b)) x,
  isinh _ (bpar b) fuel X = Ok Q -> isin X x -> isin Q (sinh x).
Proof. intros b f X Q x. exact (isinh_encl (bok b) (bpar b) (bexp b) f X x Q). Qed.
Print Assumptions C27_sinh_encloses.
Theorem C27_cosh_encloses : forall b fuel (X Q : iv (bscal b)) x,
  icosh _ (bpar b) fuel X = Ok Q -> isin X x -> isin Q (cosh x).
Proof. intros b f X Q x. exact (icosh_encl (bok b) (bpar b) (bexp b) f X x Q). Qed.
Print Assumptions C27_cosh_encloses.
Theorem C27_tanh_encloses : forall b fuel (X Q : iv (bscal b)) x,
  itanh _ (bpar b) fuel X = Ok Q -> isin X x -> isin Q (tanh x).
Proof. intros b f X Q x. exact (itanh_encl (bok b) (bpar b) (bexp b) f X x Q). Qed.
Print Assumptions C27_tanh_encloses.
Lemma cosh_racosh x : 1 <= x -> 0 <= racosh x /\ cosh (racosh x) = x.
Proof.
  intros H. unfold racosh. set (s := sqrt (x * x - 1)). assert (SP : 0 <= s) by apply sqrt_pos.
  assert (SS : s * s = x * x - 1) by (apply sqrt_sqrt; nra).
  split. { rewrite <- ln_1. destruct (Req_dec (x + s) 1) as [-> |N]; [lra|]. left. apply ln_increasing; lra. }
  unfold cosh. rewrite exp_Ropp, exp_ln by lra. field_simplify_eq; [nra|lra].
Qed.
(* the inverses, stated through the functions they invert *)
Theorem C27_asinh_encloses : forall b fuel (X Q : iv (bscal b)) t,
  iasinh _ (bpar b) fuel X = Ok Q -> isin X (sinh t) -> isin Q t.
Proof. intros b f X Q t H HX. pose proof (iasinh_encl (bok b) (bpar b) (blog b) f X _ Q H HX) as K. rewrite rasinh_sinh in K. exact K. Qed.
Print Assumptions C27_asinh_encloses.
Theorem C27_acosh_encloses : forall b fuel (X Q : iv (bscal b)) x,
  iacosh _ (bpar b) fuel X = Ok Q -> isin X x -> 1 <= x /\ exists t, 0 <= t /\ cosh t = x /\ isin Q t.
Proof.
  intros b f X Q x H HX. destruct (iacosh_encl (bok b) (bpar b) (blog b) f X x Q H HX) as [D K]. split; auto.
  exists (racosh x). destruct (cosh_racosh x D). auto.
Qed.
Print Assumptions C27_acosh_encloses.
Theorem C27_atanh_encloses : forall b fuel (X Q : iv (bscal b)) t,
  iatanh _ (bpar b) fuel X = Ok Q -> isin X (tanh t) -> isin Q t.
Proof.
  intros b f X Q t H HX. pose proof (iatanh_encl (bok b) (bpar b) (blog b) f X _ Q H HX (tanh_bound t)) as K.
  unfold ratanh in K. rewrite <- atanh_ln in K. exact K.
Qed.
Print Assumptions C27_atanh_encloses.
Theorem C27_atanh_domain : forall b fuel (X Q : iv (bscal b)) x,
  iatanh _ (bpar b) fuel X = Ok Q -> isin X x -> -1 <= x <= 1.
Proof.
  intros b f X Q x H (A1 & A2 & A3 & A4). pose proof (bok b) as OK. destruct (m1_ok OK) as [Wm Em]. pose proof (s1_wf OK) as W1. pose proof (s1_v OK) as E1.
  unfold iatanh, by_ends in H. inv H. inv H. unfold atanh_point in E, E0.
  destruct (slt (lo X) (sneg s1)) eqn:C1; [discriminate|]. destruct (slt (hi X) (sneg s1)); [discriminate|].
  destruct (slt s1 (hi X)) eqn:C2; [discriminate|].
  apply (slt_false OK) in C1; auto; try congruence; [|intros N; rewrite N in A3; auto].
  apply (slt_false OK) in C2; auto; try congruence; [|intros N; rewrite N in A4; auto].
  rewrite Em in C1. rewrite E1 in C2. destruct (sval (lo X)), (sval (hi X)); simpl in *; try tauto; lra.
Qed.
Print Assumptions C27_atanh_domain.
Example C27_case : returns (isinh _ hw 60 (qiv 1 (-2) 1 0)) = true /\ returns (icosh _ hw 60 (qiv 1 (-2) 1 0)) = true /\
  returns (itanh _ hw 60 (qiv 1 (-2) 1 0)) = true /\ returns (iasinh _ hw 60 (qiv 1 (-2) 1 0)) = true /\
  returns (iacosh _ hw 60 (qiv 5 (-2) 2 0)) = true /\ returns (iatanh _ hw 60 (qiv 1 (-2) 1 (-1))) = true.
Proof. repeat (apply conj); reflexivity. Qed.

(* ---- C28 ---- *)
Theorem C28_table_constants : forall b, isin (c_pi (bpar b)) PI /\ isin (c_e (bpar b)) (exp 1) /\ isin (c_ln2 (bpar b)) (ln 2).
Proof. intros b. split; [apply (tl_pi _ _ (btrig b))|]. split. apply (xl_e _ _ (bexp b)). apply (ll_ln2 _ _ (blog b)). Qed.
Print Assumptions C28_table_constants.
Theorem C28_series_pi : forall b fuel (Q : iv (bscal b)), ser_pi _ fuel = Ok Q -> isin Q PI.
Proof. intros b f Q. exact (ser_pi_encl (bok b) f Q). Qed.
Print Assumptions C28_series_pi.
Theorem C28_series_e : forall b fuel (rem Q : iv (bscal b)), isin rem 1 -> isin rem (exp 1) -> ser_e _ fuel rem = Ok Q -> isin Q (exp 1).
Proof. intros b f rem Q. exact (ser_e_encl (bok b) f rem Q). Qed.
Print Assumptions C28_series_e.
Theorem C28_series_ln2 : forall b fuel (Q : iv (bscal b)), ser_ln2 _ fuel = Ok Q -> isin Q (ln 2).
Proof. intros b f Q. exact (ser_ln2_encl (bok b) f Q). Qed.
Print Assumptions C28_series_ln2.
Example C28_case : returns (ser_pi D_hw 60) = true /\ returns (ser_e D_hw 60 (qiv 1 0 3 0)) = true /\ returns (ser_ln2 D_hw 60) = true.
Proof. repeat (apply conj); reflexivity. Qed.

(* ---- C29 ---- *)
Theorem C29_pow_encloses : forall b fuel (X Y Q : iv (bscal b)) x y,
  ipowI _ (bpar b) fuel X Y = Ok Q -> isin X x -> isin Y y -> 0 < x -> isin Q (Rpower x y).
Proof. intros b f X Y Q x y. exact (ipowI_encl (bok b) (bpar b) (bexp b) (blog b) f X Y x y Q). Qed.
Print Assumptions C29_pow_encloses.
Example C29_case : returns (ipowI _ hw 60 (qiv 3 0 5 0) (qiv 1 (-1) 1 0)) = true /\ isin (qiv 3 0 5 0) 4 /\ isin (qiv 1 (-1) 1 0) (3 / 4).
Proof. repeat (apply conj); try reflexivity; qin. Qed.
