(* Property theorems for the double back ends: C01-C04, C06, C34.  The specification is Flocq's
   IEEE-754 binary64 arithmetic with an explicit rounding mode. *)
From Coq Require Import Reals Lra Lia ZArith Bool.
From Flocq Require Import Core BinarySingleNaN.
From Verif Require Import Fp64 RDoubleHw NohwModel NohwReal NohwBase NohwProd NohwProofs NohwDiv.
From Verif Require Import Ext Scalar IntervalModel IntervalSpec IntervalProofs IntervalEncl IntervalSets
  IntervalDivPow IntervalMore IntervalParam Expr ExprIso Backends Ex64.
Open Scope R_scope.

(* v64 forgets only the sign of zero. *)
Theorem C01_v64_forgets_only_zero_sign : forall x y : b64,
  v64 x = v64 y <-> x = y \/ (exists s t, x = B754_zero s /\ y = B754_zero t).
Proof.
  intros x y. split; [apply vrel_cases|]. intros [->|(s & t & -> & ->)]; reflexivity.
Qed.
Print Assumptions C01_v64_forgets_only_zero_sign.

(* ---- C01: every pair of doubles, including subnormals, overflow, infinities and NaN ---- *)
Theorem C01_add_sub_correctly_rounded : forall x y : b64,
  v64 (nh_add_up x y) = v64 (Bplus mode_UP x y) /\ v64 (nh_add_down x y) = v64 (Bplus mode_DN x y) /\
  v64 (nh_sub_up x y) = v64 (Bminus mode_UP x y) /\ v64 (nh_sub_down x y) = v64 (Bminus mode_DN x y).
Proof.
  intros. rewrite !Bplus_v, !Bminus_v.
  split; [apply nh_add_up_v|split; [apply nh_add_down_v|split; [apply nh_sub_up_v|apply nh_sub_down_v]]].
Qed.
Print Assumptions C01_add_sub_correctly_rounded.

(* ---- C02: fma = true is the build with KV_USE_TPFMA ---- *)
Theorem C02_mul_correctly_rounded : forall (fma : bool) (x y : b64),
  v64 (nh_mul_up fma x y) = v64 (Bmult mode_UP x y) /\ v64 (nh_mul_down fma x y) = v64 (Bmult mode_DN x y).
Proof. intros. rewrite !Bmult_v. split; [apply nh_mul_up_v|apply nh_mul_down_v]. Qed.
Print Assumptions C02_mul_correctly_rounded.

(* ---- C03 ---- *)
Theorem C03_div_correctly_rounded : forall (fma : bool) (x y : b64),
  v64 (nh_div_up fma x y) = v64 (Bdiv mode_UP x y) /\ v64 (nh_div_down fma x y) = v64 (Bdiv mode_DN x y).
Proof. exact nh_div_v. Qed.
Print Assumptions C03_div_correctly_rounded.

(* ---- C04 ---- *)
Theorem C04_sqrt_correctly_rounded : forall (fma : bool) (x : b64),
  v64 (nh_sqrt_up fma x) = v64 (Bsqrt mode_UP x) /\ v64 (nh_sqrt_down fma x) = v64 (Bsqrt mode_DN x).
Proof. intros. rewrite !Bsqrt_v. split; [apply nh_sqrt_up_v|apply nh_sqrt_down_v]. Qed.
Print Assumptions C04_sqrt_correctly_rounded.
(* the theorems have no hypotheses; the directions really differ: *)
Example C01_ex : B2SF (Bplus mode_UP (bdy 1 0) (bdy 1 (-60))) = B2SF (bdy (2 ^ 52 + 1) (-52)) /\
  B2SF (Bplus mode_DN (bdy 1 0) (bdy 1 (-60))) = B2SF (bdy 1 0).
Proof. split; reflexivity. Qed.
Example C02_ex : B2SF (nh_mul_up false (bdy 1 (-600)) (bdy 1 (-600))) = B2SF bdmin /\
  B2SF (nh_mul_down false (bdy 1 (-600)) (bdy 1 (-600))) = B2SF b0.
Proof. split; reflexivity. Qed.
Example C03_ex : B2SF (nh_div_up true (bdy 1 0) (bdy 3 0)) = B2SF (bdy 6004799503160662 (-54)) /\
  B2SF (nh_div_down true (bdy 1 0) (bdy 3 0)) = B2SF (bdy 6004799503160661 (-54)).
Proof. split; reflexivity. Qed.
Example C04_ex : B2SF (nh_sqrt_up false (bdy 2 0)) = B2SF (bdy 6369051672525773 (-52)) /\
  B2SF (nh_sqrt_down false (bdy 2 0)) = B2SF (bdy 6369051672525772 (-52)).
Proof. split; reflexivity. Qed.

(* ---- C06 ---- *)
Theorem C06_scalar_laws : forall b, scal_ok (bscal b).
Proof. exact bscal_ok. Qed.
Print Assumptions C06_scalar_laws.

(* the same endpoints, as extended reals *)
Definition same_iv {A B : scal} (X : iv A) (Y : iv B) : Prop := sval (lo X) = sval (lo Y) /\ sval (hi X) = sval (hi Y).
Definition same_res {A B : scal} (X : res (iv A)) (Y : res (iv B)) : Prop :=
  match X, Y with Ok x, Ok y => same_iv x y | Err e, Err e' => e = e' | _, _ => False end.


Theorem C06_arithmetic_expressions : forall (a b : backend) (e : expr Empty_set) (ea : nat -> iv (bscal a)) (eb : nat -> iv (bscal b)),
  (forall n, ivalid (ea n)) -> (forall n, same_iv (ea n) (eb n)) -> cst_ok e ->
  same_res (ieval nofun ea e) (ieval nofun eb e).
Proof.
  intros a b e ea eb V HE C. destruct (backend_rel a b) as (R & P & HR).
  pose proof (ieval_rel Empty_set (bscal a) (bscal b) R P (C06_scalar_laws a) nofun nofun
    (fun f : Empty_set => match f with end)) as H.
  specialize (H ltac:(intros []) ltac:(intros []) ea eb e V).
  assert (HE' : forall n, RI (bscal a) (bscal b) R (ea n) (eb n)). { intros n. destruct (HE n). split; apply HR; auto. }
  specialize (H HE' C). revert H. unfold same_res. destruct ieval, ieval; simpl; auto.
  intros [H1 H2]. split; apply HR; auto.
Qed.
Print Assumptions C06_arithmetic_expressions.

(* the other operations built on rop<double> *)
Theorem C06_operations : forall (a b : backend) (X Y : iv (bscal a)) (X' Y' : iv (bscal b)),
  ivalid X -> ivalid Y -> same_iv X X' -> same_iv Y Y' ->
  same_iv (hull X Y) (hull X' Y') /\ same_iv (intersect X Y) (intersect X' Y') /\
  same_iv (ifloor X) (ifloor X') /\ same_iv (iceil X) (iceil X') /\
  sval (width X) = sval (width X') /\ sval (rad X) = sval (rad X') /\ sval (mid X) = sval (mid X') /\
  sval (fst (midrad X)) = sval (fst (midrad X')) /\ sval (snd (midrad X)) = sval (snd (midrad X')) /\
  sval (mag X) = sval (mag X') /\ sval (mig X) = sval (mig X') /\
  isubset X Y = isubset X' Y' /\ iproper X Y = iproper X' Y' /\ overlap X Y = overlap X' Y' /\
  ilt X Y = ilt X' Y' /\ ieq X Y = ieq X' Y' /\
  same_res (division_part2 X Y) (division_part2 X' Y') /\
  same_res (do r <- division_part1 X Y; Ok (fst r)) (do r <- division_part1 X' Y'; Ok (fst r)).
Proof.
  intros a b X Y X' Y' VX VY SX SY. destruct (backend_rel a b) as (R & P & HR). pose proof (C06_scalar_laws a) as OK.
  assert (HX : RI (bscal a) (bscal b) R X X') by (destruct SX; split; apply HR; auto).
  assert (HY : RI (bscal a) (bscal b) R Y Y') by (destruct SY; split; apply HR; auto).
  assert (TI : forall Z Z', RI (bscal a) (bscal b) R Z Z' -> same_iv Z Z') by (intros Z Z' []; split; apply HR; auto).
  pose proof (p_midrad _ _ _ P _ _ HX) as [M1 M2]. pose proof (p_cmp _ _ _ P _ _ _ _ HX HY) as (C1 & _ & _ & _ & C5 & _).
  split; [apply TI, p_hull; auto|]. split; [apply TI, p_intersect; auto|]. split; [apply TI, p_floor; auto|].
  split; [apply TI, p_ceil; auto|]. split; [apply HR, p_width; auto|]. split; [apply HR, p_rad; auto|].
  split; [apply HR, p_mid; auto|]. split; [apply HR; auto|]. split; [apply HR; auto|]. split; [apply HR, p_mag; auto|].
  split; [apply HR, p_mig; auto|]. split; [eapply p_subset; eauto|]. split; [eapply p_proper; eauto|]. split; [eapply p_overlap; eauto|].
  split; auto. split; auto.
  split.
  - pose proof (p_part2 _ _ _ P OK _ _ _ _ VY HX HY) as H. revert H. unfold same_res. destruct division_part2, division_part2; simpl; auto.
  - pose proof (p_part1 _ _ _ P OK _ _ _ _ VY HX HY) as H. revert H. unfold same_res. destruct division_part1, division_part1; simpl; auto.
    intros []; auto.
Qed.
Print Assumptions C06_operations.
Example C06_ex : ivalid (qiv 1 0 3 0) /\ @same_iv D_hw (D_nohw true) (qiv 1 0 3 0) (@mkiv (D_nohw true) (bdy 1 0) (bdy 3 0)) /\
  cst_ok (@ESqrt Empty_set (EDiv (ECst 1 0) (EAdd (EVar 0) (ECst 1 (-60))))).
Proof. split; [qval 2|split; [split; reflexivity|simpl; lia]]. Qed.

(* ---- C34 (kv/dd.hpp 60-128 and the identical kv/rdouble-nohwround.hpp 28-95) ---- *)
Lemma fin_plus (a b : b64) : is_finite (a +. b) = true -> is_finite a = true /\ is_finite b = true.
Proof. destruct a as [|[]| |], b as [|[]| |]; simpl; auto; discriminate. Qed.
Lemma fin_mult (a b : b64) : is_finite (a *. b) = true -> is_finite a = true /\ is_finite b = true.
Proof. destruct a as [|[]| |], b as [|[]| |]; simpl; auto; discriminate. Qed.
Lemma rx_XR e r : xr mode_NE (XR e) = XR r -> fits e /\ r = RN e.
Proof.
  simpl. unfold rx. destruct (Rlt_bool_spec (Rabs (rnd mode_NE e)) (pw 1024)) as [F|F].
  - intros E. injection E as <-. split; auto.
  - destruct (fits_dec e) as [N|N]; [unfold fits in N; exfalso; unfold RN in *; lra|].
    pose proof (ovf_NE e N) as O. simpl in O. unfold rx in O. rewrite Rlt_bool_false in O by auto. rewrite O. destruct Rlt_bool; discriminate.
Qed.
Theorem C34_twosum_exact : forall a b : b64, is_finite (a +. b) = true ->
  fst (twosum a b) = a +. b /\ is_finite (snd (twosum a b)) = true /\
  B2R (fst (twosum a b)) + B2R (snd (twosum a b)) = B2R a + B2R b.
Proof.
  intros a b F. destruct (fin_plus a b F) as [Fa Fb].
  assert (H : xr mode_NE (XR (B2R a + B2R b)) = XR (B2R (a +. b))).
  { rewrite <- v64_fin by auto. rewrite Bplus_v, !v64_fin by auto. reflexivity. }
  apply rx_XR in H as [Fi E]. destruct (twosum_v a b _ _ (v64_fin a Fa) (v64_fin b Fb) Fi) as [T1 T2].
  split; [apply twosum_fst|]. apply v64_XR in T1 as [_ T1]. apply v64_XR in T2 as [T2' T2]. split; auto. rewrite T1, T2. ring.
Qed.
Print Assumptions C34_twosum_exact.
Theorem C34_twoproduct_exact : forall (fma : bool) (a b : b64), is_finite (a *. b) = true ->
  bpow radix2 (-969) <= Rabs (B2R (a *. b)) ->
  fst (twoproduct fma a b) = a *. b /\ is_finite (snd (twoproduct fma a b)) = true /\
  B2R (fst (twoproduct fma a b)) + B2R (snd (twoproduct fma a b)) = B2R a * B2R b.
Proof.
  intros fma a b F G. destruct (fin_mult a b F) as [Fa Fb].
  assert (H : xr mode_NE (XR (B2R a * B2R b)) = XR (B2R (a *. b))).
  { rewrite <- v64_fin by auto. rewrite Bmult_v, !v64_fin by auto. reflexivity. }
  apply rx_XR in H as [Fi E]. rewrite E in G.
  destruct (gran (B2R a) (B2R b)) as (e & f & M1 & M2 & L); auto using fmt_B2R.
  destruct (twoproduct_v fma a b _ _ e f (v64_fin a Fa) (v64_fin b Fb) Fi M1 M2 L) as [T1 T2].
  split; [apply twoproduct_fst|]. apply v64_XR in T1 as [_ T1]. apply v64_XR in T2 as [T2' T2]. split; auto. rewrite T1, T2. ring.
Qed.
Print Assumptions C34_twoproduct_exact.
(* also for tiny products whose operands are not too fine *)
Theorem C34_twoproduct_exact_granular : forall (fma : bool) (a b : b64) (m n e f : Z), is_finite (a *. b) = true ->
  B2R a = IZR m * bpow radix2 e -> B2R b = IZR n * bpow radix2 f -> (-1074 <= e + f)%Z ->
  fst (twoproduct fma a b) = a *. b /\ is_finite (snd (twoproduct fma a b)) = true /\
  B2R (fst (twoproduct fma a b)) + B2R (snd (twoproduct fma a b)) = B2R a * B2R b.
Proof.
  intros fma a b m n e f F Ha Hb L. destruct (fin_mult a b F) as [Fa Fb].
  assert (H : xr mode_NE (XR (B2R a * B2R b)) = XR (B2R (a *. b))).
  { rewrite <- v64_fin by auto. rewrite Bmult_v, !v64_fin by auto. reflexivity. }
  apply rx_XR in H as [Fi E].
  destruct (twoproduct_v fma a b _ _ e f (v64_fin a Fa) (v64_fin b Fb) Fi (ex_intro _ m Ha) (ex_intro _ n Hb) L) as [T1 T2].
  split; [apply twoproduct_fst|]. apply v64_XR in T1 as [_ T1]. apply v64_XR in T2 as [T2' T2]. split; auto. rewrite T1, T2. ring.
Qed.
Print Assumptions C34_twoproduct_exact_granular.
Theorem C34_split_exact : forall a : b64, is_finite a = true -> Rabs (B2R a) <= bpow radix2 996 ->
  is_finite (fst (split a)) = true /\ is_finite (snd (split a)) = true /\
  B2R (fst (split a)) + B2R (snd (split a)) = B2R a.
Proof.
  intros a F B. destruct (split_v a _ (v64_fin a F) B) as [T1 T2].
  apply v64_XR in T1 as [F1 T1]. apply v64_XR in T2 as [F2 T2]. split; auto. split; auto. rewrite T1, T2. ring.
Qed.
Print Assumptions C34_split_exact.
Example C34_ex : is_finite (bdy 1 0 +. bdy 1 (-60)) = true /\ is_finite (bdy (2 ^ 52 + 1) 0 *. bdy (2 ^ 52 + 1) 0) = true /\
  B2SF (snd (twosum (bdy 1 0) (bdy 1 (-60)))) = B2SF (bdy 1 (-60)) /\
  B2SF (snd (twoproduct false (bdy (2 ^ 52 + 1) 0) (bdy (2 ^ 52 + 1) 0))) = B2SF (bdy 1 0).
Proof. repeat split; reflexivity. Qed.
