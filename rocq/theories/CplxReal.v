(* Complex functions on Coquelicot's C = R * R, for use as a specification of kv/complex.hpp.
   Nothing here refers to the model. *)
From Coq Require Import Reals Lra ZArith.
From Coquelicot Require Import Complex.
Open Scope R_scope.

(* e^z, and sin, cos, sinh, cosh by Euler's formulas *)
Definition Cexp (z : C) : C := (exp (fst z) * cos (snd z), exp (fst z) * sin (snd z)).
Definition Csin (z : C) : C := ((Cexp (Ci * z) - Cexp (- (Ci * z))) / (RtoC 2 * Ci))%C.
Definition Ccos (z : C) : C := ((Cexp (Ci * z) + Cexp (- (Ci * z))) / RtoC 2)%C.
Definition Csinh (z : C) : C := ((Cexp z - Cexp (- z)) / RtoC 2)%C.
Definition Ccosh (z : C) : C := ((Cexp z + Cexp (- z)) / RtoC 2)%C.
Definition Ctan (z : C) : C := (Csin z / Ccos z)%C.
Definition Ctanh (z : C) : C := (Csinh z / Ccosh z)%C.
(* integer powers *)
Fixpoint Cpown (z : C) (n : nat) : C := match n with O => RtoC 1 | S n => (z * Cpown z n)%C end.
Definition CpowZ (z : C) (n : Z) : C :=
  match n with Z0 => RtoC 1 | Zpos p => Cpown z (Pos.to_nat p) | Zneg p => (/ Cpown z (Pos.to_nat p))%C end.

Lemma C2_nz : RtoC 2 <> RtoC 0. Proof. intros H. apply RtoC_inj in H. lra. Qed.
Lemma C2_eq : RtoC 2 = (RtoC 1 + RtoC 1)%C. Proof. rewrite <- RtoC_plus. f_equal. Qed.
Lemma C11_nz : (RtoC 1 + RtoC 1)%C <> RtoC 0. Proof. rewrite <- C2_eq. apply C2_nz. Qed.
Lemma Ci_nz : Ci <> RtoC 0. Proof. intros H. injection H. intros. lra. Qed.
Lemma Ci2 : (Ci * Ci = - RtoC 1)%C. Proof. apply injective_projections; simpl; ring. Qed.
Lemma Ceq (a b c d : R) : a = c -> b = d -> ((a, b) : C) = (c, d). Proof. now intros -> ->. Qed.
Lemma Cnz (z : C) : z <> RtoC 0 -> fst z <> 0 \/ snd z <> 0.
Proof. intros H. destruct (Req_dec (fst z) 0) as [A|A]; [|auto]. right. intros B. apply H. destruct z. simpl in *. now subst. Qed.

Lemma Cexp_plus (a b : C) : Cexp (a + b)%C = (Cexp a * Cexp b)%C.
Proof. unfold Cexp, Cplus, Cmult; cbn [fst snd]. rewrite exp_plus, cos_plus, sin_plus. apply Ceq; ring. Qed.
Lemma Cexp_0 : Cexp (RtoC 0) = RtoC 1.
Proof. unfold Cexp, RtoC; simpl. rewrite exp_0, cos_0, sin_0. apply Ceq; ring. Qed.
Lemma Cexp_neg (a : C) : (Cexp a * Cexp (- a))%C = RtoC 1.
Proof. rewrite <- Cexp_plus, Cplus_opp_r. apply Cexp_0. Qed.
Lemma C1_nz : RtoC 1 <> RtoC 0. Proof. intros H. apply RtoC_inj in H. lra. Qed.
Lemma Cexp_nz (a : C) : Cexp a <> RtoC 0.
Proof. intros H. pose proof (Cexp_neg a) as K. rewrite H, Cmult_0_l in K. symmetry in K. now apply C1_nz. Qed.
Lemma Cexp_inv (a : C) : Cexp (- a)%C = (/ Cexp a)%C.
Proof. pose proof (Cexp_neg a) as K. pose proof (Cexp_nz a). rewrite <- (Cmult_1_l (/ Cexp a)%C), <- K. field. auto. Qed.

Lemma Csin_parts x y : Csin (x, y) = (sin x * cosh y, cos x * sinh y).
Proof.
  unfold Csin, Cdiv, Cmult, Cinv, Cminus, Cplus, Copp, Cexp, Ci, RtoC; simpl. unfold cosh, sinh.
  replace (0 * x - 1 * y) with (- y) by ring. replace (0 * y + 1 * x) with x by ring. rewrite Ropp_involutive, cos_neg, sin_neg.
  apply Ceq; field.
Qed.
Lemma Ccos_parts x y : Ccos (x, y) = (cos x * cosh y, - (sin x * sinh y)).
Proof.
  unfold Ccos, Cdiv, Cmult, Cinv, Cminus, Cplus, Copp, Cexp, Ci, RtoC; simpl. unfold cosh, sinh.
  replace (0 * x - 1 * y) with (- y) by ring. replace (0 * y + 1 * x) with x by ring. rewrite Ropp_involutive, cos_neg, sin_neg.
  apply Ceq; field.
Qed.
Lemma Csinh_parts x y : Csinh (x, y) = (sinh x * cos y, cosh x * sin y).
Proof.
  unfold Csinh, Cdiv, Cmult, Cinv, Cminus, Cplus, Copp, Cexp, RtoC; simpl. unfold cosh, sinh. rewrite cos_neg, sin_neg. apply Ceq; field.
Qed.
Lemma Ccosh_parts x y : Ccosh (x, y) = (cosh x * cos y, sinh x * sin y).
Proof.
  unfold Ccosh, Cdiv, Cmult, Cinv, Cminus, Cplus, Copp, Cexp, RtoC; simpl. unfold cosh, sinh. rewrite cos_neg, sin_neg. apply Ceq; field.
Qed.
Lemma sq1 x : sin x * sin x + cos x * cos x = 1. Proof. pose proof (sin2_cos2 x). unfold Rsqr in *. auto. Qed.
Lemma hy1 x : cosh x * cosh x - sinh x * sinh x = 1.
Proof. unfold cosh, sinh. assert (exp x * exp (- x) = 1) by (rewrite <- exp_plus, Rplus_opp_r; apply exp_0). nra. Qed.
Lemma cosh_2 x : cosh (2 * x) = cosh x * cosh x + sinh x * sinh x.
Proof. unfold cosh, sinh. replace (- (2 * x)) with (- x + - x) by ring. replace (2 * x) with (x + x) by ring. rewrite !exp_plus. field. Qed.
Lemma sinh_2 x : sinh (2 * x) = 2 * (sinh x * cosh x).
Proof. unfold cosh, sinh. replace (- (2 * x)) with (- x + - x) by ring. replace (2 * x) with (x + x) by ring. rewrite !exp_plus. field. Qed.
(* the quotients used by the code *)
Lemma Ctan_parts x y : cos (2 * x) + cosh (2 * y) <> 0 ->
  Ccos (x, y) <> RtoC 0 /\ Ctan (x, y) = (sin (2 * x) / (cos (2 * x) + cosh (2 * y)), sinh (2 * y) / (cos (2 * x) + cosh (2 * y))).
Proof.
  intros N. pose proof (sq1 x) as Q. pose proof (hy1 y) as H.
  assert (D : (cos x * cosh y) ^ 2 + (- (sin x * sinh y)) ^ 2 = (cos (2 * x) + cosh (2 * y)) / 2).
  { rewrite cos_2a, cosh_2. set (c := cos x) in *. set (s := sin x) in *. set (C := cosh y) in *. set (S := sinh y) in *.
    replace ((c * C) ^ 2 + (- (s * S)) ^ 2) with ((c * c) * (C * C) + (s * s) * (S * S)) by ring.
    replace (C * C) with (1 + S * S) by lra. replace (s * s) with (1 - c * c) by lra. field. }
  split.
  - rewrite Ccos_parts. intros E. injection E. intros E2 E1. rewrite E1, E2 in D. apply N. lra.
  - unfold Ctan, Cdiv. rewrite Csin_parts, Ccos_parts. unfold Cinv, Cmult; cbn [fst snd]. rewrite D.
    rewrite sin_2a, sinh_2. set (t := cos (2 * x) + cosh (2 * y)) in *. clearbody t.
    set (c := cos x) in *. set (s := sin x) in *. set (C := cosh y) in *. set (S := sinh y) in *. clearbody c s C S. apply Ceq.
    + transitivity (2 * (s * c) * (C * C - S * S) / t); [field; auto|rewrite H; field; auto].
    + transitivity (2 * (S * C) * (s * s + c * c) / t); [field; auto|rewrite Q; field; auto].
Qed.
Lemma Ctanh_parts x y : cosh (2 * x) + cos (2 * y) <> 0 ->
  Ccosh (x, y) <> RtoC 0 /\ Ctanh (x, y) = (sinh (2 * x) / (cosh (2 * x) + cos (2 * y)), sin (2 * y) / (cosh (2 * x) + cos (2 * y))).
Proof.
  intros N. pose proof (sq1 y) as Q. pose proof (hy1 x) as H.
  assert (D : (cosh x * cos y) ^ 2 + (sinh x * sin y) ^ 2 = (cosh (2 * x) + cos (2 * y)) / 2).
  { rewrite cos_2a, cosh_2. set (c := cos y) in *. set (s := sin y) in *. set (C := cosh x) in *. set (S := sinh x) in *.
    replace ((C * c) ^ 2 + (S * s) ^ 2) with ((c * c) * (C * C) + (s * s) * (S * S)) by ring.
    replace (C * C) with (1 + S * S) by lra. replace (s * s) with (1 - c * c) by lra. field. }
  split.
  - rewrite Ccosh_parts. intros E. injection E. intros E2 E1. rewrite E1, E2 in D. apply N. lra.
  - unfold Ctanh, Cdiv. rewrite Csinh_parts, Ccosh_parts. unfold Cinv, Cmult; cbn [fst snd]. rewrite D.
    rewrite sin_2a, sinh_2. set (t := cosh (2 * x) + cos (2 * y)) in *. clearbody t.
    set (c := cos y) in *. set (s := sin y) in *. set (C := cosh x) in *. set (S := sinh x) in *. clearbody c s C S. apply Ceq.
    + transitivity (2 * (S * C) * (s * s + c * c) / t); [field; auto|rewrite Q; field; auto].
    + transitivity (2 * (s * c) * (C * C - S * S) / t); [field; auto|rewrite H; field; auto].
Qed.

(* inverse functions: w = -i log(iz + s), s^2 = 1 - z^2, and so on *)
Lemma asin_alg (z s w : C) : (s * s = RtoC 1 - z * z)%C -> Cexp w = (Ci * z + s)%C -> Csin (- Ci * w)%C = z.
Proof.
  intros Hs Hw. unfold Csin. replace (Ci * ((- Ci) * w))%C with w by (transitivity (- (Ci * Ci) * w)%C; [rewrite Ci2; ring|ring]).
  rewrite Cexp_inv. pose proof (Cexp_nz w) as N. rewrite Hw in *.
  assert (K : (/ (Ci * z + s) = s - Ci * z)%C).
  { rewrite <- (Cmult_1_l (/ _)%C). replace (RtoC 1) with ((s - Ci * z) * (Ci * z + s))%C.
    - field. auto. - transitivity (s * s - (Ci * Ci) * z * z)%C; [ring|rewrite Hs, Ci2; ring]. }
  rewrite K, C2_eq. field. split; auto using Ci_nz, C11_nz.
Qed.
Lemma acos_alg (z s w : C) : (s * s = RtoC 1 - z * z)%C -> Cexp w = (z + Ci * s)%C -> Ccos (- Ci * w)%C = z.
Proof.
  intros Hs Hw. unfold Ccos. replace (Ci * ((- Ci) * w))%C with w by (transitivity (- (Ci * Ci) * w)%C; [rewrite Ci2; ring|ring]).
  rewrite Cexp_inv. pose proof (Cexp_nz w) as N. rewrite Hw in *.
  assert (K : (/ (z + Ci * s) = z - Ci * s)%C).
  { rewrite <- (Cmult_1_l (/ _)%C). replace (RtoC 1) with ((z - Ci * s) * (z + Ci * s))%C.
    - field. auto. - transitivity (z * z - (Ci * Ci) * (s * s))%C; [ring|rewrite Hs, Ci2; ring]. }
  rewrite K, C2_eq. field. apply C11_nz.
Qed.
Lemma asinh_alg (z s w : C) : (s * s = z * z + RtoC 1)%C -> Cexp w = (z + s)%C -> Csinh w = z.
Proof.
  intros Hs Hw. unfold Csinh. rewrite Cexp_inv. pose proof (Cexp_nz w) as N. rewrite Hw in *.
  assert (K : (/ (z + s) = s - z)%C).
  { rewrite <- (Cmult_1_l (/ _)%C). replace (RtoC 1) with ((s - z) * (z + s))%C.
    - field. auto. - transitivity (s * s - z * z)%C; [ring|rewrite Hs; ring]. }
  rewrite K, C2_eq. field. apply C11_nz.
Qed.
Lemma acosh_alg (z s w : C) : (s * s = z * z - RtoC 1)%C -> Cexp w = (z + s)%C -> Ccosh w = z.
Proof.
  intros Hs Hw. unfold Ccosh. rewrite Cexp_inv. pose proof (Cexp_nz w) as N. rewrite Hw in *.
  assert (K : (/ (z + s) = z - s)%C).
  { rewrite <- (Cmult_1_l (/ _)%C). replace (RtoC 1) with ((z - s) * (z + s))%C.
    - field. auto. - transitivity (z * z - s * s)%C; [ring|rewrite Hs; ring]. }
  rewrite K, C2_eq. field. apply C11_nz.
Qed.
Lemma atanh_alg (z w : C) : (RtoC 1 - z <> RtoC 0)%C -> Cexp w = ((RtoC 1 + z) / (RtoC 1 - z))%C ->
  Ccosh (w / RtoC 2)%C <> RtoC 0 /\ Ctanh (w / RtoC 2)%C = z.
Proof.
  intros N Hw. set (h := Cexp (w / RtoC 2)%C). pose proof (Cexp_nz (w / RtoC 2)%C) as Nh. fold h in Nh.
  assert (H2 : (h * h = (RtoC 1 + z) / (RtoC 1 - z))%C).
  { unfold h. rewrite <- Cexp_plus, <- Hw. f_equal. rewrite C2_eq. field. apply C11_nz. }
  assert (A : (h * h + RtoC 1 = RtoC 2 / (RtoC 1 - z))%C) by (rewrite H2, C2_eq; field; auto).
  assert (D : (h * h + RtoC 1 <> RtoC 0)%C).
  { rewrite A. intros E. assert (K : (RtoC 2 / (RtoC 1 - z) * (RtoC 1 - z) = RtoC 2)%C) by (field; auto). rewrite E, Cmult_0_l in K. symmetry in K. now apply C2_nz in K. }
  assert (CC : Ccosh (w / RtoC 2)%C = ((h * h + RtoC 1) / (RtoC 2 * h))%C) by (unfold Ccosh; rewrite Cexp_inv; fold h; field; split; auto using C2_nz).
  assert (CN : Ccosh (w / RtoC 2)%C <> RtoC 0).
  { rewrite CC. intros E. apply D. transitivity ((h * h + RtoC 1) / (RtoC 2 * h) * (RtoC 2 * h))%C; [field; split; auto using C2_nz|rewrite E; ring]. }
  split; auto.
  assert (SS : Csinh (w / RtoC 2)%C = ((h * h - RtoC 1) / (RtoC 2 * h))%C) by (unfold Csinh; rewrite Cexp_inv; fold h; field; split; auto using C2_nz).
  unfold Ctanh. rewrite CC, SS. transitivity ((h * h - RtoC 1) / (h * h + RtoC 1))%C.
  { field. repeat split; auto using C2_nz. }
  replace (h * h - RtoC 1)%C with (h * h + RtoC 1 - RtoC 2)%C by (rewrite C2_eq; ring).
  rewrite A. field. split; auto using C2_nz.
Qed.
(* tan w = -i tanh(i w) *)
Lemma Csin_sinh (w : C) : Csinh (Ci * w)%C = (Ci * Csin w)%C.
Proof. unfold Csinh, Csin. field. split; auto using C2_nz, Ci_nz. Qed.
Lemma Ccos_cosh (w : C) : Ccosh (Ci * w)%C = Ccos w. Proof. reflexivity. Qed.
Lemma atan_alg (z w : C) : (Ci - z <> RtoC 0)%C -> Cexp w = ((Ci + z) / (Ci - z))%C ->
  Ccos (Ci * (w / RtoC 2))%C <> RtoC 0 /\ Ctan (Ci * (w / RtoC 2))%C = z.
Proof.
  intros N Hw.
  assert (E1 : (Ci - z = Ci * (RtoC 1 - - (Ci * z)))%C) by (transitivity (Ci + (Ci * Ci) * z)%C; [rewrite Ci2; ring|ring]).
  assert (E2 : (Ci + z = Ci * (RtoC 1 + - (Ci * z)))%C) by (transitivity (Ci - (Ci * Ci) * z)%C; [rewrite Ci2; ring|ring]).
  assert (N' : (RtoC 1 - - (Ci * z) <> RtoC 0)%C) by (intros E; apply N; rewrite E1, E; ring).
  destruct (atanh_alg (- (Ci * z))%C w N') as [A B].
  { rewrite Hw, E1, E2. field. split; auto using Ci_nz. }
  set (v := (Ci * (w / RtoC 2))%C).
  assert (V : (w / RtoC 2 = - (Ci * v))%C) by (unfold v; transitivity (- (Ci * Ci) * (w / RtoC 2))%C; [rewrite Ci2; ring|ring]).
  assert (P1 : Ccosh (w / RtoC 2)%C = Ccos v) by (rewrite V; unfold Ccosh, Ccos; replace (- - (Ci * v))%C with (Ci * v)%C by ring; f_equal; ring).
  assert (P2 : Csinh (w / RtoC 2)%C = (- (Ci * Csin v))%C) by (rewrite V; unfold Csinh, Csin; replace (- - (Ci * v))%C with (Ci * v)%C by ring; field; auto using C2_nz, Ci_nz).
  rewrite P1 in A. split; auto. unfold Ctanh in B. rewrite P1, P2 in B. unfold Ctan.
  transitivity (Ci * (- (Ci * Csin v) / Ccos v))%C.
  - transitivity (- (Ci * Ci) * (Csin v / Ccos v))%C; [rewrite Ci2; ring|field; auto].
  - rewrite B. transitivity (- (Ci * Ci) * z)%C; [ring|rewrite Ci2; ring].
Qed.

(* polar form *)
Lemma Cmod_alt z : Cmod z = sqrt (fst z * fst z + snd z * snd z).
Proof. unfold Cmod. f_equal. ring. Qed.
Lemma Cmod_pos z : z <> RtoC 0 -> 0 < Cmod z. Proof. apply Cmod_gt_0. Qed.
Lemma polar_log z t : z <> RtoC 0 -> fst z = Cmod z * cos t -> snd z = Cmod z * sin t -> Cexp (ln (Cmod z), t) = z.
Proof. intros N A B. unfold Cexp; cbn [fst snd]. rewrite exp_ln by now apply Cmod_pos. rewrite <- A, <- B. now destruct z. Qed.
Lemma polar_sqrt z t r : r * r = Cmod z -> fst z = Cmod z * cos t -> snd z = Cmod z * sin t ->
  let w : C := (r * cos (t / 2), r * sin (t / 2)) in (w * w)%C = z.
Proof.
  intros R A B w. unfold w, Cmult; cbn [fst snd].
  replace t with (2 * (t / 2)) in A, B by field. rewrite cos_2a in A. rewrite sin_2a in B.
  transitivity (fst z, snd z); [|now destruct z]. apply Ceq; [rewrite A|rewrite B]; rewrite <- R; ring.
Qed.

(* powers *)
Lemma Cpown_1 z : Cpown z 1 = z. Proof. simpl. ring. Qed.
Lemma Cpown_add z a b : Cpown z (a + b) = (Cpown z a * Cpown z b)%C.
Proof. induction a; simpl; [ring|]. rewrite IHa. ring. Qed.
Lemma Cpown_sq (z : C) a : Cpown (z * z)%C a = (Cpown z a * Cpown z a)%C.
Proof. induction a; simpl; [ring|]. rewrite IHa. ring. Qed.
Lemma Cpown_nz z n : z <> RtoC 0 -> Cpown z n <> RtoC 0.
Proof. intros. induction n; simpl; [apply C1_nz|apply Cmult_neq_0; auto]. Qed.
Lemma Cexp_pown (z : C) n : Cexp (RtoC (INR n) * z)%C = Cpown (Cexp z) n.
Proof.
  induction n. { simpl. rewrite Cmult_0_l. apply Cexp_0. }
  rewrite S_INR. simpl Cpown. rewrite <- IHn, <- Cexp_plus. f_equal. rewrite RtoC_plus. ring.
Qed.
