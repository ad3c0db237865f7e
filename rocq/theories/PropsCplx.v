(* Property theorems for complex<interval<double>> (kv/complex.hpp): C57.  The specification is the arithmetic of
   Coquelicot's complex numbers and the functions Cexp, Csin, ... of CplxReal.v, defined through the complex exponential;
   `cin Q z` says that the real and imaginary parts of z lie in those of the box Q.  Multi-valued functions: the returned
   box contains a value that the function's inverse maps back to the argument, and the principal value when the argument
   box does not meet the negative real axis. *)
From Coq Require Import Reals Lra Lia ZArith Bool.
From Flocq Require Import Core BinarySingleNaN.
From Coquelicot Require Import Complex.
From Verif Require Import Fp64 RDoubleHw Ext Scalar IntervalModel IntervalSpec IntervalProofs IntervalEncl IntervalSets IntervalDivPow IntervalMore Backends Ex64.
From Verif Require Import ElemModel ElemGen ElemAtan2 PropsElem CplxModel CplxReal CplxProofs.
Open Scope R_scope.

(* the box of the examples: [1/2, 9/16] + [1/4, 5/16] i *)
Definition cbox : cx D_hw := mkcx (qiv 1 (-1) 9 (-4)) (qiv 1 (-2) 5 (-4)).
Lemma cbox_in : cin cbox (17 / 32, 9 / 32).
Proof. split; cbn [cbox re im fst snd]; qin. Qed.
(* a box across the negative real axis *)
Definition nbox : cx D_hw := mkcx (qiv (-2) 0 (-1) 0) (qiv (-1) (-1) 1 (-1)).
Lemma nbox_in : cin nbox (-3 / 2, -1 / 3).
Proof. split; cbn [nbox re im fst snd]; qin. Qed.

(* ---- arithmetic ---- *)
Theorem C57_add_encloses : forall b (X Y : cx (bscal b)) x y, cin X x -> cin Y y -> cin (cadd X Y) (x + y)%C.
Proof. intros b. exact (cin_add (bok b)). Qed.
Theorem C57_sub_encloses : forall b (X Y : cx (bscal b)) x y, cin X x -> cin Y y -> cin (csub X Y) (x - y)%C.
Proof. intros b. exact (cin_sub (bok b)). Qed.
Theorem C57_mul_encloses : forall b (X Y : cx (bscal b)) x y, cin X x -> cin Y y -> cin (cmul X Y) (x * y)%C.
Proof. intros b. exact (cin_mul (bok b)). Qed.
Theorem C57_neg_encloses : forall b (X : cx (bscal b)) x, cin X x -> cin (cneg X) (- x)%C.
Proof. intros b. exact (cin_neg (bok b)). Qed.
Theorem C57_conj_encloses : forall b (X : cx (bscal b)) x, cin X x -> cin (cconj X) (Cconj x).
Proof. intros b. exact (cin_conj (bok b)). Qed.
(* division, when it returns: no divisor is zero, and the quotient is enclosed *)
Theorem C57_div_encloses : forall b (X Y Q : cx (bscal b)) x y, cdiv X Y = Ok Q -> cin X x -> cin Y y -> y <> RtoC 0 /\ cin Q (x / y)%C.
Proof. intros b. exact (cdiv_encl (bok b)). Qed.
Example C57_arith_case : cin cbox (17 / 32, 9 / 32) /\ returns (cdiv cbox cbox) = true /\ cin nbox (-3 / 2, -1 / 3) /\ returns (cdiv cbox nbox) = true.
Proof. split; [apply cbox_in|split; [reflexivity|split; [apply nbox_in|reflexivity]]]. Qed.

(* mixed forms: a scalar operand a is one real number, an interval operand is a set of real numbers *)
Theorem C57_mixed_enclose : forall b (X : cx (bscal b)) (Y : iv (bscal b)) (a : bscal b) x y r,
  cin X x -> isin Y y -> swf a -> sval a = XR r ->
  (cin (caddS X a) (x + RtoC r)%C /\ cin (cSadd a X) (RtoC r + x)%C /\ cin (caddI X Y) (x + RtoC y)%C /\ cin (cIadd Y X) (RtoC y + x)%C) /\
  (cin (csubS X a) (x - RtoC r)%C /\ cin (cSsub a X) (RtoC r - x)%C /\ cin (csubI X Y) (x - RtoC y)%C /\ cin (cIsub Y X) (RtoC y - x)%C) /\
  (cin (cmulS X a) (x * RtoC r)%C /\ cin (cSmul a X) (RtoC r * x)%C /\ cin (cmulI X Y) (x * RtoC y)%C /\ cin (cImul Y X) (RtoC y * x)%C).
Proof.
  intros b X Y a x y r HX HY W V. pose proof (bok b) as OK.
  repeat match goal with |- _ /\ _ => apply conj end.
  - apply (cin_addS OK); auto. - apply (cin_Sadd OK); auto. - apply (cin_addI OK); auto. - apply (cin_Iadd OK); auto.
  - apply (cin_subS OK); auto. - apply (cin_Ssub OK); auto. - apply (cin_subI OK); auto. - apply (cin_Isub OK); auto.
  - apply (cin_mulS OK); auto. - apply (cin_Smul OK); auto. - apply (cin_mulI OK); auto. - apply (cin_Imul OK); auto.
Qed.
Theorem C57_mixed_div_enclose : forall b (X Q : cx (bscal b)) (Y : iv (bscal b)) (a : bscal b) x y r,
  cin X x -> isin Y y -> swf a -> sval a = XR r ->
  (cdivS X a = Ok Q -> r <> 0 /\ cin Q (x / RtoC r)%C) /\ (cSdiv a X = Ok Q -> x <> RtoC 0 /\ cin Q (RtoC r / x)%C) /\
  (cdivI X Y = Ok Q -> y <> 0 /\ cin Q (x / RtoC y)%C) /\ (cIdiv Y X = Ok Q -> x <> RtoC 0 /\ cin Q (RtoC y / x)%C).
Proof.
  intros b X Q Y a x y r HX HY W V. pose proof (bok b) as OK.
  split; [intros; eapply (cdivS_encl OK); eauto|]. split; [intros; eapply (cSdiv_encl OK); eauto|].
  split; [intros; eapply (cdivI_encl OK); eauto|]. intros; eapply (cIdiv_encl OK); eauto.
Qed.
Example C57_mixed_case : isin (qiv 1 0 3 0) 2 /\ sval (bdy 3 0 : D_hw) = XR 3 /\ returns (cdivS cbox (bdy 3 0 : D_hw)) = true /\
  returns (cSdiv (bdy 3 0 : D_hw) cbox) = true /\ returns (cdivI cbox (qiv 1 0 3 0)) = true /\ returns (cIdiv (qiv 1 0 3 0) cbox) = true.
Proof.
  split; [qin|]. split; [rewrite qv by lia; simpl; f_equal; lra|]. repeat split; reflexivity.
Qed.

(* ---- modulus, argument, integer powers ---- *)
Theorem C57_abs_encloses : forall b (X : cx (bscal b)) Q x, cabs X = Ok Q -> cin X x -> isin Q (Cmod x).
Proof. intros b X Q x. exact (cabs_encl (bok b) X x Q). Qed.
(* pow(z, n) with an int exponent *)
Theorem C57_powi_encloses : forall b (X Q : cx (bscal b)) n x, cpowi X n = Ok Q -> cin X x -> ((n < 0)%Z -> x <> RtoC 0) /\ cin Q (CpowZ x n).
Proof. intros b X Q n x. exact (cpowi_encl (bok b) X n Q x). Qed.
Example C57_powi_case : returns (cpowi cbox 5) = true /\ returns (cpowi cbox (-3)) = true /\ returns (cabs nbox) = true.
Proof. repeat (apply conj); vm_compute; reflexivity. Qed.

(* a box that does not meet the negative real axis *)
Lemma off_axis b (X : cx (bscal b)) x : cin X x -> (forall z, cin X z -> snd z = 0 -> 0 <= fst z) -> cut X = false.
Proof.
  intros [X1 X2] N. unfold cut, crosses. destruct (zero_in (re X)) eqn:Z1; auto. destruct (zero_in (im X)) eqn:Z2; auto.
  destruct (igtS (re X) s0) eqn:Z3; auto. exfalso. pose proof (bok b) as OK.
  apply (zero_in_spec OK) in Z2; [|eapply isin_valid; eauto].
  assert (N1 : ~ isin (re X) 0). { intros I0. apply (zero_in_spec OK) in I0; [congruence|eapply isin_valid; eauto]. }
  assert (F : 0 <= fst x). { apply (N (fst x, 0)); auto. split; auto. }
  destruct X1 as (W1 & W2 & L & U). unfold igtS in Z3. destruct (ok_s0 _ OK) as [W0 V0].
  apply (slt_false OK) in Z3; auto; [|congruence|intros Z; rewrite Z in L; auto]. apply N1. split; [auto|split; [auto|]]. rewrite V0 in Z3.
  split; [|eapply ub_le; eauto].
  destruct (sval (lo (re X))) as [l| | |]; simpl in *; auto; try lra; tauto.
Qed.
Theorem C57_arg_principal : forall b fuel (X : cx (bscal b)) Q x, carg _ (bpar b) fuel X = Ok Q -> cin X x -> x <> RtoC 0 ->
  (forall z, cin X z -> snd z = 0 -> 0 <= fst z) -> isin Q (Carg x).
Proof.
  intros b f X Q x H HX N O. destruct (carg_encl (bok b) (bpar b) (btrig b) f X x Q H HX N) as [K|[K _]]; auto.
  rewrite (off_axis b X x HX O) in K. discriminate.
Qed.
(* in any case the box contains an argument of x: x = |x| (cos t + i sin t) *)
Theorem C57_arg_encloses : forall b fuel (X : cx (bscal b)) Q x, carg _ (bpar b) fuel X = Ok Q -> cin X x -> x <> RtoC 0 ->
  exists t, isin Q t /\ x = (Cmod x * cos t, Cmod x * sin t).
Proof.
  intros b f X Q x H HX N. destruct (Carg_polar x N) as [E1 E2].
  destruct (carg_encl (bok b) (bpar b) (btrig b) f X x Q H HX N) as [K|[_ K]]; eexists; (split; [exact K|]);
    rewrite ?cos_plus, ?sin_plus, ?cos_2PI, ?sin_2PI; rewrite (surjective_pairing x) at 1; f_equal; rewrite ?E1, ?E2 at 1; ring.
Qed.

(* ---- exponential, logarithm, square root, powers ---- *)
Theorem C57_exp_encloses : forall b fuel (X Q : cx (bscal b)) x, cexp _ (bpar b) fuel X = Ok Q -> cin X x -> cin Q (Cexp x).
Proof. intros b f X Q x. exact (cexp_encl (bok b) (bpar b) (bexp b) (btrig b) f X x Q). Qed.
Theorem C57_log_encloses : forall b fuel (X Q : cx (bscal b)) x, clog _ (bpar b) fuel X = Ok Q -> cin X x -> x <> RtoC 0 ->
  exists w, cin Q w /\ Cexp w = x.
Proof. intros b f X Q x. exact (clog_ex (bok b) (bpar b) (blog b) (btrig b) f X x Q). Qed.
Theorem C57_log_principal : forall b fuel (X Q : cx (bscal b)) x, clog _ (bpar b) fuel X = Ok Q -> cin X x -> x <> RtoC 0 ->
  (forall z, cin X z -> snd z = 0 -> 0 <= fst z) -> cin Q (ln (Cmod x), Carg x).
Proof.
  intros b f X Q x H HX N O. destruct (clog_encl (bok b) (bpar b) (blog b) (btrig b) f X x Q H HX N) as [K|[K _]]; auto.
  rewrite (off_axis b X x HX O) in K. discriminate.
Qed.
Theorem C57_sqrt_encloses : forall b fuel (X Q : cx (bscal b)) x, csqrt _ (bpar b) fuel X = Ok Q -> cin X x ->
  exists w, cin Q w /\ (w * w)%C = x.
Proof. intros b f X Q x. exact (csqrt_ex (bok b) (bpar b) (btrig b) f X x Q). Qed.
(* the principal square root: the one with non-negative real part *)
Lemma Carg_range z : - PI < Carg z <= PI.
Proof.
  unfold Carg, ratan2. pose proof PI_RGT_0. pose proof (atan_bound (snd z / fst z)) as B.
  destruct (Rlt_dec 0 (fst z)); [lra|]. destruct (Rlt_dec (fst z) 0) as [N|N].
  - destruct (Rle_dec 0 (snd z)).
    + assert (snd z / fst z <= 0) by (apply Rmult_le_reg_r with (- fst z); [lra|]; unfold Rdiv; replace (snd z * / fst z * - fst z) with (- snd z) by (field; lra); lra).
      assert (atan (snd z / fst z) <= 0) by (rewrite <- atan_0; destruct (Req_dec (snd z / fst z) 0) as [-> |]; [lra|left; apply atan_increasing; lra]). lra.
    + assert (0 < snd z / fst z) by (apply Rmult_lt_reg_r with (- fst z); [lra|]; unfold Rdiv; replace (snd z * / fst z * - fst z) with (- snd z) by (field; lra); lra).
      assert (0 < atan (snd z / fst z)) by (rewrite <- atan_0; now apply atan_increasing). lra.
  - destruct (Rlt_dec 0 (snd z)); lra.
Qed.
Theorem C57_sqrt_principal : forall b fuel (X Q : cx (bscal b)) x, csqrt _ (bpar b) fuel X = Ok Q -> cin X x ->
  (forall z, cin X z -> snd z = 0 -> 0 <= fst z) -> exists w, cin Q w /\ (w * w)%C = x /\ 0 <= fst w.
Proof.
  intros b f X Q x H HX O. destruct (csqrt_encl (bok b) (bpar b) (btrig b) f X x Q H HX) as [K|[K _]].
  - exists (Csqrt x). split; auto. split; [apply Csqrt_sq|]. pose proof (Carg_range x). cbn [Csqrt fst].
    apply Rmult_le_pos; [apply sqrt_pos|apply cos_ge_0; lra].
  - rewrite (off_axis b X x HX O) in K. discriminate.
Qed.
(* pow(z, y) = exp(y log z) for some logarithm of z, the principal one away from the negative real axis *)
Theorem C57_pow_encloses : forall b fuel (X Y Q : cx (bscal b)) x y, cpow _ (bpar b) fuel X Y = Ok Q -> cin X x -> cin Y y -> x <> RtoC 0 ->
  exists l, Cexp l = x /\ ((forall z, cin X z -> snd z = 0 -> 0 <= fst z) -> l = (ln (Cmod x), Carg x)) /\ cin Q (Cexp (y * l)%C).
Proof.
  intros b f X Y Q x y H HX HY N. destruct (cpow_encl (bok b) (bpar b) (bexp b) (blog b) (btrig b) f X Y Q x y H HX HY N) as (l & E & L & K).
  exists l. split; auto. split; auto. intros O. apply L. eapply off_axis; eauto.
Qed.
Example C57_log_case : returns (cexp _ hw 60 cbox) = true /\ returns (clog _ hw 60 cbox) = true /\ returns (clog _ hw 60 nbox) = true /\
  returns (csqrt _ hw 60 nbox) = true /\ ((17 / 32, 9 / 32) : C) <> RtoC 0 /\ (forall z, cin cbox z -> snd z = 0 -> 0 <= fst z) /\
  returns (cpow _ hw 60 cbox nbox) = true.
Proof.
  split; [vm_compute; reflexivity|]. split; [vm_compute; reflexivity|]. split; [vm_compute; reflexivity|]. split; [vm_compute; reflexivity|].
  split; [intros E; injection E; lra|]. split; [|vm_compute; reflexivity].
  intros z [(_ & _ & A & _) _] _. cbn [cbox re qiv lo] in A. rewrite qv in A by lia. simpl in A. lra.
Qed.

(* ---- trigonometric and hyperbolic functions ---- *)
Theorem C57_sin_encloses : forall b fuel (X Q : cx (bscal b)) x, csin _ (bpar b) fuel X = Ok Q -> cin X x -> cin Q (Csin x).
Proof. intros b f X Q x. exact (csin_encl (bok b) (bpar b) (bexp b) (btrig b) f X x Q). Qed.
Theorem C57_cos_encloses : forall b fuel (X Q : cx (bscal b)) x, ccos _ (bpar b) fuel X = Ok Q -> cin X x -> cin Q (Ccos x).
Proof. intros b f X Q x. exact (ccos_encl (bok b) (bpar b) (bexp b) (btrig b) f X x Q). Qed.
Theorem C57_sinh_encloses : forall b fuel (X Q : cx (bscal b)) x, csinh _ (bpar b) fuel X = Ok Q -> cin X x -> cin Q (Csinh x).
Proof. intros b f X Q x. exact (csinh_encl (bok b) (bpar b) (bexp b) (btrig b) f X x Q). Qed.
Theorem C57_cosh_encloses : forall b fuel (X Q : cx (bscal b)) x, ccosh _ (bpar b) fuel X = Ok Q -> cin X x -> cin Q (Ccosh x).
Proof. intros b f X Q x. exact (ccosh_encl (bok b) (bpar b) (bexp b) (btrig b) f X x Q). Qed.
Theorem C57_tan_encloses : forall b fuel (X Q : cx (bscal b)) x, ctan _ (bpar b) fuel X = Ok Q -> cin X x -> Ccos x <> RtoC 0 /\ cin Q (Ctan x).
Proof. intros b f X Q x. exact (ctan_encl (bok b) (bpar b) (bexp b) (btrig b) f X x Q). Qed.
Theorem C57_tanh_encloses : forall b fuel (X Q : cx (bscal b)) x, ctanh _ (bpar b) fuel X = Ok Q -> cin X x -> Ccosh x <> RtoC 0 /\ cin Q (Ctanh x).
Proof. intros b f X Q x. exact (ctanh_encl (bok b) (bpar b) (bexp b) (btrig b) f X x Q). Qed.
Example C57_trig_case : returns (csin _ hw 60 cbox) = true /\ returns (ccos _ hw 60 cbox) = true /\ returns (csinh _ hw 60 cbox) = true /\
  returns (ccosh _ hw 60 cbox) = true /\ returns (ctan _ hw 60 cbox) = true /\ returns (ctanh _ hw 60 cbox) = true.
Proof. repeat (apply conj); vm_compute; reflexivity. Qed.

(* the inverses, stated through the functions they invert *)
Theorem C57_asin_encloses : forall b fuel (X Q : cx (bscal b)) x, casin _ (bpar b) fuel X = Ok Q -> cin X x -> exists w, cin Q w /\ Csin w = x.
Proof. intros b f X Q x. exact (casin_encl (bok b) (bpar b) (blog b) (btrig b) f X x Q). Qed.
Theorem C57_acos_encloses : forall b fuel (X Q : cx (bscal b)) x, cacos _ (bpar b) fuel X = Ok Q -> cin X x -> exists w, cin Q w /\ Ccos w = x.
Proof. intros b f X Q x. exact (cacos_encl (bok b) (bpar b) (blog b) (btrig b) f X x Q). Qed.
Theorem C57_asinh_encloses : forall b fuel (X Q : cx (bscal b)) x, casinh _ (bpar b) fuel X = Ok Q -> cin X x -> exists w, cin Q w /\ Csinh w = x.
Proof. intros b f X Q x. exact (casinh_encl (bok b) (bpar b) (blog b) (btrig b) f X x Q). Qed.
Theorem C57_acosh_encloses : forall b fuel (X Q : cx (bscal b)) x, cacosh _ (bpar b) fuel X = Ok Q -> cin X x -> exists w, cin Q w /\ Ccosh w = x.
Proof. intros b f X Q x. exact (cacosh_encl (bok b) (bpar b) (blog b) (btrig b) f X x Q). Qed.
(* 1 and -1 (i and -i) have no inverse hyperbolic tangent (inverse tangent) *)
Theorem C57_atanh_encloses : forall b fuel (X Q : cx (bscal b)) x, catanh _ (bpar b) fuel X = Ok Q -> cin X x -> x <> (- RtoC 1)%C ->
  exists w, cin Q w /\ Ccosh w <> RtoC 0 /\ Ctanh w = x.
Proof. intros b f X Q x. exact (catanh_encl (bok b) (bpar b) (blog b) (btrig b) f X x Q). Qed.
Theorem C57_atan_encloses : forall b fuel (X Q : cx (bscal b)) x, catan _ (bpar b) fuel X = Ok Q -> cin X x -> x <> (- Ci)%C ->
  exists w, cin Q w /\ Ccos w <> RtoC 0 /\ Ctan w = x.
Proof. intros b f X Q x. exact (catan_encl (bok b) (bpar b) (blog b) (btrig b) f X x Q). Qed.
Example C57_inv_case : returns (casin _ hw 60 cbox) = true /\ returns (cacosh _ hw 60 cbox) = true /\
  returns (catanh _ hw 60 (mkcx (qiv 1 (-2) 1 (-1)) (qiv 1 (-2) 1 (-1)))) = true /\ returns (catan _ hw 60 (mkcx (qiv 1 (-2) 1 (-1)) (qiv 1 (-2) 1 (-1)))) = true.
Proof. repeat (apply conj); vm_compute; reflexivity. Qed.

(* one traversal for all theorems of this file *)
Definition C57_all := (C57_add_encloses, C57_sub_encloses, C57_mul_encloses, C57_neg_encloses, C57_conj_encloses, C57_div_encloses, C57_mixed_enclose, C57_mixed_div_enclose, C57_abs_encloses, C57_powi_encloses, C57_arg_principal, C57_arg_encloses, C57_exp_encloses, C57_log_encloses, C57_log_principal, C57_sqrt_encloses, C57_sqrt_principal, C57_pow_encloses, C57_sin_encloses, C57_cos_encloses, C57_sinh_encloses, C57_cosh_encloses, C57_tan_encloses, C57_tanh_encloses, C57_asin_encloses, C57_acos_encloses, C57_asinh_encloses, C57_acosh_encloses, C57_atanh_encloses, C57_atan_encloses).
Print Assumptions C57_all.
