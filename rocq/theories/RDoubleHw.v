(* Models of kv/rdouble-hwround.hpp and kv/rdouble-avx512.hpp (rop<double>), and the scalar
   instances for interval<double>.  The FPU is Flocq's binary64 with an explicit current
   rounding mode. *)
From Coq Require Import Reals Lra Lia ZArith Bool.
From Flocq Require Import Core BinarySingleNaN.
From Verif Require Import Ext Scalar Fp64.
Open Scope R_scope.

(* A rop function runs in the current rounding mode and may change it. *)
Definition hwop := mode -> b64 * mode.

(* kv/rdouble-hwround.hpp 18-22 *)
Definition hw_add_up (x y : b64) : hwop := fun m => (Bplus m x y, m).
(* 24-29 *)
Definition hw_add_down (x y : b64) : hwop := fun m => (Bopp (Bplus m (Bopp x) (Bopp y)), m).
(* 31-35 *)
Definition hw_sub_up (x y : b64) : hwop := fun m => (Bminus m x y, m).
(* 37-42 *)
Definition hw_sub_down (x y : b64) : hwop := fun m => (Bopp (Bminus m (Bopp x) (Bopp y)), m).
(* 44-48 *)
Definition hw_mul_up (x y : b64) : hwop := fun m => (Bmult m x y, m).
(* 50-55 *)
Definition hw_mul_down (x y : b64) : hwop := fun m => (Bopp (Bmult m (Bopp x) y), m).
(* 57-61 *)
Definition hw_div_up (x y : b64) : hwop := fun m => (Bdiv m x y, m).
(* 63-68 *)
Definition hw_div_down (x y : b64) : hwop := fun m => (Bopp (Bdiv m (Bopp x) y), m).
(* 70-74 *)
Definition hw_sqrt_up (x : b64) : hwop := fun m => (Bsqrt m x, m).
(* 76-89: switches to downward (hwround.hpp 198-200), then back to upward (201-203) *)
Definition hw_sqrt_down (x : b64) : hwop := fun _ => let m := mode_DN in (Bsqrt m x, mode_UP).
(* 91-97: begin() sets upward, end() sets to-nearest *)
Definition hw_begin : mode := mode_UP.
Definition hw_end : mode := mode_NE.

(* value of an operation executed right after begin() *)
Definition hwv (f : hwop) : b64 := fst (f hw_begin).

(* kv/rdouble-avx512.hpp 19-115: instructions with explicit rounding *)
Definition avx_add_up (x y : b64) := Bplus mode_UP x y.
Definition avx_add_down (x y : b64) := Bplus mode_DN x y.
Definition avx_sub_up (x y : b64) := Bminus mode_UP x y.
Definition avx_sub_down (x y : b64) := Bminus mode_DN x y.
Definition avx_mul_up (x y : b64) := Bmult mode_UP x y.
Definition avx_mul_down (x y : b64) := Bmult mode_DN x y.
Definition avx_div_up (x y : b64) := Bdiv mode_UP x y.
Definition avx_div_down (x y : b64) := Bdiv mode_DN x y.
Definition avx_sqrt_up (x : b64) := Bsqrt mode_UP x.
Definition avx_sqrt_down (x : b64) := Bsqrt mode_DN x.

(* the parts of the scalar interface that do not depend on the back end *)
Definition mk64 au ad su sd mu md du dd qu qd : scal :=
  mkscal b64 v64 (fun _ => True) b0 b1 bdy bpinf bninf bmax bdmin beps
    (fun x y => Bltb x y) (fun x y => Bleb x y) (fun x y => Beqb x y) (fun x => Bopp x) (fun x => Babs x)
    (Bplus mode_NE) (Bminus mode_NE) (Bmult mode_NE) (Bdiv mode_NE) (Bnearbyint mode_DN) (Bnearbyint mode_UP)
    au ad su sd mu md du dd qu qd.

Definition D_hw : scal := mk64
  (fun x y => hwv (hw_add_up x y)) (fun x y => hwv (hw_add_down x y))
  (fun x y => hwv (hw_sub_up x y)) (fun x y => hwv (hw_sub_down x y))
  (fun x y => hwv (hw_mul_up x y)) (fun x y => hwv (hw_mul_down x y))
  (fun x y => hwv (hw_div_up x y)) (fun x y => hwv (hw_div_down x y))
  (fun x => hwv (hw_sqrt_up x)) (fun x => hwv (hw_sqrt_down x)).

Definition D_avx : scal := mk64
  avx_add_up avx_add_down avx_sub_up avx_sub_down avx_mul_up avx_mul_down
  avx_div_up avx_div_down avx_sqrt_up avx_sqrt_down.

(* the ten operations return the ideal rounded value *)
Record ideal64 (au ad su sd mu md du dd : b64 -> b64 -> b64) (qu qd : b64 -> b64) : Prop := mkideal {
  id_au : forall x y, v64 (au x y) = xr mode_UP (xadd (v64 x) (v64 y));
  id_ad : forall x y, v64 (ad x y) = xr mode_DN (xadd (v64 x) (v64 y));
  id_su : forall x y, v64 (su x y) = xr mode_UP (xsub (v64 x) (v64 y));
  id_sd : forall x y, v64 (sd x y) = xr mode_DN (xsub (v64 x) (v64 y));
  id_mu : forall x y, v64 (mu x y) = xr mode_UP (xmul (v64 x) (v64 y));
  id_md : forall x y, v64 (md x y) = xr mode_DN (xmul (v64 x) (v64 y));
  id_du : forall x y, v64 y <> XR 0 -> v64 (du x y) = xr mode_UP (xdiv (v64 x) (v64 y));
  id_dd : forall x y, v64 y <> XR 0 -> v64 (dd x y) = xr mode_DN (xdiv (v64 x) (v64 y));
  id_qu : forall x, v64 (qu x) = xr mode_UP (xsqrt (v64 x));
  id_qd : forall x, v64 (qd x) = xr mode_DN (xsqrt (v64 x))
}.

Lemma mk64_ok au ad su sd mu md du dd qu qd :
  ideal64 au ad su sd mu md du dd qu qd -> scal_ok (mk64 au ad su sd mu md du dd qu qd).
Proof.
  intros []. constructor; cbv [mk64 sT sval swf s0 s1 sdy spinf sninf smax sdmin slt sle seqb sneg
    addu addd subu subd mulu muld divu divd sqru sqrd]; auto.
  - intros; apply Bltb_v.
  - intros; apply Bleb_v.
  - intros; apply Beqb_v.
  - intros; split; auto; apply Bopp_v.
  - split; auto; apply b1_v.
  - intros. split; auto. apply bdy_v; lia.
  - split; auto. exists maxR. split; [apply bmax_v|apply maxR_pos].
  - split; auto. exists (bpow radix2 (-1074)). split; [apply bdmin_v|apply bpow_gt_0].
  - intros. split; auto. rewrite id_au0. apply xr_up.
  - intros. split; auto. rewrite id_ad0. apply xr_dn.
  - intros. split; auto. rewrite id_su0. apply xr_up.
  - intros. split; auto. rewrite id_sd0. apply xr_dn.
  - intros. split; auto. rewrite id_mu0. apply xr_up.
  - intros. split; auto. rewrite id_md0. apply xr_dn.
  - intros. split; auto. rewrite id_du0 by auto. apply xr_up.
  - intros. split; auto. rewrite id_dd0 by auto. apply xr_dn.
  - intros. split; auto. rewrite id_qu0. apply xr_up.
  - intros. split; auto. rewrite id_qd0. apply xr_dn.
Qed.

Lemma xadd_opp a b : xadd (xneg a) (xneg b) = xneg (xadd a b).
Proof. destruct a, b; simpl; auto. f_equal; ring. Qed.
Lemma xsgn_inf_opp x p : xsgn_inf (- x) p = xneg (xsgn_inf x p).
Proof.
  unfold xsgn_inf. destruct (Rcompare_spec x 0); [rewrite Rcompare_Gt|rewrite Rcompare_Eq|rewrite Rcompare_Lt]; try lra;
  destruct p; reflexivity.
Qed.
Lemma xmul_opp_l a b : xmul (xneg a) b = xneg (xmul a b).
Proof.
  destruct a, b; simpl; auto; try apply xsgn_inf_opp; try (f_equal; ring);
  unfold xsgn_inf; destruct Rcompare; reflexivity.
Qed.
Lemma xdiv_opp_l a b : xdiv (xneg a) b = xneg (xdiv a b).
Proof.
  destruct a, b; simpl; auto; try (f_equal; unfold Rdiv; ring);
  unfold xsgn_inf; destruct Rcompare; reflexivity.
Qed.

Lemma ideal_hw : ideal64 
  (fun x y => hwv (hw_add_up x y)) (fun x y => hwv (hw_add_down x y))
  (fun x y => hwv (hw_sub_up x y)) (fun x y => hwv (hw_sub_down x y))
  (fun x y => hwv (hw_mul_up x y)) (fun x y => hwv (hw_mul_down x y))
  (fun x y => hwv (hw_div_up x y)) (fun x y => hwv (hw_div_down x y))
  (fun x => hwv (hw_sqrt_up x)) (fun x => hwv (hw_sqrt_down x)).
Proof.
  constructor; intros; cbv [hwv hw_add_up hw_add_down hw_sub_up hw_sub_down hw_mul_up hw_mul_down
    hw_div_up hw_div_down hw_sqrt_up hw_sqrt_down hw_begin fst].
  - apply Bplus_v.
  - rewrite Bopp_v, Bplus_v, !Bopp_v, xadd_opp, xr_opp, xneg_invol. auto.
  - apply Bminus_v.
  - rewrite Bopp_v, Bminus_v, !Bopp_v. unfold xsub. rewrite xadd_opp, xr_opp, xneg_invol. auto.
  - apply Bmult_v.
  - rewrite Bopp_v, Bmult_v, Bopp_v, xmul_opp_l, xr_opp, xneg_invol. auto.
  - apply Bdiv_v; auto.
  - rewrite Bopp_v, Bdiv_v, Bopp_v, xdiv_opp_l, xr_opp, xneg_invol; auto.
  - apply Bsqrt_v.
  - apply Bsqrt_v.
Qed.
Lemma ideal_avx : ideal64 avx_add_up avx_add_down avx_sub_up avx_sub_down avx_mul_up avx_mul_down
  avx_div_up avx_div_down avx_sqrt_up avx_sqrt_down.
Proof.
  constructor; intros; first [apply Bplus_v|apply Bminus_v|apply Bmult_v|apply Bdiv_v; auto|apply Bsqrt_v].
Qed.

Lemma D_hw_ok : scal_ok D_hw.
Proof. apply mk64_ok, ideal_hw. Qed.
Lemma D_avx_ok : scal_ok D_avx.
Proof. apply mk64_ok, ideal_avx. Qed.

(* any sequence of operations between begin() and end() runs in upward mode *)
Definition keeps_up (f : hwop) := snd (f mode_UP) = mode_UP.
Inductive ropcall := CAddU (x y : b64) | CAddD (x y : b64) | CSubU (x y : b64) | CSubD (x y : b64)
  | CMulU (x y : b64) | CMulD (x y : b64) | CDivU (x y : b64) | CDivD (x y : b64)
  | CSqrtU (x : b64) | CSqrtD (x : b64).
Definition run_call (c : ropcall) : hwop :=
  match c with
  | CAddU x y => hw_add_up x y | CAddD x y => hw_add_down x y
  | CSubU x y => hw_sub_up x y | CSubD x y => hw_sub_down x y
  | CMulU x y => hw_mul_up x y | CMulD x y => hw_mul_down x y
  | CDivU x y => hw_div_up x y | CDivD x y => hw_div_down x y
  | CSqrtU x => hw_sqrt_up x | CSqrtD x => hw_sqrt_down x
  end.
Fixpoint run_calls (cs : list ropcall) (m : mode) : list b64 * mode :=
  match cs with
  | nil => (nil, m)
  | cons c cs => let (r, m1) := run_call c m in let (rs, m2) := run_calls cs m1 in (cons r rs, m2)
  end.
(* the mathematical value of a call, before rounding, and its direction *)
Definition call_exact (c : ropcall) : ext :=
  match c with
  | CAddU x y | CAddD x y => xadd (v64 x) (v64 y)
  | CSubU x y | CSubD x y => xsub (v64 x) (v64 y)
  | CMulU x y | CMulD x y => xmul (v64 x) (v64 y)
  | CDivU x y | CDivD x y => xdiv (v64 x) (v64 y)
  | CSqrtU x | CSqrtD x => xsqrt (v64 x)
  end.
Definition call_dir (c : ropcall) : mode :=
  match c with
  | CAddU _ _ | CSubU _ _ | CMulU _ _ | CDivU _ _ | CSqrtU _ => mode_UP
  | _ => mode_DN
  end.
Definition call_defined (c : ropcall) : Prop :=
  match c with CDivU _ y | CDivD _ y => v64 y <> XR 0 | _ => True end.

Lemma run_call_ok c : call_defined c ->
  v64 (fst (run_call c mode_UP)) = xr (call_dir c) (call_exact c) /\ snd (run_call c mode_UP) = mode_UP.
Proof.
  pose proof ideal_hw as []. unfold hwv, hw_begin in *.
  destruct c; simpl call_defined; intros D; (split; [|reflexivity]); simpl; auto.
  - apply id_au0. - apply id_ad0. - apply id_su0. - apply id_sd0. - apply id_mu0.
  - apply id_md0. - apply id_du0; auto. - apply id_dd0; auto. - apply id_qu0. - apply id_qd0.
Qed.
Lemma run_calls_ok cs : (forall c, List.In c cs -> call_defined c) ->
  List.map v64 (fst (run_calls cs hw_begin)) = List.map (fun c => xr (call_dir c) (call_exact c)) cs /\
  snd (run_calls cs hw_begin) = mode_UP.
Proof.
  unfold hw_begin. induction cs as [|c cs IH]; intros H; simpl; auto.
  destruct (run_call_ok c) as [H1 H2]; [apply H; left; auto|].
  destruct (run_call c mode_UP) as [r m1] eqn:E. simpl in H1, H2. subst m1.
  destruct IH as [H3 H4]; [intros; apply H; right; auto|].
  destruct (run_calls cs mode_UP) as [rs m2] eqn:E2. simpl in *. rewrite H1, H3. auto.
Qed.
