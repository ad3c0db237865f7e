(* Iterated integrals of functions of two variables that are continuous at every point of a rectangle; continuity of expressions in
   several variables. *)
From Coq Require Import Reals ZArith Bool List Lra Lia Psatz Arith.
From Coquelicot Require Import Coquelicot.
From Verif Require Import Ext RealFun RealConst ADModel ADReal ADProofs PsaModel PsaReal PsaProofs PsaExpr PsaInt.
Import ListNotations.
Open Scope R_scope.

Lemma Rinv_comp {U : UniformSpace} (f : U -> R) x : continuous f x -> f x <> 0 -> continuous (fun x => / f x) x.
Proof. intros C N. apply (continuous_comp f (fun y => / y)); auto. now apply continuous_Rinv. Qed.
Lemma rval_continuous_gen {U : UniformSpace} n e (x : U -> nat -> R) (t : U) : awf n e -> noarc e = true -> (forall i, (i < n)%nat -> continuous (fun t => x t i) t) -> adom e (x t) ->
  continuous (fun t => rval e (x t)) t.
Proof.
  intros W A HX. induction e; intros D; cbn [awf noarc adom rval] in *.
  - now apply HX.
  - apply continuous_const.
  - apply andb_prop in A as []. apply (continuous_plus (fun t => rval e1 (x t)) (fun t => rval e2 (x t))); tauto.
  - apply andb_prop in A as []. apply (continuous_minus (fun t => rval e1 (x t)) (fun t => rval e2 (x t))); tauto.
  - apply andb_prop in A as []. apply (continuous_mult (fun t => rval e1 (x t)) (fun t => rval e2 (x t))); tauto.
  - apply andb_prop in A as []. apply (continuous_mult (fun t => rval e1 (x t)) (fun t => / rval e2 (x t))); [tauto|]. apply Rinv_comp; tauto.
  - assert (CE : continuous (fun t => rval e0 (x t)) t) by tauto. destruct D as [D DS]. destruct o; cbn [scv] in * .
    + apply (continuous_plus (fun t => rval e0 (x t)) (fun t => dy m e)); [auto|apply continuous_const].
    + apply (continuous_plus (fun t => dy m e) (fun t => rval e0 (x t))); [apply continuous_const|auto].
    + apply (continuous_minus (fun t => rval e0 (x t)) (fun t => dy m e)); [auto|apply continuous_const].
    + apply (continuous_minus (fun t => dy m e) (fun t => rval e0 (x t))); [apply continuous_const|auto].
    + apply (continuous_mult (fun t => rval e0 (x t)) (fun t => dy m e)); [auto|apply continuous_const].
    + apply (continuous_mult (fun t => dy m e) (fun t => rval e0 (x t))); [apply continuous_const|auto].
    + apply (continuous_mult (fun t => rval e0 (x t)) (fun t => / dy m e)); [auto|apply continuous_const].
    + apply (continuous_mult (fun t => dy m e) (fun t => / rval e0 (x t))); [apply continuous_const|]. apply Rinv_comp; auto.
  - apply (continuous_opp (fun t => rval e (x t))); tauto.
  - destruct D as [D DN]. assert (CE : continuous (fun t => rval e (x t)) t) by tauto.
    apply (continuous_comp (fun t => rval e (x t)) (fun y => powerRZ y n0)); auto.
    destruct (Z.eq_dec n0 0) as [->|N0]. { simpl. apply continuous_const. }
    destruct (Z.ltb_spec n0 1) as [L|L].
    + eapply dpl_continuous, pow_deriv; auto. intros _. apply DN. lia.
    + eapply dpl_continuous, pow_deriv; auto. intros. lia.
  - apply andb_prop in A as []. destruct D as (D1 & D2 & DP). apply (continuous_comp (fun t => rval e2 (x t) * ln (rval e1 (x t))) exp); [|apply continuous_exp].
    apply (continuous_mult (fun t => rval e2 (x t)) (fun t => ln (rval e1 (x t)))); [tauto|].
    apply (continuous_comp (fun t => rval e1 (x t)) ln); [tauto|]. now apply continuous_ln.
  - apply andb_prop in A as [A1 A2]. apply negb_true_iff in A1. destruct D as (D1 & D2). apply (continuous_comp (fun t => rval e (x t)) (frl f)); [tauto|].
    now apply frl_continuous.
Qed.

(* f is continuous in both variables at (x, y) *)
Definition cont2 (f : R -> R -> R) (x y : R) : Prop := continuous (fun p : R * R => f (fst p) (snd p)) (x, y).
Lemma cont2_pt f x y : cont2 f x y -> continuity_2d_pt f x y.
Proof. intros H. apply continuity_2d_pt_filterlim. exact H. Qed.
Lemma cont2_comp (f : R -> R -> R) (p q : R * R -> R) z : continuous p z -> continuous q z -> cont2 f (p z) (q z) -> continuous (fun z => f (p z) (q z)) z.
Proof. intros HP HQ HF. apply (continuous_comp_2 p q f); auto. Qed.
Lemma cont2_comp1 (f : R -> R -> R) (p q : R -> R) z : continuous p z -> continuous q z -> cont2 f (p z) (q z) -> continuous (fun z => f (p z) (q z)) z.
Proof. intros HP HQ HF. apply (continuous_comp_2 p q f); auto. Qed.
Lemma cont2_x f x y : cont2 f x y -> continuous (fun x => f x y) x.
Proof. intros H. apply (cont2_comp1 f (fun x => x) (fun _ => y)); auto; [apply continuous_id|apply continuous_const]. Qed.

(* fixed bounds *)
Lemma param_cont (h : R -> R -> R) a b y0 : a <= b -> (forall x y, cont2 h x y) -> continuous (fun y => RInt (fun x => h x y) a b) y0.
Proof.
  intros AB C. assert (EX : forall y, ex_RInt (fun x => h x y) a b). { intros y. apply (ex_RInt_continuous (fun x => h x y)). intros z _. apply cont2_x, C. }
  apply filterlim_locally. intros eps.
  assert (EP : 0 < eps / 2 / (b - a + 1)). { apply Rdiv_lt_0_compat; [|lra]. pose proof (cond_pos eps). lra. }
  destruct (uniform_continuity_2d_1d h a b y0 (fun x _ => cont2_pt h x y0 (C x y0)) (mkposreal _ EP)) as [d Hd].
  exists d. intros y Hy. change (Rabs (y - y0) < d) in Hy. change (Rabs (RInt (fun x => h x y) a b - RInt (fun x => h x y0) a b) < eps).
  pose proof (RInt_minus (fun x => h x y) (fun x => h x y0) a b (EX y) (EX y0)) as E. unfold minus at 2 in E. unfold plus, opp in E; simpl in E.
  change (RInt (fun x => h x y) a b - RInt (fun x => h x y0) a b) with (RInt (fun x => h x y) a b + - RInt (fun x => h x y0) a b). rewrite <- E.
  eapply Rle_lt_trans; [apply (abs_RInt_le_const _ a b (eps / 2 / (b - a + 1)))|]; auto.
  - apply (ex_RInt_minus (fun x => h x y) (fun x => h x y0)); auto.
  - intros t Ht. unfold minus, plus, opp; simpl. apply Rlt_le. apply Rabs_lt_between in Hy. apply (Hd t y0 t y); auto; try lra. rewrite Rminus_eq_0, Rabs_R0. apply cond_pos.
  - pose proof (cond_pos eps). replace ((b - a) * (eps / 2 / (b - a + 1))) with (eps / 2 * ((b - a) / (b - a + 1))) by (field; lra).
    assert ((b - a) / (b - a + 1) <= 1). { apply Rmult_le_reg_r with (b - a + 1); [lra|]. unfold Rdiv. rewrite Rmult_assoc, Rinv_l by lra. lra. }
    assert (eps / 2 * ((b - a) / (b - a + 1)) <= eps / 2 * 1) by (apply Rmult_le_compat_l; lra). lra.
Qed.
(* upper bound q(y) *)
Lemma param_cont_bound (g : R -> R -> R) (q : R -> R) p y0 : (forall x y, cont2 g x y) -> (forall y, continuous q y) -> continuous (fun y => RInt (fun x => g x y) p (q y)) y0.
Proof.
  intros C CQ. set (h := fun t y => (q y - p) * g ((q y - p) * t + p) y).
  apply (continuous_ext (fun y => RInt (fun t => h t y) 0 1)).
  - intros y. unfold h. pose proof (RInt_comp_lin (fun x => g x y) (q y - p) p 0 1) as E. unfold scal in E; simpl in E. unfold mult in E; simpl in E. rewrite E.
    + rewrite Rmult_0_r, Rmult_1_r, Rplus_0_l. f_equal. ring.
    + apply (ex_RInt_continuous (fun x => g x y)). intros z _. apply cont2_x, C.
  - apply param_cont; [lra|]. intros t y. unfold cont2, h.
    assert (CQP : continuous (fun z : R * R => q (snd z) - p) (t, y)).
    { apply (continuous_minus (fun z : R * R => q (snd z)) (fun _ => p)); [|apply continuous_const]. apply (continuous_comp snd q); [apply continuous_snd|apply CQ]. }
    apply (continuous_mult (fun z : R * R => q (snd z) - p) (fun z : R * R => g ((q (snd z) - p) * fst z + p) (snd z))); auto.
    apply (cont2_comp g (fun z => (q (snd z) - p) * fst z + p) snd); [|apply continuous_snd|apply C].
    apply (continuous_plus (fun z : R * R => (q (snd z) - p) * fst z) (fun _ => p)); [|apply continuous_const].
    apply (continuous_mult (fun z : R * R => q (snd z) - p) fst); auto. apply continuous_fst.
Qed.
(* clamping *)
Definition cl (a b x : R) : R := Rmax a (Rmin b x).
Lemma cl_in a b x : a <= b -> a <= cl a b x <= b.
Proof. intros H. unfold cl, Rmax, Rmin. destruct (Rle_dec b x); destruct (Rle_dec a _); lra. Qed.
Lemma cl_id a b x : a <= x <= b -> cl a b x = x.
Proof. intros H. unfold cl, Rmax, Rmin. destruct (Rle_dec b x); destruct (Rle_dec a _); lra. Qed.
Lemma cl_continuous a b x : continuous (cl a b) x.
Proof.
  apply filterlim_locally. intros eps. exists eps. intros y Hy. change (Rabs (y - x) < eps) in Hy. change (Rabs (cl a b y - cl a b x) < eps).
  apply Rabs_lt_between in Hy. pose proof (cond_pos eps). apply Rabs_lt_between.
  unfold cl, Rmax, Rmin. destruct (Rle_dec b x), (Rle_dec b y); repeat destruct (Rle_dec a _); lra.
Qed.
(* a continuous iterated integral exists *)
Lemma iter_ex (f : R -> R -> R) (q : R -> R) a b c d : a <= b -> c <= d -> (forall x y, a <= x <= b -> c <= y <= d -> cont2 f x y) ->
  (forall y, continuous q y) -> (forall y, c <= y <= d -> a <= q y <= b) ->
  (forall y, c <= y <= d -> ex_RInt (fun x => f x y) a (q y)) /\ ex_RInt (fun y => RInt (fun x => f x y) a (q y)) c d /\ 
  (forall t, c <= t <= d -> ex_RInt (fun y => RInt (fun x => f x y) a (q y)) c t) /\ (forall t, c <= t <= d -> ex_RInt (fun y => RInt (fun x => f x y) a (q y)) t d).
Proof.
  intros AB CD C CQ HQ. set (g := fun x y => f (cl a b x) (cl c d y)).
  assert (CG : forall x y, cont2 g x y).
  { intros x y. unfold cont2, g. apply (cont2_comp f (fun z => cl a b (fst z)) (fun z => cl c d (snd z))).
    - apply (continuous_comp fst (cl a b)); [apply continuous_fst|apply cl_continuous].
    - apply (continuous_comp snd (cl c d)); [apply continuous_snd|apply cl_continuous].
    - simpl. apply C; now apply cl_in. }
  assert (EE : forall y, c <= y <= d -> RInt (fun x => g x y) a (q y) = RInt (fun x => f x y) a (q y)).
  { intros y Hy. apply RInt_ext. intros x Hx. specialize (HQ y Hy). rewrite Rmin_left, Rmax_right in Hx by lra. unfold g. rewrite !cl_id by lra. reflexivity. }
  split.
  - intros y Hy. specialize (HQ y Hy). apply (ex_RInt_continuous (fun x => f x y)). intros z Hz. rewrite Rmin_left, Rmax_right in Hz by lra. apply cont2_x, C; lra.
  - assert (K : forall t t', c <= t <= d -> c <= t' <= d -> ex_RInt (fun y => RInt (fun x => f x y) a (q y)) t t').
    { intros t t' Ht Ht'. apply (ex_RInt_ext (fun y => RInt (fun x => g x y) a (q y))).
      - intros y Hy. apply EE. unfold Rmin, Rmax in Hy. destruct (Rle_dec t t'); lra.
      - apply (ex_RInt_continuous (fun y => RInt (fun x => g x y) a (q y))). intros z _. now apply param_cont_bound. }
    split; [apply K; lra|]. split; intros t Ht; apply K; lra.
Qed.
