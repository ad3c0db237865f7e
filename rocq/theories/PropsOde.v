(* Property theorems: validated solution of initial value problems (C64), for every double back end, dimension, order, right-hand side
   built from the elementary functions other than the inverse ones, both values of ODE_FAST, every state of psa at the call and every
   choice of the C library's pow. *)
From Coq Require Import Reals ZArith Bool List Lra Lia Psatz Arith.
From Coquelicot Require Import Coquelicot.
From Flocq Require Import Core BinarySingleNaN.
From Verif Require Import Fp64 RDoubleHw.
From Verif Require Import Ext Scalar IntervalModel IntervalSpec IntervalProofs IntervalEncl IntervalSets Backends Ex64 ElemModel PropsElem.
From Verif Require Import RealFun ADModel ADReal ADProofs ADInst PsaModel PsaExpr PsaHist OdeModel OdeSpec OdeStep OdeProofs OdeGlue OdeLong.
Import ListNotations.
Open Scope R_scope.

(* a box with finite end points *)
Definition finite_box {b} (X : iv (bscal b)) : Prop := exists l h, sval (lo X) = XR l /\ sval (hi X) = XR h.

(* ---- C64 ---- *)
Theorem C64_ode : forall b fuel (root : bscal b -> nat -> bscal b) n es fast f p (init : nat -> iv (bscal b)) start end_ st r box e2 w st' x0 t0 t1,
  (forall i, (i < n)%nat -> awf (S n) (es i) /\ plog (es i) /\ noarc (es i) = true) ->
  (1 <= op_order p)%nat -> (Z.of_nat (op_order p) < 2 ^ 51)%Z ->
  ode (bpar b) fuel root n es fast f p init start end_ st = (Ok (r, box, e2, w), st') -> r <> 0%Z ->
  (forall i, (i < n)%nat -> isin (init i) (x0 i)) -> isin start t0 -> isin e2 t1 -> t0 <= t1 ->
  (forall i, (i < n)%nat -> adom (es i) (at_time n x0 t0)) ->
  (forall i, (i < n)%nat -> finite_box (box i)) ->
  exists phi, unique_solution n es t0 t1 x0 phi /\ forall i, (i < n)%nat -> isin (box i) (phi i t1).
Proof.
  intros b fuel root n es fast f p init start end_ st r box e2 w st' x0 t0 t1 HE P1 P2 E RN HX HS HT LE HD HB.
  apply (ode_ok b fuel root n es (fun i Hi => proj1 (HE i Hi)) (fun i Hi => proj1 (proj2 (HE i Hi))) (fun i Hi => proj2 (proj2 (HE i Hi))) x0 t0 init start HX HS HD fast f p end_ st r box e2 w st' t1 P1 P2 E RN HT LE).
  intros i Hi. now apply bounded_bnd, HB.
Qed.
(* every solution of the problem has its value at the end in the box *)
Theorem C64_every_solution : forall b fuel (root : bscal b -> nat -> bscal b) n es fast f p (init : nat -> iv (bscal b)) start end_ st r box e2 w st' x0 t0 t1 psi,
  (forall i, (i < n)%nat -> awf (S n) (es i) /\ plog (es i) /\ noarc (es i) = true) ->
  (1 <= op_order p)%nat -> (Z.of_nat (op_order p) < 2 ^ 51)%Z ->
  ode (bpar b) fuel root n es fast f p init start end_ st = (Ok (r, box, e2, w), st') -> r <> 0%Z ->
  (forall i, (i < n)%nat -> isin (init i) (x0 i)) -> isin start t0 -> isin e2 t1 -> t0 <= t1 ->
  (forall i, (i < n)%nat -> finite_box (box i)) -> solution n es t0 t1 x0 psi -> forall i, (i < n)%nat -> isin (box i) (psi i t1).
Proof.
  intros b fuel root n es fast f p init start end_ st r box e2 w st' x0 t0 t1 psi HE P1 P2 E RN HX HS HT LE HB SP i Hi.
  assert (HD : forall i, (i < n)%nat -> adom (es i) (at_time n x0 t0)).
  { intros j Hj. destruct SP as (A & D & _). replace (at_time n x0 t0) with (at_time n (fun j => psi j t0) t0); [apply D; auto; lra|].
    apply FunctionalExtensionality.functional_extensionality. intros k. unfold at_time. destruct (Nat.ltb_spec k n); auto. }
  destruct (C64_ode b fuel root n es fast f p init start end_ st r box e2 w st' x0 t0 t1 HE P1 P2 E RN HX HS HT LE HD HB) as (phi & [_ U] & IN).
  rewrite (U t1 psi); auto; lra.
Qed.
(* the return value: 0 leaves init and end unchanged, 2 means that end has been reached *)
Theorem C64_return : forall b fuel (root : bscal b -> nat -> bscal b) n es fast f p (init : nat -> iv (bscal b)) start end_ st r box e2 w st',
  ode (bpar b) fuel root n es fast f p init start end_ st = (Ok (r, box, e2, w), st') ->
  (r = 0%Z /\ box = init /\ e2 = end_) \/ (r = 1%Z /\ op_auto p = true /\ igeS e2 (lo end_) = false) \/ (r = 2%Z /\ e2 = end_).
Proof. exact ode_return. Qed.
(* a value that is neither negative nor -0 *)
Definition not_negative {S : scal} (q : S) : Prop := slt q s0 = false /\ slt (ndiv s1 q) s0 = false.
(* odelong: start is a point that is not after end, and the pow of the C library never returns a negative value *)
Theorem C64_odelong : forall b fuel (root : bscal b -> nat -> bscal b) n es fast g f p (init : nat -> iv (bscal b)) start end_ st r box e2 st' x0 t0 t1,
  (forall i, (i < n)%nat -> awf (S n) (es i) /\ plog (es i) /\ noarc (es i) = true) -> (forall m k, not_negative (root m k)) ->
  (1 <= op_order p)%nat -> (Z.of_nat (op_order p) < 2 ^ 51)%Z ->
  sval (lo start) = XR t0 -> sval (hi start) = XR t0 -> xle (XR t0) (sval (lo end_)) -> ivalid end_ ->
  odelong (bpar b) fuel root n es fast g f p init start end_ st = (Ok (r, box, e2), st') -> r <> 0%Z ->
  (forall i, (i < n)%nat -> isin (init i) (x0 i)) -> isin e2 t1 ->
  (forall i, (i < n)%nat -> adom (es i) (at_time n x0 t0)) ->
  (forall i, (i < n)%nat -> finite_box (box i)) ->
  t0 <= t1 /\ exists phi, unique_solution n es t0 t1 x0 phi /\ forall i, (i < n)%nat -> isin (box i) (phi i t1).
Proof.
  intros b fuel root n es fast g f p init start end_ st r box e2 st' x0 t0 t1 HE RT P1 P2 SL SH LE VE E RN HX HT HD HB.
  apply (odelong_ok b fuel root n es (fun i Hi => proj1 (HE i Hi)) (fun i Hi => proj1 (proj2 (HE i Hi))) (fun i Hi => proj2 (proj2 (HE i Hi))) RT (mkop _ (op_order p) true (op_iter p) (op_rmax p) (op_eps p)) end_ eq_refl P1 P2 VE x0 t0 fast g f init start st r box e2 st' t1 (conj SL SH) LE HX HD E RN HT HB).
Qed.
(* return value 2 means that end has been reached, 1 that the box belongs to an earlier time, 0 that nothing has changed *)
Theorem C64_odelong_return : forall b fuel (root : bscal b -> nat -> bscal b) n es fast g f p (init : nat -> iv (bscal b)) start end_ st r box e2 st',
  odelong (bpar b) fuel root n es fast g f p init start end_ st = (Ok (r, box, e2), st') ->
  (r = 0%Z /\ box = init /\ e2 = end_) \/ (r = 1%Z /\ igeS e2 (lo end_) = false) \/ (r = 2%Z /\ e2 = end_).
Proof. exact odelong_return. Qed.
(* x' = x^2, x(0) = 1, order 2, one step to 1/8; the state of psa at the start of a program *)
Definition C64_st : pst (Ibase (bpar BHw) 60) := mkpst 0 (qiv 0 0 0 0 : bT (Ibase (bpar BHw) 60)) false false [].
Definition C64_f : nat -> aexpr := fun _ => XMul (XVar 0) (XVar 0).
Definition C64_p : ode_param (bscal BHw) := mkop (bscal BHw) 2 true 1 1 (sdy 1 (-52)).
Definition C64_run (fast : bool) := fst (ode (S:=bscal BHw) (bpar BHw) 60 (fun _ _ => sdy 1 0) 1 C64_f fast 5 C64_p (fun _ => qiv 1 0 1 0) (qiv 0 0 0 0) (qiv 1 (-3) 1 (-3)) C64_st).
Definition C64_ok (q : res (Z * (nat -> iv (bscal BHw)) * iv (bscal BHw) * (nat -> list (iv (bscal BHw))))) (g : iv (bscal BHw) -> bool) : bool :=
  match q with Ok (r, box, _, _) => (r =? 2)%Z && g (box O) | _ => false end.
Lemma C64_pick fuel root es fast f p init start end_ st g : C64_ok (fst (ode (S:=bscal BHw) (bpar BHw) fuel root 1 es fast f p init start end_ st)) g = true ->
  exists box w, fst (ode (S:=bscal BHw) (bpar BHw) fuel root 1 es fast f p init start end_ st) = Ok (2%Z, box, end_, w) /\ g (box O) = true.
Proof.
  destruct (ode (bpar BHw) fuel root 1 es fast f p init start end_ st) as [[[[[r box] e2] w]|] st'] eqn:E; intros C; [|discriminate C]. unfold C64_ok in C. cbn [fst] in *. apply andb_prop in C as [C G]. apply Z.eqb_eq in C. subst r.
  apply ode_return in E as [(E & _)|[(E & _)|(_ & ->)]]; try discriminate E. exists box, w. auto.
Qed.
Example C64_case : (forall fast, C64_ok (C64_run fast) (fun X => is_finite (lo X : b64) && is_finite (hi X : b64) && Bltb (bdy 9 (-3)) (lo X) && Bltb (hi X) (bdy 10 (-3))) = true) /\
  (forall i, (i < 1)%nat -> awf 2 (C64_f i) /\ plog (C64_f i) /\ noarc (C64_f i) = true) /\ (forall i, (i < 1)%nat -> adom (C64_f i) (at_time 1 (fun _ => 1) 0)) /\
  isin (qiv 1 0 1 0) 1 /\ isin (qiv 0 0 0 0) 0 /\ isin (qiv 1 (-3) 1 (-3)) (1 / 8).
Proof.
  split; [intros []; vm_compute; reflexivity|]. split; [intros i _; simpl; repeat split; lia|]. split; [intros i _; simpl; auto|]. split; [qin|]. split; qin.
Qed.
(* odelong with a crude pow: two steps *)
Definition C64_root (m : bscal BHw) (k : nat) : bscal BHw := if slt m (sdy 1 (-10)) then sdy 1 (-6) else sdy 1 0.
Definition C64_long (fast : bool) := fst (odelong (S:=bscal BHw) (bpar BHw) 60 C64_root 1 C64_f fast 20 20 (mkop (bscal BHw) 2 true 1 1 (sdy 1 (-20))) (fun _ => qiv 1 0 1 0) (qiv 0 0 0 0) (qiv 1 (-5) 1 (-5)) C64_st).
Example C64_long_case : (forall fast, (match C64_long fast with Ok (r, box, _) => (r =? 2)%Z && is_finite (lo (box O) : b64) && is_finite (hi (box O) : b64) | _ => false end) = true) /\ forall m k, not_negative (C64_root m k).
Proof.
  split; [intros []; vm_compute; reflexivity|]. intros m k. unfold C64_root. destruct (slt m _); split; vm_compute; reflexivity.
Qed.
(* the box must be bounded: x' = x^2, x(0) = 1, one step to 2^1000 returns 2 although the solution blows up at 1 *)
Local Notation C64_run2 := (fst (ode (S:=bscal BHw) (bpar BHw) 60 (fun _ _ => sdy 1 0) 1 C64_f true 5 (mkop (bscal BHw) 1 false 1 1 (sdy 1 (-52))) (fun _ => qiv 1 0 1 0) (qiv 0 0 0 0) (qiv 1 900 1 900) C64_st)).
Lemma C64_no_solution T phi : 1 <= T -> ~ solution 1 C64_f 0 T (fun _ => 1) phi.
Proof.
  intros HT (P0 & _ & PD & PC). specialize (P0 O (Nat.lt_0_succ _)). pose (f := phi O). assert (F0 : f 0 = 1) by exact P0.
  assert (DF : forall t, 0 < t < T -> is_derive f t (f t * f t)). { intros t Ht. apply is_derive_Reals. apply (PD O t (Nat.lt_0_succ _) Ht). }
  assert (CF : forall t, 0 <= t <= T -> forall e, 0 < e -> exists d, 0 < d /\ forall s, 0 <= s <= T -> Rabs (s - t) < d -> Rabs (f s - f t) < e) by (intros t Ht; apply (PC O t (Nat.lt_0_succ _) Ht)).
  clear P0 PD PC.
  (* f increases *)
  assert (MV : forall (g g' : R -> R) a c, 0 < a -> a < c -> c < T -> (forall t, 0 < t < T -> is_derive g t (g' t)) -> exists s, a <= s <= c /\ g c - g a = g' s * (c - a)).
  { intros g g' a c HA HC HT' DG. destruct (MVT_gen g a c g') as (s & Hs & E).
    - intros t Ht. rewrite Rmin_left, Rmax_right in Ht by lra. apply DG. lra.
    - intros t Ht. rewrite Rmin_left, Rmax_right in Ht by lra. apply derivable_continuous_pt. exists (g' t). apply is_derive_Reals, DG. lra.
    - rewrite Rmin_left, Rmax_right in Hs by lra. exists s. auto. }
  assert (INC : forall a c, 0 < a -> a < c -> c < T -> f a <= f c). { intros a c A1 A2 A3. destruct (MV f (fun t => f t * f t) a c A1 A2 A3 DF) as (s & _ & E). assert (0 <= f s * f s) by nra. assert (0 <= f s * f s * (c - a)) by (apply Rmult_le_pos; lra). lra. }
  assert (GE : forall c, 0 < c < T -> 1 <= f c).
  { intros c Hc. destruct (Rle_dec 1 (f c)) as [|N]; auto. exfalso. destruct (CF 0 ltac:(lra) (1 - f c) ltac:(lra)) as (d & D & K). set (a := Rmin (d / 2) (c / 2)).
    assert (A : 0 < a) by (apply Rmin_glb_lt; lra). assert (A1 : a <= d / 2) by apply Rmin_l. assert (A2 : a <= c / 2) by apply Rmin_r.
    specialize (K a ltac:(lra)). rewrite Rminus_0_r, Rabs_pos_eq in K by lra. specialize (K ltac:(lra)). rewrite F0 in K. pose proof (INC a c A ltac:(lra) ltac:(lra)). apply Rabs_def2 in K. lra. }
  assert (DG : forall t, 0 < t < T -> is_derive (fun t => / f t + t) t 0).
  { intros t Ht. pose proof (GE t Ht) as G1. evar_last. apply (is_derive_plus (fun t => / f t) (fun t => t)). apply (is_derive_inv f t (f t * f t)); [auto|lra]. apply is_derive_id. unfold plus, one; simpl. field. lra. }
  (* / f t + t is constant, close to 1 near 0, and at least t *)
  destruct (CF 0 ltac:(lra) (1 / 8) ltac:(lra)) as (d & D & K). set (a := Rmin (d / 2) (1 / 8)). assert (A : 0 < a) by (apply Rmin_glb_lt; lra). assert (A1 : a <= d / 2) by apply Rmin_l. assert (A2 : a <= 1 / 8) by apply Rmin_r.
  specialize (K a ltac:(lra)). rewrite Rminus_0_r, Rabs_pos_eq in K by lra. specialize (K ltac:(lra)). rewrite F0 in K. apply Rabs_def2 in K.
  pose proof (GE a ltac:(lra)) as GA.
  assert (BD : forall c, a < c -> c < T -> f c * (/ f a + a - c) = 1).
  { intros c C1 C2. destruct (MV (fun t => / f t + t) (fun _ => 0) a c A C1 C2 DG) as (s & _ & E). pose proof (GE c ltac:(lra)). replace (/ f a + a - c) with (/ f c) by lra. field. lra. }
  (* f is bounded on [0, 1] near the end *)
  destruct (CF 1 ltac:(lra) 1 ltac:(lra)) as (d1 & D1 & K1).
  set (c1 := / f a + a). assert (IA : / f a <= 1). { rewrite <- Rinv_1. apply Rinv_le_contravar; lra. }
  assert (FA : f a * c1 <= 1 + a * f a) by (unfold c1; rewrite Rmult_plus_distr_l, Rinv_r by lra; lra).
  assert (C1 : c1 <= 1).
  { (* f a >= 1/(1-a) *)
    destruct (Rle_dec c1 1) as [|N]; auto. exfalso.
    (* take points closer to 0 *)
    destruct (CF 0 ltac:(lra) ((c1 - 1) / 4) ltac:(lra)) as (d2 & D2 & K2). set (a2 := Rmin (Rmin (d2 / 2) (a / 2)) ((c1 - 1) / 4)).
    assert (B0 : 0 < a2) by (unfold a2; repeat apply Rmin_glb_lt; lra). assert (B1 : a2 <= d2 / 2) by (unfold a2; eapply Rle_trans; [apply Rmin_l|apply Rmin_l]).
    assert (B2 : a2 <= a / 2) by (unfold a2; eapply Rle_trans; [apply Rmin_l|apply Rmin_r]). assert (B3 : a2 <= (c1 - 1) / 4) by (unfold a2; apply Rmin_r).
    destruct (MV (fun t => / f t + t) (fun _ => 0) a2 a B0 ltac:(lra) ltac:(lra) DG) as (s & _ & E). pose proof (GE a2 ltac:(lra)) as G2.
    assert (/ f a2 <= 1). { rewrite <- Rinv_1. apply Rinv_le_contravar; lra. } unfold c1 in *. lra. }
  assert (CA : a < c1). { unfold c1. assert (0 < / f a) by (apply Rinv_0_lt_compat; lra). lra. }
  assert (LIM : forall c, a < c -> c < c1 -> f c = / (c1 - c)). { intros c X1 X2. assert (E := BD c X1 ltac:(lra)). fold c1 in E. apply (Rmult_eq_reg_r (c1 - c)); [|lra]. rewrite E. rewrite Rinv_l; lra. }
  destruct (CF c1 ltac:(lra) 1 ltac:(lra)) as (d3 & D3 & K3). pose (M := Rabs (f c1) + 2). assert (M0 : 2 <= M) by (unfold M; pose proof (Rabs_pos (f c1)); lra).
  set (h := Rmin (Rmin (d3 / 2) ((c1 - a) / 2)) (/ M)). assert (IM : 0 < / M) by (apply Rinv_0_lt_compat; lra). assert (H0 : 0 < h) by (unfold h; repeat apply Rmin_glb_lt; lra).
  assert (H1 : h <= d3 / 2) by (unfold h; eapply Rle_trans; [apply Rmin_l|apply Rmin_l]). assert (H2 : h <= (c1 - a) / 2) by (unfold h; eapply Rle_trans; [apply Rmin_l|apply Rmin_r]). assert (H3 : h <= / M) by (unfold h; apply Rmin_r).
  specialize (K3 (c1 - h) ltac:(lra)). replace (c1 - h - c1) with (- h) in K3 by ring. rewrite Rabs_Ropp, Rabs_pos_eq in K3 by lra. specialize (K3 ltac:(lra)).
  rewrite (LIM (c1 - h)) in K3 by lra. replace (c1 - (c1 - h)) with h in K3 by ring. assert (M <= / h). { rewrite <- (Rinv_inv M). apply Rinv_le_contravar; auto. }
  apply Rabs_def2 in K3. pose proof (Rle_abs (f c1)). unfold M in *. lra.
Qed.
Theorem C64_unbounded_refuted : exists box w, C64_run2 = Ok (2%Z, box, qiv 1 900 1 900, w) /\ isin (qiv 1 0 1 0) 1 /\ isin (qiv 0 0 0 0) 0 /\ isin (qiv 1 900 1 900) (bpow radix2 900) /\
  (forall i, (i < 1)%nat -> adom (C64_f i) (at_time 1 (fun _ => 1) 0)) /\ forall phi, ~ solution 1 C64_f 0 (bpow radix2 900) (fun _ => 1) phi.
Proof.
  assert (C : C64_ok C64_run2 (fun _ => true) = true) by (vm_compute; reflexivity). destruct (C64_pick _ _ _ _ _ _ _ _ _ _ _ C) as (box & w & E & _).
  exists box, w. split; [exact E|]. split; [qin|]. split; [qin|]. split; [|split].
  - apply qiv_in; [reflexivity|]. rewrite Rmult_1_l. split; apply Rle_refl.
  - intros i _. simpl. auto.
  - intros phi. apply C64_no_solution. apply (bpow_le radix2 0 900). lia.
Qed.
(* the end must not lie before the start: x' = -x, x(1/2) = 1, start = end = [0, 1/2] *)
Definition C64_g : nat -> aexpr := fun _ => XNeg (XVar 0).
Local Notation C64_run3 := (fst (ode (S:=bscal BHw) (bpar BHw) 60 (fun _ _ => sdy 1 0) 1 C64_g true 5 (mkop (bscal BHw) 1 false 1 1 (sdy 1 (-52))) (fun _ => qiv 1 0 1 0) (qiv 0 0 1 (-1)) (qiv 0 0 1 (-1)) C64_st)).
Theorem C64_reversed_refuted : exists box w, C64_run3 = Ok (2%Z, box, qiv 0 0 1 (-1), w) /\ isin (qiv 1 0 1 0) 1 /\ isin (qiv 0 0 1 (-1)) (1 / 2) /\ isin (qiv 0 0 1 (-1)) 0 /\ finite_box (box O) /\
  exists phi, phi (1 / 2) = 1 /\ (forall t, derivable_pt_lim phi t (rval (C64_g O) (at_time 1 (fun _ => phi t) t))) /\ ~ isin (box O) (phi 0).
Proof.
  assert (C : C64_ok C64_run3 (fun X => is_finite (lo X : b64) && is_finite (hi X : b64) && Bleb (hi X) (bdy 25 (-4))) = true) by (vm_compute; reflexivity).
  destruct (C64_pick _ _ _ _ _ _ _ _ _ _ _ C) as (box & w & E & C'). clear C. apply andb_prop in C' as [C' C3]. apply andb_prop in C' as [C1 C2].
  exists box, w. split; [exact E|]. split; [qin|]. split; [qin|]. split; [qin|]. clear E.
  assert (FB : forall x : b64, is_finite x = true -> v64 x = XR (B2R x)). { intros [ | | |] F; try discriminate F; reflexivity. }
  split; [exists (B2R (lo (box O) : b64)), (B2R (hi (box O) : b64)); split; apply FB; auto|].
  exists (fun t => exp (1 / 2 - t)). split; [|split].
  - rewrite Rminus_eq_0. apply exp_0.
  - intros t. simpl. apply is_derive_Reals. evar_last. auto_derive; auto. unfold at_time. simpl. change (- (1) * exp (1 / 2 - t) = - exp (1 / 2 - t)). ring.
  - intros (_ & _ & _ & U). rewrite Rminus_0_r in U. apply Bleb_v in C3. change (@sval (bscal BHw) (hi (box O))) with (v64 (hi (box O))) in U. rewrite (FB _ C2) in *. rewrite bdy_v in C3 by lia. simpl in C3, U.
    assert (1 + 1 / 4 < exp (1 / 4)) by (apply exp_ineq1; lra). assert (EQ : exp (1 / 2) = exp (1 / 4) * exp (1 / 4)) by (rewrite <- exp_plus; f_equal; lra). nra.
Qed.
Definition Ode_all := (C64_ode, C64_odelong, C64_odelong_return, C64_every_solution, C64_return, C64_unbounded_refuted, C64_reversed_refuted).
Print Assumptions Ode_all.
