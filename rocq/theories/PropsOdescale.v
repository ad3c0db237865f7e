(* Property theorems: Odescale of odescale.hpp (C108), T = interval<double>, for every double back end.
   The scaled direction of F is the vector of length 1 that is a positive multiple of (F, 1). *)
From Coq Require Import Reals ZArith Bool List Lra Lia Psatz Arith.
From Flocq Require Import Core BinarySingleNaN.
From Verif Require Import Fp64 RDoubleHw.
From Verif Require Import Ext Scalar IntervalModel IntervalSpec IntervalProofs IntervalEncl IntervalMore IntervalSets IntervalTight Backends Ex64 PropsInterval PropsTight OdescaleModel.
Import List ListNotations.
Open Scope R_scope.

Fixpoint norm2 (v : list R) : R := match v with [] => 0 | a :: r => a * a + norm2 r end.
Definition direction (F Y : list R) : Prop := exists g, 0 < g /\ Y = map (fun a => g * a) (F ++ [1]) /\ norm2 Y = 1.
(* f encloses F *)
Definition encloses_fun {b} (f : list (iv (bscal b)) -> iv (bscal b) -> res (list (iv (bscal b)))) (F : list R -> R -> list R) : Prop :=
  forall X T v xs t, f X T = Ok v -> Forall2 isin X xs -> isin T t -> Forall2 isin v (F xs t).

Lemma norm2_app u v : norm2 (u ++ v) = norm2 u + norm2 v.
Proof. induction u; simpl; lra. Qed.
Lemma norm2_scale g v : norm2 (map (fun a => g * a) v) = g * g * norm2 v.
Proof. induction v; simpl; [ring|rewrite IHv; ring]. Qed.
Lemma norm2_pos v : 0 <= norm2 v.
Proof. induction v; simpl; [lra|]. pose proof (Rle_0_sqr a). unfold Rsqr in *. lra. Qed.

Theorem C108_direction_unique : forall F Y Y', direction F Y -> direction F Y' -> Y = Y'.
Proof.
  intros F Y Y' (g & G & -> & N) (g' & G' & -> & N'). rewrite norm2_scale, norm2_app in N, N'. cbn [norm2] in N, N'. pose proof (norm2_pos F). assert (g = g') by nra. now subst.
Qed.
Theorem C108_direction_exists : forall F, exists Y, direction F Y.
Proof.
  intros F. pose proof (norm2_pos F). set (q := norm2 F + 1). assert (Q : 0 < q) by (unfold q; lra). pose proof (sqrt_lt_R0 _ Q) as Q1. pose proof (sqrt_sqrt q ltac:(lra)) as Q2. pose proof (Rinv_0_lt_compat _ Q1). exists (map (fun a => / sqrt q * a) (F ++ [1])). exists (/ sqrt q). split; auto. split; auto.
  rewrite norm2_scale, norm2_app. cbn [norm2]. replace (norm2 F + (1 * 1 + 0)) with q by (unfold q; lra). rewrite <- Q2 at 3. field. lra.
Qed.

Section C108.
Variable b : backend.
Notation I := (iv (bscal b)).
Notation rel := (@isin (bscal b)).
Lemma f2_len (x : list I) (y : list R) : Forall2 rel x y -> length x = length y.
Proof. induction 1; simpl; congruence. Qed.
Lemma read_ok k ty r ys : read k ty = Ok r -> Forall2 rel ty ys -> Forall2 rel r (firstn k ys) /\ length r = k.
Proof.
  revert ty r ys. induction k; intros ty r ys E H; cbn [read] in E; [injection E as <-; split; [constructor|reflexivity]|].
  destruct ty as [|y ty]; [discriminate|]. destruct (read k ty) as [q|] eqn:Q; [|discriminate]. injection E as <-. inversion H; subst. destruct (IHk _ _ _ Q H4) as [K1 K2]. split; [constructor; auto|simpl; congruence].
Qed.
Lemma one_v : sval (@s1 (bscal b)) = XR 1.
Proof. apply (ok_s1 _ (bscal_ok b)). Qed.
Lemma wf1 : swf (@s1 (bscal b)).
Proof. apply (ok_s1 _ (bscal_ok b)). Qed.
Lemma one_in : rel (ipt s1) 1.
Proof. pose proof one_v as E. pose proof wf1. split; [assumption|]. split; [assumption|]. cbn [ipt lo hi]. rewrite E. simpl. lra. Qed.
Lemma sum_ok ty ys g x : Forall2 rel ty ys -> rel g x -> rel (fold_left (fun g0 y => iadd g0 (imul y y)) ty g) (x + norm2 ys).
Proof.
  intros H. revert g x. induction H; intros g z Hg; cbn [fold_left norm2]; [now rewrite Rplus_0_r|]. rewrite <- Rplus_assoc. apply IHForall2. apply (isin_add (bscal_ok b)); auto. apply (isin_mul (bscal_ok b)); auto.
Qed.
Theorem C108_odescale : forall f F (x v : list I) t xs s, encloses_fun f F -> (forall ys r, length (F ys r) = length ys) -> odescale f x t = Ok v -> Forall2 isin x (xs ++ [s]) ->
  exists Y, direction (F xs s) Y /\ Forall2 isin v Y.
Proof.
  intros f F x v t xs s HF LF E HX. assert (LX : length x = Datatypes.S (length xs)) by (apply f2_len in HX; rewrite HX, app_length; simpl; lia).
  unfold odescale in E. rewrite LX in E. destruct (read (length xs) x) as [tx|] eqn:ET; [|discriminate]. cbn [bind] in E. destruct (read_ok _ _ _ _ ET HX) as [HT _]. rewrite firstn_app, firstn_all, Nat.sub_diag in HT. cbn [firstn] in HT. rewrite app_nil_r in HT.
  destruct (nth_error x (length xs)) as [last|] eqn:EL; [|discriminate].
  assert (HL : isin last s). { apply Forall2_app_inv_r in HX as (x1 & x2 & H1 & H2 & ->). apply f2_len in H1. rewrite nth_error_app2, <- H1, Nat.sub_diag in EL by lia. inversion H2; subst. simpl in EL. injection EL as ->. assumption. }
  destruct (f tx last) as [fy|] eqn:EF; [|discriminate]. cbn [bind] in E. pose proof (HF _ _ _ _ _ EF HT HL) as HY.
  destruct (read (length xs) fy) as [ty|] eqn:EY; [|discriminate]. cbn [bind] in E. destruct (read_ok _ _ _ _ EY HY) as [H1 _]. rewrite <- (LF xs s), firstn_all in H1.
  unfold scale_g0 in E. destruct (isqrt (scale_sum ty)) as [q|] eqn:EQ; [|discriminate]. cbn [bind] in E. destruct (iSdiv s1 q) as [g0|] eqn:EG; [|discriminate]. injection E as <-.
  pose proof (sum_ok ty _ _ _ H1 one_in) as HS. destruct (isin_sqrt (bscal_ok b) _ _ _ EQ HS) as [_ HQ]. destruct (isin_Sdiv (bscal_ok b) _ _ _ _ _ EG wf1 one_v HQ) as [_ HG].
  set (G := 1 / sqrt (1 + norm2 (F xs s))) in *. pose proof (norm2_pos (F xs s)) as NP. assert (Q : 0 < 1 + norm2 (F xs s)) by lra. pose proof (sqrt_lt_R0 _ Q) as Q1. pose proof (sqrt_sqrt _ (Rlt_le _ _ Q)) as Q2.
  assert (G0 : 0 < G) by (unfold G; apply Rdiv_lt_0_compat; lra). exists (map (fun a => G * a) (F xs s ++ [1])). split.
  - exists G. split; auto. split; auto. rewrite norm2_scale, norm2_app. cbn [norm2]. replace (norm2 (F xs s) + (1 * 1 + 0)) with (sqrt (1 + norm2 (F xs s)) * sqrt (1 + norm2 (F xs s))) by lra. unfold G. field. lra.
  - rewrite map_app. apply Forall2_app; [|constructor; [simpl; now rewrite Rmult_1_r|constructor]]. clearbody G. clear - H1 HG. induction H1; simpl; constructor; auto. rewrite Rmult_comm. now apply (isin_mul (bscal_ok b)).
Qed.
(* no exception when no component of f changes its sign *)
Definition one_sign (y : I) : Prop := ivalid y /\ ((forall r, isin y r -> 0 <= r) \/ (forall r, isin y r -> r <= 0)).
Notation from z := (mkiv z spinf : I).
Lemma from_in z c r : swf z -> sval z = XR c -> (rel (from z) r <-> c <= r).
Proof.
  intros W E. destruct (ok_pinf _ (bscal_ok b)) as [W2 E2]. split; [intros (_ & _ & H & _); cbn [lo] in H; rewrite E in H; exact H|]. intros H. split; [exact W|]. split; [exact W2|]. cbn [lo hi]. rewrite E, E2. simpl. auto.
Qed.
Lemma sum_total ty g : Forall one_sign ty -> ivalid g -> (forall r, rel g r -> 1 <= r) -> let q := fold_left (fun g0 y => iadd g0 (imul y y)) ty g in ivalid q /\ forall r, rel q r -> 1 <= r.
Proof.
  intros H. revert g. induction H as [|y ty [V Hy] H IH]; intros g Vg Hg; cbn [fold_left]; [auto|].
  destruct (C12_closed_arith (bscal_ok b) y y V V) as (_ & _ & VM & _). destruct (C12_closed_arith (bscal_ok b) g (imul y y) Vg VM) as (VA & _).
  destruct (ok_s0 _ (bscal_ok b)) as [W0 E0]. destruct (C13_add_sub_mul_tightest b y y (from s0) V V) as (_ & _ & TM). destruct (C13_add_sub_mul_tightest b g (imul y y) (from s1) Vg VM) as (TA & _).
  assert (HM : forall r, rel (imul y y) r -> 0 <= r). { intros r Hr. apply (from_in s0 0 r W0 E0). apply TM; auto. intros u w Hu Hw. apply (from_in s0 0 _ W0 E0). destruct Hy as [K|K]; specialize (K u Hu) as K1; specialize (K w Hw) as K2; nra. }
  apply IH; auto. intros r Hr. apply (from_in s1 1 r wf1 one_v). apply TA; auto. intros u w Hu Hw. apply (from_in s1 1 _ wf1 one_v). specialize (Hg u Hu). specialize (HM w Hw). lra.
Qed.
Theorem C108_total : forall f (x : list I) s t fy, f x s = Ok fy -> (length x <= length fy)%nat -> Forall one_sign fy -> exists v, odescale f (x ++ [s]) t = Ok v /\ length v = length (x ++ [s]).
Proof.
  intros f x s t fy HF LF HS. unfold odescale. rewrite app_length. cbn [length]. rewrite Nat.add_1_r. set (n := length x) in *.
  assert (RD : forall k (l : list I), (k <= length l)%nat -> read k l = Ok (firstn k l)). { clear. induction k; intros l H; [reflexivity|]. destruct l; [simpl in H; lia|]. simpl in H. cbn [read firstn]. now rewrite IHk by lia. }
  rewrite (RD n (x ++ [s])) by (rewrite app_length; unfold n; lia). cbn [bind]. rewrite nth_error_app2, firstn_app by (unfold n; lia). fold n. rewrite Nat.sub_diag. cbn [firstn nth_error]. rewrite app_nil_r. unfold n at 1. rewrite firstn_all, HF. cbn [bind]. rewrite RD by exact LF. cbn [bind].
  assert (HS' : Forall one_sign (firstn n fy)). { rewrite <- (firstn_skipn n fy) in HS. apply Forall_app in HS. apply HS. }
  destruct (sum_total (firstn n fy) (ipt s1) HS' (isin_valid _ _ one_in)) as [VQ HQ]. { intros r (_ & _ & A & _). cbn [ipt lo] in A. rewrite one_v in A. exact A. }
  fold (scale_sum (firstn n fy)) in VQ, HQ. unfold scale_g0. destruct (isqrt_total (bscal_ok b) (scale_sum (firstn n fy)) VQ) as [q EQ]. { intros r Hr. specialize (HQ r Hr). lra. }
  rewrite EQ. cbn [bind]. destruct (C12_closed_arith (bscal_ok b) _ _ VQ VQ) as (_ & _ & _ & _ & _ & VS). specialize (VS q EQ).
  assert (N0 : ~ rel q 0). { intros K. assert (K1 : rel (from s1) 0). { apply (C13_sqrt_tightest b _ (from s1) q VQ EQ); auto. intros r Hr. apply (from_in s1 1 _ wf1 one_v). specialize (HQ r Hr). rewrite <- sqrt_1. apply sqrt_le_1_alt. exact HQ. } apply (from_in s1 1 _ wf1 one_v) in K1. lra. }
  destruct (iSdiv_total (bscal_ok b) s1 q VS N0) as [g EG]. rewrite EG. cbn [bind]. eexists. split; [reflexivity|]. rewrite app_length, map_length, firstn_length. simpl. lia.
Qed.
End C108.

(* the equation x' = x for x in [1/2, 3/4], at t = 0 *)
Definition C108_f : list (iv (bscal BHw)) -> iv (bscal BHw) -> res (list (iv (bscal BHw))) := fun X _ => Ok X.
Lemma C108_f_ok : encloses_fun C108_f (fun xs _ => xs).
Proof. intros X T v xs t E H _. injection E as <-. exact H. Qed.
Local Notation D_run := (odescale (S:=bscal BHw) C108_f [qiv 1 (-1) 3 (-2); qiv 0 0 0 0] (qiv 0 0 0 0)).
Lemma D_runs : match D_run with Ok [u; w] => Bleb (bdy 3 (-3)) (lo u : b64) && Bleb (hi u : b64) (bdy 3 (-2)) && Bleb (bdy 3 (-2)) (lo w : b64) && Bleb (hi w : b64) (bdy 15 (-4)) | _ => false end = true.
Proof. vm_compute. reflexivity. Qed.
Example C108_case : exists u w, D_run = Ok [u; w] /\ forall x, 1 / 2 <= x <= 3 / 4 -> exists Y, direction [x] Y /\ Forall2 isin [u; w] Y.
Proof.
  pose proof D_runs as R. destruct D_run as [[|u [|w [|z v]]]|] eqn:E; [discriminate|discriminate| |discriminate|discriminate]. exists u, w. split; [reflexivity|]. intros x Hx.
  apply (C108_odescale BHw C108_f (fun xs _ => xs) [qiv 1 (-1) 3 (-2); qiv 0 0 0 0] [u; w] (qiv 0 0 0 0) [x] 0 C108_f_ok); auto. constructor; [qin|]. constructor; [qin|constructor].
Qed.
(* f in [-2,2]: the product of the interval with itself goes down to -4, and sqrt throws although the direction exists for every value *)
Lemma T_runs : match odescale (S:=bscal BHw) C108_f [qiv (-1) 1 1 1; qiv 0 0 0 0] (qiv 0 0 0 0) with Err EDomain => true | _ => false end = true.
Proof. vm_compute. reflexivity. Qed.
Theorem C108_throws : exists f F (x : list (iv (bscal BHw))) t, encloses_fun f F /\ (forall ys r, length (F ys r) = length ys) /\ odescale f x t = Err EDomain /\
  Forall2 isin x [0; 0] /\ forall xs s, exists Y, direction (F xs s) Y.
Proof.
  exists C108_f, (fun xs _ => xs), [qiv (-1) 1 1 1; qiv 0 0 0 0], (qiv 0 0 0 0). split; [exact C108_f_ok|]. split; [reflexivity|]. split; [|split; [constructor; [qin|]; constructor; [qin|constructor]|intros xs s; apply C108_direction_exists]].
  pose proof T_runs as R. destruct (odescale _ _ _) as [w|q]; [discriminate R|]. destruct q; try discriminate R. reflexivity.
Qed.
Example C108_case_total : Forall (one_sign BHw) [qiv 1 (-1) 3 (-2)].
Proof. constructor; [|constructor]. split; [apply (isin_valid (S:=bscal BHw) _ (1 / 2)); qin|]. left. intros r (_ & _ & H & _). assert (V : sval (lo (qiv 1 (-1) 3 (-2) : iv (bscal BHw))) = XR (1 * bpow radix2 (-1))) by exact (qv 1 (-1) ltac:(lia) ltac:(lia)). rewrite V in H. simpl in H. lra. Qed.
Definition Odescale_all := (C108_direction_unique, C108_direction_exists, C108_odescale, C108_total, C108_case, C108_case_total, C108_throws).
Print Assumptions Odescale_all.
