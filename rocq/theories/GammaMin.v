(* Bounds for the gamma function between two poles and the existence of the lowest point there.  Reals only. *)
From Coq Require Import Reals ZArith Bool List Lra Lia Psatz Arith.
From Coquelicot Require Import Coquelicot.
From Verif Require Import SingReal GammaReal GammaNeg.
Open Scope R_scope.

Lemma gamma_12 x G : 1 <= x <= 2 -> is_gamma x G -> / 2 <= G <= 1.
Proof.
  intros Hx HG. split.
  - pose proof (gamma_succ x G ltac:(lra) HG) as H1. pose proof (conv_mid 1 (x + 1) 2 ltac:(lra) ltac:(lra)) as (l & Hl & E). pose proof gamma_two as G2. rewrite E in G2 at 1.
    pose proof (gamma_convex l 1 (x + 1) _ _ _ Hl gamma_one H1 G2) as K. assert (l < 1) by (destruct (Req_dec l 1) as [->|]; lra). assert (1 <= x * G) by nra.
    destruct (Rle_or_lt (/ 2) G) as [|N]; auto. nra.
  - pose proof (gamma_upper 1 2 x 1 1 G Hx gamma_one gamma_two HG) as K. rewrite Rmax_left in K; lra.
Qed.
(* through Gamma(x + k) *)
Lemma Gamma_shift k x G : is_Gamma x G -> 0 < x + INR k -> exists H, is_gamma (x + INR k) H /\ G = H / prodf x k.
Proof.
  intros HG P. destruct (gamma_exists _ P) as [H HH]. exists H. split; auto. apply (Gamma_unique x); auto. apply Gamma_down; auto. now apply (Gamma_prodf k x G).
Qed.
Lemma Gamma_est k x G : is_Gamma x G -> 1 <= x + INR k <= 2 -> / (2 * Rabs (prodf x k)) <= Rabs G <= / Rabs (prodf x k).
Proof.
  intros HG Hk. destruct (Gamma_shift k x G HG ltac:(lra)) as (H & HH & ->). pose proof (gamma_12 _ _ Hk HH) as B. pose proof (Rabs_pos_lt _ (Gamma_prodf k x _ HG)) as P.
  unfold Rdiv. rewrite Rabs_mult, Rabs_inv, (Rabs_right H) by lra. assert (0 < / Rabs (prodf x k)) by (now apply Rinv_0_lt_compat). rewrite Rinv_mult. split; nra.
Qed.
Lemma Gam_cont x : 1 <= x <= 2 -> continuity_pt Gam x.
Proof.
  intros Hx. pose proof (gamma_positive _ _ (Gam_ok 3 ltac:(lra))) as P3. pose proof (gamma_positive _ _ (Gam_ok (/ 2) ltac:(lra))) as PH. set (K := 2 * Gam 3 + 4 * Gam (/ 2)).
  intros eps He. exists (Rmin (/ 4) (eps / K)). assert (0 < K) by (unfold K; lra). split; [apply Rmin_glb_lt; [lra|apply Rdiv_lt_0_compat; auto]|].
  intros y [_ Hy]. simpl in *. unfold R_dist in *. pose proof (Rmin_l (/ 4) (eps / K)). pose proof (Rmin_r (/ 4) (eps / K)).
  assert (D1 : Rabs (y - x) < / 4) by lra. assert (D2 : Rabs (y - x) < eps / K) by lra. apply Rabs_def2 in D1.
  assert (D3 : K * Rabs (y - x) < eps). { apply (Rmult_lt_compat_l K) in D2; auto. replace (K * (eps / K)) with eps in D2 by (field; lra). exact D2. }
  destruct (Rle_or_lt x y) as [O|O].
  - rewrite (Rabs_right (y - x)) in D3 by lra. destruct (Gam_lip x y ltac:(lra) O ltac:(lra)). apply Rabs_def1; unfold K in *; nra.
  - rewrite (Rabs_left (y - x)) in D3 by lra. destruct (Gam_lip y x ltac:(lra) ltac:(lra) ltac:(lra)). apply Rabs_def1; unfold K in *; nra.
Qed.
Lemma prodf_cont k : forall x, continuity_pt (fun x => prodf x k) x.
Proof.
  induction k as [|k IH]; intros x; cbn [prodf]; [apply continuity_pt_const; intros ? ?; reflexivity|].
  apply (continuity_pt_mult (fun x => x) (fun x => prodf (x + 1) k)); [apply continuity_pt_id|].
  apply (continuity_pt_comp (fun x => x + 1) (fun x => prodf x k)); [|apply IH]. apply (continuity_pt_plus (fun x => x) (fun _ => 1)); [apply continuity_pt_id|apply continuity_pt_const; intros ? ?; reflexivity].
Qed.
(* |Gamma| is not smaller at p and q than at m between them *)
Lemma lowest_between k p m q : 1 <= p + INR k -> q + INR k <= 2 -> p < m < q -> cell p q ->
  (forall P M, is_Gamma p P -> is_Gamma m M -> Rabs M <= Rabs P) -> (forall Q M, is_Gamma q Q -> is_Gamma m M -> Rabs M <= Rabs Q) -> exists c, p <= c <= q /\ lowest c.
Proof.
  intros Hp Hq Hm CE HP HQ.
  assert (EX : forall x, p <= x <= q -> exists G, is_Gamma x G).
  { intros x Hx. apply Gamma_exists. intros j ->. destruct CE as [[C _]|(z & Hz & K1 & K2)]; [pose proof (pos_INR j); lra|].
    assert (A1 : IZR z < - INR j) by lra. assert (A2 : - INR j < IZR z + 1) by lra. rewrite INR_IZR_INZ, <- opp_IZR in A1, A2. rewrite <- (plus_IZR z 1) in A2. apply lt_IZR in A1, A2. lia. }
  set (f := fun x => Gam (x + INR k) / Rabs (prodf x k)).
  assert (FV : forall x G, p <= x <= q -> is_Gamma x G -> Rabs G = f x).
  { intros x G Hx HG. destruct (Gamma_shift k x G HG ltac:(lra)) as (H & HH & ->). pose proof (gamma_positive _ _ HH). unfold f, Rdiv. rewrite Rabs_mult, Rabs_inv, (Rabs_right H) by lra. f_equal. apply (gamma_unique _ _ _ HH). apply Gam_ok. lra. }
  destruct (continuity_ab_min f p q ltac:(lra)) as (c & Hmin & Hc).
  { intros x Hx. destruct (EX x Hx) as [G HG]. unfold f. apply (continuity_pt_div (fun x => Gam (x + INR k)) (fun x => Rabs (prodf x k))).
    - apply (continuity_pt_comp (fun x => x + INR k) Gam); [|apply Gam_cont; lra]. apply (continuity_pt_plus (fun x => x) (fun _ => INR k)); [apply continuity_pt_id|apply continuity_pt_const; intros ? ?; reflexivity].
    - apply (continuity_pt_comp (fun x => prodf x k) Rabs); [apply prodf_cont|apply Rcontinuity_abs].
    - apply Rabs_no_R0. now apply (Gamma_prodf k x G). }
  exists c. split; [exact Hc|]. destruct (EX c Hc) as [Gc HGc]. exists Gc. split; [exact HGc|]. intros y G C HG.
  destruct (EX m ltac:(lra)) as [M HM]. destruct (EX p ltac:(lra)) as [P HPv]. destruct (EX q ltac:(lra)) as [Q HQv].
  assert (CM : Rabs Gc <= Rabs M) by (rewrite (FV c Gc), (FV m M); auto; try lra; apply Hmin; lra). specialize (HP P M HPv HM). specialize (HQ Q M HQv HM).
  destruct (Rle_or_lt (Rabs Gc) (Rabs G)) as [|N]; auto. exfalso.
  assert (CMY : cell y m). { destruct C as [C|(z & Hz & K1 & K2)].
    - left. split; [lra|]. destruct CE as [CE|(z & Hz & K1 & K2)]; [lra|]. pose proof (cell_neg z q Hz ltac:(lra)). lra.
    - right. exists z. split; auto. split; auto. destruct CE as [CE|(z' & Hz' & K1' & K2')]; [pose proof (cell_neg z c Hz ltac:(lra)); lra|].
      assert (z < z' + 1)%Z by (apply lt_IZR; rewrite plus_IZR; lra). assert (z' < z + 1)%Z by (apply lt_IZR; rewrite plus_IZR; lra). assert (z' = z) by lia. subst z'. lra. }
  pose proof (Rabs_pos_lt _ (Gamma_nonzero _ _ HG)) as PG. pose proof (Rabs_pos_lt _ (Gamma_nonzero _ _ HM)) as PM.
  assert (LL : forall w W, is_Gamma w W -> Rabs M <= Rabs W -> w <> m -> (y <= w <= m \/ m <= w <= y) -> False).
  { intros w W HW HMW Nw O. assert (T : exists l, 0 <= l <= 1 /\ w = l * y + (1 - l) * m).
    { destruct O as [O|O].
      - apply conv_mid; lra.
      - destruct (conv_mid m y w ltac:(lra) O) as (l & Hl & E). exists (1 - l). split; [lra|]. rewrite E. ring. }
    destruct T as (l & Hl & E). assert (0 < l) by (destruct (Req_dec l 0) as [->|]; [exfalso; apply Nw; rewrite E; ring|lra]). rewrite E in HW.
    pose proof (Gamma_logconvex y G HG l m M W Hl CMY HM HW) as K. assert (ln (Rabs M) <= ln (Rabs W)) by (apply ln_le; auto). assert (ln (Rabs G) < ln (Rabs M)) by (apply ln_increasing; lra). nra. }
  destruct (Rlt_or_le y p) as [O|O]; [apply (LL p P); auto; lra|]. destruct (Rlt_or_le q y) as [O2|O2]; [apply (LL q Q); auto; lra|].
  rewrite (FV c Gc), (FV y G) in N; auto. pose proof (Hmin y ltac:(lra)). lra.
Qed.
(* by the bounds *)
Lemma prod_compare k x y X Y : is_Gamma x X -> is_Gamma y Y -> 1 <= x + INR k <= 2 -> 1 <= y + INR k <= 2 -> 2 * Rabs (prodf y k) <= Rabs (prodf x k) -> Rabs X <= Rabs Y.
Proof.
  intros HX HY Kx Ky H. pose proof (Gamma_est k x X HX Kx). pose proof (Gamma_est k y Y HY Ky). pose proof (Rabs_pos_lt _ (Gamma_prodf k y _ HY)).
  apply Rle_trans with (/ Rabs (prodf x k)); [tauto|]. apply Rle_trans with (/ (2 * Rabs (prodf y k))); [|tauto]. apply Rinv_le_contravar; lra.
Qed.
Lemma exp_174 : 60 <= exp (17 / 4) < 81.
Proof.
  assert (S : forall x, exp (2 * x) = exp x * exp x) by (intros; rewrite <- exp_plus; f_equal; ring). split.
  - pose proof (exp_ineq1 (17 / 256) ltac:(lra)) as H. 
    assert (H1 : 1 + 17 / 256 <= exp (17 / 256)) by lra.
    assert (D : forall x c, 0 <= c -> c <= exp x -> c * c <= exp (2 * x)). { intros x c Hc H2. rewrite S. apply Rmult_le_compat; auto. }
    apply D in H1; [|lra]. apply D in H1; [|lra]. apply D in H1; [|lra]. apply D in H1; [|lra]. apply D in H1; [|lra]. apply D in H1; [|lra].
    replace (2 * (2 * (2 * (2 * (2 * (2 * (17 / 256))))))) with (17 / 4) in H1 by field. lra.
  - pose proof (exp_ineq1 (- (17 / 1024)) ltac:(lra)) as H. 
    assert (H1 : 1 + - (17 / 1024) <= exp (- (17 / 1024))) by lra.
    assert (D : forall x c d, 0 <= d -> d <= c * c -> 0 <= c -> c <= exp x -> d <= exp (2 * x)). { intros x c d Hd Hc' Hc H2. rewrite S. apply Rle_trans with (c * c); auto. apply Rmult_le_compat; auto. }
    apply (D _ _ (9670 / 10000)) in H1; [|lra|lra|lra]. apply (D _ _ (9350 / 10000)) in H1; [|lra|lra|lra]. apply (D _ _ (8742 / 10000)) in H1; [|lra|lra|lra]. apply (D _ _ (7642 / 10000)) in H1; [|lra|lra|lra].
    apply (D _ _ (5840 / 10000)) in H1; [|lra|lra|lra]. apply (D _ _ (3410 / 10000)) in H1; [|lra|lra|lra]. apply (D _ _ (1162 / 10000)) in H1; [|lra|lra|lra]. apply (D _ _ (135 / 10000)) in H1; [|lra|lra|lra].
    replace (2 * (2 * (2 * (2 * (2 * (2 * (2 * (2 * - (17 / 1024))))))))) with (- (17 / 4)) in H1 by field. rewrite exp_Ropp in H1. pose proof (exp_pos (17 / 4)).
    destruct (Rlt_or_le (exp (17 / 4)) 81) as [|N]; auto. exfalso. assert (/ exp (17 / 4) <= / 81) by (apply Rinv_le_contravar; lra). lra.
Qed.
