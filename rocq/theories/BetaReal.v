(* The beta function as an improper integral: symmetry and the functional equation. *)
From Coq Require Import Reals ZArith Bool List Lra Lia Psatz Arith.
From Coquelicot Require Import Coquelicot.
From Verif Require Import SingReal.
Open Scope R_scope.

(* t^(x-1) (1-t)^(y-1) *)
Definition bint (x y t : R) : R := Rpower t (x - 1) * Rpower (1 - t) (y - 1).
(* the integral over (0, 1) *)
Definition is_beta (x y B : R) : Prop :=
  forall eps, 0 < eps -> exists d, 0 < d /\ forall u v, 0 < u < d -> 0 < v < d -> exists w, is_RInt (bint x y) u (1 - v) w /\ Rabs (w - B) < eps.
Lemma beta_unique x y B B' : is_beta x y B -> is_beta x y B' -> B = B'.
Proof.
  intros H H'. destruct (Req_dec B B') as [|N]; auto. exfalso. set (e := Rabs (B - B') / 2).
  assert (E : 0 < e) by (unfold e; assert (0 < Rabs (B - B')) by (apply Rabs_pos_lt; lra); lra).
  destruct (H e E) as (d & Hd & A). destruct (H' e E) as (d' & Hd' & A').
  pose proof (Rmin_l d d'). pose proof (Rmin_r d d'). assert (0 < Rmin d d') by (apply Rmin_glb_lt; auto).
  destruct (A (Rmin d d' / 2) (Rmin d d' / 2)) as (w & Iw & Lw); try lra. destruct (A' (Rmin d d' / 2) (Rmin d d' / 2)) as (w' & Iw' & Lw'); try lra.
  assert (w = w') by (rewrite <- (is_RInt_unique _ _ _ _ Iw); apply is_RInt_unique; auto). subst w'.
  pose proof (Rabs_triang (B - w) (w - B')) as T. replace (B - w + (w - B')) with (B - B') in T by ring. rewrite (Rabs_minus_sym B w) in T. unfold e in *. lra.
Qed.
Lemma bint_sym x y t : bint y x (1 - t) = bint x y t.
Proof. unfold bint. replace (1 - (1 - t)) with t by ring. ring. Qed.
Lemma reflect (f : R -> R) u v (w : R) : is_RInt f u v w -> is_RInt (fun t => f (1 - t)) (1 - v) (1 - u) w.
Proof.
  intros H. assert (H' : is_RInt f (-1 * (1 - u) + 1) (-1 * (1 - v) + 1) w) by (replace (-1 * (1 - u) + 1) with u by ring; replace (-1 * (1 - v) + 1) with v by ring; exact H).
  pose proof (is_RInt_comp_lin f (-1) 1 (1 - u) (1 - v) w H') as K. apply is_RInt_swap in K.
  pose proof (is_RInt_opp _ _ _ _ K) as K2. rewrite opp_opp in K2.
  apply (is_RInt_ext (fun t => opp (Hierarchy.scal (-1) (f (-1 * t + 1))))); [|exact K2]. intros t _. unfold opp, Hierarchy.scal; simpl. unfold mult; simpl. replace (-1 * t + 1) with (1 - t) by ring. ring.
Qed.
Lemma beta_sym x y B : is_beta x y B -> is_beta y x B.
Proof.
  intros H eps He. destruct (H eps He) as (d & Hd & A). exists d. split; auto. intros u v Hu Hv. destruct (A v u Hv Hu) as (w & Iw & Lw). exists w. split; auto.
  apply reflect in Iw. replace (1 - (1 - u)) with u in Iw by ring. apply (is_RInt_ext (fun t => bint x y (1 - t))); auto. intros t _. apply bint_sym.
Qed.
(* the parts to the left and to the right of 1/2 *)
Lemma beta_split x y J K : improper (bint x y) 0 (/ 2) J -> improper (fun s => bint x y (- s)) (-1) (- / 2) K -> is_beta x y (J + K).
Proof.
  intros HJ HK eps He. destruct (HJ (eps / 2) ltac:(lra)) as (d & Hd & A). destruct (HK (eps / 2) ltac:(lra)) as (d' & Hd' & A').
  exists (Rmin (/ 2) (Rmin d d')). pose proof (Rmin_l (/ 2) (Rmin d d')). pose proof (Rmin_r (/ 2) (Rmin d d')). pose proof (Rmin_l d d'). pose proof (Rmin_r d d').
  split; [repeat apply Rmin_glb_lt; lra|]. intros u v Hu Hv. destruct (A u ltac:(lra) ltac:(lra)) as (w1 & I1 & L1). destruct (A' (-1 + v) ltac:(lra) ltac:(lra)) as (w2 & I2 & L2).
  exists (w1 + w2). split; [|replace (w1 + w2 - (J + K)) with ((w1 - J) + (w2 - K)) by ring; eapply Rle_lt_trans; [apply Rabs_triang|lra]].
  apply (is_RInt_Chasles (bint x y) u (/ 2) (1 - v) w1 w2 I1).
  pose proof (is_RInt_comp_opp (fun s => bint x y (- s)) (1 - v) (/ 2) w2) as C. replace (- (1 - v)) with (-1 + v) in C by ring. specialize (C I2).
  apply (is_RInt_swap (V:=R_NormedModule)) in C. apply (is_RInt_opp (V:=R_NormedModule)) in C. rewrite opp_opp in C.
  apply (is_RInt_ext (fun t => opp (opp (bint x y (- - t))))); auto. intros t _. now rewrite opp_opp, Ropp_involutive.
Qed.

Lemma beta_lin x y x' y' c e B :
  (forall u v w, 0 < u < / 2 -> 0 < v < / 2 -> is_RInt (bint x y) u (1 - v) w -> is_RInt (bint x' y') u (1 - v) (c * w + e u v)) ->
  (forall eps, 0 < eps -> exists d, 0 < d /\ forall u v, 0 < u < d -> 0 < v < d -> Rabs (e u v) < eps) -> is_beta x y B -> is_beta x' y' (c * B).
Proof.
  intros HW HE HB eps He. assert (Pc : 0 < Rabs c + 1) by (pose proof (Rabs_pos c); lra). assert (E1 : 0 < eps / 2 / (Rabs c + 1)) by (apply Rdiv_lt_0_compat; lra).
  destruct (HB _ E1) as (d & Hd & A). destruct (HE (eps / 2) ltac:(lra)) as (d' & Hd' & A'). exists (Rmin (/ 2) (Rmin d d')).
  pose proof (Rmin_l (/ 2) (Rmin d d')). pose proof (Rmin_r (/ 2) (Rmin d d')). pose proof (Rmin_l d d'). pose proof (Rmin_r d d').
  split; [repeat apply Rmin_glb_lt; lra|]. intros u v Hu Hv. destruct (A u v ltac:(lra) ltac:(lra)) as (w & Iw & Lw). specialize (A' u v ltac:(lra) ltac:(lra)).
  exists (c * w + e u v). split; [apply HW; auto; lra|]. replace (c * w + e u v - c * B) with (c * (w - B) + e u v) by ring. eapply Rle_lt_trans; [apply Rabs_triang|].
  assert (Rabs (c * (w - B)) <= eps / 2); [|lra]. rewrite Rabs_mult. apply Rle_trans with ((Rabs c + 1) * (eps / 2 / (Rabs c + 1))); [|right; field; lra].
  apply Rmult_le_compat; try apply Rabs_pos; lra.
Qed.
Definition bF (x y t : R) : R := Rpower t x * Rpower (1 - t) y.
Lemma rp_succ t x : 0 < t -> Rpower t x = t * Rpower t (x - 1).
Proof. intros H. replace x with (1 + (x - 1)) at 1 by ring. rewrite Rpower_plus, Rpower_1; auto. Qed.
Lemma bF_int x y u v : 0 < u < / 2 -> 0 < v < / 2 -> is_RInt (fun t => x * bint x y t - (x + y) * bint (x + 1) y t) u (1 - v) (bF x y (1 - v) - bF x y u).
Proof.
  intros Hu Hv. assert (PO : forall t, Rmin u (1 - v) <= t <= Rmax u (1 - v) -> 0 < t < 1) by (intros t; rewrite Rmin_left, Rmax_right by lra; lra).
  replace (bF x y (1 - v) - bF x y u) with (minus (bF x y (1 - v)) (bF x y u)) by (unfold minus, plus, opp; simpl; ring).
  apply (is_RInt_derive (bF x y)).
  - intros t Ht. specialize (PO t Ht). unfold bF, bint. replace (x + 1 - 1) with x by ring.
    assert (D : is_derive (fun t => exp (x * ln t) * exp (y * ln (1 - t))) t (x / t * (Rpower t x * Rpower (1 - t) y) - y / (1 - t) * (Rpower t x * Rpower (1 - t) y))).
    { unfold Rpower. auto_derive; [lra|]. replace (1 + - t) with (1 - t) by ring. field. lra. }
    replace (x * (Rpower t (x - 1) * Rpower (1 - t) (y - 1)) - (x + y) * (Rpower t x * Rpower (1 - t) (y - 1))) with (x / t * (Rpower t x * Rpower (1 - t) y) - y / (1 - t) * (Rpower t x * Rpower (1 - t) y)); [exact D|].
    rewrite (rp_succ t x), (rp_succ (1 - t) y) by lra. field. lra.
  - intros t Ht. specialize (PO t Ht). apply (ex_derive_continuous (V:=R_NormedModule)). unfold bint, Rpower. auto_derive. repeat split; lra.
Qed.
Lemma rp_small x : 0 < x -> forall eps, 0 < eps -> exists d, 0 < d /\ forall u, 0 < u < d -> Rpower u x < eps.
Proof.
  intros Hx eps He. exists (Rpower eps (/ x)). split; [apply exp_pos|]. intros u Hu.
  replace eps with (Rpower (Rpower eps (/ x)) x); [apply Rlt_Rpower_l; auto|]. rewrite Rpower_mult, Rinv_l by lra. now apply Rpower_1.
Qed.
Lemma rp_le1 t y : 0 < y -> 0 < t <= 1 -> Rpower t y <= 1.
Proof. intros Hy Ht. replace 1 with (Rpower 1 y). apply Rle_Rpower_l; lra. unfold Rpower. now rewrite ln_1, Rmult_0_r, exp_0. Qed.
Lemma bF_small x y c : 0 < x -> 0 < y -> forall eps, 0 < eps -> exists d, 0 < d /\ forall u v, 0 < u < d -> 0 < v < d -> Rabs (c * (bF x y (1 - v) - bF x y u)) < eps.
Proof.
  intros Hx Hy eps He. assert (Pc : 0 < Rabs c + 1) by (pose proof (Rabs_pos c); lra). assert (E1 : 0 < eps / (Rabs c + 1)) by (apply Rdiv_lt_0_compat; lra).
  destruct (rp_small x Hx _ E1) as (d & Hd & A). destruct (rp_small y Hy _ E1) as (d' & Hd' & A'). exists (Rmin (/ 2) (Rmin d d')).
  pose proof (Rmin_l (/ 2) (Rmin d d')). pose proof (Rmin_r (/ 2) (Rmin d d')). pose proof (Rmin_l d d'). pose proof (Rmin_r d d').
  split; [repeat apply Rmin_glb_lt; lra|]. intros u v Hu Hv. specialize (A u ltac:(lra)). specialize (A' v ltac:(lra)).
  assert (P : forall a b, 0 < Rpower a b) by (intros; apply exp_pos).
  assert (0 < bF x y u < eps / (Rabs c + 1)). { unfold bF. split; [apply Rmult_lt_0_compat; apply P|]. pose proof (rp_le1 (1 - u) y Hy ltac:(lra)). pose proof (P u x). pose proof (P (1 - u) y). nra. }
  assert (0 < bF x y (1 - v) < eps / (Rabs c + 1)). { unfold bF. replace (1 - (1 - v)) with v by ring. split; [apply Rmult_lt_0_compat; apply P|]. pose proof (rp_le1 (1 - v) x Hx ltac:(lra)). pose proof (P v y). pose proof (P (1 - v) x). nra. }
  rewrite Rabs_mult. apply Rlt_le_trans with ((Rabs c + 1) * (eps / (Rabs c + 1))); [|right; field; lra].
  assert (L : Rabs (bF x y (1 - v) - bF x y u) < eps / (Rabs c + 1)) by (apply Rabs_def1; lra). pose proof (Rabs_pos c). pose proof (Rabs_pos (bF x y (1 - v) - bF x y u)). nra.
Qed.
Lemma beta_succ x y B : 0 < x -> 0 < y -> is_beta x y B -> is_beta (x + 1) y (x / (x + y) * B).
Proof.
  intros Hx Hy. apply (beta_lin x y (x + 1) y _ (fun u v => - / (x + y) * (bF x y (1 - v) - bF x y u))); [|apply bF_small; auto].
  intros u v w Hu Hv I. pose proof (bF_int x y u v Hu Hv) as K. pose proof (is_RInt_scal _ _ _ (x / (x + y)) _ I) as I'. pose proof (is_RInt_scal _ _ _ (- / (x + y)) _ K) as K'.
  pose proof (is_RInt_plus _ _ _ _ _ _ I' K') as S. apply (is_RInt_ext _ (bint (x + 1) y)) in S; [exact S|].
  intros t _. unfold plus, Hierarchy.scal; simpl. unfold mult; simpl. field. lra.
Qed.
Lemma beta_pred x y B : 0 < x -> 0 < y -> is_beta (x + 1) y B -> is_beta x y ((x + y) / x * B).
Proof.
  intros Hx Hy. apply (beta_lin (x + 1) y x y _ (fun u v => / x * (bF x y (1 - v) - bF x y u))); [|apply bF_small; auto].
  intros u v w Hu Hv I. pose proof (bF_int x y u v Hu Hv) as K. pose proof (is_RInt_scal _ _ _ ((x + y) / x) _ I) as I'. pose proof (is_RInt_scal _ _ _ (/ x) _ K) as K'.
  pose proof (is_RInt_plus _ _ _ _ _ _ I' K') as S. apply (is_RInt_ext _ (bint x y)) in S; [exact S|].
  intros t _. unfold plus, Hierarchy.scal; simpl. unfold mult; simpl. field. lra.
Qed.

(* ---- repeated use of the functional equation ---- *)
(* (s - i) (s - (i + 1)) ... (s - (i + k - 1)) *)
Fixpoint mulk (s : R) (i : Z) (k : nat) : R := match k with O => 1 | S k' => (s - IZR i) * mulk s (i + 1) k' end.
Lemma mulk_shift k : forall s i, mulk (s + 1) (i + 1) k = mulk s i k.
Proof. induction k as [|k IH]; intros s i; simpl; auto. rewrite IH, plus_IZR. f_equal. ring. Qed.
Lemma mulk_last k : forall s i, mulk s i (S k) = mulk s i k * (s - IZR (i + Z.of_nat k)).
Proof.
  induction k as [|k IH]; intros s i. { simpl. rewrite Z.add_0_r. ring. }
  change (mulk s i (S (S k))) with ((s - IZR i) * mulk s (i + 1) (S k)). rewrite IH. cbn [mulk]. replace (i + 1 + Z.of_nat k)%Z with (i + Z.of_nat (S k))%Z by lia. ring.
Qed.
(* Gamma(s) / Gamma(s - n) *)
Definition Qz (n : Z) (s : R) : R := if (1 <=? n)%Z then mulk s 1 (Z.to_nat n) else / mulk s (n + 1) (Z.to_nat (- n)).
Lemma Qz_0 s : Qz 0 s = 1. Proof. unfold Qz. simpl. field. Qed.
Lemma Qz_succ n s : s <> 0 -> Qz (n + 1) (s + 1) = s * Qz n s.
Proof.
  intros Hs. unfold Qz. destruct (Z.leb_spec 1 n) as [H|H].
  - destruct (Z.leb_spec 1 (n + 1)); [|lia]. replace (Z.to_nat (n + 1)) with (S (Z.to_nat n)) by lia. cbn [mulk]. rewrite mulk_shift. f_equal. ring.
  - replace (Z.to_nat (- n)) with (Z.to_nat (- n)) by auto. destruct (Z.leb_spec 1 (n + 1)).
    + assert (n = 0)%Z by lia. subst n. simpl. replace (s + 1 - 1) with s by ring. field.
    + replace (Z.to_nat (- n)) with (S (Z.to_nat (- (n + 1)))) by lia. rewrite mulk_last, mulk_shift. replace (n + 1 + Z.of_nat (Z.to_nat (- (n + 1))))%Z with 0%Z by lia.
      rewrite Rminus_0_r, Rinv_mult. rewrite (Rmult_comm (/ _) (/ s)), <- Rmult_assoc, Rinv_r, Rmult_1_l by auto. reflexivity.
Qed.
Definition bW (nx ny : Z) (x y B : R) : R := B * Qz nx x / Qz (nx + ny) (x + y) * Qz ny y.
Lemma bW_sym nx ny x y B : bW nx ny x y B = bW ny nx y x B.
Proof. unfold bW. rewrite (Z.add_comm ny), (Rplus_comm y). unfold Rdiv. ring. Qed.
Lemma bW_succ nx ny x y B : 0 < x -> 0 < y -> bW (nx + 1) ny (x + 1) y B = x / (x + y) * bW nx ny x y B.
Proof.
  intros Hx Hy. unfold bW. replace (nx + 1 + ny)%Z with (nx + ny + 1)%Z by lia. replace (x + 1 + y) with (x + y + 1) by ring. rewrite !Qz_succ by lra. unfold Rdiv. rewrite Rinv_mult. ring.
Qed.
Lemma beta_up k : forall nx ny x y B, 0 < x -> 0 < y -> is_beta x y (bW nx ny x y B) -> is_beta (x + INR k) y (bW (nx + Z.of_nat k) ny (x + INR k) y B).
Proof.
  induction k as [|k IH]; intros nx ny x y B Hx Hy H. { simpl. now rewrite Rplus_0_r, Z.add_0_r. }
  apply beta_succ in H; auto. rewrite <- bW_succ in H by auto. apply IH in H; auto; [|lra]. replace (nx + 1 + Z.of_nat k)%Z with (nx + Z.of_nat (S k))%Z in H by lia.
  replace (x + 1 + INR k) with (x + INR (S k)) in H by (rewrite S_INR; ring). exact H.
Qed.
Lemma beta_down k : forall nx ny x y B, 0 < x -> 0 < y -> is_beta (x + INR k) y (bW (nx + Z.of_nat k) ny (x + INR k) y B) -> is_beta x y (bW nx ny x y B).
Proof.
  induction k as [|k IH]; intros nx ny x y B Hx Hy H. { simpl in H. now rewrite Rplus_0_r, Z.add_0_r in H. }
  replace (nx + Z.of_nat (S k))%Z with (nx + 1 + Z.of_nat k)%Z in H by lia. replace (x + INR (S k)) with (x + 1 + INR k) in H by (rewrite S_INR; ring).
  apply IH in H; auto; [|lra]. rewrite bW_succ in H by auto. apply beta_pred in H; auto.
  replace (bW nx ny x y B) with ((x + y) / x * (x / (x + y) * bW nx ny x y B)); auto. field. lra.
Qed.
Lemma beta_shift1 n nx ny x y B : 0 < x -> 0 < y -> 0 < x - IZR n -> is_beta (x - IZR n) y (bW nx ny (x - IZR n) y B) -> is_beta x y (bW (nx + n) ny x y B).
Proof.
  intros Hx Hy H HB. destruct (Z_le_gt_dec 0 n) as [N|N].
  - assert (E : IZR n = INR (Z.to_nat n)) by (rewrite INR_IZR_INZ; f_equal; lia). rewrite E in *. apply (beta_up (Z.to_nat n)) in HB; auto. replace (x - INR (Z.to_nat n) + INR (Z.to_nat n)) with x in HB by ring. rewrite Z2Nat.id in HB by lia. exact HB.
  - assert (E : IZR n = - INR (Z.to_nat (- n))). { rewrite INR_IZR_INZ, <- opp_IZR. f_equal. lia. } rewrite E in *. apply (beta_down (Z.to_nat (- n))); auto. replace (nx + n + Z.of_nat (Z.to_nat (- n)))%Z with nx by lia.
    replace (x + INR (Z.to_nat (- n))) with (x - - INR (Z.to_nat (- n))) by ring. exact HB.
Qed.
Theorem beta_shift nx ny x y B : 0 < x -> 0 < y -> 0 < x - IZR nx -> 0 < y - IZR ny -> is_beta (x - IZR nx) (y - IZR ny) B -> is_beta x y (bW nx ny x y B).
Proof.
  intros Hx Hy Kx Ky H. assert (H0 : is_beta (x - IZR nx) (y - IZR ny) (bW 0 0 (x - IZR nx) (y - IZR ny) B)) by (unfold bW; simpl; rewrite !Qz_0; replace (B * 1 / 1 * 1) with B by field; exact H).
  apply beta_shift1 in H0; auto. apply beta_sym in H0. rewrite bW_sym in H0. apply beta_shift1 in H0; auto. apply beta_sym in H0. rewrite bW_sym in H0. exact H0.
Qed.

(* ---- arguments that are not positive ---- *)
(* the integral, and its continuation by B(x,y) = (x+y)/x B(x+1,y) and B(x,y) = (x+y)/y B(x,y+1) *)
Inductive is_Beta : R -> R -> R -> Prop :=
| Bpos x y B : 0 < x -> 0 < y -> is_beta x y B -> is_Beta x y B
| Bleft x y B : x < 0 -> is_Beta (x + 1) y B -> is_Beta x y ((x + y) / x * B)
| Bright x y B : 0 < x -> y < 0 -> is_Beta x (y + 1) B -> is_Beta x y ((x + y) / y * B).
Lemma Beta_unique x y B B' : is_Beta x y B -> is_Beta x y B' -> B = B'.
Proof.
  intros H. revert B'. induction H as [x y B Hx Hy H|x y B Hx H IH|x y B Hx Hy H IH]; intros B' H'; inversion H'; subst; try lra.
  - eapply beta_unique; eauto.
  - f_equal. auto.
  - f_equal. auto.
Qed.
Lemma mulk_pos k : forall s i, (forall j : Z, (i <= j < i + Z.of_nat k)%Z -> 0 < s - IZR j) -> 0 < mulk s i k.
Proof. induction k as [|k IH]; intros s i H; simpl; [lra|]. apply Rmult_lt_0_compat; [apply H; lia|]. apply IH. intros j Hj. apply H. lia. Qed.
Lemma Qz_down n s : 0 < s - IZR n -> / Qz n s = s * / Qz (n + 1) (s + 1).
Proof.
  intros H. destruct (Req_dec s 0) as [->|N].
  - assert (Hn : (n < 0)%Z) by (apply lt_IZR; lra). unfold Qz. destruct (Z.leb_spec 1 n); [lia|]. destruct (Z.leb_spec 1 (n + 1)); [lia|]. rewrite !Rinv_inv.
    replace (Z.to_nat (- n)) with (S (Z.to_nat (- (n + 1)))) by lia. rewrite mulk_last. replace (n + 1 + Z.of_nat (Z.to_nat (- (n + 1))))%Z with 0%Z by lia. ring.
  - rewrite Qz_succ, Rinv_mult by auto. rewrite <- Rmult_assoc, Rinv_r, Rmult_1_l by auto. reflexivity.
Qed.
Lemma bW_down nx ny x y B : x <> 0 -> 0 < x + y - IZR (nx + ny) -> bW nx ny x y B = (x + y) / x * bW (nx + 1) ny (x + 1) y B.
Proof.
  intros Hx H. unfold bW, Rdiv. rewrite (Qz_down (nx + ny) (x + y) H). replace (nx + 1 + ny)%Z with (nx + ny + 1)%Z by lia. replace (x + 1 + y) with (x + y + 1) by ring.
  rewrite (Qz_succ nx x Hx). generalize (/ Qz (nx + ny + 1) (x + y + 1)). intros q. field. exact Hx.
Qed.
Lemma bW_down2 nx ny x y B : y <> 0 -> 0 < x + y - IZR (nx + ny) -> bW nx ny x y B = (x + y) / y * bW nx (ny + 1) x (y + 1) B.
Proof. intros Hy H. rewrite bW_sym, (bW_sym nx (ny + 1)), (Rplus_comm x y). apply bW_down; auto. now rewrite (Rplus_comm y), (Z.add_comm ny). Qed.
Definition no_pole (x : R) : Prop := forall k : nat, x <> - INR k.
Lemma no_pole_cases x : no_pole x -> 0 < x \/ exists k, 0 < x + INR k < 1 /\ forall j : nat, (j < k)%nat -> x + INR j < 0.
Proof.
  intros H. destruct (Rlt_or_le 0 x) as [|L]; auto. right. exists (Z.to_nat (up (- x))). destruct (archimed (- x)) as [A1 A2].
  assert (U : (0 <= up (- x))%Z) by (apply le_IZR; lra). assert (E : INR (Z.to_nat (up (- x))) = IZR (up (- x))) by (rewrite INR_IZR_INZ; f_equal; lia). rewrite E. split.
  - split; [lra|]. destruct (Req_dec (IZR (up (- x)) - - x) 1) as [Q|Q]; [|lra]. exfalso. assert (1 <= IZR (up (- x))) by lra. apply (le_IZR 1) in H0.
    apply (H (Z.to_nat (up (- x) - 1))). rewrite INR_IZR_INZ, Z2Nat.id, minus_IZR by lia. lra.
  - intros j Hj. assert (INR j + 1 <= IZR (up (- x))). { rewrite <- E, <- S_INR. apply le_INR. lia. } destruct (Req_dec (x + INR j) 0); [|lra]. exfalso. apply (H j). lra.
Qed.
Lemma Beta_left k : forall nx ny x y B, (forall j : nat, (j < k)%nat -> x + INR j < 0) -> 0 < x + y - IZR (nx + ny) ->
  is_Beta (x + INR k) y (bW (nx + Z.of_nat k) ny (x + INR k) y B) -> is_Beta x y (bW nx ny x y B).
Proof.
  induction k as [|k IH]; intros nx ny x y B N H HB. { simpl in HB. now rewrite Rplus_0_r, Z.add_0_r in HB. }
  assert (Hx : x < 0) by (specialize (N O ltac:(lia)); simpl in N; lra). rewrite bW_down by lra. apply Bleft; auto. apply IH.
  - intros j Hj. specialize (N (S j) ltac:(lia)). rewrite S_INR in N. lra.
  - replace (nx + 1 + ny)%Z with (nx + ny + 1)%Z by lia. rewrite plus_IZR. lra.
  - replace (nx + 1 + Z.of_nat k)%Z with (nx + Z.of_nat (S k))%Z by lia. replace (x + 1 + INR k) with (x + INR (S k)) by (rewrite S_INR; ring). exact HB.
Qed.
Lemma Beta_right k : forall nx ny x y B, 0 < x -> (forall j : nat, (j < k)%nat -> y + INR j < 0) -> 0 < x + y - IZR (nx + ny) ->
  is_Beta x (y + INR k) (bW nx (ny + Z.of_nat k) x (y + INR k) B) -> is_Beta x y (bW nx ny x y B).
Proof.
  induction k as [|k IH]; intros nx ny x y B Px N H HB. { simpl in HB. now rewrite Rplus_0_r, Z.add_0_r in HB. }
  assert (Hy : y < 0) by (specialize (N O ltac:(lia)); simpl in N; lra). rewrite bW_down2 by lra. apply Bright; auto. apply IH; auto.
  - intros j Hj. specialize (N (S j) ltac:(lia)). rewrite S_INR in N. lra.
  - replace (nx + (ny + 1))%Z with (nx + ny + 1)%Z by lia. rewrite plus_IZR. lra.
  - replace (ny + 1 + Z.of_nat k)%Z with (ny + Z.of_nat (S k))%Z by lia. replace (y + 1 + INR k) with (y + INR (S k)) by (rewrite S_INR; ring). exact HB.
Qed.
Theorem Beta_shift nx ny x y B : no_pole x -> no_pole y -> 0 < x - IZR nx -> 0 < y - IZR ny -> is_beta (x - IZR nx) (y - IZR ny) B -> is_Beta x y (bW nx ny x y B).
Proof.
  assert (YY : forall nx ny x y B, 0 < x -> no_pole y -> 0 < x - IZR nx -> 0 < y - IZR ny -> is_beta (x - IZR nx) (y - IZR ny) B -> is_Beta x y (bW nx ny x y B)).
  { clear. intros nx ny x y B Px Hy Kx Ky H. destruct (no_pole_cases y Hy) as [Py|(k & K1 & K2)]; [apply Bpos; auto; apply beta_shift; auto|].
    apply (Beta_right k); auto; [rewrite plus_IZR; lra|]. apply Bpos; auto; [lra|]. apply beta_shift; auto; try lra; rewrite plus_IZR, <- INR_IZR_INZ; [lra|]. replace (y + INR k - (IZR ny + INR k)) with (y - IZR ny) by ring. exact H. }
  intros Hx Hy Kx Ky H. destruct (no_pole_cases x Hx) as [Px|(k & K1 & K2)]; [apply YY; auto|].
  apply (Beta_left k); auto; [rewrite plus_IZR; lra|]. apply YY; auto; try lra; rewrite plus_IZR, <- INR_IZR_INZ; [lra|]. replace (x + INR k - (IZR nx + INR k)) with (x - IZR nx) by ring. exact H.
Qed.
(* a value, for a test *)
Lemma beta_11 : is_beta 1 1 1.
Proof.
  intros eps He. exists (Rmin (/ 2) (eps / 2)). pose proof (Rmin_l (/ 2) (eps / 2)). pose proof (Rmin_r (/ 2) (eps / 2)). split; [apply Rmin_glb_lt; lra|]. intros u v Hu Hv.
  exists (1 - v - u). split; [|apply Rabs_def1; lra]. apply (is_RInt_ext (fun _ => 1)).
  - intros t. rewrite Rmin_left, Rmax_right by lra. intros Ht. unfold bint. replace (1 - 1) with 0 by ring. rewrite !Rpower_O by lra. exact (eq_sym (Rmult_1_l 1)).
  - pose proof (is_RInt_const u (1 - v) (1 : R_NormedModule)) as C. replace (Hierarchy.scal (1 - v - u) (1 : R_NormedModule)) with (1 - v - u) in C; auto. unfold Hierarchy.scal; simpl. unfold mult; simpl. ring.
Qed.
