(* Real analysis facts used by the elementary functions: Taylor expansions with Lagrange
   remainder for exp, sin, cos, ln, sinh, and the alternating bound for atan. *)
From Coq Require Import Reals Lra Lia Psatz.
From Coquelicot Require Import Coquelicot.
Open Scope R_scope.

Fixpoint rsum (f : nat -> R) (n : nat) : R := match n with O => 0 | S k => rsum f k + f k end.
Lemma rsum_ext f g n : (forall k, (k < n)%nat -> f k = g k) -> rsum f n = rsum g n.
Proof. induction n; intros H; simpl; auto. rewrite IHn by (intros; apply H; lia). rewrite H by lia; auto. Qed.

Lemma is_derive_extR (f g : R -> R) (x l : R) : (forall t : R, f t = g t) -> is_derive f x l -> is_derive g x l.
Proof. intros H. apply is_derive_ext. exact H. Qed.

Lemma Rabs_bnd x y : Rabs x <= y -> - y <= x <= y.
Proof. apply Rabs_le_between. Qed.
Definition btw (x c : R) := (0 <= c <= x) \/ (x <= c <= 0).
Lemma btw_abs x c : btw x c -> Rabs c <= Rabs x.
Proof. intros [H|H]; unfold Rabs; destruct (Rcase_abs c), (Rcase_abs x); lra. Qed.

(* Lagrange remainder for a family of successive derivatives *)
Definition tayG (F : nat -> R -> R) (x M : R) (n : nat) (t : R) : R :=
  rsum (fun k => F k t * (x - t) ^ k / INR (fact k)) n + M * (x - t) ^ n.

Lemma is_derive_tayS (F : nat -> R -> R) x t n :
  (forall k, is_derive (F k) t (F (S k) t)) ->
  is_derive (fun t => rsum (fun k => F k t * (x - t) ^ k / INR (fact k)) (S n)) t
    (F (S n) t * (x - t) ^ n / INR (fact n)).
Proof.
  intros D. induction n.
  - simpl. apply (is_derive_extR (F O)); [intros; field|].
    replace (F 1%nat t * 1 / 1) with (F 1%nat t) by field. apply D.
  - change (fun t => rsum (fun k => F k t * (x - t) ^ k / INR (fact k)) (S (S n)))
      with (fun t => rsum (fun k => F k t * (x - t) ^ k / INR (fact k)) (S n) + F (S n) t * (x - t) ^ S n / INR (fact (S n))).
    evar_last. { apply (is_derive_plus (K := R_AbsRing) (V := R_NormedModule)); [exact IHn|].
      apply (is_derive_extR (fun t => F (S n) t * ((x - t) ^ S n / INR (fact (S n))))).
      { intros u. unfold Rdiv. ring. }
      apply (is_derive_mult (F (S n)) (fun t => (x - t) ^ S n / INR (fact (S n)))); [apply D| |intros; apply Rmult_comm].
      auto_derive; auto. }
    unfold plus, mult; simpl. 
    assert (N1 : INR (fact n) <> 0) by apply INR_fact_neq_0.
    rewrite plus_INR, mult_INR. 
    assert (N2 : INR (fact n) + INR n * INR (fact n) <> 0).
    { replace (INR (fact n) + INR n * INR (fact n)) with (INR (S n) * INR (fact n)) by (rewrite S_INR; ring).
      apply Rmult_integral_contrapositive_currified; auto. apply not_0_INR; lia. }
    destruct n as [|n].
    { simpl. field. }
    simpl Nat.pred. rewrite (S_INR n) in *. change (x + - t) with (x - t). field. repeat split; auto; pose proof (pos_INR n); lra.
Qed.

Lemma taylor_fam (F : nat -> R -> R) (x : R) (n : nat) :
  (forall k t, btw x t -> is_derive (F k) t (F (S k) t)) ->
  exists c, btw x c /\
    F O x = rsum (fun k => F k 0 * x ^ k / INR (fact k)) n + F n c * x ^ n / INR (fact n).
Proof.
  intros D. destruct n as [|n].
  { exists x. split; [unfold btw; destruct (Rle_or_lt 0 x); lra|]. simpl. field. }
  destruct (Req_dec x 0) as [->|Nx].
  { exists 0. split; [left; lra|].
    assert (E : forall m, rsum (fun k => F k 0 * 0 ^ k / INR (fact k)) (S m) = F O 0).
    { induction m; [simpl; field|]. simpl rsum in *. rewrite IHm. simpl pow. unfold Rdiv. ring. }
    rewrite E. simpl pow. unfold Rdiv. ring. }
  set (G := fun t => rsum (fun k => F k t * (x - t) ^ k / INR (fact k)) (S n)).
  set (M := (G x - G 0) / x ^ S n).
  assert (Nxn : x ^ S n <> 0) by (apply pow_nonzero; auto).
  assert (EMx : M * x ^ S n = G x - G 0).
  { unfold M, Rdiv. rewrite Rmult_assoc, Rinv_l by auto. ring. }
  clearbody M.
  set (H := fun t => G t + M * (x - t) ^ S n).
  set (H' := fun t => F (S n) t * (x - t) ^ n / INR (fact n) - M * INR (S n) * (x - t) ^ n).
  assert (DH : forall t, btw x t -> derivable_pt_lim H t (H' t)).
  { intros t Ht. apply is_derive_Reals. unfold H, H'. 
    evar_last. { apply (is_derive_plus (K := R_AbsRing) (V := R_NormedModule)).
      - apply is_derive_tayS. intros; apply D; auto.
      - instantiate (1 := - (M * INR (S n) * (x - t) ^ n)). auto_derive; auto. simpl Nat.pred.
        change (match n with O => 1 | S _ => INR n + 1 end) with (INR (S n)). change (x + - t) with (x - t). ring. }
    unfold plus; simpl. ring. }
  assert (HE : H x = H 0).
  { unfold H. rewrite Rminus_eq_0, Rminus_0_r, EMx. rewrite pow_ne_zero by lia. ring. }
  assert (Gx : G x = F O x).
  { unfold G. rewrite Rminus_eq_0. clear. induction n; [simpl; field|]. simpl rsum in *. rewrite IHn. simpl pow. unfold Rdiv. ring. }
  assert (exists c, btw x c /\ x - c <> 0 /\ H' c = 0) as (c & Bc & Nc & Hc).
  { destruct (Rtotal_order x 0) as [L|[L|L]]; [|lra|].
    - destruct (MVT_cor2 H H' x 0 L) as (c & E & Hc).
      { intros c Hc. apply DH. right; lra. }
      exists c. split; [right; lra|]. split; [lra|]. rewrite HE in E.
      assert (H' c * (0 - x) = 0) by lra. apply Rmult_integral in H0 as [|]; lra.
    - destruct (MVT_cor2 H H' 0 x L) as (c & E & Hc).
      { intros c Hc. apply DH. left; lra. }
      exists c. split; [left; lra|]. split; [lra|]. rewrite HE in E.
      assert (H' c * (x - 0) = 0) by lra. apply Rmult_integral in H0 as [|]; lra. }
  exists c. split; auto. rewrite <- Gx.
  assert (EM : M = F (S n) c / INR (fact (S n))).
  { unfold H' in Hc. assert ((x - c) ^ n <> 0) by (apply pow_nonzero; auto).
    assert (F (S n) c / INR (fact n) - M * INR (S n) = 0).
    { apply (Rmult_eq_reg_r ((x - c) ^ n)); auto. rewrite Rmult_0_l, <- Hc. field. apply INR_fact_neq_0. }
    change (fact (S n)) with (S n * fact n)%nat. rewrite mult_INR.
    assert (INR (S n) <> 0) by (apply not_0_INR; lia).
    apply (Rmult_eq_reg_r (INR (S n))); auto. replace (M * INR (S n)) with (F (S n) c / INR (fact n)) by lra.
    field. split; auto. apply INR_fact_neq_0. }
  replace (G x) with (G 0 + M * x ^ S n).
  - f_equal.
    + unfold G. apply rsum_ext. intros. rewrite Rminus_0_r. auto.
    + rewrite EM. unfold Rdiv. ring.
  - rewrite EMx. ring.
Qed.

(* exp *)
Definition exp_term (x : R) (k : nat) : R := x ^ k / INR (fact k).
Lemma exp_term_0 x : exp_term x 0 = 1. Proof. unfold exp_term; simpl; field. Qed.
Lemma exp_term_S x k : exp_term x (S k) = exp_term x k * x / INR (S k).
Proof.
  unfold exp_term. change (fact (S k)) with (S k * fact k)%nat. rewrite mult_INR. simpl pow. field.
  split; [apply INR_fact_neq_0|apply not_0_INR; lia].
Qed.
Lemma exp_taylor x n : exists c, btw x c /\ exp x = rsum (exp_term x) n + exp_term x n * exp c.
Proof.
  destruct (taylor_fam (fun _ => exp) x n) as (c & B & E).
  { intros k t _. apply is_derive_Reals. apply derivable_pt_lim_exp. }
  exists c. split; auto. rewrite E, exp_0. f_equal.
  - apply rsum_ext. intros. unfold exp_term, Rdiv. ring.
  - unfold exp_term, Rdiv. ring.
Qed.

(* sin and cos: successive derivatives *)
Fixpoint sinF (k : nat) (t : R) : R := match k with
  | O => sin t | S O => cos t | S (S k) => - sinF k t end.
Lemma sinF_bound k t : Rabs (sinF k t) <= 1.
Proof.
  revert t. assert (H : forall t, Rabs (sinF k t) <= 1 /\ Rabs (sinF (S k) t) <= 1); [|intros; apply H].
  induction k; intros t.
  - simpl. split; apply Rabs_le; [apply SIN_bound|apply COS_bound].
  - split; [apply IHk|]. change (sinF (S (S k)) t) with (- sinF k t). rewrite Rabs_Ropp. apply IHk.
Qed.
Lemma sinF_derive k t : is_derive (sinF k) t (sinF (S k) t).
Proof.
  assert (H : forall t, is_derive (sinF k) t (sinF (S k) t) /\ is_derive (sinF (S k)) t (sinF (S (S k)) t)); [|apply H].
  induction k; intros u.
  - split; apply is_derive_Reals; simpl; [apply derivable_pt_lim_sin|apply derivable_pt_lim_cos].
  - split; [apply IHk|]. change (sinF (S (S k))) with (fun t => - sinF k t).
    change (sinF (S (S (S k))) u) with (opp (sinF (S k) u)).
    apply (is_derive_opp (K := R_AbsRing) (V := R_NormedModule)). apply IHk.
Qed.
Definition cosF k := sinF (S k).
(* coefficient of x^k/k! in the expansion at 0 *)
Lemma sin_taylor x n : exists d, -1 <= d <= 1 /\
  sin x = rsum (fun k => sinF k 0 * exp_term x k) n + exp_term x n * d.
Proof.
  destruct (taylor_fam sinF x n) as (c & B & E). { intros; apply sinF_derive. }
  exists (sinF n c). split; [apply Rabs_bnd, sinF_bound|]. change (sinF 0 x) with (sin x) in E. rewrite E. f_equal.
  - apply rsum_ext. intros. unfold exp_term, Rdiv. ring.
  - unfold exp_term, Rdiv. ring.
Qed.
Lemma cos_taylor x n : exists d, -1 <= d <= 1 /\
  cos x = rsum (fun k => cosF k 0 * exp_term x k) n + exp_term x n * d.
Proof.
  destruct (taylor_fam cosF x n) as (c & B & E). { intros; apply (sinF_derive (S k)). }
  exists (cosF n c). split; [apply Rabs_bnd, sinF_bound|]. change (cosF 0 x) with (cos x) in E. rewrite E. f_equal.
  - apply rsum_ext. intros. unfold exp_term, Rdiv. ring.
  - unfold exp_term, Rdiv. ring.
Qed.

(* sinh: successive derivatives are sinh and cosh *)
Definition shF (k : nat) : R -> R := if Nat.even k then sinh else cosh.
Lemma shF_derive k t : is_derive (shF k) t (shF (S k) t).
Proof.
  unfold shF. rewrite Nat.even_succ, <- Nat.negb_even. destruct (Nat.even k); simpl;
  apply is_derive_Reals; [apply derivable_pt_lim_sinh|apply derivable_pt_lim_cosh].
Qed.
Lemma sinh_taylor x n : exists c, btw x c /\
  sinh x = rsum (fun k => (if Nat.even k then 0 else 1) * exp_term x k) n + exp_term x n * shF n c.
Proof.
  destruct (taylor_fam shF x n) as (c & B & E). { intros; apply shF_derive. }
  exists c. split; auto. change (shF 0 x) with (sinh x) in E. rewrite E. f_equal.
  - apply rsum_ext. intros. unfold exp_term, Rdiv, shF.
    destruct (Nat.even k); [rewrite sinh_0|rewrite cosh_0]; ring.
  - unfold exp_term, Rdiv. ring.
Qed.
Lemma cosh_Rabs x : cosh (Rabs x) = cosh x.
Proof. unfold Rabs. destruct (Rcase_abs x); auto. unfold cosh. rewrite Ropp_involutive. lra. Qed.
Lemma cosh_pos x : 1 <= cosh x.
Proof.
  assert (H : 0 < exp x) by apply exp_pos. unfold cosh. rewrite exp_Ropp.
  assert (exp x * / exp x = 1) by (apply Rinv_r; lra). pose proof (Rinv_0_lt_compat _ H).
  set (a := exp x) in *. set (b := / a) in *.
  assert (0 <= (a - 1) ^ 2 * b) by (apply Rmult_le_pos; [apply pow2_ge_0|lra]).
  replace ((a - 1) ^ 2 * b) with (a * (a * b) - 2 * (a * b) + b) in H2 by ring. rewrite H0 in H2. lra.
Qed.
Lemma sinh_pos x : 0 <= x -> 0 <= sinh x.
Proof. intros. unfold sinh. assert (exp (- x) <= exp x); [|lra]. destruct H; [left; apply exp_increasing; lra|subst; rewrite Ropp_0; lra]. Qed.
Lemma cosh_mono a b : 0 <= a <= b -> cosh a <= cosh b.
Proof.
  intros [H0 H]. destruct H as [L| ->]; [|lra].
  destruct (MVT_cor2 cosh sinh a b L) as (c & E & Hc). { intros; apply derivable_pt_lim_cosh. }
  assert (0 <= sinh c) by (apply sinh_pos; lra). nra.
Qed.
Lemma sinh_abs_cosh x : Rabs (sinh x) <= cosh x.
Proof.
  pose proof (exp_pos x). pose proof (exp_pos (- x)). unfold sinh, cosh. apply Rabs_le. lra.
Qed.
Lemma shF_bound n c : Rabs c <= / 2 -> Rabs (shF n c) <= cosh (/ 2).
Proof.
  intros H. apply Rle_trans with (cosh c).
  - unfold shF. destruct (Nat.even n); [apply sinh_abs_cosh|]. rewrite Rabs_pos_eq; [lra|]. pose proof (cosh_pos c). lra.
  - rewrite <- cosh_Rabs. apply cosh_mono. split; [apply Rabs_pos|auto].
Qed.

(* ln (1 + t): successive derivatives on t > -1 *)
Definition lnF (k : nat) (t : R) : R := match k with
  | O => ln (1 + t) | S j => (-1) ^ j * INR (fact j) / (1 + t) ^ S j end.
Lemma lnF_derive k t : -1 < t -> is_derive (lnF k) t (lnF (S k) t).
Proof.
  intros H. destruct k as [|j].
  - apply (is_derive_extR (fun t => ln (1 + t))); [reflexivity|]. apply is_derive_Reals.
    replace (lnF 1 t) with (/ (1 + t) * (0 + 1)) by (simpl; field; lra).
    apply (derivable_pt_lim_comp (fun t => 1 + t) ln).
    + apply derivable_pt_lim_plus; [apply derivable_pt_lim_const|apply derivable_pt_lim_id].
    + apply derivable_pt_lim_ln; lra.
  - apply (is_derive_extR (fun t => (-1) ^ j * INR (fact j) / (1 + t) ^ S j)); [reflexivity|].
    unfold lnF. auto_derive.
    + apply (pow_nonzero (1 + t) (S j)). lra.
    + change (match j with O => 1 | S _ => INR j + 1 end) with (INR (S j)).
      change (fact (S j)) with (S j * fact j)%nat. rewrite mult_INR. simpl pow.
      assert ((1 + t) ^ j <> 0) by (apply pow_nonzero; lra). field. split; auto; lra.
Qed.
Lemma ln_taylor x n : -1 < x -> (0 < n)%nat -> exists c, btw x c /\
  ln (1 + x) = rsum (fun k => match k with O => 0 | S j => (-1) ^ j * x ^ k / INR k end) n
    + (-1) ^ (n - 1) * (x / (1 + c)) ^ n / INR n.
Proof.
  intros Hx Hn. destruct (taylor_fam lnF x n) as (c & B & E).
  { intros k t B. apply lnF_derive. destruct B; lra. }
  assert (C : 0 < 1 + c) by (destruct B; lra).
  exists c. split; auto. change (lnF 0 x) with (ln (1 + x)) in E. rewrite E.
  assert (FA : forall j, INR (fact (S j)) = INR (S j) * INR (fact j)) by (intros; rewrite <- mult_INR; auto).
  f_equal.
  - apply rsum_ext. intros [|j] _.
    + simpl. rewrite Rplus_0_r, ln_1. field.
    + unfold lnF. rewrite Rplus_0_r, pow1, FA. field. split; [apply not_0_INR; lia|apply INR_fact_neq_0].
  - destruct n as [|j]; [lia|]. unfold lnF. rewrite FA. replace (S j - 1)%nat with j by lia.
    unfold Rdiv at 4. rewrite Rpow_mult_distr, pow_inv. field.
    repeat split; first [apply INR_fact_neq_0|apply pow_nonzero; lra|apply not_0_INR; lia].
Qed.

(* atan: alternating series; atS m x = sum_{j<m} (-1)^j x^(2j+1)/(2j+1) *)
Definition atS (m : nat) (x : R) : R := rsum (fun j => (-1) ^ j * x ^ (2 * j + 1) / INR (2 * j + 1)) m.
Lemma atS_derive m x : is_derive (atS m) x ((1 - (-1) ^ m * x ^ (2 * m)) / (1 + x ^ 2)).
Proof.
  assert (N : 1 + x ^ 2 <> 0) by nra. unfold atS. induction m.
  - simpl rsum. replace ((1 - (-1) ^ 0 * x ^ (2 * 0)) / (1 + x ^ 2)) with 0 by (simpl; field; nra).
    apply (is_derive_const (K := R_AbsRing) (V := R_NormedModule)).
  - cbn [rsum]. evar_last. { apply (is_derive_plus (K := R_AbsRing) (V := R_NormedModule)); [exact IHm|].
      instantiate (1 := (-1) ^ m * x ^ (2 * m)).
      assert (NI : INR (2 * m + 1) <> 0) by (apply not_0_INR; lia).
      evar_last. { apply (is_derive_extR (fun x => ((-1) ^ m / INR (2 * m + 1)) * x ^ (2 * m + 1))).
        { intros t. unfold Rdiv. ring. }
        apply is_derive_scal. apply is_derive_pow. apply (is_derive_id (K := R_AbsRing)). }
      unfold one; simpl. replace (Nat.pred (m + (m + 0) + 1)) with (m + (m + 0))%nat by lia.
      simpl in NI. field; auto. }
    unfold plus; simpl. replace (m + S (m + 0))%nat with (S (m + (m + 0))) by lia. simpl pow.
    simpl in N. field. lra.
Qed.
Lemma is_derive_atan x : is_derive atan x (/ (1 + x ^ 2)).
Proof. apply is_derive_Reals. evar_last. apply derivable_pt_lim_atan. reflexivity. Qed.
(* if |g'(t)| <= t^n on [0,x] and g 0 = 0 then |g x| <= x^(n+1)/(n+1) *)
Lemma deriv_bound g g' n x : 0 <= x -> g 0 = 0 -> (forall t, 0 <= t -> is_derive g t (g' t)) ->
  (forall t, 0 <= t -> Rabs (g' t) <= t ^ n) -> Rabs (g x) <= x ^ S n / INR (S n).
Proof.
  intros Hx G0 D B. destruct Hx as [Hx| <-]; [|rewrite G0, Rabs_R0; simpl pow; unfold Rdiv; lra].
  assert (NI : INR (S n) <> 0) by (apply not_0_INR; lia).
  assert (P : forall t, derivable_pt_lim (fun t => t ^ S n / INR (S n)) t (t ^ n)).
  { intros t. apply is_derive_Reals. auto_derive; auto.
    change (match n with O => 1 | S _ => INR n + 1 end) with (INR (S n)). field; auto. }
  apply Rabs_le. split.
  - destruct (MVT_cor2 (fun t => g t + t ^ S n / INR (S n)) (fun t => g' t + t ^ n) 0 x Hx) as (c & E & Hc).
    { intros c Hc. apply derivable_pt_lim_plus; auto. apply is_derive_Reals, D; lra. }
    rewrite G0 in E. simpl (0 ^ S n) in E. assert (L := B c ltac:(lra)). apply Rabs_bnd in L.
    assert (0 <= (g' c + c ^ n) * (x - 0)) by (apply Rmult_le_pos; lra). unfold Rdiv in *. lra.
  - destruct (MVT_cor2 (fun t => t ^ S n / INR (S n) - g t) (fun t => t ^ n - g' t) 0 x Hx) as (c & E & Hc).
    { intros c Hc. apply derivable_pt_lim_minus; auto. apply is_derive_Reals, D; lra. }
    rewrite G0 in E. simpl (0 ^ S n) in E. assert (L := B c ltac:(lra)). apply Rabs_bnd in L.
    assert (0 <= (c ^ n - g' c) * (x - 0)) by (apply Rmult_le_pos; lra). unfold Rdiv in *. lra.
Qed.
Lemma atan_bound m n x : (n = 2 * m \/ (n + 1 = 2 * m)%nat)%nat -> 0 <= x ->
  Rabs (atan x - atS m x) <= x ^ S n / INR (S n).
Proof.
  intros Hn Hx. 
  apply (deriv_bound (fun x => atan x - atS m x) (fun x => (-1) ^ m * x ^ (2 * m) / (1 + x ^ 2)) n); auto.
  - rewrite atan_0. assert (E : forall m, atS m 0 = 0); [|rewrite E; ring].
    intros k. unfold atS. induction k; cbn [rsum]; auto. rewrite IHk, pow_ne_zero by lia. unfold Rdiv; ring.
  - intros t _. evar_last. { apply (is_derive_minus (K := R_AbsRing) (V := R_NormedModule)); [apply is_derive_atan|apply atS_derive]. }
    unfold minus, plus, opp; simpl. field. nra.
  - intros t Ht. unfold Rdiv. rewrite !Rabs_mult, pow_1_abs, Rmult_1_l.
    assert (P : 0 < 1 + t ^ 2) by nra.
    rewrite (Rabs_pos_eq (t ^ (2 * m))) by (apply pow_le; auto).
    rewrite Rabs_pos_eq by (left; apply Rinv_0_lt_compat; auto).
    apply (Rmult_le_reg_r (1 + t ^ 2)); auto. rewrite Rmult_assoc, Rinv_l, Rmult_1_r by lra.
    destruct Hn as [->| Hn].
    + assert (0 <= t ^ (2 * m)) by (apply pow_le; auto). nra.
    + rewrite <- Hn, pow_add, pow_1. assert (0 <= t ^ n) by (apply pow_le; auto). apply Rmult_le_compat_l; [auto|nra].
Qed.

(* the loop of atan_origin stops with y = x^n and adds [-1,1]*x^n/n *)
Lemma atS_odd m x : atS m (- x) = - atS m x.
Proof.
  unfold atS. induction m; cbn [rsum]; [ring|]. rewrite IHm.
  replace ((- x) ^ (2 * m + 1)) with (- x ^ (2 * m + 1)); [unfold Rdiv; ring|].
  rewrite !pow_add, !pow_mult, !pow_1. replace ((- x) ^ 2) with (x ^ 2) by ring. ring.
Qed.
Lemma atan_rem m n x : (n = 2 * m + 1 \/ n = 2 * m)%nat -> (0 < n)%nat -> exists d, -1 <= d <= 1 /\
  atan x = atS m x + x ^ n * d / INR n.
Proof.
  intros Hn Pn. assert (NI : 0 < INR n) by (apply lt_0_INR; auto).
  assert (B : Rabs (atan x - atS m x) <= Rabs (x ^ n / INR n)).
  { destruct n as [|n]; [lia|]. unfold Rdiv. rewrite Rabs_mult, (Rabs_pos_eq (/ _)) by (left; apply Rinv_0_lt_compat; auto).
    rewrite <- RPow_abs. unfold Rabs at 2. destruct (Rcase_abs x).
    - replace (atan x - atS m x) with (- (atan (- x) - atS m (- x))) by (rewrite atan_opp, atS_odd; ring).
      rewrite Rabs_Ropp. apply atan_bound; [lia|lra].
    - apply atan_bound; [lia|lra]. }
  set (q := x ^ n / INR n) in *. destruct (Req_dec q 0) as [E|E].
  - exists 0. split; [lra|]. rewrite E, Rabs_R0 in B. apply Rabs_bnd in B. unfold Rdiv. rewrite Rmult_0_r, Rmult_0_l. lra.
  - exists ((atan x - atS m x) / q). split.
    + apply Rabs_bnd. unfold Rdiv. rewrite Rabs_mult, Rabs_inv. 
      apply (Rmult_le_reg_r (Rabs q)); [apply Rabs_pos_lt; auto|]. rewrite Rmult_assoc, Rinv_l, Rmult_1_r, Rmult_1_l; auto.
      apply Rabs_no_R0; auto.
    + replace (x ^ n * ((atan x - atS m x) / q) / INR n) with (q * ((atan x - atS m x) / q)) by (unfold q, Rdiv; ring).
      field; auto.
Qed.
