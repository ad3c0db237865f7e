(* Real analysis for power series arithmetic: polynomials given by coefficients, expansions at 0 up to an order, and the
   expansion of a composition. *)
From Coq Require Import Reals Lra Lia Psatz Arith.
From Coquelicot Require Import Coquelicot.
From Verif Require Import RealFun.
Open Scope R_scope.

(* the polynomial with coefficients c 0, ..., c (n-1) *)
Definition pe (c : nat -> R) (n : nat) (t : R) : R := rsum (fun i => c i * t ^ i) n.
(* c gives the first s coefficients of the expansion of f at 0 *)
Definition jet (s : nat) (f : R -> R) (c : nat -> R) : Prop :=
  exists M d, 0 < d /\ forall t, Rabs t < d -> Rabs (f t - pe c s t) <= M * Rabs t ^ s.
(* f is O(t^s) at 0 *)
Definition bigO (s : nat) (f : R -> R) : Prop := exists M d, 0 < d /\ forall t, Rabs t < d -> Rabs (f t) <= M * Rabs t ^ s.

Lemma rsum_plus f g n : rsum (fun k => f k + g k) n = rsum f n + rsum g n.
Proof. induction n; simpl; [lra|]. rewrite IHn. lra. Qed.
Lemma rsum_scal a f n : rsum (fun k => a * f k) n = a * rsum f n.
Proof. induction n; simpl; [lra|]. rewrite IHn. lra. Qed.
Lemma rsum_zero f n : (forall k, (k < n)%nat -> f k = 0) -> rsum f n = 0.
Proof. induction n; intros H; simpl; auto. rewrite IHn, H by (intros; try apply H; lia). lra. Qed.
Lemma rsum_split f n m : rsum f (n + m) = rsum f n + rsum (fun k => f (n + k)%nat) m.
Proof. induction m; simpl; [rewrite Nat.add_0_r; lra|]. rewrite Nat.add_succ_r. simpl. rewrite IHm. lra. Qed.
Lemma rsum_abs f n M : (forall k, (k < n)%nat -> Rabs (f k) <= M) -> Rabs (rsum f n) <= INR n * M.
Proof.
  induction n; intros H; [simpl; rewrite Rabs_R0; lra|]. rewrite S_INR. simpl rsum.
  eapply Rle_trans; [apply Rabs_triang|]. specialize (IHn (fun k Hk => H k (Nat.lt_lt_succ_r _ _ Hk))). specialize (H n (Nat.lt_succ_diag_r n)). lra.
Qed.
Lemma rsum_first f n : rsum f (S n) = f O + rsum (fun k => f (S k)) n.
Proof. change (S n) with (1 + n)%nat. rewrite rsum_split. simpl. lra. Qed.

Lemma pe_plus a b n t : pe (fun i => a i + b i) n t = pe a n t + pe b n t.
Proof. unfold pe. rewrite <- rsum_plus. apply rsum_ext. intros. ring. Qed.
Lemma pe_scal k a n t : pe (fun i => k * a i) n t = k * pe a n t.
Proof. unfold pe. rewrite <- rsum_scal. apply rsum_ext. intros. ring. Qed.
Lemma pe_ext a b n t : (forall i, (i < n)%nat -> a i = b i) -> pe a n t = pe b n t.
Proof. intros H. unfold pe. apply rsum_ext. intros. now rewrite H. Qed.
Lemma pe_S a n t : pe a (S n) t = a O + t * pe (fun i => a (S i)) n t.
Proof. unfold pe. rewrite rsum_first. simpl. rewrite Rmult_1_r. f_equal. rewrite <- rsum_scal. apply rsum_ext. intros. simpl. ring. Qed.
Lemma pe_last a n t : pe a (S n) t = pe a n t + a n * t ^ n. Proof. reflexivity. Qed.
Lemma pe_more a n m t : (forall i, (n <= i)%nat -> a i = 0) -> (n <= m)%nat -> pe a m t = pe a n t.
Proof.
  intros H L. replace m with (n + (m - n))%nat by lia. unfold pe. rewrite rsum_split. rewrite (rsum_zero (fun k => a (n + k)%nat * _)); [lra|].
  intros k _. rewrite H by lia. ring.
Qed.
Lemma pe_0 a n : pe a (S n) 0 = a O.
Proof. rewrite pe_S. ring. Qed.
Definition delta (c : R) (i : nat) : R := match i with O => c | _ => 0 end.
Lemma pe_delta c n t : (1 <= n)%nat -> pe (delta c) n t = c.
Proof. intros L. rewrite (pe_more _ 1); auto. unfold pe. simpl. ring. intros [|i] Hi; auto. lia. Qed.

(* product of two polynomials *)
Definition cv (a b : nat -> R) (k : nat) : R := rsum (fun j => a j * b (k - j)%nat) (S k).
Lemma pe_cv a b n t : pe (cv a b) n t = rsum (fun i => a i * t ^ i * pe b (n - i) t) n.
Proof.
  induction n; [reflexivity|]. rewrite pe_last, IHn.
  rewrite (rsum_ext (fun i => a i * t ^ i * pe b (S n - i) t) (fun i => a i * t ^ i * pe b (n - i) t + a i * b (n - i)%nat * t ^ n)).
  - rewrite rsum_plus. simpl. rewrite Nat.sub_diag. unfold pe at 3. simpl. unfold cv. simpl. rewrite Nat.sub_diag.
    rewrite Rmult_plus_distr_r, Rmult_comm, <- rsum_scal. rewrite (rsum_ext (fun i => a i * b (n - i)%nat * t ^ n) (fun k => t ^ n * (a k * b (n - k)%nat))) by (intros; ring). ring.
  - intros i Hi. replace (S n - i)%nat with (S (n - i)) by lia. rewrite pe_last.
    replace (t ^ n) with (t ^ i * t ^ (n - i)) by (rewrite <- pow_add; f_equal; lia). ring.
Qed.
Lemma pe_mul_exact a b s t : (forall i, (s <= i)%nat -> a i = 0) -> (forall i, (s <= i)%nat -> b i = 0) ->
  pe a s t * pe b s t = pe (cv a b) (s + s) t.
Proof.
  intros HA HB. rewrite pe_cv. rewrite rsum_split. rewrite (rsum_zero (fun k => a (s + k)%nat * _ * _)) by (intros; rewrite HA by lia; ring).
  rewrite Rplus_0_r. rewrite Rmult_comm. unfold pe at 2. rewrite <- rsum_scal. apply rsum_ext. intros i Hi.
  rewrite (pe_more b s (s + s - i)) by (auto; lia). ring.
Qed.

(* ---- expansions ---- *)
Lemma pow1_le x n : 0 <= x <= 1 -> 0 <= x ^ n <= 1.
Proof. intros H. split; [apply pow_le; lra|]. rewrite <- (pow1 n). apply pow_incr. lra. Qed.
Lemma pow_anti x n m : 0 <= x <= 1 -> (n <= m)%nat -> x ^ m <= x ^ n.
Proof.
  intros H L. replace m with (n + (m - n))%nat by lia. rewrite pow_add. pose proof (pow1_le x n H). pose proof (pow1_le x (m - n) H). nra.
Qed.
(* radius at most 1 and constant nonnegative *)
Lemma bigO_norm s f : bigO s f -> exists M d, 0 <= M /\ 0 < d <= 1 /\ forall t, Rabs t < d -> Rabs (f t) <= M * Rabs t ^ s.
Proof.
  intros (M & d & Hd & H). exists (Rabs M), (Rmin d 1). split; [apply Rabs_pos|].
  split; [split; [apply Rmin_glb_lt; lra|apply Rmin_r]|]. intros t Ht.
  assert (A : Rabs t < d) by (eapply Rlt_le_trans; [apply Ht|apply Rmin_l]). eapply Rle_trans; [apply H; auto|].
  apply Rmult_le_compat_r; [apply pow_le, Rabs_pos|apply Rle_abs].
Qed.
Lemma bigO_ext s f g d : 0 < d -> (forall t, Rabs t < d -> f t = g t) -> bigO s f -> bigO s g.
Proof.
  intros Hd E (M & d' & Hd' & H). exists M, (Rmin d d'). split; [apply Rmin_glb_lt; auto|]. intros t Ht.
  rewrite <- E by (eapply Rlt_le_trans; [apply Ht|apply Rmin_l]). apply H. eapply Rlt_le_trans; [apply Ht|apply Rmin_r].
Qed.
Lemma bigO_plus s f g : bigO s f -> bigO s g -> bigO s (fun t => f t + g t).
Proof.
  intros (M & d & Hd & H) (M' & d' & Hd' & H'). exists (M + M'), (Rmin d d'). split; [apply Rmin_glb_lt; auto|]. intros t Ht.
  eapply Rle_trans; [apply Rabs_triang|]. rewrite Rmult_plus_distr_r. apply Rplus_le_compat; [apply H|apply H'];
  (eapply Rlt_le_trans; [apply Ht|]); [apply Rmin_l|apply Rmin_r].
Qed.
Lemma bigO_mult s s' f g : bigO s f -> bigO s' g -> bigO (s + s') (fun t => f t * g t).
Proof.
  intros (M & d & Hd & H) (M' & d' & Hd' & H'). exists (M * M'), (Rmin d d'). split; [apply Rmin_glb_lt; auto|]. intros t Ht.
  rewrite Rabs_mult, pow_add. replace (M * M' * (Rabs t ^ s * Rabs t ^ s')) with ((M * Rabs t ^ s) * (M' * Rabs t ^ s')) by ring.
  apply Rmult_le_compat; try apply Rabs_pos; [apply H|apply H']; (eapply Rlt_le_trans; [apply Ht|]); [apply Rmin_l|apply Rmin_r].
Qed.
Lemma bigO_weak s s' f : (s' <= s)%nat -> bigO s f -> bigO s' f.
Proof.
  intros L H. apply bigO_norm in H as (M & d & HM & Hd & H). exists M, d. split; [lra|]. intros t Ht.
  eapply Rle_trans; [apply H; auto|]. apply Rmult_le_compat_l; auto. apply pow_anti; auto. split; [apply Rabs_pos|lra].
Qed.
Lemma bigO_scal s k f : bigO s f -> bigO s (fun t => k * f t).
Proof.
  intros (M & d & Hd & H). exists (Rabs k * M), d. split; auto. intros t Ht. rewrite Rabs_mult, Rmult_assoc. apply Rmult_le_compat_l; [apply Rabs_pos|auto].
Qed.
Lemma bigO_pow_id i : bigO i (fun t => t ^ i).
Proof. exists 1, 1. split; [lra|]. intros t _. rewrite <- RPow_abs. lra. Qed.
Lemma bigO_const k : bigO 0 (fun _ => k).
Proof. exists (Rabs k), 1. split; [lra|]. intros t _. simpl. lra. Qed.
Lemma bigO_zero s : bigO s (fun _ => 0).
Proof. exists 0, 1. split; [lra|]. intros t _. rewrite Rabs_R0. lra. Qed.
Lemma bigO_rsum s (f : nat -> R -> R) n : (forall k, (k < n)%nat -> bigO s (f k)) -> bigO s (fun t => rsum (fun k => f k t) n).
Proof.
  induction n; intros H; simpl; [apply bigO_zero|]. apply bigO_plus; [apply IHn; auto|apply H; lia].
Qed.
Lemma bigO_pe a n : bigO 0 (pe a n).
Proof.
  unfold pe. apply (bigO_rsum 0 (fun k t => a k * t ^ k)). intros k _. apply bigO_scal, (bigO_weak k); [lia|]. apply bigO_pow_id.
Qed.
Lemma bigO_pow s f n : bigO s f -> bigO (n * s) (fun t => f t ^ n).
Proof.
  intros H. induction n; simpl; [apply (bigO_const 1)|]. apply bigO_mult; auto.
Qed.
(* high part of a polynomial *)
Lemma bigO_pe_diff b n m : (m <= n)%nat -> bigO m (fun t => pe b n t - pe b m t).
Proof.
  intros L. apply (bigO_ext m (fun t => rsum (fun k => b (m + k)%nat * t ^ (m + k)) (n - m)) _ 1); [lra| |].
  - intros t _. replace n with (m + (n - m))%nat at 2 by lia. unfold pe. rewrite rsum_split. ring.
  - apply (bigO_rsum m (fun k t => b (m + k)%nat * t ^ (m + k))). intros k _. apply bigO_scal, (bigO_weak (m + k)); [lia|]. apply bigO_pow_id.
Qed.

Lemma jet_bigO s f c : jet s f c <-> bigO s (fun t => f t - pe c s t). Proof. reflexivity. Qed.
Lemma jet_ext s f g c d : 0 < d -> (forall t, Rabs t < d -> f t = g t) -> jet s f c -> jet s g c.
Proof. intros Hd E. rewrite !jet_bigO. apply (bigO_ext _ _ _ d Hd). intros t Ht. now rewrite E. Qed.
Lemma jet_bound s f c : jet s f c -> bigO 0 f.
Proof.
  intros H. apply (bigO_ext 0 (fun t => (f t - pe c s t) + pe c s t) _ 1); [lra|intros; ring|].
  apply bigO_plus; [apply (bigO_weak s); [lia|exact H]|apply bigO_pe].
Qed.
Lemma jet_add s f g a b : jet s f a -> jet s g b -> jet s (fun t => f t + g t) (fun i => a i + b i).
Proof.
  rewrite !jet_bigO. intros H H'. apply (bigO_ext s (fun t => (f t - pe a s t) + (g t - pe b s t)) _ 1); [lra|intros; rewrite pe_plus; ring|].
  now apply bigO_plus.
Qed.
Lemma jet_scal s k f a : jet s f a -> jet s (fun t => k * f t) (fun i => k * a i).
Proof.
  rewrite !jet_bigO. intros H. apply (bigO_ext s (fun t => k * (f t - pe a s t)) _ 1); [lra|intros; rewrite pe_scal; ring|].
  now apply bigO_scal.
Qed.
Lemma jet_coef s f a b : (forall i, (i < s)%nat -> a i = b i) -> jet s f a -> jet s f b.
Proof. intros E. rewrite !jet_bigO. apply (bigO_ext _ _ _ 1); [lra|]. intros. now rewrite (pe_ext a b). Qed.
Lemma jet_cst s c : (1 <= s)%nat -> jet s (fun _ => c) (delta c).
Proof. intros L. rewrite jet_bigO. apply (bigO_ext s (fun _ => 0) _ 1); [lra|intros; rewrite pe_delta by auto; ring|]. apply bigO_zero. Qed.
Lemma jet_plusO s f g c : jet s f c -> bigO s g -> jet s (fun t => f t + g t) c.
Proof.
  rewrite !jet_bigO. intros H H'. apply (bigO_ext s (fun t => (f t - pe c s t) + g t) _ 1); [lra|intros; ring|]. now apply bigO_plus.
Qed.
Lemma jet_mul s f g a b : jet s f a -> jet s g b -> jet s (fun t => f t * g t) (cv a b).
Proof.
  intros H H'. pose proof (jet_bound _ _ _ H') as Bg. rewrite jet_bigO in *.
  apply (bigO_ext s (fun t => (f t - pe a s t) * g t + (pe a s t * (g t - pe b s t) + rsum (fun i => a i * t ^ i * (pe b s t - pe b (s - i) t)) s)) _ 1); [lra| |].
  - intros t _. rewrite pe_cv.
    rewrite (rsum_ext (fun i => a i * t ^ i * (pe b s t - pe b (s - i) t)) (fun i => pe b s t * (a i * t ^ i) + -1 * (a i * t ^ i * pe b (s - i) t))) by (intros; ring).
    rewrite rsum_plus, !rsum_scal. fold (pe a s t). ring.
  - apply bigO_plus; [|apply bigO_plus].
    + replace s with (s + 0)%nat at 1 by lia. now apply bigO_mult.
    + change s with (0 + s)%nat at 1. apply bigO_mult; auto. apply bigO_pe.
    + apply (bigO_rsum s (fun i t => a i * t ^ i * (pe b s t - pe b (s - i) t))). intros i Hi.
      replace s with (i + (s - i))%nat at 1 by lia. apply bigO_mult; [apply bigO_scal, bigO_pow_id|]. apply bigO_pe_diff. lia.
Qed.
(* deviation from the constant term: small, and its power of order len is O(t^s) *)
Lemma jet_dev s f c : (1 <= s)%nat -> jet s f c -> bigO 1 (fun t => f t - c O).
Proof.
  intros L H. rewrite jet_bigO in H. apply (bigO_ext 1 (fun t => (f t - pe c s t) + (pe c s t - pe c 1 t)) _ 1); [lra| |].
  - intros t _. unfold pe at 3. simpl. ring.
  - apply bigO_plus; [now apply (bigO_weak s)|now apply bigO_pe_diff].
Qed.
Lemma jet_dev0 s f c : (forall i, (1 <= i)%nat -> c i = 0) -> (1 <= s)%nat -> jet s f c -> bigO s (fun t => f t - c O).
Proof.
  intros Z L H. rewrite jet_bigO in H. revert H. apply (bigO_ext _ _ _ 1); [lra|]. intros t _. rewrite (pe_more c 1) by auto. unfold pe. simpl. ring.
Qed.
Lemma bigO_small s f e : (1 <= s)%nat -> bigO s f -> 0 < e -> exists d, 0 < d /\ forall t, Rabs t < d -> Rabs (f t) < e.
Proof.
  intros L H He. apply (bigO_weak s 1) in H; auto. apply bigO_norm in H as (M & d & HM & Hd & H). exists (Rmin d (e / (M + 1))).
  assert (0 < e / (M + 1)) by (apply Rdiv_lt_0_compat; lra).
  split; [apply Rmin_glb_lt; lra|]. intros t Ht. eapply Rle_lt_trans; [apply H; eapply Rlt_le_trans; [apply Ht|apply Rmin_l]|].
  rewrite pow_1. assert (Rabs t < e / (M + 1)) by (eapply Rlt_le_trans; [apply Ht|apply Rmin_r]). pose proof (Rabs_pos t).
  apply Rle_lt_trans with (M * (e / (M + 1))); [apply Rmult_le_compat_l; lra|].
  replace (M * (e / (M + 1))) with (e - e / (M + 1)) by (field; lra). lra.
Qed.

(* ---- successive derivatives F k of F 0 around c ---- *)
Definition family (F : nat -> R -> R) (dom : R -> Prop) : Prop := forall k y, dom y -> is_derive (F k) y (F (S k) y).
Definition mix (c y z : R) : Prop := (c <= z <= y) \/ (y <= z <= c).
Lemma taylor_at (F : nat -> R -> R) (dom : R -> Prop) c y n : family F dom -> (forall z, mix c y z -> dom z) ->
  exists z, mix c y z /\ F O y = rsum (fun k => F k c / INR (fact k) * (y - c) ^ k) n + F n z / INR (fact n) * (y - c) ^ n.
Proof.
  intros FM HD. destruct (taylor_fam (fun k u => F k (c + u)) (y - c) n) as (u & Bu & E).
  - intros k u Hu. evar_last. { apply (is_derive_comp (F k) (fun u => c + u)); [apply FM; apply HD; unfold mix; destruct Hu; lra|].
      auto_derive; auto. }
    unfold Hierarchy.scal; simpl. unfold mult; simpl. ring.
  - exists (c + u). split; [unfold mix; destruct Bu; lra|]. replace (c + (y - c)) with y in E by ring. rewrite E. f_equal.
    + apply rsum_ext. intros. rewrite Rplus_0_r. unfold Rdiv. ring.
    + unfold Rdiv. ring.
Qed.
(* f(x(t)) - sum is O(t^s) *)
Lemma comp_bigO (F : nat -> R -> R) (dom : R -> Prop) c (x : R -> R) n s : family F dom -> locally c dom -> bigO 1 (fun t => x t - c) ->
  bigO s (fun t => (x t - c) ^ n) -> bigO s (fun t => F O (x t) - rsum (fun k => F k c / INR (fact k) * (x t - c) ^ k) n).
Proof.
  intros FM [e He] B1 Bs.
  assert (CF : continuous (F n) c). { apply (ex_derive_continuous (F n)). exists (F (S n) c). apply FM. apply He. apply ball_center. }
  destruct (CF (ball (F n c) (mkposreal 1 Rlt_0_1))) as [e' He']. { exists (mkposreal 1 Rlt_0_1). auto. }
  destruct (bigO_small 1 _ (Rmin e e') (le_n _) B1) as (d & Hd & Sm). { apply Rmin_glb_lt; [apply e|apply e']. }
  assert (K : forall t, Rabs t < d -> exists z, Rabs (F n z) <= Rabs (F n c) + 1 /\
    F O (x t) - rsum (fun k => F k c / INR (fact k) * (x t - c) ^ k) n = F n z / INR (fact n) * (x t - c) ^ n).
  { intros t Ht. specialize (Sm t Ht).
    assert (BT : forall z, mix c (x t) z -> Rabs (z - c) < Rmin e e').
    { intros z Hz. eapply Rle_lt_trans; [|apply Sm]. unfold mix in Hz. unfold Rabs. destruct (Rcase_abs (z - c)), (Rcase_abs (x t - c)); lra. }
    destruct (taylor_at F dom c (x t) n FM) as (z & Hz & E).
    - intros z Hz. apply He. change (Rabs (z - c) < e). eapply Rlt_le_trans; [apply BT; auto|apply Rmin_l].
    - exists z. split; [|rewrite E; ring]. assert (A : ball (F n c) 1 (F n z)).
      { apply (He' z). change (Rabs (z - c) < e'). eapply Rlt_le_trans; [apply BT; auto|apply Rmin_r]. }
      change (Rabs (F n z - F n c) < 1) in A. replace (F n z) with ((F n z - F n c) + F n c) by ring. eapply Rle_trans; [apply Rabs_triang|]. lra. }
  destruct Bs as (M & d' & Hd' & HM). exists ((Rabs (F n c) + 1) / INR (fact n) * M), (Rmin d d'). split; [apply Rmin_glb_lt; auto|].
  intros t Ht. destruct (K t) as (z & Bz & ->). { eapply Rlt_le_trans; [apply Ht|apply Rmin_l]. }
  rewrite Rabs_mult, Rmult_assoc. pose proof (INR_fact_lt_0 n) as Pf. apply Rmult_le_compat; try apply Rabs_pos.
  - unfold Rdiv. rewrite Rabs_mult, Rabs_inv, (Rabs_pos_eq (INR _)) by lra. apply Rmult_le_compat_r; auto. left. now apply Rinv_0_lt_compat.
  - apply HM. eapply Rlt_le_trans; [apply Ht|apply Rmin_r].
Qed.

(* ---- successive derivatives of the functions with a Taylor loop ---- *)
Lemma fam_exp : family (fun _ => exp) (fun _ => True).
Proof. intros k y _. apply is_derive_Reals, derivable_pt_lim_exp. Qed.
Lemma fam_sin : family sinF (fun _ => True).
Proof. intros k y _. apply sinF_derive. Qed.
Lemma fam_cos : family cosF (fun _ => True).
Proof. intros k y _. apply (sinF_derive (S k)). Qed.
Lemma fam_sinh : family shF (fun _ => True).
Proof. intros k y _. apply shF_derive. Qed.
Lemma fam_cosh : family (fun k => shF (S k)) (fun _ => True).
Proof. intros k y _. apply shF_derive. Qed.
Definition invF (k : nat) (y : R) : R := (-1) ^ k * INR (fact k) / y ^ S k.
Lemma fam_inv : family invF (fun y => y <> 0).
Proof.
  intros k y Hy. unfold invF. assert (P : forall n, y ^ n <> 0) by (intros; now apply pow_nonzero).
  evar_last. { apply (is_derive_ext (fun t => (-1) ^ k * INR (fact k) * / t ^ S k)); [intros; reflexivity|]. apply is_derive_scal.
    apply is_derive_inv; [|apply P]. apply is_derive_pow. apply is_derive_id. }
  rewrite (fact_simpl (k)), mult_INR. simpl pred. unfold one; simpl Hierarchy.AbelianGroup.sort. unfold Hierarchy.scal; simpl. unfold mult; simpl. field. auto.
Qed.
Definition logF (k : nat) (y : R) : R := match k with O => ln y | S k => invF k y end.
Lemma fam_log : family logF (fun y => 0 < y).
Proof.
  intros [|k] y Hy.
  - simpl. replace (invF 0 y) with (/ y) by (unfold invF; simpl; field; lra). apply is_derive_Reals. now apply derivable_pt_lim_ln.
  - simpl. apply fam_inv. lra.
Qed.
Fixpoint bj (k : nat) : R := match k with O => 1 | S k => bj k * (1 / 2 - INR k) end.
Definition sqrtF (k : nat) (y : R) : R := bj k * sqrt y / y ^ k.
Lemma fam_sqrt : family sqrtF (fun y => 0 < y).
Proof.
  intros k y Hy. unfold sqrtF. assert (P : forall n, y ^ n <> 0) by (intros; apply pow_nonzero; lra).
  assert (SQ : sqrt y <> 0) by (apply Rgt_not_eq; now apply sqrt_lt_R0).
  evar_last. { apply (is_derive_ext (fun t => bj k * (sqrt t * / t ^ k))); [intros t; unfold Rdiv; symmetry; apply Rmult_assoc|]. apply is_derive_scal.
    apply (is_derive_mult sqrt (fun t => / t ^ k)); [apply is_derive_Reals, derivable_pt_lim_sqrt, Hy| |intros; apply Rmult_comm].
    apply is_derive_inv; [|apply P]. apply is_derive_pow. apply is_derive_id. }
  simpl bj. unfold plus, one, mult; simpl.
  assert (Y2 : sqrt y * sqrt y = y) by (apply sqrt_sqrt; lra).
  assert (HI : / (2 * sqrt y) = sqrt y / (2 * y)). { transitivity (sqrt y / (2 * (sqrt y * sqrt y))); [field; auto|now rewrite Y2]. }
  rewrite HI. destruct k.
  - simpl. field. lra.
  - replace (Init.Nat.pred (S k)) with k by reflexivity. rewrite S_INR. simpl pow. field. split; [apply P|lra].
Qed.
Lemma invF_0 y : invF 0 y = / y. Proof. unfold invF. simpl. unfold Rdiv. rewrite !Rmult_1_l. now rewrite Rmult_1_r. Qed.
Lemma open_neq c : c <> 0 -> locally c (fun y => y <> 0).
Proof.
  intros H. exists (mkposreal (Rabs c) (Rabs_pos_lt c H)). intros y Hy ->. change (Rabs (0 - c) < Rabs c) in Hy. rewrite Rabs_minus_sym in Hy.
  replace (c - 0) with c in Hy by ring. lra.
Qed.
Lemma open_pos c : 0 < c -> locally c (fun y => 0 < y).
Proof. intros H. exists (mkposreal c H). intros y Hy. change (Rabs (y - c) < c) in Hy. apply Rabs_def2 in Hy. lra. Qed.
Lemma locally_True (c : R) : locally c (fun _ => True).
Proof. exists (mkposreal 1 Rlt_0_1). auto. Qed.
(* ---- integration and composition of expansions ---- *)
Definition icoef (v : R) (c : nat -> R) (i : nat) : R := match i with O => v | S i => c i / INR (S i) end.
Lemma pe_icoef_derive v c s u : is_derive (pe (icoef v c) (S s)) u (pe c s u).
Proof.
  induction s.
  - apply (is_derive_ext (fun _ => v)); [intros; unfold pe; simpl; ring|]. unfold pe. simpl. apply (is_derive_const v u).
  - apply (is_derive_ext (fun t => pe (icoef v c) (S s) t + icoef v c (S s) * t ^ S s)); [intros; symmetry; apply pe_last|].
    rewrite pe_last. apply (is_derive_plus (pe (icoef v c) (S s)) (fun t => icoef v c (S s) * t ^ S s)); auto.
    evar_last. { apply is_derive_scal. apply is_derive_pow. apply is_derive_id. }
    cbn [icoef Init.Nat.pred]. unfold one; simpl. pose proof (not_0_INR (S s) ltac:(lia)) as N. simpl in N. field. exact N.
Qed.
Lemma jet_int s F G c : jet s G c -> (exists d, 0 < d /\ forall u, Rabs u < d -> derivable_pt_lim F u (G u)) -> jet (S s) F (icoef (F 0) c).
Proof.
  intros J (d & Hd & HF). rewrite jet_bigO in *. apply bigO_norm in J as (M & d' & HM & Hd' & J).
  exists M, (Rmin d d'). split; [apply Rmin_glb_lt; lra|]. intros u Hu.
  assert (U1 : Rabs u < d) by (eapply Rlt_le_trans; [apply Hu|apply Rmin_l]). assert (U2 : Rabs u < d') by (eapply Rlt_le_trans; [apply Hu|apply Rmin_r]).
  assert (BT : forall z, Rmin 0 u <= z <= Rmax 0 u -> Rabs z <= Rabs u).
  { intros z. unfold Rmin, Rmax. destruct (Rle_dec 0 u); intros Hz; [rewrite !Rabs_pos_eq by lra; lra|rewrite !Rabs_left1 by lra; lra]. }
  assert (DE : forall z, Rmin 0 u <= z <= Rmax 0 u -> is_derive (fun u => F u - pe (icoef (F 0) c) (S s) u) z (G z - pe c s z)).
  { intros z Hz. apply (is_derive_minus F (pe (icoef (F 0) c) (S s))); [|apply pe_icoef_derive]. apply is_derive_Reals. apply HF. eapply Rle_lt_trans; [apply BT, Hz|auto]. }
  destruct (MVT_gen (fun u => F u - pe (icoef (F 0) c) (S s) u) 0 u (fun z => G z - pe c s z)) as (xi & Hx & E).
  - intros z Hz. apply DE. lra.
  - intros z Hz. apply continuity_pt_filterlim. apply (ex_derive_continuous (fun u => F u - pe (icoef (F 0) c) (S s) u)). eexists. apply DE, Hz.
  - rewrite pe_0 in E. simpl icoef in E at 2. replace (F u - pe (icoef (F 0) c) (S s) u) with ((G xi - pe c s xi) * (u - 0)) by lra.
    rewrite Rabs_mult. replace (u - 0) with u by ring. simpl. rewrite (Rmult_comm (Rabs u)), <- Rmult_assoc. apply Rmult_le_compat_r; [apply Rabs_pos|].
    pose proof (BT xi Hx) as BX. eapply Rle_trans; [apply J; lra|]. apply Rmult_le_compat_l; auto. apply pow_incr. split; [apply Rabs_pos|auto].
Qed.
Lemma jet_comp n s (F : R -> R) c c0 x : jet n (fun u => F (c0 + u)) c -> bigO 1 (fun t => x t - c0) -> bigO s (fun t => (x t - c0) ^ n) ->
  bigO s (fun t => F (x t) - pe c n (x t - c0)).
Proof.
  intros J B1 (M' & d' & Hd' & Bs). rewrite jet_bigO in J. apply bigO_norm in J as (M & d & HM & Hd & J).
  destruct (bigO_small 1 _ d (le_n _) B1 ltac:(lra)) as (e & He & Sm). exists (M * M'), (Rmin e d'). split; [apply Rmin_glb_lt; auto|].
  intros t Ht. assert (T1 : Rabs t < e) by (eapply Rlt_le_trans; [apply Ht|apply Rmin_l]). assert (T2 : Rabs t < d') by (eapply Rlt_le_trans; [apply Ht|apply Rmin_r]).
  specialize (J (x t - c0) (Sm t T1)). replace (c0 + (x t - c0)) with (x t) in J by ring. eapply Rle_trans; [apply J|]. rewrite Rmult_assoc. apply Rmult_le_compat_l; auto.
  rewrite RPow_abs. auto.
Qed.
