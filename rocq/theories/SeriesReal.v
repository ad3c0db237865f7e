(* Real analysis for kv/geoseries.hpp and kv/hypergeom.hpp: series of products of numbers in [l, u], and the Gauss
   hypergeometric series.  Nothing here refers to the model. *)
From Coq Require Import Reals Lra Lia Psatz.
From Coquelicot Require Import Coquelicot.
Open Scope R_scope.

(* r 0 * r 1 * ... * r (n-1) *)
Fixpoint rprod (r : nat -> R) (n : nat) : R := match n with O => 1 | S n => rprod r n * r n end.
Lemma rprod_S r n : rprod r (S n) = r O * rprod (fun i => r (S i)) n.
Proof. induction n; cbn [rprod] in *; [ring|]. rewrite IHn. ring. Qed.

Section Geo.
Variables (r : nat -> R) (rho : R).
Hypothesis Hrho : 0 <= rho < 1.
Hypothesis Hr : forall k, Rabs (r k) <= rho.

Lemma rprod_abs q : (forall k, Rabs (q k) <= rho) -> forall n, Rabs (rprod q n) <= rho ^ n.
Proof.
  intros H n. induction n; simpl. { rewrite Rabs_R1. lra. }
  rewrite Rabs_mult, Rmult_comm. apply Rmult_le_compat; auto using Rabs_pos.
Qed.
Lemma rprod_ex q : (forall k, Rabs (q k) <= rho) -> ex_series (rprod q).
Proof.
  intros H. apply @ex_series_le with (b := fun n => rho ^ n).
  - intros n. exact (rprod_abs q H n).
  - apply ex_series_geom. rewrite Rabs_pos_eq; lra.
Qed.
Definition tail k := Series (rprod (fun i => r (k + i)%nat)).
Lemma tail_ex k : ex_series (rprod (fun i => r (k + i)%nat)). Proof. apply rprod_ex. intros; apply Hr. Qed.
Lemma tail_step k : tail k = 1 + r k * tail (S k).
Proof.
  unfold tail. rewrite (Series_incr_1 _ (tail_ex k)). f_equal. rewrite <- Series_scal_l. apply Series_ext. intros n.
  rewrite rprod_S. rewrite Nat.add_0_r. f_equal. clear. induction n; cbn [rprod]; auto. rewrite IHn. f_equal. f_equal. lia.
Qed.
Lemma tail_bound k : Rabs (tail k) <= / (1 - rho).
Proof.
  unfold tail. rewrite <- (Series_geom rho) by (rewrite Rabs_pos_eq; lra).
  eapply Rle_trans; [apply Series_Rabs|].
  - apply @ex_series_le with (b := fun n => rho ^ n).
    + intros n. unfold norm; simpl. unfold abs; simpl. rewrite Rabs_Rabsolu. apply rprod_abs. intros; apply Hr.
    + apply ex_series_geom. rewrite Rabs_pos_eq; lra.
  - apply Series_le.
    + intros n. split; [apply Rabs_pos|]. apply rprod_abs. intros; apply Hr.
    + apply ex_series_geom. rewrite Rabs_pos_eq; lra.
Qed.

Variables (A B : R).
Hypothesis HAB : A <= B.
Hypothesis Hmap : forall k s, A <= s <= B -> A <= 1 + r k * s <= B.
Lemma tail_near M : 0 <= M -> (forall k, A - M <= tail k <= B + M) -> forall k, A - rho * M <= tail k <= B + rho * M.
Proof.
  intros HM H k. rewrite tail_step. specialize (H (S k)). set (t := tail (S k)) in *. pose proof (Hr k) as Rk. apply Rabs_le_between in Rk.
  destruct (Rle_dec t A) as [G|G].
  - pose proof (Hmap k A ltac:(lra)). assert (Rabs (r k * (t - A)) <= rho * M).
    { rewrite Rabs_mult. apply Rmult_le_compat; auto using Rabs_pos. rewrite Rabs_left1; lra. }
    apply Rabs_le_between in H1. nra.
  - destruct (Rle_dec B t) as [G'|G'].
    + pose proof (Hmap k B ltac:(lra)). assert (Rabs (r k * (t - B)) <= rho * M).
      { rewrite Rabs_mult. apply Rmult_le_compat; auto using Rabs_pos. rewrite Rabs_pos_eq; lra. }
      apply Rabs_le_between in H1. nra.
    + pose proof (Hmap k t ltac:(lra)). nra.
Qed.
Lemma tail_in k : A <= tail k <= B.
Proof.
  set (M0 := / (1 - rho) + Rabs A + Rabs B).
  assert (P0 : 0 <= / (1 - rho)) by (left; apply Rinv_0_lt_compat; lra).
  assert (M0p : 0 <= M0) by (unfold M0; pose proof (Rabs_pos A); pose proof (Rabs_pos B); lra).
  assert (I : forall n k, A - rho ^ n * M0 <= tail k <= B + rho ^ n * M0).
  { induction n; intros j.
    - simpl. rewrite Rmult_1_l. pose proof (tail_bound j) as T. apply Rabs_le_between in T.
      pose proof (Rle_abs A). pose proof (Rle_abs B). pose proof (Rle_abs (- A)). pose proof (Rle_abs (- B)). rewrite Rabs_Ropp in *. unfold M0. lra.
    - simpl pow. rewrite Rmult_assoc. apply tail_near; auto. apply Rmult_le_pos; auto. apply pow_le; lra. }
  assert (L : is_lim_seq (fun n => rho ^ n * M0) 0).
  { replace (Finite 0) with (Rbar_mult 0 M0) by (simpl; f_equal; ring). apply is_lim_seq_mult'; [|apply is_lim_seq_const].
    apply is_lim_seq_geom. rewrite Rabs_pos_eq; lra. }
  split.
  - assert (is_lim_seq (fun n => A - rho ^ n * M0) A).
    { replace (Finite A) with (Finite (A - 0)) by (f_equal; ring). apply is_lim_seq_minus'; auto. apply is_lim_seq_const. }
    exact (is_lim_seq_le _ (fun _ => tail k) A (tail k) (fun n => proj1 (I n k)) H (is_lim_seq_const _)).
  - assert (is_lim_seq (fun n => B + rho ^ n * M0) B).
    { replace (Finite B) with (Finite (B + 0)) by (f_equal; ring). apply is_lim_seq_plus'; auto. apply is_lim_seq_const. }
    exact (is_lim_seq_le (fun _ => tail k) _ (tail k) B (fun n => proj2 (I n k)) (is_lim_seq_const _) H).
Qed.
End Geo.

Lemma geo_sum (r : nat -> R) l u A B : -1 < l -> u < 1 -> (forall k, l <= r k <= u) -> A <= B ->
  (forall q s, l <= q <= u -> A <= s <= B -> A <= 1 + q * s <= B) -> exists s : R, is_series (rprod r) s /\ A <= s <= B.
Proof.
  intros L U H AB M. set (rho := Rmax (Rabs l) (Rabs u)).
  assert (LU : l <= u) by (specialize (H O); lra).
  assert (R1 : 0 <= rho < 1). { unfold rho. split. eapply Rle_trans; [apply Rabs_pos|apply Rmax_l]. apply Rmax_lub_lt; apply Rabs_lt_between; lra. }
  assert (R2 : forall k, Rabs (r k) <= rho).
  { intros k. specialize (H k). unfold rho. apply Rabs_le_between.
    pose proof (Rmax_l (Rabs l) (Rabs u)). pose proof (Rmax_r (Rabs l) (Rabs u)). pose proof (Rle_abs (- l)). pose proof (Rle_abs u). rewrite Rabs_Ropp in *. lra. }
  exists (tail r 0). split.
  - apply Series_correct. apply (tail_ex r rho R1 R2 0).
  - apply (tail_in r rho R1 R2 A B AB). intros k s. apply M. apply H.
Qed.

(* the three cases of geoseries *)
Lemma geo_pos (r : nat -> R) l u : 0 <= l -> u < 1 -> (forall k, l <= r k <= u) ->
  exists s : R, is_series (rprod r) s /\ / (1 - l) <= s <= / (1 - u).
Proof.
  intros L U H. assert (LU : l <= u) by (specialize (H O); lra).
  assert (I1 : (1 - l) * / (1 - l) = 1) by (field; lra). assert (I2 : (1 - u) * / (1 - u) = 1) by (field; lra).
  assert (P1 : 0 < / (1 - l)) by (apply Rinv_0_lt_compat; lra). assert (P2 : 0 < / (1 - u)) by (apply Rinv_0_lt_compat; lra).
  apply (geo_sum r l u); auto; try lra.
  - apply Rinv_le_contravar; lra.
  - intros q s Q S0. assert (l * / (1 - l) <= q * s) by (apply Rmult_le_compat; lra). assert (q * s <= u * / (1 - u)) by (apply Rmult_le_compat; lra). split; lra.
Qed.
Lemma geo_neg (r : nat -> R) l u : -1 < l -> u <= 0 -> (forall k, l <= r k <= u) ->
  exists s : R, is_series (rprod r) s /\ (1 + l) / (1 - l * u) <= s <= (1 + u) / (1 - l * u).
Proof.
  intros L U H. assert (LU : l <= u) by (specialize (H O); lra).
  assert (D : 0 < 1 - l * u) by nra. set (A := (1 + l) / (1 - l * u)). set (B := (1 + u) / (1 - l * u)).
  assert (EA : 1 + l * B = A) by (unfold A, B; field; lra). assert (EB : 1 + u * A = B) by (unfold A, B; field; lra).
  assert (PD : 0 < / (1 - l * u)) by now apply Rinv_0_lt_compat.
  assert (A0 : 0 < A) by (unfold A, Rdiv; nra). assert (AB : A <= B) by (unfold A, B, Rdiv; nra).
  apply (geo_sum r l u A B); auto; try lra.
  intros q s Q S0. split; nra.
Qed.
Lemma geo_mix (r : nat -> R) l u : -1 < l <= 0 -> 0 <= u < 1 -> (forall k, l <= r k <= u) ->
  exists s : R, is_series (rprod r) s /\ 1 + l / (1 - u) <= s <= / (1 - u).
Proof.
  intros L U H. assert (D : 0 < 1 - u) by lra. set (B := / (1 - u)). set (A := 1 + l / (1 - u)).
  assert (PD : 0 < B) by (unfold B; now apply Rinv_0_lt_compat).
  assert (EA : A = 1 + l * B) by reflexivity. assert (EB : 1 + u * B = B) by (unfold B; field; lra).
  assert (AB : A <= B) by nra.
  apply (geo_sum r l u A B); auto; try lra.
  intros q s Q S0. rewrite EA in *. clear EA A.
  assert (u * (1 + l * B) >= l * B) by nra.
  assert (l * (1 + l * B) <= u * B). { assert (l * l <= 1) by nra. assert (u = (B - 1) / B) by (field_simplify_eq; lra). nra. }
  split.
  - destruct (Rle_dec 0 s). { assert (l * B <= q * s) by nra. lra. }
    assert (q * s >= u * (1 + l * B)) by nra. lra.
  - destruct (Rle_dec 0 s). { assert (q * s <= u * B) by nra. lra. }
    assert (q * s <= l * (1 + l * B)) by nra. lra.
Qed.

(* the Gauss hypergeometric series *)
Fixpoint poch (a : R) (n : nat) : R := match n with O => 1 | S n => poch a n * (a + INR n) end.
Definition hterm (a b c z : R) (n : nat) : R := poch a n * poch b n / (poch c n * INR (fact n)) * z ^ n.
Lemma hterm_S a b c z n : c + INR n <> 0 -> hterm a b c z (S n) = hterm a b c z n * ((a + INR n) * (b + INR n) / (c + INR n) / (1 + INR n) * z).
Proof.
  intros C. destruct (Req_dec (poch c n) 0) as [E|E].
  - unfold hterm. cbn [poch]. rewrite E, !Rmult_0_l. unfold Rdiv. rewrite Rinv_0. ring.
  - unfold hterm. cbn [poch pow]. rewrite fact_simpl, mult_INR, S_INR.
    pose proof (INR_fact_neq_0 n). pose proof (pos_INR n). field. repeat split; auto; lra.
Qed.
Lemma hterm_ratio a b c z n q : (forall k, (n <= k)%nat -> c + INR k <> 0) ->
  (forall k, q k = (a + INR (n + k)) * (b + INR (n + k)) / (c + INR (n + k)) / (1 + INR (n + k)) * z) ->
  forall k, hterm a b c z (n + k) = hterm a b c z n * rprod q k.
Proof.
  intros H Q k. induction k. { rewrite Nat.add_0_r. simpl. ring. }
  rewrite Nat.add_succ_r. rewrite hterm_S by (apply H; lia). rewrite IHk. simpl. rewrite Q. ring.
Qed.
