(* Property theorems for kv/geoseries.hpp (C55), kv/hypergeom.hpp (C56) and kv/kkt.hpp (C63). *)
From Coq Require Import Reals Lra Lia ZArith Bool.
From Flocq Require Import Core BinarySingleNaN.
From Coquelicot Require Import Coquelicot.
From Verif Require Import Fp64 RDoubleHw Ext Scalar IntervalModel IntervalSpec IntervalProofs IntervalEncl Backends Ex64.
From Verif Require Import ElemModel ElemGen PropsElem SeriesModel SeriesReal SeriesProofs.
Open Scope R_scope.
Local Ltac qin := first [apply qiv_in|apply qivl_in|apply qivr_in]; [reflexivity|simpl; change (Z.pow_pos 2 1) with 2%Z; change (Z.pow_pos 2 2) with 4%Z; lra].

(* ---- C55 ---- *)
(* every series 1 + r 0 + r 0 r 1 + ... with all terms in I converges, and geoseries(I) contains its sum *)
Theorem C55_geoseries_encloses : forall b (I Q : iv (bscal b)) (r : nat -> R),
  (forall y, isin I y -> -1 < y < 1) -> (forall k, isin I (r k)) -> geoseries I = Ok Q ->
  exists s : R, is_series (rprod r) s /\ isin Q s.
Proof. intros b I Q r. exact (geoseries_encl (bok b) I Q r). Qed.
Print Assumptions C55_geoseries_encloses.
(* positive, negative and mixed intervals; the sequence alternates between two points *)
Lemma C55_in I : I = qiv 1 (-2) 1 (-1) \/ I = qiv (-3) (-2) (-1) (-2) \/ I = qiv (-1) (-1) 3 (-2) -> forall y, isin I y -> -1 < y < 1.
Proof. intros [-> | [-> | ->]] y (_ & _ & A & B); cbn [qiv lo hi] in A, B; rewrite qv in A, B by lia; simpl in A, B; unfold Z.pow_pos in A, B; simpl in A, B; lra. Qed.
Example C55_case : returns (geoseries (qiv 1 (-2) 1 (-1))) = true /\ returns (geoseries (qiv (-3) (-2) (-1) (-2))) = true /\
  returns (geoseries (qiv (-1) (-1) 3 (-2))) = true /\ forall k, isin (qiv (-1) (-1) 3 (-2)) (if Nat.even k then - / 4 else 2 / 3).
Proof.
  split; [vm_compute; reflexivity|]. split; [vm_compute; reflexivity|]. split; [vm_compute; reflexivity|].
  intros k. destruct (Nat.even k); qin.
Qed.

(* ---- C56 ---- *)
(* hterm a b c z n = (a)_n (b)_n / ((c)_n n!) z^n *)
Theorem C56_hypergeom_encloses : forall b fuel (A B C Z Q : iv (bscal b)) a b' c z,
  hypergeom _ fuel A B C Z = Ok Q -> isin A a -> isin B b' -> isin C c -> isin Z z ->
  (forall k, c + INR k <> 0) /\ exists s : R, is_series (hterm a b' c z) s /\ isin Q s.
Proof. intros b f A B C Z Q a b' c z. exact (hypergeom_encl (bok b) f A B C Z Q a b' c z). Qed.
Print Assumptions C56_hypergeom_encloses.
(* the terms are those of the Gauss series *)
Lemma hterm_unfold a b c z n : hterm a b c z n = poch a n * poch b n / (poch c n * INR (fact n)) * z ^ n.
Proof. reflexivity. Qed.
Example C56_case : returns (hypergeom _ 60 (qiv 1 (-1) 1 (-1)) (qiv 1 0 1 0) (qiv 3 (-1) 3 (-1)) (qiv 1 (-2) 1 (-2))) = true /\
  isin (qiv 1 (-1) 1 (-1)) (/ 2) /\ isin (qiv 1 0 1 0) 1 /\ isin (qiv 3 (-1) 3 (-1)) (3 / 2) /\ isin (qiv 1 (-2) 1 (-2)) (/ 4).
Proof. split; [vm_compute; reflexivity|]. split; [qin|split; [qin|split; qin]]. Qed.

(* ---- C63 ---- *)
Theorem C63_alpha_plus_encloses : forall b fuel (X Q : iv (bscal b)) x,
  alpha_plus _ (bpar b) fuel X = Ok Q -> isin X x -> isin Q (Rmax x 0 ^ 3).
Proof. intros b f X Q x. exact (alpha_plus_encl (bok b) (bpar b) (bexp b) (blog b) f X Q x). Qed.
Print Assumptions C63_alpha_plus_encloses.
Theorem C63_alpha_minus_encloses : forall b (X Q : iv (bscal b)) x,
  alpha_minus _ X = Ok Q -> isin X x -> isin Q (Rmax (- x) 0 ^ 3).
Proof. intros b X Q x. exact (alpha_minus_encl (bok b) X Q x). Qed.
Print Assumptions C63_alpha_minus_encloses.
(* the derivatives of max(x,0)^3 and max(-x,0)^3 *)
Lemma cube_plus_derive x : is_derive (fun x => Rmax x 0 ^ 3) x (3 * Rmax x 0 ^ 2).
Proof.
  destruct (total_order_T x 0) as [[N| ->]|P].
  - apply is_derive_ext_loc with (fun _ => 0).
    + exists (mkposreal (- x) ltac:(lra)). intros y Hy. unfold ball in Hy; simpl in Hy. unfold AbsRing_ball, abs, minus, plus, opp in Hy; simpl in Hy.
      apply Rabs_def2 in Hy. rewrite Rmax_right by lra. change (0 = 0 ^ 3). ring.
    + rewrite Rmax_right by lra. replace (3 * 0 ^ 2) with 0 by ring. auto_derive; auto.
  - rewrite Rmax_left by lra. replace (3 * 0 ^ 2) with 0 by ring.
    apply is_derive_Reals. intros eps He. exists (mkposreal (Rmin 1 eps) (Rmin_pos _ _ Rlt_0_1 He)). intros h Hh Hd. cbn [pos] in Hd.
    rewrite Rplus_0_l. rewrite (Rmax_left 0 0) by lra. replace ((Rmax h 0 ^ 3 - 0 ^ 3) / h - 0) with (Rmax h 0 ^ 3 / h) by (unfold Rdiv; ring).
    assert (D : Rabs (Rmax h 0 ^ 3 / h) <= Rabs h * Rabs h).
    { destruct (Rle_dec h 0).
      - rewrite Rmax_right by lra. replace (0 ^ 3 / h) with 0 by (field; auto). rewrite Rabs_R0. apply Rmult_le_pos; apply Rabs_pos.
      - rewrite Rmax_left by lra. replace (h ^ 3 / h) with (h * h) by (field; auto). rewrite Rabs_mult. lra. }
    pose proof (Rmin_l 1 eps). pose proof (Rmin_r 1 eps). pose proof (Rabs_pos h).
    assert (Rabs h * Rabs h <= Rabs h * 1) by (apply Rmult_le_compat_l; lra). lra.
  - apply is_derive_ext_loc with (fun y => y ^ 3).
    + exists (mkposreal x P). intros y Hy. unfold ball in Hy; simpl in Hy. unfold AbsRing_ball, abs, minus, plus, opp in Hy; simpl in Hy.
      apply Rabs_def2 in Hy. rewrite Rmax_left by lra. reflexivity.
    + rewrite Rmax_left by lra. auto_derive; auto. ring.
Qed.
Lemma cube_minus_derive x : is_derive (fun x => Rmax (- x) 0 ^ 3) x (-3 * Rmax (- x) 0 ^ 2).
Proof.
  evar_last. apply (is_derive_comp (fun x => Rmax x 0 ^ 3) Ropp x).
  - apply cube_plus_derive. - auto_derive; auto.
  - unfold Hierarchy.scal; simpl. unfold mult; simpl. ring.
Qed.
(* the derivative functions enclose the derivative *)
Theorem C63_alpha_plus_derivative : forall b fuel (X Q : iv (bscal b)) x d,
  alpha_plus_d _ (bpar b) fuel X = Ok Q -> isin X x -> is_derive (fun x => Rmax x 0 ^ 3) x d -> isin Q d.
Proof.
  intros b f X Q x d H HX D. rewrite <- (is_derive_unique _ _ _ D), (is_derive_unique _ _ _ (cube_plus_derive x)).
  exact (alpha_plus_d_encl (bok b) (bpar b) (bexp b) (blog b) f X Q x H HX).
Qed.
Print Assumptions C63_alpha_plus_derivative.
Theorem C63_alpha_minus_derivative : forall b (X Q : iv (bscal b)) x d,
  alpha_minus_d _ X = Ok Q -> isin X x -> is_derive (fun x => Rmax (- x) 0 ^ 3) x d -> isin Q d.
Proof.
  intros b X Q x d H HX D. rewrite <- (is_derive_unique _ _ _ D), (is_derive_unique _ _ _ (cube_minus_derive x)).
  exact (alpha_minus_d_encl (bok b) X Q x H HX).
Qed.
Print Assumptions C63_alpha_minus_derivative.
Example C63_case : returns (alpha_plus _ hw 60 (qiv (-1) 0 3 0)) = true /\ returns (alpha_plus _ hw 60 (qiv 1 0 3 0)) = true /\
  returns (alpha_plus_d _ hw 60 (qiv (-1) 0 3 0)) = true /\ returns (alpha_minus _ (qiv (-2) 0 3 0)) = true /\
  returns (alpha_minus_d _ (qiv (-2) 0 (-1) 0)) = true /\ isin (qiv (-1) 0 3 0) (5 / 2) /\ isin (qiv (-2) 0 3 0) (- 1).
Proof. do 5 (split; [vm_compute; reflexivity|]). split; qin. Qed.
