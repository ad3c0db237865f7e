(* Improper integrals at the left end with a nonnegative weight whose moments have known primitives; the weights t^q and -ln t. *)
From Coq Require Import Reals List Lra Lia Psatz Arith.
From Coquelicot Require Import Coquelicot.
From Verif Require Import RealFun PsaReal PsaInt.
Open Scope R_scope.

(* the integral of f from a to b, with a limit at a *)
Definition improper (f : R -> R) (a b v : R) : Prop :=
  forall eps, 0 < eps -> exists d, 0 < d /\ forall x, a < x < a + d -> x <= b -> exists w, is_RInt f x b w /\ Rabs (w - v) < eps.
Lemma improper_unique f a b v v' : a < b -> improper f a b v -> improper f a b v' -> v = v'.
Proof.
  intros H I I'. destruct (Req_dec v v') as [|N]; auto. exfalso. set (e := Rabs (v - v') / 2). assert (E : 0 < e) by (unfold e; assert (0 < Rabs (v - v')) by (apply Rabs_pos_lt; lra); lra).
  destruct (I e E) as (d & Hd & A). destruct (I' e E) as (d' & Hd' & A').
  set (x := a + Rmin (b - a) (Rmin d d') / 2). assert (X : 0 < Rmin (b - a) (Rmin d d')) by (repeat apply Rmin_glb_lt; lra).
  pose proof (Rmin_l (b - a) (Rmin d d')). pose proof (Rmin_r (b - a) (Rmin d d')). pose proof (Rmin_l d d'). pose proof (Rmin_r d d').
  destruct (A x) as (w & Iw & Lw); try (unfold x; lra). destruct (A' x) as (w' & Iw' & Lw'); try (unfold x; lra).
  assert (w = w') by (rewrite <- (is_RInt_unique _ _ _ _ Iw); apply is_RInt_unique; auto). subst w'.
  pose proof (Rabs_triang (v - w) (w - v')) as T. replace (v - w + (w - v')) with (v - v') in T by ring. rewrite (Rabs_minus_sym v w) in T. unfold e in *. lra.
Qed.
Lemma improper_ext f g a b v : (forall t, a < t <= b -> f t = g t) -> improper f a b v -> improper g a b v.
Proof.
  intros E I eps Heps. destruct (I eps Heps) as (d & Hd & A). exists d. split; auto. intros x Hx Hb. destruct (A x Hx Hb) as (w & Iw & L). exists w. split; auto.
  apply (is_RInt_ext f); auto. intros t Ht. rewrite Rmin_left, Rmax_right in Ht by lra. apply E. lra.
Qed.
Lemma improper_shift f a b v c : improper f a b v -> improper (fun t => f (t - c)) (a + c) (b + c) v.
Proof.
  intros I eps Heps. destruct (I eps Heps) as (d & Hd & A). exists d. split; auto. intros x Hx Hb. destruct (A (x - c)) as (w & Iw & L); try lra. exists w. split; auto.
  apply (is_RInt_ext (fun t => scal 1 (f (1 * t + - c)))). { intros t _. unfold scal; simpl; unfold mult; simpl. rewrite !Rmult_1_l. reflexivity. }
  apply (is_RInt_comp_lin f 1 (- c)). replace (1 * x + - c) with (x - c) by ring. replace (1 * (b + c) + - c) with b by ring. exact Iw.
Qed.
Lemma improper_plus f g a b u v : improper f a b u -> improper g a b v -> improper (fun t => f t + g t) a b (u + v).
Proof.
  intros I I' eps Heps. destruct (I (eps / 2)) as (d & Hd & A); [lra|]. destruct (I' (eps / 2)) as (d' & Hd' & A'); [lra|].
  exists (Rmin d d'). split; [apply Rmin_glb_lt; auto|]. intros x Hx Hb. pose proof (Rmin_l d d'). pose proof (Rmin_r d d').
  destruct (A x) as (w & Iw & Lw); try lra. destruct (A' x) as (w' & Iw' & Lw'); try lra. exists (w + w'). split; [exact (is_RInt_plus f g x b w w' Iw Iw')|].
  replace (w + w' - (u + v)) with ((w - u) + (w' - v)) by ring. pose proof (Rabs_triang (w - u) (w' - v)). lra.
Qed.
Lemma improper_scal f a b v k : improper f a b v -> improper (fun t => k * f t) a b (k * v).
Proof.
  intros I eps Heps. set (e := eps / (Rabs k + 1)). assert (K : 0 < Rabs k + 1) by (pose proof (Rabs_pos k); lra).
  assert (E : 0 < e) by (unfold e; apply Rdiv_lt_0_compat; lra). destruct (I e E) as (d & Hd & A). exists d. split; auto.
  intros x Hx Hb. destruct (A x Hx Hb) as (w & Iw & L). exists (k * w). split; [exact (is_RInt_scal f x b k w Iw)|].
  replace (k * w - k * v) with (k * (w - v)) by ring. rewrite Rabs_mult. apply Rle_lt_trans with (Rabs k * e).
  - apply Rmult_le_compat_l; [apply Rabs_pos|lra].
  - apply Rlt_le_trans with ((Rabs k + 1) * e); [lra|]. unfold e. right. field. lra.
Qed.
(* an ordinary integral, the integrand changed at the left end *)
Lemma improper_proper f g a b v : a < b -> is_RInt g a b v -> (forall t, a < t <= b -> g t = f t) -> (exists M, forall t, a <= t <= b -> Rabs (g t) <= M) -> improper f a b v.
Proof.
  intros H I E (M & HM). apply (improper_ext g); auto. intros eps Heps.
  assert (M0 : 0 <= M). { eapply Rle_trans; [apply Rabs_pos|apply (HM a); lra]. }
  exists (eps / (M + 1)). split; [apply Rdiv_lt_0_compat; lra|]. intros x Hx Hb.
  assert (X1 : ex_RInt g a x) by (apply (ex_RInt_Chasles_1 g a x b); [lra|exists v; auto]).
  assert (X2 : ex_RInt g x b) by (apply (ex_RInt_Chasles_2 g a x b); [lra|exists v; auto]).
  destruct X1 as [u1 U1], X2 as [u2 U2]. exists u2. split; auto.
  pose proof (is_RInt_Chasles _ _ _ _ _ _ U1 U2) as C. pose proof (is_RInt_unique _ _ _ _ C) as C1. rewrite (is_RInt_unique _ _ _ _ I) in C1. unfold plus in C1; simpl in C1.
  replace (u2 - v) with (- u1) by lra. rewrite Rabs_Ropp.
  assert (L : Rabs u1 <= (x - a) * M). { apply (norm_RInt_le_const g a x u1 M); [lra| |auto]. intros t Ht. apply HM. lra. }
  eapply Rle_lt_trans; [exact L|]. apply Rle_lt_trans with ((x - a) * (M + 1)); [apply Rmult_le_compat_l; lra|].
  apply Rlt_le_trans with (eps / (M + 1) * (M + 1)); [apply Rmult_lt_compat_r; lra|]. right. field. lra.
Qed.
(* the last piece may be added *)
Lemma improper_chasles f a b c u v : a < b <= c -> improper f a b u -> is_RInt f b c v -> improper f a c (u + v).
Proof.
  intros H I J eps Heps. destruct (I eps Heps) as (d & Hd & A). exists (Rmin d (b - a)). split; [apply Rmin_glb_lt; lra|]. intros x Hx Hb.
  pose proof (Rmin_l d (b - a)). pose proof (Rmin_r d (b - a)). destruct (A x) as (w & Iw & L); try lra. exists (w + v). split; [exact (is_RInt_Chasles f x b c w v Iw J)|].
  replace (w + v - (u + v)) with (w - u) by ring. exact L.
Qed.

Section Weight.
Variables (w : R -> R) (W : nat -> R -> R) (h : R).
Hypothesis HH : 0 < h.
Hypothesis WP : forall t, 0 < t <= h -> 0 <= w t.
Hypothesis WC : forall t, 0 < t -> continuous w t.
Hypothesis WD : forall i t, 0 < t -> is_derive (W i) t (w t * t ^ i).
Hypothesis WL : forall i eps, 0 < eps -> exists d, 0 < d /\ forall x, 0 < x < d -> Rabs (W i x) < eps.
Hypothesis WH : forall i, 0 < W i h.
Definition wsum (c : nat -> R) (n : nat) (x : R) : R := rsum (fun i => c i * W i x) n.
Lemma pow_cont i t : continuous (fun t => t ^ i) t.
Proof. apply (ex_derive_continuous (fun t => t ^ i)). auto_derive; auto. Qed.
Lemma pe_cont c n t : continuous (pe c n) t.
Proof.
  induction n; [apply (continuous_ext (fun _ => 0)); [reflexivity|apply continuous_const]|].
  apply (continuous_ext (fun t => plus (pe c n t) (scal (c n) (t ^ n)))); [reflexivity|]. apply (continuous_plus (pe c n) (fun t => scal (c n) (t ^ n))); auto.
  apply (continuous_scal_r (c n) (fun t => t ^ n)). apply pow_cont.
Qed.
Lemma w_int i x y : 0 < x -> 0 < y -> is_RInt (fun t => w t * t ^ i) x y (W i y - W i x).
Proof using WC WD.
  intros X Y. apply (is_RInt_derive (W i) (fun t => w t * t ^ i)).
  - intros t Ht. apply WD. assert (0 < Rmin x y) by (apply Rmin_glb_lt; auto). lra.
  - intros t Ht. assert (0 < Rmin x y) by (apply Rmin_glb_lt; auto). apply (continuous_mult w (fun t => t ^ i)); [apply WC; lra|apply pow_cont].
Qed.
Lemma wsum_int c n x y : 0 < x -> 0 < y -> is_RInt (fun t => w t * pe c n t) x y (wsum c n y - wsum c n x).
Proof using WC WD.
  intros X Y. induction n; unfold wsum, pe in *; simpl.
  - replace (0 - 0) with (scal (y - x) 0) by (unfold scal; simpl; unfold mult; simpl; lra). apply (is_RInt_ext (fun _ => 0)); [intros t _; simpl; lra|]. apply (is_RInt_const x y 0).
  - pose proof (is_RInt_scal _ _ _ (c n) _ (w_int n x y X Y)) as S1. pose proof (is_RInt_plus _ _ _ _ _ _ IHn S1) as S2.
    apply (is_RInt_ext _ (fun t => w t * (rsum (fun i => c i * t ^ i) n + c n * t ^ n))) in S2.
    + match type of S2 with is_RInt _ _ _ ?v => replace (rsum (fun i => c i * W i y) n + c n * W n y - (rsum (fun i => c i * W i x) n + c n * W n x)) with v; [exact S2|] end.
      unfold plus, scal; simpl. unfold mult; simpl. ring.
    + intros t _. unfold plus, scal; simpl. unfold mult; simpl. ring.
Qed.
Lemma wsum_lim c n eps : 0 < eps -> exists d, 0 < d /\ forall x, 0 < x < d -> Rabs (wsum c n x) < eps.
Proof using WL.
  revert eps. induction n; intros eps E; unfold wsum in *; simpl.
  - exists 1. split; [lra|]. intros. rewrite Rabs_R0. auto.
  - destruct (IHn (eps / 2)) as (d & Hd & A); [lra|]. assert (K : 0 < Rabs (c n) + 1) by (pose proof (Rabs_pos (c n)); lra).
    destruct (WL n (eps / 2 / (Rabs (c n) + 1))) as (d' & Hd' & A'); [apply Rdiv_lt_0_compat; lra|].
    exists (Rmin d d'). split; [apply Rmin_glb_lt; auto|]. intros x Hx. pose proof (Rmin_l d d'). pose proof (Rmin_r d d').
    specialize (A x ltac:(lra)). specialize (A' x ltac:(lra)). eapply Rle_lt_trans; [apply Rabs_triang|]. rewrite Rabs_mult.
    assert (Rabs (c n) * Rabs (W n x) <= eps / 2). { apply Rle_trans with ((Rabs (c n) + 1) * (eps / 2 / (Rabs (c n) + 1))); [|right; field; lra].
      apply Rmult_le_compat; try apply Rabs_pos; lra. }
    lra.
Qed.
Variables (n : nat) (phi : R -> R).
Section Val.
Variable v : R.
Hypothesis HI : improper (fun t => w t * phi t) 0 h v.
Lemma w_low c : (forall u, 0 < u < h -> pe c n u <= phi u) -> wsum c n h <= v.
Proof using HH WP WC WD WL HI.
  intros L. destruct (Rle_dec (wsum c n h) v) as [|N]; auto. exfalso. set (e := (wsum c n h - v) / 2). assert (E : 0 < e) by (unfold e; lra).
  destruct (HI e E) as (d & Hd & A). destruct (wsum_lim c n e E) as (d' & Hd' & A').
  set (x := Rmin h (Rmin d d') / 2). assert (X : 0 < Rmin h (Rmin d d')) by (repeat apply Rmin_glb_lt; lra).
  pose proof (Rmin_l h (Rmin d d')). pose proof (Rmin_r h (Rmin d d')). pose proof (Rmin_l d d'). pose proof (Rmin_r d d').
  destruct (A x) as (y & Iy & Ly); try (unfold x; lra). specialize (A' x ltac:(unfold x; lra)).
  pose proof (wsum_int c n x h ltac:(unfold x; lra) HH) as J.
  assert (wsum c n h - wsum c n x <= y).
  { apply (is_RInt_le _ _ x h _ _ ltac:(unfold x; lra) J Iy). intros t Ht. apply Rmult_le_compat_l; [apply WP; unfold x in *; lra|]. apply L. unfold x in *; lra. }
  apply Rabs_lt_between in Ly. apply Rabs_lt_between in A'. unfold e in *. lra.
Qed.
End Val.
Lemma wsum_opp c x : wsum (fun i => - c i) n x = - wsum c n x.
Proof. unfold wsum. rewrite (rsum_ext _ (fun i => -1 * (c i * W i x))) by (intros; ring). rewrite rsum_scal. ring. Qed.
Lemma w_coef_low (C : nat -> R -> Prop) v psi : (forall i, (i < n)%nat -> itv (C i)) ->
  (forall u, 0 < u <= h -> exists c, (forall i, (i < n)%nat -> C i (c i)) /\ psi u = pe c n u) ->
  (forall c, (forall u, 0 < u < h -> pe c n u <= psi u) -> wsum c n h <= v) ->
  exists c, (forall i, (i < n)%nat -> C i (c i)) /\ wsum c n h <= v.
Proof using HH WH.
  intros HC HG LOW.
  destruct (or_all (fun i => exists l, C i l /\ forall x, C i x -> l <= x) (fun i => forall M, exists x, C i x /\ x <= M) n) as [A|(i & Hi & U)].
  - intros i Hi. apply (HC i Hi).
  - destruct (choose_all C (fun i l => forall x, C i x -> l <= x) n A) as (c & Hc). exists c. split; [intros; now apply Hc|].
    apply LOW. intros u Hu. destruct (HG u ltac:(lra)) as (d & Hd & ->).
    unfold pe. apply rsum_le. intros i Hi. apply Rmult_le_compat_r; [apply pow_le; lra|]. apply (proj2 (Hc i Hi)). auto.
  - destruct (HG h ltac:(lra)) as (d & Hd & _). pose proof (WH i) as PI.
    destruct (U ((v - (wsum d n h - d i * W i h)) / W i h)) as (x & Cx & Lx).
    exists (fun j => if (j =? i)%nat then x else d j). split.
    + intros j Hj. destruct (Nat.eqb_spec j i); [subst; auto|auto].
    + unfold wsum in *. rewrite (rsum_upd (fun j => d j * W j h) n i Hi).
      2:{ intros j Hj. destruct (Nat.eqb_spec j i); [contradiction|auto]. }
      rewrite Nat.eqb_refl. apply Rmult_le_compat_r with (r := W i h) in Lx; [|lra].
      unfold Rdiv in Lx. rewrite Rmult_assoc, Rinv_l in Lx by lra. lra.
Qed.
(* the integral of a function given pointwise by coefficients in intervals *)
Lemma w_coef (C : nat -> R -> Prop) v : (forall i, (i < n)%nat -> itv (C i)) ->
  (forall u, 0 < u <= h -> exists c, (forall i, (i < n)%nat -> C i (c i)) /\ phi u = pe c n u) -> improper (fun t => w t * phi t) 0 h v ->
  exists c, (forall i, (i < n)%nat -> C i (c i)) /\ v = wsum c n h.
Proof using HH WP WC WD WL WH.
  intros HC HG HI. destruct (w_coef_low C v phi HC HG (w_low v HI)) as (c1 & H1 & L1).
  destruct (w_coef_low (fun i x => C i (- x)) (- v) (fun u => - phi u)) as (c2 & H2 & L2).
  - intros i Hi. now apply itv_opp, HC.
  - intros u Hu. destruct (HG u Hu) as (c & Hc & E). exists (fun i => - c i). split; [intros; rewrite Ropp_involutive; auto|]. now rewrite pe_opp, E.
  - intros c Hc. assert (HI' : improper (fun t => w t * - phi t) 0 h (- v)).
    { replace (- v) with (-1 * v) by ring. apply (improper_ext (fun t => -1 * (w t * phi t))); [intros; ring|]. now apply improper_scal. }
    destruct (Rle_dec (wsum c n h) (- v)) as [|N]; auto. exfalso. set (e := (wsum c n h - - v) / 2). assert (E : 0 < e) by (unfold e; lra).
    destruct (HI' e E) as (d & Hd & A). destruct (wsum_lim c n e E) as (d' & Hd' & A').
    set (x := Rmin h (Rmin d d') / 2). assert (X : 0 < Rmin h (Rmin d d')) by (repeat apply Rmin_glb_lt; lra).
    pose proof (Rmin_l h (Rmin d d')). pose proof (Rmin_r h (Rmin d d')). pose proof (Rmin_l d d'). pose proof (Rmin_r d d').
    destruct (A x) as (y & Iy & Ly); try (unfold x; lra). specialize (A' x ltac:(unfold x; lra)).
    pose proof (wsum_int c n x h ltac:(unfold x; lra) HH) as J.
    assert (wsum c n h - wsum c n x <= y).
    { apply (is_RInt_le _ _ x h _ _ ltac:(unfold x; lra) J Iy). intros t Ht. apply Rmult_le_compat_l; [apply WP; unfold x in *; lra|]. apply Hc. unfold x in *; lra. }
    apply Rabs_lt_between in Ly. apply Rabs_lt_between in A'. unfold e in *. lra.
  - set (c3 := fun i => - c2 i). assert (L3 : v <= wsum c3 n h) by (unfold c3; rewrite wsum_opp; lra).
    destruct (Req_EM_T (wsum c1 n h) (wsum c3 n h)) as [E|N]. { exists c1. split; auto. lra. }
    set (la := (v - wsum c1 n h) / (wsum c3 n h - wsum c1 n h)).
    assert (D : 0 < wsum c3 n h - wsum c1 n h) by lra.
    assert (LA : 0 <= la <= 1). { unfold la. split; [apply Rdiv_le_0_compat; lra|]. apply Rmult_le_reg_r with (wsum c3 n h - wsum c1 n h); auto. unfold Rdiv. rewrite Rmult_assoc, Rinv_l by lra. lra. }
    exists (fun i => c1 i + la * (c3 i - c1 i)). split.
    + intros i Hi. apply (proj1 (HC i Hi) (c1 i) (c3 i)); [auto|unfold c3; auto|]. unfold mix. destruct (Rle_dec (c1 i) (c3 i)); [left|right]; nra.
    + assert (E : wsum (fun i => c1 i + la * (c3 i - c1 i)) n h = wsum c1 n h + la * (wsum c3 n h - wsum c1 n h)).
      { unfold wsum. rewrite (rsum_ext _ (fun i => (1 - la) * (c1 i * W i h) + la * (c3 i * W i h))) by (intros; ring).
        rewrite rsum_plus, !rsum_scal. ring. }
      rewrite E. unfold la. field. lra.
Qed.
(* it exists when the function is continuous *)
Lemma w_exists : (forall t, 0 <= t <= h -> continuous phi t) -> exists v, improper (fun t => w t * phi t) 0 h v.
Proof using HH WP WC WD WL.
  intros CP.
  assert (BD : exists M, 0 < M /\ forall t, 0 <= t <= h -> Rabs (phi t) <= M).
  { assert (CA : forall t, 0 <= t <= h -> continuity_pt (fun t => Rabs (phi t)) t).
    { intros t Ht. apply continuity_pt_filterlim. apply (continuous_comp phi Rabs); [apply CP; auto|]. apply continuous_Rabs. }
    destruct (continuity_ab_maj (fun t => Rabs (phi t)) 0 h ltac:(lra) CA) as (Mx & HM & _). exists (Rabs (phi Mx) + 1). split; [pose proof (Rabs_pos (phi Mx)); lra|].
    intros t Ht. specialize (HM t Ht). cbv beta in HM. lra. }
  destruct BD as (M & M0 & HM).
  assert (CW : forall t, 0 < t <= h -> continuous (fun t => w t * phi t) t).
  { intros t Ht. apply (continuous_mult w phi); [apply WC; lra|apply CP; lra]. }
  assert (EX : forall x y, 0 < x -> x <= y <= h -> ex_RInt (fun t => w t * phi t) x y).
  { intros x y X Y. apply (ex_RInt_continuous (fun t => w t * phi t)). intros t Ht. rewrite Rmin_left, Rmax_right in Ht by lra. apply CW. lra. }
  set (f := fun x => RInt (fun t => w t * phi t) x h).
  assert (CF : forall x y, 0 < x -> x <= y <= h -> Rabs (f x - f y) <= M * (W O y - W O x)).
  { intros x y X Y. destruct (EX x y X Y) as [u U]. destruct (EX y h ltac:(lra) ltac:(lra)) as [z Z].
    pose proof (is_RInt_Chasles _ _ _ _ _ _ U Z) as C. unfold f. rewrite (is_RInt_unique _ _ _ _ C), (is_RInt_unique _ _ _ _ Z).
    replace (plus u z - z) with u by (unfold plus; simpl; lra).
    pose proof (is_RInt_scal _ _ _ M _ (w_int O x y X ltac:(lra))) as J.
    refine (norm_RInt_le (fun t => w t * phi t) (fun t => scal M (w t * t ^ 0)) x y u (M * (W O y - W O x)) (proj1 Y) _ U J).
    intros t Ht. unfold norm; simpl. unfold abs; simpl. rewrite Rabs_mult, (Rabs_pos_eq (w t)) by (apply WP; lra). unfold scal; simpl. unfold mult; simpl. rewrite Rmult_1_r, Rmult_comm.
    apply Rmult_le_compat_r; [apply WP; lra|apply HM; lra]. }
  destruct (proj1 (filterlim_locally_cauchy (F := at_right 0) (U := R_CompleteSpace) f)) as [v Hv].
  { intros eps. destruct (WL O (eps / (2 * M))) as (d & Hd & A); [apply Rdiv_lt_0_compat; [apply cond_pos|lra]|].
    exists (fun x => 0 < x < Rmin d h). split.
    - exists (mkposreal (Rmin d h) ltac:(apply Rmin_glb_lt; lra)). intros y Hy Py. unfold ball in Hy; simpl in Hy. unfold AbsRing_ball, abs, minus, plus, opp in Hy; simpl in Hy.
      apply Rabs_lt_between in Hy. lra.
    - assert (K : forall x y, 0 < x -> x <= y -> y < Rmin d h -> Rabs (f x - f y) < eps).
      { intros x y X Y Z. pose proof (Rmin_l d h). pose proof (Rmin_r d h). eapply Rle_lt_trans; [apply CF; lra|].
        pose proof (A x ltac:(lra)) as A1. pose proof (A y ltac:(lra)) as A2. apply Rabs_lt_between in A1. apply Rabs_lt_between in A2.
        apply Rlt_le_trans with (M * (2 * (eps / (2 * M)))); [apply Rmult_lt_compat_l; lra|]. right. field. lra. }
      intros x y Hx Hy. change (Rabs (f y - f x) < eps). destruct (Rle_dec x y); [rewrite Rabs_minus_sym|]; apply K; lra. }
  exists v. intros eps Heps. specialize (Hv (ball v eps) (locally_ball v (mkposreal eps Heps))).
  destruct Hv as [d Hd]. exists d. split; [apply cond_pos|]. intros x Hx Hb. destruct (EX x h ltac:(lra) ltac:(lra)) as [u U]. exists u. split; auto.
  assert (Q : ball v eps (f x)). { apply Hd; [|lra]. unfold ball; simpl. unfold AbsRing_ball, abs, minus, plus, opp; simpl. rewrite Rabs_pos_eq; lra. }
  unfold f in Q. rewrite (is_RInt_unique _ _ _ _ U) in Q. exact Q.
Qed.
End Weight.

(* ---- the weight t^q, q > -1 ---- *)
Definition WP_ (q : R) (i : nat) (t : R) : R := Rpower t (q + 1 + INR i) / (q + 1 + INR i).
Section Pow.
Variable q : R.
Hypothesis Hq : -1 < q.
Lemma qi_pos i : 0 < q + 1 + INR i. Proof. pose proof (pos_INR i). lra. Qed.
Lemma wp_pos t : 0 <= Rpower t q. Proof. unfold Rpower. left. apply exp_pos. Qed.
Lemma wp_cont t : 0 < t -> continuous (fun t => Rpower t q) t.
Proof. intros H. apply (ex_derive_continuous (fun t => Rpower t q)). unfold Rpower. auto_derive. auto. Qed.
Lemma wp_der i t : 0 < t -> is_derive (WP_ q i) t (Rpower t q * t ^ i).
Proof.
  intros H. pose proof (qi_pos i) as P. unfold WP_. rewrite <- (Rpower_pow i t H), <- Rpower_plus.
  replace (Rpower t (q + INR i)) with (Rpower t (q + 1 + INR i) / t).
  - unfold Rpower. auto_derive; auto. field. split; lra.
  - replace (q + 1 + INR i) with (q + INR i + 1) by ring. rewrite (Rpower_plus (q + INR i) 1), Rpower_1 by auto. field. lra.
Qed.
Lemma wp_lim i eps : 0 < eps -> exists d, 0 < d /\ forall x, 0 < x < d -> Rabs (WP_ q i x) < eps.
Proof.
  intros E. pose proof (qi_pos i) as P. set (e := q + 1 + INR i) in *. exists (Rpower (eps * e) (/ e)). split; [apply exp_pos|]. intros x Hx. unfold WP_. fold e.
  assert (X : Rpower x e < eps * e).
  { replace (eps * e) with (Rpower (Rpower (eps * e) (/ e)) e); [apply Rlt_Rpower_l; auto|]. rewrite Rpower_mult, Rinv_l by lra. apply Rpower_1. apply Rmult_lt_0_compat; auto. }
  assert (0 < Rpower x e) by apply exp_pos. rewrite Rabs_pos_eq by (apply Rdiv_le_0_compat; lra).
  apply Rmult_lt_reg_r with e; auto. unfold Rdiv. rewrite Rmult_assoc, Rinv_l by lra. lra.
Qed.
Lemma wp_h h i : 0 < WP_ q i h. Proof. unfold WP_. apply Rdiv_lt_0_compat; [apply exp_pos|apply qi_pos]. Qed.
End Pow.
Lemma pow_coef q h (C : nat -> R -> Prop) n phi v : -1 < q -> 0 < h -> (forall i, (i < n)%nat -> itv (C i)) ->
  (forall u, 0 < u <= h -> exists c, (forall i, (i < n)%nat -> C i (c i)) /\ phi u = pe c n u) -> improper (fun t => Rpower t q * phi t) 0 h v ->
  exists c, (forall i, (i < n)%nat -> C i (c i)) /\ v = rsum (fun i => c i * (Rpower h (q + 1 + INR i) / (q + 1 + INR i))) n.
Proof.
  intros Hq Hh HC HG HI.
  exact (w_coef (fun t => Rpower t q) (WP_ q) h Hh (fun t _ => wp_pos q t) (wp_cont q) (wp_der q Hq) (wp_lim q Hq) (wp_h q Hq h) n phi C v HC HG HI).
Qed.
Lemma pow_exists q h phi : -1 < q -> 0 < h -> (forall t, 0 <= t <= h -> continuous phi t) -> exists v, improper (fun t => Rpower t q * phi t) 0 h v.
Proof. intros Hq Hh. exact (w_exists (fun t => Rpower t q) (WP_ q) h Hh (fun t _ => wp_pos q t) (wp_cont q) (wp_der q Hq) (wp_lim q Hq) phi). Qed.

(* ---- the weight - ln t, h <= 1 ---- *)
Definition WL_ (i : nat) (t : R) : R := - (t ^ S i * (INR (S i) * ln t - 1) / (INR (S i) * INR (S i))).
Lemma wl_pos t : 0 < t <= 1 -> 0 <= - ln t.
Proof. intros [H1 H2]. destruct H2 as [H2| ->]; [|rewrite ln_1; lra]. pose proof (ln_increasing t 1 H1 H2). rewrite ln_1 in *. lra. Qed.
Lemma wl_cont t : 0 < t -> continuous (fun t => - ln t) t.
Proof. intros H. apply (ex_derive_continuous (fun t => - ln t)). auto_derive. auto. Qed.
Lemma wl_der i t : 0 < t -> is_derive (WL_ i) t (- ln t * t ^ i).
Proof.
  intros H. unfold WL_. assert (N : INR (S i) <> 0) by (apply not_0_INR; lia). auto_derive; auto.
  replace (pred (S i)) with i by reflexivity. change (match i with 0%nat => 1 | S _ => INR i + 1 end) with (INR (S i)). simpl pow. field. split; lra.
Qed.
Lemma ln_sqrt_bound t : 0 < t -> - ln t * t <= 2 * sqrt t.
Proof.
  intros H. pose proof (sqrt_lt_R0 t H) as P. assert (L : - ln t = 2 * ln (/ sqrt t)).
  { rewrite ln_Rinv by auto. rewrite <- (sqrt_sqrt t) at 1 by lra. rewrite ln_mult by auto. ring. }
  assert (LE : ln (/ sqrt t) <= / sqrt t).
  { pose proof (Rinv_0_lt_compat _ P) as Q. pose proof (exp_ineq1_le (ln (/ sqrt t))) as X. rewrite exp_ln in X by auto. lra. }
  rewrite L. apply Rle_trans with (2 * (/ sqrt t) * t); [apply Rmult_le_compat_r; lra|].
  rewrite <- (sqrt_sqrt t) at 2 by lra. right. field. lra.
Qed.
Lemma wl_lim i eps : 0 < eps -> exists d, 0 < d /\ forall x, 0 < x < d -> Rabs (WL_ i x) < eps.
Proof.
  intros E. exists (Rmin 1 ((eps / 3) * (eps / 3))). split; [apply Rmin_glb_lt; [lra|apply Rmult_lt_0_compat; lra]|]. intros x Hx.
  pose proof (Rmin_l 1 ((eps / 3) * (eps / 3))). pose proof (Rmin_r 1 ((eps / 3) * (eps / 3))).
  pose proof (wl_pos x ltac:(lra)) as LP. pose proof (ln_sqrt_bound x ltac:(lra)) as LB. pose proof (sqrt_lt_R0 x ltac:(lra)) as SP.
  assert (SX : sqrt x < eps / 3). { rewrite <- (sqrt_square (eps / 3)) by lra. apply sqrt_lt_1; lra. }
  assert (XS : x <= sqrt x). { rewrite <- (sqrt_sqrt x) at 1 by lra. rewrite <- (Rmult_1_r (sqrt x)) at 3. apply Rmult_le_compat_l; [lra|]. rewrite <- sqrt_1. apply sqrt_le_1; lra. }
  unfold WL_. set (k := INR (S i)). assert (K : 1 <= k). { unfold k. rewrite S_INR. pose proof (pos_INR i). lra. }
  replace (- (x ^ S i * (k * ln x - 1) / (k * k))) with (x ^ i * ((x * (k * - ln x + 1)) / (k * k))) by (simpl; field; lra).
  assert (PI : 0 <= x ^ i <= 1) by (apply pow1_le; lra).
  assert (Q : 0 <= x * (k * - ln x + 1) / (k * k) <= - ln x * x + x).
  { assert (0 <= k * - ln x) by (apply Rmult_le_pos; lra). split; [apply Rdiv_le_0_compat; [apply Rmult_le_pos; lra|nra]|].
    apply Rmult_le_reg_r with (k * k); [nra|]. unfold Rdiv. rewrite Rmult_assoc, Rinv_l by nra. rewrite Rmult_1_r.
    replace (- ln x * x + x) with (x * (- ln x + 1)) by ring. rewrite Rmult_assoc. apply Rmult_le_compat_l; [lra|].
    assert (k * 1 <= k * k) by (apply Rmult_le_compat_l; lra). assert (k * - ln x <= k * k * - ln x) by (apply Rmult_le_compat_r; lra). nra. }
  rewrite Rabs_pos_eq by (apply Rmult_le_pos; lra).
  apply Rle_lt_trans with (1 * (- ln x * x + x)); [apply Rmult_le_compat; lra|]. lra.
Qed.
Lemma wl_h h i : 0 < h <= 1 -> 0 < WL_ i h.
Proof.
  intros H. pose proof (wl_pos h H). unfold WL_. set (k := INR (S i)). assert (K : 1 <= k). { unfold k. rewrite S_INR. pose proof (pos_INR i). lra. }
  replace (- (h ^ S i * (k * ln h - 1) / (k * k))) with (h ^ S i * (k * - ln h + 1) / (k * k)) by (field; lra).
  assert (0 <= k * - ln h) by (apply Rmult_le_pos; lra). apply Rdiv_lt_0_compat; [|nra]. apply Rmult_lt_0_compat; [apply pow_lt; lra|lra].
Qed.
Lemma log_coef h (C : nat -> R -> Prop) n phi v : 0 < h <= 1 -> (forall i, (i < n)%nat -> itv (C i)) ->
  (forall u, 0 < u <= h -> exists c, (forall i, (i < n)%nat -> C i (c i)) /\ phi u = pe c n u) -> improper (fun t => ln t * phi t) 0 h v ->
  exists c, (forall i, (i < n)%nat -> C i (c i)) /\ v = rsum (fun i => c i * (h ^ S i * (INR (S i) * ln h - 1) / (INR (S i) * INR (S i)))) n.
Proof.
  intros Hh HC HG HI.
  assert (WPOS : forall t, 0 < t <= h -> 0 <= - ln t) by (intros t Ht; apply wl_pos; lra).
  destruct (w_coef (fun t => - ln t) WL_ h (proj1 Hh) WPOS wl_cont wl_der wl_lim (fun i => wl_h h i Hh) n phi C (- v) HC HG) as (c & Hc & E).
  - replace (- v) with (-1 * v) by ring. apply (improper_ext (fun t => -1 * (ln t * phi t))); [intros; ring|]. now apply improper_scal.
  - exists c. split; auto. unfold wsum, WL_ in E. replace v with (-1 * - v) by ring. rewrite E, <- rsum_scal. apply rsum_ext. intros i _. ring.
Qed.
Lemma log_exists h phi : 0 < h -> (forall t, 0 <= t <= h -> continuous phi t) -> exists v, improper (fun t => ln t * phi t) 0 h v.
Proof.
  intros Hh HC. set (h1 := Rmin h 1). assert (H1 : 0 < h1 <= 1) by (unfold h1; split; [apply Rmin_glb_lt; lra|apply Rmin_r]). assert (H2 : h1 <= h) by apply Rmin_l.
  destruct (w_exists (fun t => - ln t) WL_ h1 (proj1 H1) ltac:(intros t Ht; apply wl_pos; lra) wl_cont wl_der wl_lim phi) as [v Hv]; [intros; apply HC; lra|].
  assert (EX : ex_RInt (fun t => ln t * phi t) h1 h).
  { apply (ex_RInt_continuous (fun t => ln t * phi t)). intros t Ht. rewrite Rmin_left, Rmax_right in Ht by lra. apply (continuous_mult ln phi); [|apply HC; lra]. apply continuous_ln. lra. }
  destruct EX as [u U]. exists (-1 * v + u). apply (improper_chasles _ 0 h1 h); auto; [lra|]. apply (improper_ext (fun t => -1 * (- ln t * phi t))); [intros; ring|]. now apply improper_scal.
Qed.
