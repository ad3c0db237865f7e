(* Picard iteration in a class of curves that the integral operator maps to itself; uniqueness of solutions. *)
From Coq Require Import Reals ZArith Bool List Lra Lia Psatz Arith Classical.
From Coquelicot Require Import Coquelicot.
From Verif Require Import Ext RealFun ADModel ADReal PsaReal PsaInt OdeLip.
Import List ListNotations.
Open Scope R_scope.

(* the vector of variables: n components, then the time *)
Definition ev (n : nat) (y : nat -> R) (t : R) : nat -> R := fun i => if (i <? n)%nat then y i else t.
Definition kap (H t : R) : R := Rmax 0 (Rmin H t).
Lemma kap_in H t : 0 <= H -> 0 <= kap H t <= H.
Proof. intros. unfold kap, Rmax, Rmin. destruct (Rle_dec H t); destruct (Rle_dec 0 _); lra. Qed.
Lemma kap_id H t : 0 <= t <= H -> kap H t = t.
Proof. intros. unfold kap, Rmax, Rmin. destruct (Rle_dec H t); destruct (Rle_dec 0 _); lra. Qed.
Lemma kap_neg H t : 0 <= H -> t <= 0 -> kap H t = 0.
Proof. intros. unfold kap, Rmax, Rmin. destruct (Rle_dec H t); destruct (Rle_dec 0 _); lra. Qed.
Lemma kap_lip H s t : 0 <= H -> Rabs (kap H s - kap H t) <= Rabs (s - t).
Proof. intros. unfold kap, Rmax, Rmin, Rabs. destruct (Rle_dec H t), (Rle_dec H s); repeat (match goal with |- context [Rle_dec ?a ?b] => destruct (Rle_dec a b) | |- context [Rcase_abs ?a] => destruct (Rcase_abs a) end); lra. Qed.

Lemma cont_eps (f : R -> R) t : (forall e, 0 < e -> exists d, 0 < d /\ forall s, Rabs (s - t) < d -> Rabs (f s - f t) < e) <-> continuous f t.
Proof.
  split.
  - intros H P [e He]. destruct (H e (cond_pos e)) as (d & D & K). exists (mkposreal d D). intros s Hs. apply He. exact (K s Hs).
  - intros H e E. destruct (H (fun v => Rabs (v - f t) < e)) as [d D]. { exists (mkposreal e E). intros v Hv. exact Hv. }
    exists d. split; [apply cond_pos|]. intros s Hs. apply D. exact Hs.
Qed.
Lemma kap_cont H t : 0 <= H -> continuous (kap H) t.
Proof. intros. apply cont_eps. intros e E. exists e. split; auto. intros s Hs. pose proof (kap_lip H s t ltac:(auto)). lra. Qed.

Lemma geo_lim (a : nat -> R) c : (forall k, Rabs (a (S k) - a k) <= c / 2 ^ k) ->
  forall k, Rabs (a k - real (Lim_seq a)) <= 2 * c / 2 ^ k.
Proof.
  intros HA. assert (P2 : forall k, 0 < 2 ^ k) by (intros; apply pow_lt; lra).
  assert (HC : 0 <= c). { specialize (HA O). simpl in HA. pose proof (Rabs_pos (a 1%nat - a 0%nat)). lra. }
  assert (ST : forall k m, Rabs (a (k + m)%nat - a k) <= 2 * c / 2 ^ k - 2 * c / 2 ^ (k + m)).
  { intros k m. induction m.
    - rewrite Nat.add_0_r, !Rminus_diag_eq, Rabs_R0 by auto. lra.
    - replace (k + S m)%nat with (S (k + m)) by lia. replace (a (S (k + m)) - a k) with ((a (S (k + m)) - a (k + m)%nat) + (a (k + m)%nat - a k)) by ring.
      eapply Rle_trans; [apply Rabs_triang|]. specialize (HA (k + m)%nat). simpl. pose proof (P2 (k + m)%nat).
      assert (2 * c / (2 * 2 ^ (k + m)) = c / 2 ^ (k + m)) by (field; lra). assert (2 * c / 2 ^ (k + m) = 2 * (c / 2 ^ (k + m))) by (field; lra). lra. }
  assert (B : forall k m, (k <= m)%nat -> Rabs (a m - a k) <= 2 * c / 2 ^ k).
  { intros k m L. replace m with (k + (m - k))%nat by lia. eapply Rle_trans; [apply ST|].
    assert (0 <= 2 * c / 2 ^ (k + (m - k))). { apply Rmult_le_pos; [lra|]. left. apply Rinv_0_lt_compat. apply P2. } lra. }
  assert (EX : ex_finite_lim_seq a).
  { apply ex_lim_seq_cauchy_corr. intros [e E]. simpl.
    destruct (Rle_lt_or_eq_dec 0 c HC) as [Cp|C0].
    - destruct (pow_lt_1_zero (/2)) with (y := e / (4 * c)) as [K HK]. { rewrite Rabs_pos_eq; lra. } { apply Rdiv_lt_0_compat; lra. }
      exists K. intros m m' Lm Lm'.
      assert (S1 : 2 * c / 2 ^ K < e / 2). { specialize (HK K (le_n _)). rewrite pow_inv, Rabs_pos_eq in HK by (left; apply Rinv_0_lt_compat, P2).
        unfold Rdiv at 1. apply Rmult_lt_compat_l with (r := 2 * c) in HK; [|lra]. replace (2 * c * (e / (4 * c))) with (e / 2) in HK by (field; lra). lra. }
      pose proof (B K m Lm). pose proof (B K m' Lm').
      replace (a m - a m') with ((a m - a K) - (a m' - a K)) by ring. eapply Rle_lt_trans; [apply Rabs_triang|]. rewrite Rabs_Ropp. lra.
    - exists O. intros m m' _ _. pose proof (B 0%nat m ltac:(lia)) as B1. pose proof (B 0%nat m' ltac:(lia)) as B2. rewrite <- C0 in B1, B2.
      replace (2 * 0 / 2 ^ 0) with 0 in B1, B2 by (simpl; lra).
      replace (a m - a m') with ((a m - a 0%nat) - (a m' - a 0%nat)) by ring. eapply Rle_lt_trans; [apply Rabs_triang|]. rewrite Rabs_Ropp. lra. }
  intros k. destruct EX as [l Hl]. rewrite (is_lim_seq_unique _ _ Hl). simpl.
  assert (LM : is_lim_seq (fun m => Rabs (a k - a (m + k)%nat)) (Rabs (a k - l))).
  { apply (is_lim_seq_abs (fun m => a k - a (m + k)%nat) (Finite (a k - l))).
    apply is_lim_seq_minus'; [apply is_lim_seq_const|]. apply (is_lim_seq_incr_n a k). exact Hl. }
  apply (is_lim_seq_le _ (fun _ => 2 * c / 2 ^ k) (Finite (Rabs (a k - l))) (Finite (2 * c / 2 ^ k))) in LM; [exact LM| |apply is_lim_seq_const].
  intros m. rewrite Rabs_minus_sym. apply B. lia.
Qed.
(* a finite family of positive reals *)
Lemma fin_min n (Q : nat -> R -> Prop) : (forall i d d', 0 < d' -> d' <= d -> Q i d -> Q i d') ->
  (forall i, (i < n)%nat -> exists d, 0 < d /\ Q i d) -> exists d, 0 < d /\ forall i, (i < n)%nat -> Q i d.
Proof.
  intros HM. induction n; intros H.
  - exists 1. split; [lra|]. intros; lia.
  - destruct IHn as (d & D & K). { intros. apply H. lia. } destruct (H n ltac:(lia)) as (e & E & J). assert (M : 0 < Rmin d e) by (apply Rmin_glb_lt; auto).
    exists (Rmin d e). split; auto. intros i Hi. destruct (Nat.eq_dec i n) as [->|]; [apply (HM n e); auto; apply Rmin_r|]. apply (HM i d); auto; [apply Rmin_l|]. apply K. lia.
Qed.
Lemma fin_max n (Q : nat -> R -> Prop) : (forall i d d', d <= d' -> Q i d -> Q i d') ->
  (forall i, (i < n)%nat -> exists d, Q i d) -> exists d, 0 <= d /\ forall i, (i < n)%nat -> Q i d.
Proof.
  intros HM. induction n; intros H.
  - exists 0. split; [lra|]. intros; lia.
  - destruct IHn as (d & D & K). { intros. apply H. lia. } destruct (H n ltac:(lia)) as (e & J).
    exists (Rmax d e). split; [eapply Rle_trans; [exact D|apply Rmax_l]|]. intros i Hi. destruct (Nat.eq_dec i n) as [->|]; [apply (HM n e); auto; apply Rmax_r|]. apply (HM i d); [apply Rmax_l|]. apply K. lia.
Qed.
(* comparison of increments by comparison of derivatives *)
Lemma deriv_le (D D' g g' : R -> R) a b : a <= b -> (forall t, a <= t <= b -> is_derive D t (D' t)) -> (forall t, a <= t <= b -> is_derive g t (g' t)) ->
  (forall t, a <= t <= b -> Rabs (D' t) <= g' t) -> Rabs (D b - D a) <= g b - g a.
Proof.
  intros AB HD HG HB. assert (W : forall s, s = 1 \/ s = -1 -> s * (D b - D a) <= g b - g a).
  { intros s Hs. destruct (MVT_gen (fun t => g t - s * D t) a b (fun t => g' t - s * D' t)) as (c & Hc & E).
    - intros t Ht. rewrite Rmin_left, Rmax_right in Ht by auto. apply (is_derive_minus g (fun t => s * D t)); [apply HG; lra|]. apply (is_derive_scal D t s). apply HD. lra.
    - intros t Ht. rewrite Rmin_left, Rmax_right in Ht by auto. apply derivable_continuous_pt. exists (g' t - s * D' t). apply is_derive_Reals.
      apply (is_derive_minus g (fun t => s * D t)); [apply HG; lra|]. apply (is_derive_scal D t s). apply HD. lra.
    - rewrite Rmin_left, Rmax_right in Hc by auto. specialize (HB c Hc). assert (s * D' c <= g' c). { pose proof (Rle_abs (D' c)). pose proof (Rle_abs (- D' c)) as A2. rewrite Rabs_Ropp in A2. destruct Hs; subst; lra. }
      assert (0 <= (g' c - s * D' c) * (b - a)) by (apply Rmult_le_pos; lra). lra. }
  apply Rabs_le. pose proof (W 1 (or_introl eq_refl)). pose proof (W (-1) (or_intror eq_refl)). lra.
Qed.

Section Picard.
Variables (n : nat) (F : nat -> (nat -> R) -> R) (t0 H : R) (Q Q' : nat -> R -> R).
Definition curve (u : nat -> R -> R) (t : R) : nat -> R := ev n (fun i => u i t) (t0 + t).
Definition integrand (u : nat -> R -> R) (i : nat) (t : R) : R := F i (curve u (kap H t)) - Q' i (kap H t).
Definition TT (u : nat -> R -> R) (i : nat) (t : R) : R := Q i t + RInt (integrand u i) 0 t.
Definition near_curve (u : nat -> R -> R) : Prop := forall i t, (i < n)%nat -> continuous (u i) t.

Hypothesis HH : 0 <= H.
Hypothesis HQ : forall i t, is_derive (Q i) t (Q' i t).
Hypothesis HQc : forall i t, continuous (Q' i) t.

Lemma ev_cl y t z s d : (forall i, (i < n)%nat -> Rabs (y i - z i) < d) -> Rabs (t - s) < d -> cl (S n) d (ev n y t) (ev n z s).
Proof. intros A B i Hi. unfold ev. destruct (Nat.ltb_spec i n); auto. Qed.
Lemma curve_cont u t d : near_curve u -> 0 < d -> exists e, 0 < e /\ forall s, Rabs (s - t) < e -> cl (S n) d (curve u s) (curve u t).
Proof.
  intros C D. destruct (fin_min n (fun i e => forall s, Rabs (s - t) < e -> Rabs (u i s - u i t) < d)) as (e & E & K).
  - intros i e e' _ L K s Hs. apply K. lra.
  - intros i Hi. destruct (proj2 (cont_eps (u i) t) (C i t Hi) d D) as (e & E & K). exists e. split; auto.
  - exists (Rmin e d). split; [apply Rmin_glb_lt; auto|]. intros s Hs. pose proof (Rmin_l e d). pose proof (Rmin_r e d). apply ev_cl; [intros; apply K; auto; lra|]. replace (t0 + s - (t0 + t)) with (s - t) by ring. lra.
Qed.
Lemma integrand_cont u i : near_curve u -> (forall t, 0 <= t <= H -> lip_at (S n) (F i) (curve u t)) -> forall t, continuous (integrand u i) t.
Proof.
  intros C HL t. unfold integrand. apply (continuous_minus (fun t => F i (curve u (kap H t))) (fun t => Q' i (kap H t))).
  - apply (continuous_comp (kap H) (fun s => F i (curve u s))); [now apply kap_cont|]. apply cont_eps. intros e E.
    destruct (lip_cont _ _ _ e (HL _ (kap_in H t HH)) E) as (d & D & K). destruct (curve_cont u (kap H t) d C D) as (e' & E' & K'). exists e'. split; auto.
  - apply (continuous_comp (kap H) (Q' i)); [now apply kap_cont|apply HQc].
Qed.
Lemma TT_deriv u i t : (forall t, continuous (integrand u i) t) -> is_derive (TT u i) t (Q' i t + integrand u i t).
Proof.
  intros C. unfold TT. apply (is_derive_plus (Q i) (fun t => RInt (integrand u i) 0 t)); [apply HQ|].
  apply (is_derive_RInt (integrand u i) (fun t => RInt (integrand u i) 0 t) 0 t); [|apply C].
  apply locally_all. intros s. apply (@RInt_correct R_CompleteNormedModule). apply (ex_RInt_continuous (V := R_CompleteNormedModule)). intros; apply C.
Qed.

Variable Z : (nat -> R -> R) -> Prop.
Variable Tube : R -> (nat -> R) -> Prop.
Variable L : R.
Hypothesis HLip : 0 < L.
Hypothesis HLu : forall t y z r i, 0 <= t <= H -> Tube t y -> Tube t z -> 0 <= r -> (i < n)%nat -> (forall j, (j < n)%nat -> Rabs (y j - z j) <= r) ->
  Rabs (F i (ev n y (t0 + t)) - F i (ev n z (t0 + t))) <= L * r.
Hypothesis HLa : forall t y i, 0 <= t <= H -> Tube t y -> (i < n)%nat -> lip_at (S n) (F i) (ev n y (t0 + t)).
Hypothesis HZc : forall u, Z u -> near_curve u.
Hypothesis HZt : forall u t, Z u -> 0 <= t <= H -> Tube t (fun i => u i t).
Hypothesis HZT : forall u, Z u -> Z (TT u).
Hypothesis Hclosed : forall t (yk : nat -> nat -> R) y, 0 <= t <= H -> (forall k, Tube t (yk k)) -> (forall i, (i < n)%nat -> is_lim_seq (fun k => yk k i) (Finite (y i))) -> Tube t y.
Variable u0 : nat -> R -> R.
Hypothesis HZ0 : Z u0.

Fixpoint UU (k : nat) : nat -> R -> R := match k with O => u0 | S k => TT (UU k) end.
Lemma UU_Z k : Z (UU k). Proof. induction k; simpl; auto. Qed.
Lemma Z_int u i : Z u -> (i < n)%nat -> forall t, continuous (integrand u i) t.
Proof. intros HZ Hi. apply integrand_cont; auto. intros t Ht. unfold curve. apply HLa; auto. Qed.
Lemma TT_cmp u v (g g' : R -> R) i t : (forall t, 0 <= t -> continuous (integrand u i) t) -> (forall t, continuous (integrand u i) t) -> (forall t, continuous (integrand v i) t) ->
  0 <= t <= H -> (forall s, 0 <= s <= t -> is_derive g s (g' s)) ->
  (forall s, 0 <= s <= t -> Rabs (F i (curve u s) - F i (curve v s)) <= g' s) -> Rabs (TT u i t - TT v i t) <= g t - g 0.
Proof.
  intros _ CU CV Ht HG HB. replace (TT u i t - TT v i t) with ((TT u i t - TT v i t) - (TT u i 0 - TT v i 0)).
  2:{ unfold TT. rewrite !RInt_point. unfold zero; simpl. ring. }
  apply (deriv_le (fun s => TT u i s - TT v i s) (fun s => (Q' i s + integrand u i s) - (Q' i s + integrand v i s)) g g' 0 t); [lra| |auto|].
  - intros s _. apply (is_derive_minus (TT u i) (TT v i)); apply TT_deriv; auto.
  - intros s Hs. unfold integrand. rewrite kap_id by lra. replace (_ - _) with (F i (curve u s) - F i (curve v s)) by ring. auto.
Qed.
Lemma bounded_curve (f : R -> R) : (forall t, continuous f t) -> exists M, forall t, 0 <= t <= H -> Rabs (f t) <= M.
Proof.
  intros C. destruct (compact1 (fun t d => Rabs (f t) <= / d) 0 H) as (d & D & K).
  - intros x d d' D' LE B. eapply Rle_trans; [exact B|]. apply Rinv_le_contravar; auto.
  - exact HH.
  - intros s Hs. destruct (proj2 (cont_eps f s) (C s) 1 Rlt_0_1) as (d & D & K). pose proof (Rabs_pos (f s)).
    assert (P : 0 < / (Rabs (f s) + 1)) by (apply Rinv_0_lt_compat; lra). assert (M : 0 < Rmin d (/ (Rabs (f s) + 1))) by (apply Rmin_glb_lt; auto).
    exists (Rmin d (/ (Rabs (f s) + 1))). split; auto. intros s' _ A. pose proof (Rmin_l d (/ (Rabs (f s) + 1))). pose proof (Rmin_r d (/ (Rabs (f s) + 1))).
    specialize (K s' ltac:(lra)). apply Rle_trans with (Rabs (f s) + 1).
    + replace (f s') with (f s + (f s' - f s)) by ring. pose proof (Rabs_triang (f s) (f s' - f s)). lra.
    + pose proof (Rinv_inv (Rabs (f s) + 1)) as RI. set (w := Rmin _ _) in *. rewrite <- RI. apply Rinv_le_contravar; auto.
  - exists (/ d). exact K.
Qed.
Lemma step_bound : exists M, 0 <= M /\ forall k i t, (i < n)%nat -> 0 <= t <= H -> Rabs (UU (S k) i t - UU k i t) <= M / 2 ^ k * exp (2 * L * t).
Proof.
  destruct (fin_max n (fun i M => forall t, 0 <= t <= H -> Rabs (UU 1 i t - UU 0 i t) <= M)) as (M & M0 & HM).
  - intros i d d' LE K t Ht. specialize (K t Ht). lra.
  - intros i Hi. apply bounded_curve. intros t. apply (continuous_minus (UU 1 i) (UU 0 i)); apply HZc; auto using UU_Z.
  - exists M. split; auto. induction k; intros i t Hi Ht.
    + simpl pow. replace (M / 1) with M by field. specialize (HM i Hi t Ht). assert (1 <= exp (2 * L * t)). { rewrite <- exp_0. destruct (Rle_lt_or_eq_dec 0 t) as [A|A]; [lra| |]. - left. apply exp_increasing. apply Rmult_lt_0_compat; lra. - rewrite <- A. rewrite Rmult_0_r. right. reflexivity. }
      rewrite <- (Rmult_1_r M) in HM at 1. eapply Rle_trans; [exact HM|]. apply Rmult_le_compat_l; auto.
    + assert (P2 : 0 < 2 ^ k) by (apply pow_lt; lra). pose (g := fun s => M / 2 ^ S k * exp (2 * L * s)).
      apply Rle_trans with (g t - g 0).
      * apply (TT_cmp (UU (S k)) (UU k) g (fun s => L * (M / 2 ^ k * exp (2 * L * s)))); auto.
        -- intros; apply Z_int; auto using UU_Z. -- apply Z_int; auto using UU_Z. -- apply Z_int; auto using UU_Z.
        -- intros s Hs. unfold g. auto_derive; auto. simpl. field. lra.
        -- intros s Hs. unfold curve. apply HLu; auto; try lra; try (apply HZt; [apply UU_Z|lra]).
           ++ apply Rmult_le_pos; [apply Rmult_le_pos; auto; left; now apply Rinv_0_lt_compat|left; apply exp_pos].
           ++ intros j Hj. apply IHk; auto. lra.
      * unfold g. rewrite Rmult_0_r, exp_0. assert (0 <= M / 2 ^ S k * 1); [|lra]. apply Rmult_le_pos; [|lra]. apply Rmult_le_pos; auto. left. apply Rinv_0_lt_compat. apply pow_lt. lra.
Qed.
Definition vlim (i : nat) (t : R) : R := real (Lim_seq (fun k => UU k i (kap H t))).
Lemma vlim_close : exists C, 0 <= C /\ forall k i t, (i < n)%nat -> Rabs (UU k i (kap H t) - vlim i t) <= 2 * C / 2 ^ k.
Proof.
  destruct step_bound as (M & M0 & HM). exists (M * exp (2 * L * H)). split; [apply Rmult_le_pos; auto; left; apply exp_pos|].
  intros k i t Hi. unfold vlim. apply (geo_lim (fun k => UU k i (kap H t))). intros k'. pose proof (kap_in H t HH). eapply Rle_trans; [apply HM; auto|].
  replace (M * exp (2 * L * H) / 2 ^ k') with (M / 2 ^ k' * exp (2 * L * H)) by (unfold Rdiv; ring).
  apply Rmult_le_compat_l. { apply Rmult_le_pos; auto. left. apply Rinv_0_lt_compat. apply pow_lt. lra. }
  destruct (Rle_lt_or_eq_dec (kap H t) H) as [A|A]; [lra| |rewrite A; right; reflexivity]. left. apply exp_increasing. apply Rmult_lt_compat_l; lra.
Qed.
Lemma small_pow c e : 0 <= c -> 0 < e -> exists k, c / 2 ^ k < e.
Proof.
  intros Hc E. destruct (pow_lt_1_zero (/2)) with (y := e / (c + 1)) as [K HK]. { rewrite Rabs_pos_eq; lra. } { apply Rdiv_lt_0_compat; lra. }
  exists K. specialize (HK K (le_n _)). assert (P : 0 < 2 ^ K) by (apply pow_lt; lra). rewrite pow_inv, Rabs_pos_eq in HK by (left; now apply Rinv_0_lt_compat).
  assert (c * / 2 ^ K <= c * (e / (c + 1))) by (apply Rmult_le_compat_l; lra). assert ((c + 1) * (e / (c + 1)) = e) by (field; lra).
  assert (0 < e / (c + 1)) by (apply Rdiv_lt_0_compat; lra). unfold Rdiv at 1. lra.
Qed.
Lemma le_small a c : (forall k : nat, a <= c / 2 ^ k) -> 0 <= c -> a <= 0.
Proof. intros HA HC. destruct (Rle_dec a 0); auto. destruct (small_pow c a HC ltac:(lra)) as (k & K). specialize (HA k). lra. Qed.
Lemma vlim_cont : near_curve vlim.
Proof.
  intros i t Hi. apply cont_eps. intros e E. destruct vlim_close as (C & C0 & HC). destruct (small_pow (2 * C) (e / 3)) as (k & Hk); [lra|lra|].
  destruct (proj2 (cont_eps (fun t => UU k i (kap H t)) t)) with (e := e / 3) as (d & D & K).
  - apply (continuous_comp (kap H) (UU k i)); [now apply kap_cont|]. apply HZc; auto using UU_Z.
  - lra.
  - exists d. split; auto. intros s Hs. specialize (K s Hs). pose proof (HC k i s Hi) as A1. pose proof (HC k i t Hi) as A2.
    replace (vlim i s - vlim i t) with (- (UU k i (kap H s) - vlim i s) + ((UU k i (kap H s) - UU k i (kap H t)) + (UU k i (kap H t) - vlim i t))) by ring.
    eapply Rle_lt_trans; [apply Rabs_triang|]. rewrite Rabs_Ropp. pose proof (Rabs_triang (UU k i (kap H s) - UU k i (kap H t)) (UU k i (kap H t) - vlim i t)). lra.
Qed.
Lemma vlim_tube t : 0 <= t <= H -> Tube t (fun i => vlim i t).
Proof.
  intros Ht. apply (Hclosed t (fun k i => UU k i t)); auto. { intros k. apply (HZt _ t); auto using UU_Z. }
  intros i Hi. destruct vlim_close as (C & C0 & HC). apply is_lim_seq_spec. intros [e E]. simpl.
  destruct (small_pow (2 * C) e) as (k & Hk); [lra|auto|]. exists k. intros m Lm. specialize (HC m i t Hi). rewrite kap_id in HC by auto.
  eapply Rle_lt_trans; [exact HC|]. eapply Rle_lt_trans; [|exact Hk]. apply Rmult_le_compat_l; [lra|]. apply Rinv_le_contravar; [apply pow_lt; lra|]. apply Rle_pow; [lra|auto].
Qed.
Lemma vlim_int i : (i < n)%nat -> forall t, continuous (integrand vlim i) t.
Proof. intros Hi. apply integrand_cont; [apply vlim_cont|]. intros t Ht. unfold curve. apply HLa; auto. now apply vlim_tube. Qed.
Lemma vlim_fix i t : (i < n)%nat -> 0 <= t <= H -> TT vlim i t = vlim i t.
Proof.
  intros Hi Ht. destruct vlim_close as (C & C0 & HC). apply Rminus_diag_uniq. destruct (Req_dec (TT vlim i t - vlim i t) 0) as [|N]; auto. exfalso.
  assert (B : Rabs (TT vlim i t - vlim i t) <= 0).
  { apply le_small with (c := 2 * C + L * (2 * C) * H). 2:{ assert (0 <= L * (2 * C) * H) by (repeat apply Rmult_le_pos; lra). lra. }
    intros k. assert (P : 0 < 2 ^ k) by (apply pow_lt; lra).
    replace (TT vlim i t - vlim i t) with ((TT vlim i t - TT (UU k) i t) + (UU (S k) i t - vlim i t)) by (simpl; ring).
    eapply Rle_trans; [apply Rabs_triang|]. assert (A1 : Rabs (UU (S k) i t - vlim i t) <= 2 * C / 2 ^ k).
    { pose proof (HC (S k) i t Hi) as A. rewrite kap_id in A by auto. eapply Rle_trans; [exact A|]. apply Rmult_le_compat_l; [lra|]. apply Rinv_le_contravar; auto. simpl. lra. }
    assert (A2 : Rabs (TT vlim i t - TT (UU k) i t) <= L * (2 * C / 2 ^ k) * t - L * (2 * C / 2 ^ k) * 0).
    { apply (TT_cmp vlim (UU k) (fun s => L * (2 * C / 2 ^ k) * s) (fun s => L * (2 * C / 2 ^ k))); auto.
      - intros; now apply vlim_int. - now apply vlim_int. - apply Z_int; auto using UU_Z.
      - intros s _. auto_derive; auto. ring.
      - intros s Hs. unfold curve. apply HLu; auto; [lra|apply vlim_tube; lra|apply (HZt _ s); [apply UU_Z|lra]| |].
        + apply Rmult_le_pos; [lra|]. left. now apply Rinv_0_lt_compat.
        + intros j Hj. rewrite Rabs_minus_sym. pose proof (HC k j s Hj) as A. rewrite kap_id in A by lra. exact A. }
    assert (A3 : L * (2 * C / 2 ^ k) * t <= L * (2 * C / 2 ^ k) * H). { apply Rmult_le_compat_l; [|lra]. apply Rmult_le_pos; [lra|]. apply Rmult_le_pos; [lra|]. left. now apply Rinv_0_lt_compat. }
    replace ((2 * C + L * (2 * C) * H) / 2 ^ k) with (2 * C / 2 ^ k + L * (2 * C / 2 ^ k) * H) by (field; lra). lra. }
  pose proof (Rabs_pos_lt _ N). lra.
Qed.
Theorem picard : exists u, near_curve u /\ (forall t, 0 <= t <= H -> Tube t (fun i => u i t)) /\ (forall i, (i < n)%nat -> u i 0 = Q i 0) /\
  (forall i t, (i < n)%nat -> 0 < t < H -> is_derive (u i) t (F i (curve u t))).
Proof.
  exists (TT vlim). assert (EQ : forall i t, (i < n)%nat -> 0 <= t <= H -> TT vlim i t = vlim i t) by (intros; now apply vlim_fix). split; [|split; [|split]].
  - intros i t Hi. apply (ex_derive_continuous (TT vlim i)). eexists. apply TT_deriv. now apply vlim_int.
  - intros t Ht. apply (Hclosed t (fun _ i => vlim i t)); auto; [intros; now apply vlim_tube|]. intros i Hi. rewrite EQ; auto. apply is_lim_seq_const.
  - intros i Hi. unfold TT. rewrite RInt_point. unfold zero; simpl. ring.
  - intros i t Hi Ht. replace (F i (curve (TT vlim) t)) with (Q' i t + integrand vlim i t). { apply TT_deriv. now apply vlim_int. }
    unfold integrand. rewrite kap_id by lra. assert (E : curve vlim t = curve (TT vlim) t).
    { unfold curve. apply FunctionalExtensionality.functional_extensionality. intros j. unfold ev. destruct (Nat.ltb_spec j n); auto. symmetry. apply EQ; auto. lra. }
    rewrite E. ring.
Qed.
End Picard.

(* ---- uniqueness ---- *)
Lemma deriv_bound (g g' : R -> R) a b c : a < b -> 0 <= c -> (forall t, a < t < b -> is_derive g t (g' t)) ->
  (forall t, a <= t <= b -> forall e, 0 < e -> exists d, 0 < d /\ forall s, a <= s <= b -> Rabs (s - t) < d -> Rabs (g s - g t) < e) ->
  (forall t, a < t < b -> Rabs (g' t) <= c) -> Rabs (g b - g a) <= c * (b - a).
Proof.
  intros AB C0 HD HC HB. pose (k := fun t => Rmax a (Rmin b t)).
  assert (KI : forall t, a <= k t <= b) by (intros; unfold k, Rmax, Rmin; destruct (Rle_dec b t); destruct (Rle_dec a _); lra).
  assert (KD : forall t, a <= t <= b -> k t = t) by (intros; unfold k, Rmax, Rmin; destruct (Rle_dec b t); destruct (Rle_dec a _); lra).
  assert (KL : forall s t, Rabs (k s - k t) <= Rabs (s - t)) by (intros; unfold k, Rmax, Rmin, Rabs; destruct (Rle_dec b t), (Rle_dec b s); repeat (match goal with |- context [Rle_dec ?a ?b] => destruct (Rle_dec a b) | |- context [Rcase_abs ?a] => destruct (Rcase_abs a) end); lra).
  destruct (MVT_gen (fun t => g (k t)) a b (fun t => if Rlt_dec a t then if Rlt_dec t b then g' t else 0 else 0)) as (x & Hx & E).
  - intros t Ht. rewrite Rmin_left, Rmax_right in Ht by lra. destruct (Rlt_dec a t); [|lra]. destruct (Rlt_dec t b); [|lra]. apply (is_derive_ext_loc g); [|apply HD; lra].
    exists (mkposreal (Rmin (t - a) (b - t)) ltac:(apply Rmin_glb_lt; lra)). intros s Hs. rewrite KD; auto. change (Rabs (s - t) < Rmin (t - a) (b - t)) in Hs.
    pose proof (Rmin_l (t - a) (b - t)). pose proof (Rmin_r (t - a) (b - t)). apply Rabs_def2 in Hs. lra.
  - intros t Ht. apply continuity_pt_filterlim. apply (proj1 (cont_eps (fun t => g (k t)) t)). intros e Ee. destruct (HC (k t) (KI t) e Ee) as (d & D & K). exists d. split; auto. intros s Hs. apply K; auto. pose proof (KL s t). lra.
  - rewrite Rmin_left, Rmax_right in Hx by lra. rewrite !KD in E by lra.
    rewrite E, Rabs_mult, (Rabs_pos_eq (b - a)) by lra. apply Rmult_le_compat_r; [lra|].
    destruct (Rlt_dec a x); [destruct (Rlt_dec x b)|]; [apply HB; lra|now rewrite Rabs_R0|now rewrite Rabs_R0].
Qed.
(* continuity on a closed interval *)
Definition conton (f : R -> R) (a b : R) : Prop :=
  forall t, a <= t <= b -> forall e, 0 < e -> exists d, 0 < d /\ forall s, a <= s <= b -> Rabs (s - t) < d -> Rabs (f s - f t) < e.
Definition sol_on (n : nat) (F : nat -> (nat -> R) -> R) (t0 T : R) (u : nat -> R -> R) : Prop :=
  (forall i, (i < n)%nat -> conton (u i) 0 T) /\ forall i t, (i < n)%nat -> 0 < t < T -> is_derive (u i) t (F i (ev n (fun j => u j t) (t0 + t))).
Lemma sol_unique n F t0 T u v : sol_on n F t0 T u -> sol_on n F t0 T v -> (forall i, (i < n)%nat -> u i 0 = v i 0) ->
  (forall i t, (i < n)%nat -> 0 <= t <= T -> lip_at (S n) (F i) (ev n (fun j => u j t) (t0 + t))) ->
  forall t i, 0 <= t <= T -> (i < n)%nat -> u i t = v i t.
Proof.
  intros [CU DU] [CV DV] E0 HL.
  (* equality propagates to the right of a point *)
  assert (STEP : forall s, 0 <= s <= T -> (forall i, (i < n)%nat -> u i s = v i s) -> exists h, 0 < h /\ forall t i, s <= t <= T -> t < s + h -> (i < n)%nat -> u i t = v i t).
  { intros s Hs Es.
    destruct (fin_min n (fun i d => exists L, 0 <= L /\ forall y z r, 0 <= r -> cl (S n) d y (ev n (fun j => u j s) (t0 + s)) -> cl (S n) d z (ev n (fun j => u j s) (t0 + s)) -> (forall i, (i < S n)%nat -> Rabs (y i - z i) <= r) -> Rabs (F i y - F i z) <= L * r)) as (d & D & KL).
    - intros i d d' _ LE (L & L0 & K). exists L. split; auto. intros y z r R0 Hy Hz. apply K; auto; eapply cl_le; eauto.
    - intros i Hi. destruct (HL i s Hi Hs) as (d & L & D & L0 & K). exists d. split; auto. exists L. split; auto.
    - destruct (fin_max n (fun i L => forall y z r, 0 <= r -> cl (S n) d y (ev n (fun j => u j s) (t0 + s)) -> cl (S n) d z (ev n (fun j => u j s) (t0 + s)) -> (forall i, (i < S n)%nat -> Rabs (y i - z i) <= r) -> Rabs (F i y - F i z) <= L * r)) as (L & L0 & HLL).
      { intros i L L' LE K y z r R0 Hy Hz Hr. eapply Rle_trans; [apply K; eauto|]. apply Rmult_le_compat_r; auto. }
      { intros i Hi. destruct (KL i Hi) as (L & _ & K). exists L. exact K. }
      destruct (fin_min n (fun i h => forall t, 0 <= t <= T -> Rabs (t - s) < h -> Rabs (u i t - u i s) < d /\ Rabs (v i t - u i s) < d)) as (h & H0 & HC).
      { intros i h h' _ LE K t Ht A. apply K; auto. lra. }
      { intros i Hi. destruct (CU i Hi s Hs d D) as (h1 & P1 & K1). destruct (CV i Hi s Hs d D) as (h2 & P2 & K2). exists (Rmin h1 h2). split; [apply Rmin_glb_lt; auto|].
        intros t Ht A. pose proof (Rmin_l h1 h2). pose proof (Rmin_r h1 h2). split; [apply K1; auto; lra|]. rewrite (Es i Hi). apply K2; auto. lra. }
      pose (q := / (2 * (L + 1))). assert (Q0 : 0 < q) by (apply Rinv_0_lt_compat; lra).
      pose (h' := Rmin (Rmin h d) q). assert (H0' : 0 < h') by (repeat apply Rmin_glb_lt; auto).
      assert (M1 : h' <= h) by (eapply Rle_trans; apply Rmin_l). assert (M2 : h' <= d) by (eapply Rle_trans; [apply Rmin_l|apply Rmin_r]). assert (M3 : h' <= q) by apply Rmin_r.
      exists h'. split; auto.
      assert (CLO : forall t, s <= t <= T -> t < s + h' -> cl (S n) d (ev n (fun j => u j t) (t0 + t)) (ev n (fun j => u j s) (t0 + s)) /\ cl (S n) d (ev n (fun j => v j t) (t0 + t)) (ev n (fun j => u j s) (t0 + s))).
      { intros t Ht A. assert (AB : Rabs (t - s) < h') by (rewrite Rabs_pos_eq; lra).
        split; apply ev_cl; try (replace (t0 + t - (t0 + s)) with (t - s) by ring; lra); intros i Hi; apply (HC i Hi); lra. }
      assert (IT : forall k t i, s <= t <= T -> t < s + h' -> (i < n)%nat -> Rabs (u i t - v i t) <= (2 * d) / 2 ^ k).
      { induction k; intros t i Ht A Hi.
        - simpl pow. assert (AB : Rabs (t - s) < h') by (rewrite Rabs_pos_eq; lra). destruct (HC i Hi t) as [A1 A2]; [lra|lra|].
          replace (u i t - v i t) with ((u i t - u i s) - (v i t - u i s)) by ring. pose proof (Rabs_triang (u i t - u i s) (- (v i t - u i s))) as TR. rewrite Rabs_Ropp in TR. unfold Rminus at 1. lra.
        - assert (P : 0 < 2 ^ k) by (apply pow_lt; lra). set (M := 2 * d / 2 ^ k) in *. assert (M0 : 0 < M) by (apply Rdiv_lt_0_compat; lra).
          destruct (Rle_lt_or_eq_dec s t) as [ST|ST]; [lra| |].
          2:{ subst t. rewrite (Es i Hi), Rminus_diag_eq, Rabs_R0 by auto. left. apply Rdiv_lt_0_compat; [lra|]. apply pow_lt; lra. }
          assert (DB : Rabs ((u i t - v i t) - (u i s - v i s)) <= (L * M) * (t - s)).
          { apply (deriv_bound (fun x => u i x - v i x) (fun x => F i (ev n (fun j => u j x) (t0 + x)) - F i (ev n (fun j => v j x) (t0 + x)))); auto.
            - apply Rmult_le_pos; lra.
            - intros x Hx. apply (is_derive_minus (u i) (v i)); [apply DU|apply DV]; auto; lra.
            - intros x Hx e Ee. destruct (CU i Hi x ltac:(lra) (e / 2) ltac:(lra)) as (h1 & P1 & K1). destruct (CV i Hi x ltac:(lra) (e / 2) ltac:(lra)) as (h2 & P2 & K2).
              exists (Rmin h1 h2). split; [apply Rmin_glb_lt; auto|]. intros z Hz B. pose proof (Rmin_l h1 h2). pose proof (Rmin_r h1 h2). specialize (K1 z ltac:(lra) ltac:(lra)). specialize (K2 z ltac:(lra) ltac:(lra)).
              replace (u i z - v i z - (u i x - v i x)) with ((u i z - u i x) + - (v i z - v i x)) by ring. pose proof (Rabs_triang (u i z - u i x) (- (v i z - v i x))) as TR. rewrite Rabs_Ropp in TR. lra.
            - intros x Hx. destruct (CLO x) as [C1 C2]; [lra|lra|]. apply (HLL i Hi); auto; [lra|]. intros j Hj. unfold ev. destruct (Nat.ltb_spec j n).
              + apply IHk; auto; lra. + rewrite Rminus_diag_eq, Rabs_R0 by auto. lra. }
          rewrite (Es i Hi) in DB. replace (u i t - v i t - (v i s - v i s)) with (u i t - v i t) in DB by ring. eapply Rle_trans; [exact DB|].
          replace (2 * d / 2 ^ S k) with (M / 2) by (unfold M; simpl; field; lra).
          assert (L * M * (t - s) <= L * M * q) by (apply Rmult_le_compat_l; [apply Rmult_le_pos; lra|lra]).
          assert (L * q <= / 2). { assert ((L + 1) * q = / 2) by (unfold q; field; lra). nra. }
          assert (L * M * q = M * (L * q)) by ring. assert (M * (L * q) <= M * / 2) by (apply Rmult_le_compat_l; lra). lra. }
      intros t i Ht A Hi. apply Rminus_diag_uniq. destruct (Req_dec (u i t - v i t) 0) as [|N]; auto. exfalso. pose proof (Rabs_pos_lt _ N).
      assert (Rabs (u i t - v i t) <= 0); [|lra]. apply le_small with (c := 2 * d); [|lra]. intros k. now apply IT. }
  (* supremum argument *)
  intros t i Ht Hi. destruct (Rle_lt_dec T 0) as [T0|T0]. { replace t with 0 by lra. auto. }
  set (E := fun s => 0 <= s <= T /\ forall x j, 0 <= x <= s -> (j < n)%nat -> u j x = v j x).
  assert (E00 : E 0). { split; [lra|]. intros x j Hx Hj. replace x with 0 by lra. auto. }
  destruct (completeness E) as [m [UB LB]]. { exists T. intros x [Hx _]. lra. } { now exists 0. }
  assert (Hm : 0 <= m <= T) by (split; [now apply UB|apply LB; intros x [Hx _]; lra]).
  assert (BEL : forall x j, 0 <= x < m -> (j < n)%nat -> u j x = v j x).
  { intros x j Hx Hj. destruct (classic (exists s, E s /\ x <= s)) as [(s & [_ Hs] & Lx)|N]; [apply Hs; auto; lra|]. exfalso. assert (m <= x); [|lra]. apply LB. intros s Hs. destruct (Rle_dec s x); auto. exfalso. apply N. exists s. split; auto. lra. }
  assert (AT : forall j, (j < n)%nat -> u j m = v j m).
  { intros j Hj. destruct (Rle_lt_or_eq_dec 0 m) as [Pm|Pm]; [lra| |rewrite <- Pm; auto]. apply Rminus_diag_uniq. destruct (Req_dec (u j m - v j m) 0) as [|N]; auto. exfalso.
    pose proof (Rabs_pos_lt _ N) as NP. set (e := Rabs (u j m - v j m)) in *.
    destruct (CU j Hj m Hm (e / 2) ltac:(lra)) as (h1 & P1 & K1). destruct (CV j Hj m Hm (e / 2) ltac:(lra)) as (h2 & P2 & K2).
    set (x := Rmax 0 (m - Rmin h1 h2 / 2)). pose proof (Rmin_l h1 h2). pose proof (Rmin_r h1 h2). assert (P3 : 0 < Rmin h1 h2) by (apply Rmin_glb_lt; auto).
    assert (X : 0 <= x < m /\ m - x <= Rmin h1 h2 / 2). { unfold x, Rmax. destruct (Rle_dec 0 (m - Rmin h1 h2 / 2)); lra. }
    assert (AX : Rabs (x - m) = m - x) by (rewrite Rabs_left1; lra).
    specialize (K1 x ltac:(lra) ltac:(lra)). specialize (K2 x ltac:(lra) ltac:(lra)). specialize (BEL x j ltac:(lra) Hj).
    assert (e < e); [|lra]. unfold e at 1. replace (u j m - v j m) with (- (u j x - u j m) + (v j x - v j m)) by (rewrite BEL; ring).
    eapply Rle_lt_trans; [apply Rabs_triang|]. rewrite Rabs_Ropp. lra. }
  destruct (STEP m Hm AT) as (h & H0 & K).
  assert (FULL : m = T).
  { destruct (Rle_lt_or_eq_dec m T) as [LT|]; [lra| |auto]. exfalso. assert (X : E (Rmin T (m + h / 2))).
    { split. - unfold Rmin. destruct (Rle_dec T (m + h / 2)); lra.
      - intros x j Hx Hj. destruct (Rlt_dec x m); [apply BEL; auto; lra|]. apply K; auto. + pose proof (Rmin_l T (m + h / 2)). lra. + pose proof (Rmin_r T (m + h / 2)). lra. }
    apply UB in X. unfold Rmin in X. destruct (Rle_dec T (m + h / 2)); lra. }
  destruct (Rlt_dec t m); [apply BEL; auto; lra|]. replace t with m by lra. auto.
Qed.
