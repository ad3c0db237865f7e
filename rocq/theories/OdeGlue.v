(* Solutions of x' = f(x, t) on adjacent intervals form one solution. *)
From Coq Require Import Reals List Lra Lia Psatz Arith.
From Coquelicot Require Import Coquelicot.
From Verif Require Import RealFun ADModel ADReal PsaExpr OdeLip OdeSpec.
Import List ListNotations.
Open Scope R_scope.

(* the derivative at a point from the derivatives around it *)
Lemma deriv_fill (f g : R -> R) (m d : R) : 0 < d -> continuity_pt f m -> (forall t, t <> m -> Rabs (t - m) < d -> derivable_pt_lim f t (g t)) ->
  (forall e, 0 < e -> exists d, 0 < d /\ forall t, Rabs (t - m) < d -> Rabs (g t - g m) < e) -> derivable_pt_lim f m (g m).
Proof.
  intros D0 CF DF CG e He. destruct (CG e He) as (d1 & D1 & K). assert (DD : 0 < Rmin d d1) by (apply Rmin_glb_lt; lra). exists (mkposreal _ DD). intros h H0 H1. cbn [pos] in H1.
  assert (H2 : Rabs h < d) by (eapply Rlt_le_trans; [apply H1|apply Rmin_l]). assert (H3 : Rabs h < d1) by (eapply Rlt_le_trans; [apply H1|apply Rmin_r]).
  assert (BT : forall t, Rmin m (m + h) <= t <= Rmax m (m + h) -> Rabs (t - m) <= Rabs h).
  { intros t. unfold Rmin, Rmax, Rabs. destruct (Rle_dec m (m + h)), (Rcase_abs (t - m)), (Rcase_abs h); lra. }
  destruct (MVT_gen f m (m + h) g) as (c & Hc & E).
  - intros t Ht. apply is_derive_Reals, DF. + intros ->. unfold Rmin, Rmax in Ht. destruct (Rle_dec m (m + h)); lra. + eapply Rle_lt_trans; [apply BT; lra|auto].
  - intros t Ht. destruct (Req_dec t m) as [->|N]; [exact CF|]. apply derivable_continuous_pt. exists (g t). apply DF; auto. eapply Rle_lt_trans; [apply BT; lra|auto].
  - replace ((f (m + h) - f m) / h - g m) with (g c - g m). + apply K. eapply Rle_lt_trans; [apply BT; auto|auto]. + rewrite E. field. auto.
Qed.
Lemma deriv_local (f g : R -> R) (t l d : R) : 0 < d -> (forall s, Rabs (s - t) < d -> f s = g s) -> derivable_pt_lim f t l -> derivable_pt_lim g t l.
Proof.
  intros D E DF e He. destruct (DF e He) as (d1 & K). assert (DD : 0 < Rmin d d1) by (apply Rmin_glb_lt; [lra|apply cond_pos]). exists (mkposreal _ DD). intros h H0 H1. cbn [pos] in H1.
  assert (H2 : Rabs h < d) by (eapply Rlt_le_trans; [apply H1|apply Rmin_l]). assert (H3 : Rabs h < d1) by (eapply Rlt_le_trans; [apply H1|apply Rmin_r]).
  rewrite <- (E (t + h)), <- (E t). apply K; auto. rewrite Rminus_diag_eq, Rabs_R0; auto. now replace (t + h - t) with h by ring.
Qed.
(* parts of a solution *)
Lemma sol_sub n es t0 t1 x0 phi a c : t0 <= a -> c <= t1 -> solution n es t0 t1 x0 phi -> solution n es a c (fun i => phi i a) phi.
Proof.
  intros H1 H2 (_ & D & DV & CT). split; [auto|]. split; [intros; apply D; auto; lra|]. split; [intros; apply DV; auto; lra|].
  intros i t Hi Ht e He. destruct (CT i t Hi ltac:(lra) e He) as (d & D0 & K). exists d. split; auto. intros s Hs. apply K. lra.
Qed.
Lemma sol_init n es t0 t1 x0 x1 phi : (forall i, (i < n)%nat -> x0 i = x1 i) -> solution n es t0 t1 x0 phi -> solution n es t0 t1 x1 phi.
Proof. intros E (A & D). split; auto. intros i Hi. rewrite A by auto. auto. Qed.

Section Glue.
Variables (n : nat) (es : nat -> aexpr).
Hypothesis WF : forall i, (i < n)%nat -> awf (S n) (es i).
Hypothesis NA : forall i, (i < n)%nat -> noarc (es i) = true.
Definition glue (m : R) (phi psi : nat -> R -> R) : nat -> R -> R := fun i t => if Rle_dec t m then phi i t else psi i t.
(* continuity on [a, c] of f along a curve, at a point of differentiability *)
Lemma rhs_cont a c phi m i : (i < n)%nat -> adiff (es i) (at_time n (fun j => phi j m) m) -> a < m < c ->
  (forall j t, (j < n)%nat -> a <= t <= c -> forall e, 0 < e -> exists d, 0 < d /\ forall s, a <= s <= c -> Rabs (s - t) < d -> Rabs (phi j s - phi j t) < e) ->
  forall e, 0 < e -> exists d, 0 < d /\ forall t, Rabs (t - m) < d -> Rabs (rval (es i) (at_time n (fun j => phi j t) t) - rval (es i) (at_time n (fun j => phi j m) m)) < e.
Proof.
  intros Hi AD Hm CT e He. destruct (adiff_lip (S n) (es i) _ (WF i Hi) (NA i Hi) AD) as [L _]. destruct (lip_cont _ _ _ e L He) as (d & D & K).
  assert (ALL : forall k, (k <= n)%nat -> exists d1, 0 < d1 /\ forall s, Rabs (s - m) < d1 -> forall j, (j < k)%nat -> Rabs (phi j s - phi j m) < d).
  { induction k as [|k IH]; intros Hk. exists 1. split; [lra|]. intros s _ j Hj. lia.
    destruct (IH ltac:(lia)) as (d1 & D1 & K1). destruct (CT k m ltac:(lia) ltac:(lra) d D) as (d2 & D2 & K2).
    exists (Rmin (Rmin d1 d2) (Rmin (m - a) (c - m))). split; [repeat apply Rmin_glb_lt; lra|]. intros s Hs j Hj.
    assert (S1 : Rabs (s - m) < d1) by (eapply Rlt_le_trans; [apply Hs|]; eapply Rle_trans; [apply Rmin_l|apply Rmin_l]). assert (S2 : Rabs (s - m) < d2) by (eapply Rlt_le_trans; [apply Hs|]; eapply Rle_trans; [apply Rmin_l|apply Rmin_r]).
    assert (S3 : Rabs (s - m) < m - a) by (eapply Rlt_le_trans; [apply Hs|]; eapply Rle_trans; [apply Rmin_r|apply Rmin_l]). assert (S4 : Rabs (s - m) < c - m) by (eapply Rlt_le_trans; [apply Hs|]; eapply Rle_trans; [apply Rmin_r|apply Rmin_r]).
    destruct (Nat.eq_dec j k) as [->|N]; [|apply K1; auto; lia]. apply K2; auto. apply Rabs_def2 in S3. apply Rabs_def2 in S4. lra. }
  destruct (ALL n (le_n n)) as (d1 & D1 & K1). exists (Rmin d d1). split; [apply Rmin_glb_lt; lra|]. intros t Ht. apply K. intros j Hj. unfold at_time.
  destruct (Nat.ltb_spec j n); [apply K1; auto; eapply Rlt_le_trans; [apply Ht|apply Rmin_r]|]. eapply Rlt_le_trans; [apply Ht|apply Rmin_l].
Qed.
Theorem glue_unique t0 m t1 x0 phi psi : t0 <= m <= t1 -> (forall i, (i < n)%nat -> adiff (es i) (at_time n (fun j => phi j m) m)) ->
  unique_solution n es t0 m x0 phi -> unique_solution n es m t1 (fun i => phi i m) psi -> unique_solution n es t0 t1 x0 (glue m phi psi).
Proof.
  intros Hm AD [(A0 & A1 & A2 & A3) AU] [(B0 & B1 & B2 & B3) BU].
  assert (GL : forall i t, t <= m -> glue m phi psi i t = phi i t) by (intros i t Ht; unfold glue; destruct (Rle_dec t m); [auto|lra]).
  assert (GR : forall i t, (i < n)%nat -> m <= t -> glue m phi psi i t = psi i t). { intros i t Hi Ht. unfold glue. destruct (Rle_dec t m); auto. replace t with m by lra. now rewrite B0. }
  assert (AL : forall t, t <= m -> at_time n (fun j => glue m phi psi j t) t = at_time n (fun j => phi j t) t).
  { intros t Ht. apply FunctionalExtensionality.functional_extensionality. intros k. unfold at_time. destruct (k <? n)%nat; auto. }
  assert (AR : forall t, m <= t -> at_time n (fun j => glue m phi psi j t) t = at_time n (fun j => psi j t) t).
  { intros t Ht. apply FunctionalExtensionality.functional_extensionality. intros k. unfold at_time. destruct (Nat.ltb_spec k n); auto. }
  assert (CT : forall i t, (i < n)%nat -> t0 <= t <= t1 -> forall e, 0 < e -> exists d, 0 < d /\ forall s, t0 <= s <= t1 -> Rabs (s - t) < d -> Rabs (glue m phi psi i s - glue m phi psi i t) < e).
  { intros i t Hi Ht e He. destruct (Rtotal_order t m) as [L|[->|L]].
    - destruct (A3 i t Hi ltac:(lra) e He) as (d & D & K). exists (Rmin d (m - t)). split; [apply Rmin_glb_lt; lra|]. intros s Hs HA.
      assert (S1 : Rabs (s - t) < d) by (eapply Rlt_le_trans; [apply HA|apply Rmin_l]). assert (S2 : Rabs (s - t) < m - t) by (eapply Rlt_le_trans; [apply HA|apply Rmin_r]). apply Rabs_def2 in S2.
      rewrite !GL by lra. apply K; auto. lra.
    - destruct (A3 i m Hi ltac:(lra) e He) as (d & D & K). destruct (B3 i m Hi ltac:(lra) e He) as (d' & D' & K'). exists (Rmin d d'). split; [apply Rmin_glb_lt; lra|]. intros s Hs HA.
      assert (S1 : Rabs (s - m) < d) by (eapply Rlt_le_trans; [apply HA|apply Rmin_l]). assert (S2 : Rabs (s - m) < d') by (eapply Rlt_le_trans; [apply HA|apply Rmin_r]).
      destruct (Rle_dec s m); [rewrite !GL by lra; apply K; auto; lra|rewrite !GR by (auto; lra); apply K'; auto; lra].
    - destruct (B3 i t Hi ltac:(lra) e He) as (d & D & K). exists (Rmin d (t - m)). split; [apply Rmin_glb_lt; lra|]. intros s Hs HA.
      assert (S1 : Rabs (s - t) < d) by (eapply Rlt_le_trans; [apply HA|apply Rmin_l]). assert (S2 : Rabs (s - t) < t - m) by (eapply Rlt_le_trans; [apply HA|apply Rmin_r]). apply Rabs_def2 in S2.
      rewrite !GR by (auto; lra). apply K; auto. lra. }
  split; [split; [|split; [|split]]|].
  - intros i Hi. rewrite GL by lra. auto.
  - intros i t Hi Ht. destruct (Rle_dec t m); [rewrite AL by lra; apply A1; auto; lra|rewrite AR by lra; apply B1; auto; lra].
  - assert (LEFT : forall i t, (i < n)%nat -> t0 < t < m -> derivable_pt_lim (glue m phi psi i) t (rval (es i) (at_time n (fun j => glue m phi psi j t) t))).
    { intros i t Hi Ht. rewrite AL by lra. apply (deriv_local (phi i) _ t _ (m - t)); [lra| |apply A2; auto]. intros s Hs. apply Rabs_def2 in Hs. rewrite GL by lra. auto. }
    assert (RIGHT : forall i t, (i < n)%nat -> m < t < t1 -> derivable_pt_lim (glue m phi psi i) t (rval (es i) (at_time n (fun j => glue m phi psi j t) t))).
    { intros i t Hi Ht. rewrite AR by lra. apply (deriv_local (psi i) _ t _ (t - m)); [lra| |apply B2; auto]. intros s Hs. apply Rabs_def2 in Hs. rewrite GR by (auto; lra). auto. }
    intros i t Hi Ht. destruct (Rtotal_order t m) as [L|[->|L]]; [apply LEFT; auto; lra| |apply RIGHT; auto; lra].
    apply (deriv_fill (glue m phi psi i) (fun t => rval (es i) (at_time n (fun j => glue m phi psi j t) t)) m (Rmin (m - t0) (t1 - m))).
    + apply Rmin_glb_lt; lra.
    + intros e He. destruct (CT i m Hi ltac:(lra) e He) as (d & D & K). exists (Rmin d (Rmin (m - t0) (t1 - m))). split; [repeat apply Rmin_glb_lt; lra|]. intros s [_ Hs]. simpl in *. unfold R_dist in *.
      assert (S1 : Rabs (s - m) < d) by (eapply Rlt_le_trans; [apply Hs|apply Rmin_l]). assert (S2 : Rabs (s - m) < m - t0) by (eapply Rlt_le_trans; [apply Hs|]; eapply Rle_trans; [apply Rmin_r|apply Rmin_l]).
      assert (S3 : Rabs (s - m) < t1 - m) by (eapply Rlt_le_trans; [apply Hs|]; eapply Rle_trans; [apply Rmin_r|apply Rmin_r]). apply Rabs_def2 in S2. apply Rabs_def2 in S3. apply K; auto. lra.
    + intros s N Hs. assert (S2 : Rabs (s - m) < m - t0) by (eapply Rlt_le_trans; [apply Hs|apply Rmin_l]). assert (S3 : Rabs (s - m) < t1 - m) by (eapply Rlt_le_trans; [apply Hs|apply Rmin_r]). apply Rabs_def2 in S2. apply Rabs_def2 in S3.
      destruct (Rtotal_order s m) as [L|[->|L]]; [apply LEFT; auto; lra|congruence|apply RIGHT; auto; lra].
    + apply (rhs_cont t0 t1 (glue m phi psi) m i Hi); [rewrite AL by lra; auto|lra|exact CT].
  - exact CT.
  - intros t' q Ht' SQ i t Hi Ht. destruct (Rle_dec t' m) as [L|L].
    + rewrite GL by lra. apply (AU t' q); auto; lra.
    + assert (E1 : forall j t, (j < n)%nat -> t0 <= t <= m -> q j t = phi j t).
      { apply (AU m q); [lra|]. apply (sol_init n es t0 m (fun j => q j t0)); [apply SQ|]. apply (sol_sub n es t0 t' x0 q t0 m); auto; lra. }
      destruct (Rle_dec t m); [rewrite GL by lra; apply E1; auto; lra|]. rewrite GR by (auto; lra). apply (BU t' q); auto; [lra| |lra].
      apply (sol_init n es m t' (fun j => q j m)); [intros j Hj; apply E1; auto; lra|]. apply (sol_sub n es t0 t' x0 q m t'); auto; lra.
Qed.
End Glue.
