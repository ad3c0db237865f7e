(* Real analysis for the ODE solver: expressions are locally Lipschitz where they are differentiable; compactness of boxes. *)
From Coq Require Import Reals ZArith Bool List Lra Lia Psatz Arith Classical FunctionalExtensionality.
From Coquelicot Require Import Coquelicot.
From Verif Require Import Ext RealFun RealConst ADModel ADReal ADProofs PsaModel PsaReal PsaProofs PsaExpr PsaInt.
Import List ListNotations.
Open Scope R_scope.

Definition cl (N : nat) (d : R) (y x : nat -> R) : Prop := forall i, (i < N)%nat -> Rabs (y i - x i) < d.
Lemma cl_le N d d' y x : d <= d' -> cl N d y x -> cl N d' y x.
Proof. intros L H i Hi. specialize (H i Hi). lra. Qed.
Lemma cl_refl N d x : 0 < d -> cl N d x x.
Proof. intros D i _. rewrite Rminus_diag_eq, Rabs_R0; auto. Qed.
(* Lipschitz continuity near x in the first N variables *)
Definition lip_at (N : nat) (g : (nat -> R) -> R) (x : nat -> R) : Prop :=
  exists d L, 0 < d /\ 0 <= L /\ forall y z r, 0 <= r -> cl N d y x -> cl N d z x -> (forall i, (i < N)%nat -> Rabs (y i - z i) <= r) ->
    Rabs (g y - g z) <= L * r.
Definition lip1 (F : R -> R) (a : R) : Prop :=
  exists d L, 0 < d /\ 0 <= L /\ forall u v, Rabs (u - a) < d -> Rabs (v - a) < d -> Rabs (F u - F v) <= L * Rabs (u - v).
Definition op (N : nat) (P : (nat -> R) -> Prop) (x : nat -> R) : Prop := exists d, 0 < d /\ forall y, cl N d y x -> P y.
Lemma op_and N P Q x : op N P x -> op N Q x -> op N (fun y => P y /\ Q y) x.
Proof.
  intros (d & D & H) (e & E & K). exists (Rmin d e). split; [apply Rmin_glb_lt; auto|]. intros y Hy.
  split; [apply H|apply K]; eapply cl_le; eauto; [apply Rmin_l|apply Rmin_r].
Qed.
Lemma op_all N (P : (nat -> R) -> Prop) x : (forall y, P y) -> op N P x.
Proof. intros H. exists 1. split; [lra|auto]. Qed.
Lemma op_imp N (P Q : (nat -> R) -> Prop) x : (forall y, P y -> Q y) -> op N P x -> op N Q x.
Proof. intros I (d & D & H). exists d. auto. Qed.

Lemma lip_const N c x : lip_at N (fun _ => c) x.
Proof. exists 1, 0. split; [lra|]. split; [lra|]. intros. rewrite Rminus_diag_eq, Rabs_R0 by auto. lra. Qed.
Lemma lip_var N i x : (i < N)%nat -> lip_at N (fun y => y i) x.
Proof. intros Hi. exists 1, 1. split; [lra|]. split; [lra|]. intros. rewrite Rmult_1_l. auto. Qed.
Lemma lip_plus N f g x : lip_at N f x -> lip_at N g x -> lip_at N (fun y => f y + g y) x.
Proof.
  intros (d & L & D & HL & H) (e & M & E & HM & K). exists (Rmin d e), (L + M). split; [apply Rmin_glb_lt; auto|]. split; [lra|].
  intros y z r R0 Hy Hz Hr. replace (f y + g y - (f z + g z)) with ((f y - f z) + (g y - g z)) by ring.
  eapply Rle_trans; [apply Rabs_triang|]. rewrite Rmult_plus_distr_r.
  apply Rplus_le_compat; [apply H|apply K]; auto; eapply cl_le; eauto; try apply Rmin_l; apply Rmin_r.
Qed.
(* values near x are near the value at x *)
Lemma lip_cont N g x e : lip_at N g x -> 0 < e -> exists d, 0 < d /\ forall y, cl N d y x -> Rabs (g y - g x) < e.
Proof.
  intros (d & L & D & HL & H) E. set (d' := Rmin d (e / (L + 1))). assert (P : 0 < e / (L + 1)) by (apply Rdiv_lt_0_compat; lra).
  assert (D' : 0 < d') by (apply Rmin_glb_lt; auto). exists d'. split; auto. intros y Hy.
  assert (Q : Rabs (g y - g x) <= L * d').
  { apply H; try lra; [eapply cl_le; eauto; apply Rmin_l|now apply cl_refl|]. intros i Hi. left. now apply Hy. }
  assert (d' <= e / (L + 1)) by apply Rmin_r. assert (L * d' <= L * (e / (L + 1))) by (apply Rmult_le_compat_l; auto).
  assert ((L + 1) * (e / (L + 1)) = e) by (field; lra). lra.
Qed.
Lemma lip_comp N F g x : lip1 F (g x) -> lip_at N g x -> lip_at N (fun y => F (g y)) x.
Proof.
  intros (e & M & E & HM & K) HG. destruct (lip_cont N g x e HG E) as (d1 & D1 & C1). destruct HG as (d & L & D & HL & H).
  exists (Rmin d d1), (M * L). split; [apply Rmin_glb_lt; auto|]. split; [apply Rmult_le_pos; auto|].
  intros y z r R0 Hy Hz Hr. eapply Rle_trans.
  - apply K; apply C1; eapply cl_le; eauto; apply Rmin_r.
  - rewrite Rmult_assoc. apply Rmult_le_compat_l; auto. apply H; auto; eapply cl_le; eauto; apply Rmin_l.
Qed.
Lemma lip_scal N k g x : lip_at N g x -> lip_at N (fun y => k * g y) x.
Proof.
  intros H. apply (lip_comp N (fun u => k * u)); auto. exists 1, (Rabs k). split; [lra|]. split; [apply Rabs_pos|].
  intros. rewrite <- Rmult_minus_distr_l, Rabs_mult. lra.
Qed.
Lemma lip_ext N f g x : (forall y, f y = g y) -> lip_at N f x -> lip_at N g x.
Proof. intros E (d & L & D & HL & H). exists d, L. split; auto. split; auto. intros. rewrite <- !E. auto. Qed.
Lemma lip_minus N f g x : lip_at N f x -> lip_at N g x -> lip_at N (fun y => f y - g y) x.
Proof. intros F G. apply (lip_ext N (fun y => f y + -1 * g y)); [intros; ring|]. apply lip_plus; auto. now apply lip_scal. Qed.
Lemma lip_mult N f g x : lip_at N f x -> lip_at N g x -> lip_at N (fun y => f y * g y) x.
Proof.
  intros F G. destruct (lip_cont N f x 1 F Rlt_0_1) as (d1 & D1 & C1). destruct (lip_cont N g x 1 G Rlt_0_1) as (d2 & D2 & C2).
  destruct F as (d & L & D & HL & H), G as (e & M & E & HM & K).
  exists (Rmin (Rmin d e) (Rmin d1 d2)), ((Rabs (f x) + 1) * M + (Rabs (g x) + 1) * L).
  split; [repeat apply Rmin_glb_lt; auto|]. pose proof (Rabs_pos (f x)). pose proof (Rabs_pos (g x)).
  split; [apply Rplus_le_le_0_compat; apply Rmult_le_pos; lra|].
  intros y z r R0 Hy Hz Hr.
  assert (Y : cl N d y x /\ cl N e y x /\ cl N d1 y x /\ cl N d2 y x).
  { repeat split; eapply cl_le; eauto; first [eapply Rle_trans; [apply Rmin_l|]; first [apply Rmin_l|apply Rmin_r]|eapply Rle_trans; [apply Rmin_r|]; first [apply Rmin_l|apply Rmin_r]]. }
  assert (Z : cl N d z x /\ cl N e z x /\ cl N d1 z x /\ cl N d2 z x).
  { repeat split; eapply cl_le; eauto; first [eapply Rle_trans; [apply Rmin_l|]; first [apply Rmin_l|apply Rmin_r]|eapply Rle_trans; [apply Rmin_r|]; first [apply Rmin_l|apply Rmin_r]]. }
  replace (f y * g y - f z * g z) with (f y * (g y - g z) + g z * (f y - f z)) by ring.
  eapply Rle_trans; [apply Rabs_triang|]. rewrite !Rabs_mult.
  assert (FY : Rabs (f y) <= Rabs (f x) + 1). { pose proof (C1 y (proj1 (proj2 (proj2 Y)))). replace (f y) with (f x + (f y - f x)) by ring. pose proof (Rabs_triang (f x) (f y - f x)). lra. }
  assert (GZ : Rabs (g z) <= Rabs (g x) + 1). { pose proof (C2 z (proj2 (proj2 (proj2 Z)))). replace (g z) with (g x + (g z - g x)) by ring. pose proof (Rabs_triang (g x) (g z - g x)). lra. }
  assert (Rabs (g y - g z) <= M * r) by (apply K; tauto). assert (Rabs (f y - f z) <= L * r) by (apply H; tauto).
  rewrite Rmult_plus_distr_r, !Rmult_assoc. apply Rplus_le_compat; apply Rmult_le_compat; auto using Rabs_pos.
Qed.
Lemma op_comp N (P : R -> Prop) g x : locally (g x) P -> lip_at N g x -> op N (fun y => P (g y)) x.
Proof. intros [e He] G. destruct (lip_cont N g x e G (cond_pos e)) as (d & D & C). exists d. split; auto. intros y Hy. apply He. exact (C y Hy). Qed.

(* a function with a continuous derivative near a *)
Lemma lip1_C1 (F F' : R -> R) a : locally a (fun u => is_derive F u (F' u)) -> continuous F' a -> lip1 F a.
Proof.
  intros [e He] CF. assert (C : locally a (fun u => Rabs (F' u - F' a) < 1)).
  { apply (CF (fun v => Rabs (v - F' a) < 1)). exists (mkposreal _ Rlt_0_1). intros v Hv. exact Hv. }
  destruct C as [d Hd]. set (m := Rmin e d). assert (M : 0 < m) by (apply Rmin_glb_lt; [apply cond_pos|apply cond_pos]).
  exists m, (Rabs (F' a) + 1). split; auto. pose proof (Rabs_pos (F' a)). split; [lra|]. intros u v Hu Hv.
  assert (B : forall w, Rmin v u <= w <= Rmax v u -> Rabs (w - a) < m).
  { intros w Hw. unfold Rmin, Rmax in Hw. destruct (Rle_dec v u); apply Rabs_def2 in Hu; apply Rabs_def2 in Hv; apply Rabs_def1; lra. }
  destruct (MVT_gen F v u F') as (w & Hw & E).
  - intros w Hw. apply He. assert (m <= e) by apply Rmin_l. specialize (B w ltac:(lra)). change (Rabs (w - a) < e). lra.
  - intros w Hw. apply derivable_continuous_pt. exists (F' w). apply is_derive_Reals. apply He. assert (m <= e) by apply Rmin_l. specialize (B w Hw). change (Rabs (w - a) < e). lra.
  - rewrite E, Rabs_mult. apply Rmult_le_compat_r; [apply Rabs_pos|]. assert (m <= d) by apply Rmin_r. specialize (B w Hw).
    assert (BD : Rabs (F' w - F' a) < 1) by (apply Hd; change (Rabs (w - a) < d); lra).
    replace (F' w) with (F' a + (F' w - F' a)) by ring. pose proof (Rabs_triang (F' a) (F' w - F' a)). lra.
Qed.
Lemma locally_all {T : UniformSpace} (x : T) (P : T -> Prop) : (forall y, P y) -> locally x P.
Proof. intros H. exists (mkposreal _ Rlt_0_1). auto. Qed.
Lemma lip1_inv a : a <> 0 -> lip1 Rinv a.
Proof.
  intros N. apply (lip1_C1 _ (fun u => - / (u * u))).
  - generalize (open_neq a N). apply filter_imp. intros u Hu. auto_derive; auto. now field.
  - apply (ex_derive_continuous (fun u => - / (u * u))). auto_derive. nra.
Qed.
Lemma lip1_powZ n a : ((n < 0)%Z -> a <> 0) -> lip1 (fun u => powerRZ u n) a.
Proof.
  intros N. destruct n as [|p|p].
  - exists 1, 0. split; [lra|]. split; [lra|]. intros. simpl. rewrite Rminus_diag_eq, Rabs_R0; auto. lra.
  - apply (lip1_C1 _ (fun u => INR (Pos.to_nat p) * u ^ Nat.pred (Pos.to_nat p))).
    + apply locally_all. intros u. simpl. auto_derive; auto. ring.
    + apply (ex_derive_continuous (fun u => INR (Pos.to_nat p) * u ^ Nat.pred (Pos.to_nat p))). auto_derive; auto.
  - specialize (N ltac:(lia)). assert (NP : forall u, u <> 0 -> u ^ Pos.to_nat p <> 0) by (intros; now apply pow_nonzero).
    apply (lip1_C1 _ (fun u => - (INR (Pos.to_nat p) * u ^ Nat.pred (Pos.to_nat p)) / (u ^ Pos.to_nat p) ^ 2)).
    + generalize (open_neq a N). apply filter_imp. intros u Hu. simpl. auto_derive; auto. field. auto.
    + apply (ex_derive_continuous (fun u => - (INR (Pos.to_nat p) * u ^ Nat.pred (Pos.to_nat p)) / (u ^ Pos.to_nat p) ^ 2)). auto_derive. apply NP in N. nra.
Qed.
Lemma open_cos a : cos a <> 0 -> locally a (fun u => cos u <> 0).
Proof. intros N. apply (continuous_cos a (fun v => v <> 0)). now apply open_neq. Qed.
Lemma fdiff_open f a : is_arc f = false -> fdiff f a -> locally a (fdiff f).
Proof. intros A H. destruct f; try discriminate; cbn [fdiff fdom] in *; try (apply locally_all; auto; fail); [now apply open_pos|now apply open_pos|now apply open_cos]. Qed.
Lemma fder_cont f a : is_arc f = false -> fdiff f a -> continuous (fder f) a.
Proof.
  intros A H. destruct f; try discriminate; cbn [fdiff fdom] in *.
  - apply (ex_derive_continuous (fun x : R => exp x)). auto_derive; auto.
  - apply (ex_derive_continuous (fun x : R => / x)). auto_derive. now apply Rgt_not_eq.
  - apply (ex_derive_continuous (fun x : R => / (2 * sqrt x))). pose proof (sqrt_lt_R0 a H). auto_derive. split; [exact H|]. split; [|exact Logic.I]. apply Rgt_not_eq. lra.
  - apply (ex_derive_continuous (fun x : R => cos x)). auto_derive; auto.
  - apply (ex_derive_continuous (fun x : R => - sin x)). auto_derive; auto.
  - apply (ex_derive_continuous (fun x : R => 1 / (cos x * cos x))). auto_derive. apply Rmult_integral_contrapositive. auto.
  - apply (ex_derive_continuous (fun x : R => (exp x + exp (- x)) / 2)). auto_derive; auto.
  - apply (ex_derive_continuous (fun x : R => (exp x - exp (- x)) / 2)). auto_derive; auto.
  - apply (ex_derive_continuous (fun x : R => 1 / (((exp x + exp (- x)) / 2) * ((exp x + exp (- x)) / 2)))). pose proof (exp_pos a). pose proof (exp_pos (- a)). auto_derive. apply Rgt_not_eq. apply Rmult_lt_0_compat; lra.
Qed.
Lemma lip1_fun f a : is_arc f = false -> fdiff f a -> lip1 (frl f) a.
Proof.
  intros A H. apply (lip1_C1 _ (fder f)); [|now apply fder_cont]. generalize (fdiff_open f a A H). apply filter_imp. intros u Hu.
  apply is_derive_Reals. now apply fun_deriv.
Qed.
Theorem adiff_lip N e x : awf N e -> noarc e = true -> adiff e x -> lip_at N (rval e) x /\ op N (adiff e) x.
Proof.
  intros W A. induction e; intros H; cbn [awf noarc adiff] in *; cbn [rval].
  - split; [now apply lip_var|now apply op_all].
  - split; [apply lip_const|now apply op_all].
  - apply andb_prop in A as []. destruct IHe1, IHe2; try tauto. split; [now apply lip_plus|now apply op_and].
  - apply andb_prop in A as []. destruct IHe1, IHe2; try tauto. split; [now apply lip_minus|now apply op_and].
  - apply andb_prop in A as []. destruct IHe1, IHe2; try tauto. split; [now apply lip_mult|now apply op_and].
  - apply andb_prop in A as []. destruct IHe1 as [L1 O1], IHe2 as [L2 O2]; try tauto. destruct H as (HA & HB & N0). split.
    + apply lip_mult; auto. apply (lip_comp N Rinv (rval e2)); auto. now apply lip1_inv.
    + repeat apply op_and; auto. apply (op_comp N (fun u => u <> 0)); auto. now apply open_neq.
  - destruct H as [H HS]. destruct IHe as [L O]; try tauto. split.
    + destruct o; cbn [scv]; [apply lip_plus|apply lip_plus|apply lip_minus|apply lip_minus|apply lip_mult|apply lip_mult|apply lip_mult|apply lip_mult]; auto using lip_const.
      apply (lip_comp N Rinv (rval e0)); auto. now apply lip1_inv.
    + apply op_and; auto. destruct o; try (apply op_all; auto; fail). apply (op_comp N (fun u => u <> 0)); auto. now apply open_neq.
  - destruct IHe as [L O]; auto. split; auto. apply (lip_ext N (fun y => -1 * rval e y)); [intros; ring|]. now apply lip_scal.
  - destruct H as [H HN]. destruct IHe as [L O]; try tauto. split.
    + apply (lip_comp N (fun u => powerRZ u n) (rval e)); auto. now apply lip1_powZ.
    + apply op_and; auto. destruct (Z.ltb_spec n 0); [|apply op_all; intros; lia].
      apply (op_imp N (fun y => rval e y <> 0)); auto. apply (op_comp N (fun u => u <> 0)); auto. apply open_neq; auto.
  - apply andb_prop in A as []. destruct IHe1 as [L1 O1], IHe2 as [L2 O2]; try tauto. destruct H as (HA & HB & P). split.
    + apply (lip_comp N exp). { apply (lip1_fun Aexp); [reflexivity|exact Logic.I]. } apply lip_mult; auto. apply (lip_comp N ln); auto. apply (lip1_fun Alog); auto.
    + repeat apply op_and; auto. apply (op_comp N (fun u => 0 < u)); auto. now apply open_pos.
  - apply andb_prop in A as [A1 A2]. apply negb_true_iff in A1. destruct H as [H HF]. destruct IHe as [L O]; try tauto. split.
    + apply (lip_comp N (frl f)); auto. now apply lip1_fun.
    + apply op_and; auto. apply (op_comp N (fdiff f)); auto. now apply fdiff_open.
Qed.

(* ---- compactness of boxes ---- *)
Definition mono {A} (P : A -> R -> Prop) : Prop := forall x d d', 0 < d' -> d' <= d -> P x d -> P x d'.
Lemma compact1 (Q : R -> R -> Prop) a b : mono Q -> a <= b ->
  (forall s, a <= s <= b -> exists d, 0 < d /\ forall s', a <= s' <= b -> Rabs (s' - s) < d -> Q s' d) ->
  exists d, 0 < d /\ forall s, a <= s <= b -> Q s d.
Proof.
  intros HM AB HL. set (E := fun t => a <= t <= b /\ exists d, 0 < d /\ forall s, a <= s <= t -> Q s d).
  assert (Ea : E a). { split; [lra|]. destruct (HL a ltac:(lra)) as (d & D & H). exists d. split; auto. intros s Hs. apply H; [lra|]. replace (s - a) with 0 by lra. now rewrite Rabs_R0. }
  destruct (completeness E) as [t [UB LB]]. { exists b. intros x [Hx _]. lra. } { now exists a. }
  assert (Ht : a <= t <= b) by (split; [now apply UB|apply LB; intros x [Hx _]; lra]).
  destruct (HL t Ht) as (d & D & H).
  assert (W : exists t', E t' /\ t - d < t'). { apply NNPP. intros N. assert (t <= t - d); [|lra]. apply LB. intros x Hx. destruct (Rle_dec x (t - d)); auto. exfalso. apply N. exists x. split; auto. lra. }
  destruct W as (t' & (Ht' & d' & D' & H') & Lt).
  assert (X : forall r, r <= b -> r < t + d -> E r \/ r < a).
  { intros r Hr Lr. destruct (Rlt_dec r a); [now right|left]. split; [lra|]. exists (Rmin d d'). assert (P : 0 < Rmin d d') by (apply Rmin_glb_lt; auto). split; auto. intros s Hs.
    destruct (Rle_dec s t').
    - apply (HM s d'); auto; [apply Rmin_r|]. apply H'. lra.
    - apply (HM s d); auto; [apply Rmin_l|]. apply H; [lra|]. apply Rabs_def1; lra. }
  destruct (Rlt_dec t b) as [Lb|Lb].
  - exfalso. assert (T2 : Rmin b (t + d / 2) <= t). { destruct (X (Rmin b (t + d / 2))) as [Y|Y]; [apply Rmin_l| | |]. - pose proof (Rmin_r b (t + d / 2)). lra. - now apply UB. - lra. }
    unfold Rmin in T2. destruct (Rle_dec b (t + d / 2)); lra.
  - destruct (X b) as [(_ & Y)|Y]; [lra|lra|exact Y|lra].
Qed.
Definition inbox (N : nat) (lo hi x : nat -> R) : Prop := forall i, (i < N)%nat -> lo i <= x i <= hi i.
Definition setc (N : nat) (x : nat -> R) (s : R) : nat -> R := fun i => if (i =? N)%nat then s else x i.
Lemma compactN N lo hi : (forall i, (i < N)%nat -> lo i <= hi i) -> forall P : (nat -> R) -> R -> Prop, mono P ->
  (forall x, inbox N lo hi x -> exists d, 0 < d /\ forall y, inbox N lo hi y -> cl N d y x -> (forall i, (N <= i)%nat -> y i = x i) -> P y d) ->
  forall w, exists d, 0 < d /\ forall x, inbox N lo hi x -> (forall i, (N <= i)%nat -> x i = w i) -> P x d.
Proof.
  induction N; intros LH P HM HL w.
  - destruct (HL w) as (d & D & H). { intros i Hi. lia. } exists d. split; auto. intros x Hx E. apply H; auto. intros i Hi. lia.
  - assert (EX : exists d, 0 < d /\ forall s, lo N <= s <= hi N -> forall x, inbox (S N) lo hi x -> x N = s -> (forall i, (S N <= i)%nat -> x i = w i) -> P x d).
    { apply (compact1 (fun s d => forall x, inbox (S N) lo hi x -> x N = s -> (forall i, (S N <= i)%nat -> x i = w i) -> P x d)).
      - intros s d d' D' LE H x Hx E Hw. apply (HM x d); auto.
      - apply LH. lia.
      - intros s Hs.
        destruct (IHN ltac:(auto) (fun x d => forall s', lo N <= s' <= hi N -> Rabs (s' - s) < d -> P (setc N x s') d)) with (w := setc N w s) as (d & D & H).
        + intros x d d' D' LE H s' Hs' A. apply (HM _ d); auto. apply H; auto. lra.
        + intros x Hx. destruct (HL (setc N x s)) as (d & D & H).
          { intros i Hi. unfold setc. destruct (Nat.eqb_spec i N); [subst; auto|]. apply Hx. lia. }
          exists d. split; auto. intros y Hy C Ey s' Hs' A. apply H.
          * intros i Hi. unfold setc. destruct (Nat.eqb_spec i N); [subst; auto|]. apply Hy. lia.
          * intros i Hi. unfold setc. destruct (Nat.eqb_spec i N); [auto|]. apply C. lia.
          * intros i Hi. unfold setc. destruct (Nat.eqb_spec i N); [lia|]. apply Ey. lia.
        + exists d. split; auto. intros s' Hs' A x Hx E Hw.
          (* P does not see the difference between x and setc N x0 s' *)
          assert (Q : P (setc N (setc N x s) s') d).
          { apply H; auto.
            - intros i Hi. unfold setc. destruct (Nat.eqb_spec i N); [lia|]. apply Hx. lia.
            - intros i Hi. unfold setc. destruct (Nat.eqb_spec i N); auto. apply Hw. lia. }
          replace x with (setc N (setc N x s) s'); auto. apply functional_extensionality_dep. intros i. unfold setc. destruct (Nat.eqb_spec i N); [subst; auto|auto]. }
    destruct EX as (d & D & H). exists d. split; auto. intros x Hx E. apply (H (x N)); auto.
Qed.
