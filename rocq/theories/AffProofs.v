(* Joint enclosure of affine arithmetic. *)
From Coq Require Import Reals Lra Lia ZArith Bool List Arith.
From Flocq Require Import Core.
From Verif Require Import Ext Scalar IntervalModel IntervalSpec IntervalProofs IntervalEncl IntervalSets IntervalMore ElemModel ElemGen
  AffModel AffSpec.
Import ListNotations.
Open Scope R_scope.

(* besides scal_ok: every value of T is well formed, abs is exact, NaN is propagated *)
Record aff_laws (S : scal) : Prop := mkaff {
  af_wf : forall x : S, swf x;
  af_abs : forall x : S, sval (sabs x) = match sval x with XR r => XR (Rabs r) | Xm => Xp | o => o end;
  af_addu : forall x y : S, xadd (sval x) (sval y) = Xn -> sval (addu x y) = Xn;
  af_addd : forall x y : S, xadd (sval x) (sval y) = Xn -> sval (addd x y) = Xn;
  af_subu : forall x y : S, xsub (sval x) (sval y) = Xn -> sval (subu x y) = Xn;
  af_subd : forall x y : S, xsub (sval x) (sval y) = Xn -> sval (subd x y) = Xn;
  af_mulu : forall x y : S, xmul (sval x) (sval y) = Xn -> sval (mulu x y) = Xn;
  af_muld : forall x y : S, xmul (sval x) (sval y) = Xn -> sval (muld x y) = Xn }.

Section Proofs.
Context {S : scal} (OK : scal_ok S) (AL : aff_laws S).
Notation iv := (iv S). Notation form := (form S).
Implicit Types x y a b : S.

Lemma fin_ex x : fin x -> sval x = XR (rv x).
Proof. unfold fin, rv. destruct (sval x); simpl; try tauto. Qed.
Lemma rv_ex x r : sval x = XR r -> fin x /\ rv x = r.
Proof. unfold fin, rv. intros ->. simpl; auto. Qed.
Lemma wf x : swf x. Proof. apply (af_wf _ AL). Qed.
Lemma up_fin (e t : ext) : (e = Xn -> t = Xn) -> xup e t -> is_fin t -> exists r, e = XR r.
Proof. intros N U F. destruct e; eauto; simpl in U; try (rewrite U in F; destruct F). rewrite (N eq_refl) in F. destruct F. Qed.
Lemma down_fin (e t : ext) : (e = Xn -> t = Xn) -> xdown e t -> is_fin t -> exists r, e = XR r.
Proof. intros N U F. destruct e; eauto; simpl in U; try (rewrite U in F; destruct F). rewrite (N eq_refl) in F. destruct F. Qed.
Lemma xadd_fin e f r : xadd e f = XR r -> exists p q : R, e = XR p /\ f = XR q /\ r = p + q.
Proof. destruct e, f; simpl; try discriminate. injection 1 as <-. eauto. Qed.
Lemma xsub_fin e f r : xsub e f = XR r -> exists p q : R, e = XR p /\ f = XR q /\ r = p - q.
Proof. destruct e, f; simpl; try discriminate. injection 1 as <-. eauto. Qed.
Lemma xmul_fin e f r : xmul e f = XR r -> exists p q : R, e = XR p /\ f = XR q /\ r = p * q.
Proof.
  destruct e, f; simpl; try discriminate; unfold xsgn_inf; try (destruct (Rcompare _ _); discriminate).
  injection 1 as <-. eauto.
Qed.
Ltac up x y L N FI :=
  intros F; destruct (L x y (wf x) (wf y)) as [_ U];
  destruct (up_fin _ _ (N x y) U F) as (r & E); destruct (FI _ _ _ E) as (a' & b' & E1 & E2 & E3);
  destruct (rv_ex _ _ E1) as [F1 R1]; destruct (rv_ex _ _ E2) as [F2 R2]; split; [exact F1|split; [exact F2|]];
  rewrite E in U; rewrite (fin_ex _ F) in U; simpl in U; rewrite R1, R2; lra.
Ltac dn x y L N FI :=
  intros F; destruct (L x y (wf x) (wf y)) as [_ U];
  destruct (down_fin _ _ (N x y) U F) as (r & E); destruct (FI _ _ _ E) as (a' & b' & E1 & E2 & E3);
  destruct (rv_ex _ _ E1) as [F1 R1]; destruct (rv_ex _ _ E2) as [F2 R2]; split; [exact F1|split; [exact F2|]];
  rewrite E in U; rewrite (fin_ex _ F) in U; simpl in U; rewrite R1, R2; lra.
Lemma addu_f x y : fin (addu x y) -> fin x /\ fin y /\ rv x + rv y <= rv (addu x y).
Proof. up x y (ok_addu _ OK) (af_addu _ AL) xadd_fin. Qed.
Lemma addd_f x y : fin (addd x y) -> fin x /\ fin y /\ rv (addd x y) <= rv x + rv y.
Proof. dn x y (ok_addd _ OK) (af_addd _ AL) xadd_fin. Qed.
Lemma subu_f x y : fin (subu x y) -> fin x /\ fin y /\ rv x - rv y <= rv (subu x y).
Proof. up x y (ok_subu _ OK) (af_subu _ AL) xsub_fin. Qed.
Lemma subd_f x y : fin (subd x y) -> fin x /\ fin y /\ rv (subd x y) <= rv x - rv y.
Proof. dn x y (ok_subd _ OK) (af_subd _ AL) xsub_fin. Qed.
Lemma mulu_f x y : fin (mulu x y) -> fin x /\ fin y /\ rv x * rv y <= rv (mulu x y).
Proof. up x y (ok_mulu _ OK) (af_mulu _ AL) xmul_fin. Qed.
Lemma muld_f x y : fin (muld x y) -> fin x /\ fin y /\ rv (muld x y) <= rv x * rv y.
Proof. dn x y (ok_muld _ OK) (af_muld _ AL) xmul_fin. Qed.
Lemma sabs_f x : fin (sabs x) -> fin x /\ rv (sabs x) = Rabs (rv x).
Proof.
  unfold fin, rv. rewrite (af_abs _ AL). destruct (sval x); simpl; tauto.
Qed.
Lemma sneg_f x : fin (sneg x) -> fin x /\ rv (sneg x) = - rv x.
Proof. unfold fin, rv. destruct (ok_neg _ OK x (wf x)) as [_ ->]. destruct (sval x); simpl; tauto. Qed.
Lemma s0_f : fin (@s0 S) /\ rv (@s0 S) = 0.
Proof. apply rv_ex, (ok_s0 _ OK). Qed.
Lemma half_f : fin (@shalf S) /\ rv (@shalf S) = / 2.
Proof. apply rv_ex, shalf_ok, OK. Qed.
Lemma divu_f x y : fin x -> fin y -> rv y <> 0 -> fin (divu x y) -> rv x / rv y <= rv (divu x y).
Proof.
  intros FX FY N F. destruct (ok_divu _ OK x y (wf _) (wf _)) as [_ U]. { rewrite (fin_ex _ FY). congruence. }
  rewrite (fin_ex _ FX), (fin_ex _ FY), (fin_ex _ F) in U. exact U.
Qed.
Lemma divd_f x y : fin x -> fin y -> rv y <> 0 -> fin (divd x y) -> rv (divd x y) <= rv x / rv y.
Proof.
  intros FX FY N F. destruct (ok_divd _ OK x y (wf _) (wf _)) as [_ U]. { rewrite (fin_ex _ FY). congruence. }
  rewrite (fin_ex _ FX), (fin_ex _ FY), (fin_ex _ F) in U. exact U.
Qed.

(* sums *)
Lemma lsum_app e (l1 : list S) : forall k l2, lsum e k (l1 ++ l2) = lsum e k l1 + lsum e (length l1 + k) l2.
Proof.
  induction l1 as [|c l1 IH]; intros k l2; cbn [app lsum length]; [simpl; lra|]. rewrite IH.
  replace (length l1 + (1 + k))%nat with (Datatypes.S (length l1) + k)%nat by lia. lra.
Qed.
Lemma lsum_zeros e n : forall k, lsum e k (repeat (@s0 S) n) = 0.
Proof. induction n as [|n IH]; intros k; simpl; auto. rewrite IH, (proj2 s0_f). lra. Qed.
Lemma lsum_ext e e' (l : list S) : forall k, (forall i, (i < k + length l)%nat -> e' i = e i) -> lsum e' k l = lsum e k l.
Proof.
  induction l as [|c l IH]; intros k H; simpl; auto. rewrite IH, H; auto; simpl; try lia. intros i Hi. apply H. simpl; lia.
Qed.
Lemma lsum_neg e (l : list S) : forall k, Forall fin (map sneg l) -> Forall fin l /\ lsum e k (map sneg l) = - lsum e k l.
Proof.
  induction l as [|c l IH]; intros k F; simpl; [split; auto; lra|]. simpl in F. inversion F as [|c' l' F1 F2]; subst.
  destruct (sneg_f _ F1) as [F3 R]. destruct (IH (1 + k)%nat F2) as [F4 E]. split; [constructor; auto|]. simpl in E. rewrite E, R. lra.
Qed.

Lemma mul_abs1 v e d : Rabs v <= d -> -1 <= e <= 1 -> Rabs (v * e) <= d.
Proof.
  intros H He. rewrite Rabs_mult. assert (Rabs e <= 1) by (apply Rabs_le; lra). pose proof (Rabs_pos v). pose proof (Rabs_pos e). nra.
Qed.

(* ---- + and - ---- *)
Section Lin.
Variable e : nat -> R.
Hypothesis AS : assignment e.
Lemma ladd_ok (xs : list S) : forall (ys : list S) (c : S) k, fin (ladd_err c xs ys) -> Forall fin (ladd xs ys) ->
  fin c /\ Forall fin xs /\ Forall fin ys /\
  Rabs (lsum e k xs + lsum e k ys - lsum e k (ladd xs ys)) <= rv (ladd_err c xs ys) - rv c.
Proof.
  induction xs as [|a xs IH]; intros [|b ys] c k F FL; cbn [ladd ladd_err lsum] in *;
    try (split; [exact F|split; [|split; [|rewrite Rabs_pos_eq; lra]]]; auto; fail).
  inversion FL as [|c' l' F1 F2]; subst. destruct (addd_f _ _ F1) as (FA & FB & D).
  destruct (IH ys _ (1 + k)%nat F F2) as (FC & FX & FY & D2).
  destruct (addu_f _ _ FC) as (FC1 & FC2 & D3). destruct (subu_f _ _ FC2) as (FC3 & _ & D4).
  destruct (addu_f _ _ FC3) as (_ & _ & D5).
  split; [exact FC1|]. split; [constructor; auto|]. split; [constructor; auto|].
  set (p := rv (addd a b)) in *. set (q := rv (addu a b)) in *.
  replace (rv a * e k + lsum e (1 + k) xs + (rv b * e k + lsum e (1 + k) ys) - (p * e k + lsum e (1 + k) (ladd xs ys)))
    with ((rv a + rv b - p) * e k + (lsum e (1 + k) xs + lsum e (1 + k) ys - lsum e (1 + k) (ladd xs ys))) by ring.
  eapply Rle_trans; [apply Rabs_triang|].
  assert (Rabs ((rv a + rv b - p) * e k) <= q - p). { apply mul_abs1; auto. rewrite Rabs_pos_eq; lra. }
  lra.
Qed.
Lemma lsub_ok (xs : list S) : forall (ys : list S) (c : S) k, fin (lsub_err c xs ys) -> Forall fin (lsub xs ys) ->
  fin c /\ Forall fin xs /\ Forall fin ys /\
  Rabs (lsum e k xs - lsum e k ys - lsum e k (lsub xs ys)) <= rv (lsub_err c xs ys) - rv c.
Proof.
  induction xs as [|a xs IH]; intros [|b ys] c k F FL; cbn [lsub lsub_err] in *.
  - split; [exact F|split; [|split; [|simpl; rewrite Rabs_pos_eq; lra]]]; auto.
  - destruct (lsum_neg e (b :: ys) k FL) as [FY E]. split; [exact F|split; [|split; [exact FY|]]]; auto.
    change (sneg b :: map sneg ys) with (map sneg (b :: ys)). rewrite E. simpl. rewrite Rabs_pos_eq; lra.
  - split; [exact F|split; [|split; [|simpl; rewrite Rabs_pos_eq; lra]]]; auto.
  - inversion FL as [|c' l' F1 F2]; subst. destruct (subd_f _ _ F1) as (FA & FB & D).
    destruct (IH ys _ (1 + k)%nat F F2) as (FC & FX & FY & D2).
    destruct (addu_f _ _ FC) as (FC1 & FC2 & D3). destruct (subu_f _ _ FC2) as (FC3 & _ & D4).
    destruct (subu_f _ _ FC3) as (_ & _ & D5).
    split; [exact FC1|]. split; [constructor; auto|]. split; [constructor; auto|].
    cbn [lsum]. set (p := rv (subd a b)) in *. set (q := rv (subu a b)) in *.
    replace (rv a * e k + lsum e (1 + k) xs - (rv b * e k + lsum e (1 + k) ys) - (p * e k + lsum e (1 + k) (lsub xs ys)))
      with ((rv a - rv b - p) * e k + (lsum e (1 + k) xs - lsum e (1 + k) ys - lsum e (1 + k) (lsub xs ys))) by ring.
    eapply Rle_trans; [apply Rabs_triang|].
    assert (Rabs ((rv a - rv b - p) * e k) <= q - p). { apply mul_abs1; auto. rewrite Rabs_pos_eq; lra. }
    lra.
Qed.
End Lin.

Lemma tri3 u v w d1 d2 d3 : Rabs u <= d1 -> Rabs v <= d2 -> Rabs w <= d3 -> Rabs (u + v + w) <= d1 + d2 + d3.
Proof. intros. pose proof (Rabs_triang (u + v) w). pose proof (Rabs_triang u v). lra. Qed.
Lemma tri2 u v d1 d2 : Rabs u <= d1 -> Rabs v <= d2 -> Rabs (u + v) <= d1 + d2.
Proof. intros. pose proof (Rabs_triang u v). lra. Qed.
Lemma abs_eq u v d : Rabs u <= d -> u = v -> Rabs v <= d. Proof. intros; subst; auto. Qed.

Lemma aadd_ok e (x y : form) u v : assignment e -> frep e x u -> frep e y v -> ffin (aadd x y) -> frep e (aadd x y) (u + v).
Proof.
  intros AS [FX HX] [FY HY] FR. split; auto. destruct FR as (F0 & FL & FE). cbn [f0 fs fe aadd] in *.
  destruct (addu_f _ _ FE) as (FE1 & FE2 & D1). destruct (addu_f _ _ FE1) as (_ & _ & D2).
  cbn [ladd_err] in FE2, D1. destruct (addd_f _ _ F0) as (F3 & F4 & D3).
  destruct (ladd_ok e AS _ _ _ 1%nat FE2 FL) as (F5 & _ & _ & D4).
  destruct (addu_f _ _ F5) as (_ & F6 & D5). destruct (subu_f _ _ F6) as (F7 & _ & D6). destruct (addu_f _ _ F7) as (_ & _ & D7).
  rewrite (proj2 s0_f) in D5.
  assert (H0 : Rabs (rv (f0 x) + rv (f0 y) - rv (addd (f0 x) (f0 y))) <= rv (addu (f0 x) (f0 y)) - rv (addd (f0 x) (f0 y))).
  { rewrite Rabs_pos_eq; lra. }
  eapply Rle_trans; [eapply abs_eq|].
  - apply (tri2 _ _ _ _ (tri2 _ _ _ _ HX HY) (tri2 _ _ _ _ H0 D4)).
  - ring.
  - cbn [ladd_err]. lra.
Qed.
Lemma asub_ok e (x y : form) u v : assignment e -> frep e x u -> frep e y v -> ffin (asub x y) -> frep e (asub x y) (u - v).
Proof.
  intros AS [FX HX] [FY HY] FR. split; auto. destruct FR as (F0 & FL & FE). cbn [f0 fs fe asub] in *.
  destruct (addu_f _ _ FE) as (FE1 & FE2 & D1). destruct (addu_f _ _ FE1) as (_ & _ & D2).
  cbn [lsub_err] in FE2, D1. destruct (subd_f _ _ F0) as (F3 & F4 & D3).
  destruct (lsub_ok e AS _ _ _ 1%nat FE2 FL) as (F5 & _ & _ & D4).
  destruct (addu_f _ _ F5) as (_ & F6 & D5). destruct (subu_f _ _ F6) as (F7 & _ & D6). destruct (subu_f _ _ F7) as (_ & _ & D7).
  rewrite (proj2 s0_f) in D5.
  assert (H0 : Rabs (rv (f0 x) - rv (f0 y) - rv (subd (f0 x) (f0 y))) <= rv (subu (f0 x) (f0 y)) - rv (subd (f0 x) (f0 y))).
  { rewrite Rabs_pos_eq; lra. }
  rewrite <- Rabs_Ropp in HY.
  eapply Rle_trans; [eapply abs_eq|].
  - apply (tri2 _ _ _ _ (tri2 _ _ _ _ HX HY) (tri2 _ _ _ _ H0 D4)).
  - ring.
  - cbn [lsub_err]. lra.
Qed.
Lemma aaddT_ok e (x : form) (c : S) u : assignment e -> frep e x u -> ffin (aaddT x c) -> frep e (aaddT x c) (u + rv c).
Proof.
  intros AS [FX HX] FR. split; auto. destruct FR as (F0 & FL & FE). cbn [f0 fs fe aaddT] in *.
  destruct (addu_f _ _ FE) as (_ & FE2 & D1). destruct (addd_f _ _ F0) as (F3 & F4 & D3).
  destruct (subu_f _ _ FE2) as (F7 & _ & D6). destruct (addu_f _ _ F7) as (_ & _ & D7).
  assert (H0 : Rabs (rv (f0 x) + rv c - rv (addd (f0 x) c)) <= rv (addu (f0 x) c) - rv (addd (f0 x) c)) by (rewrite Rabs_pos_eq; lra).
  eapply Rle_trans; [eapply abs_eq; [apply (tri2 _ _ _ _ HX H0)|ring]|]. lra.
Qed.
Lemma aTadd_ok e (x : form) (c : S) u : assignment e -> frep e x u -> ffin (aTadd c x) -> frep e (aTadd c x) (rv c + u).
Proof.
  intros AS [FX HX] FR. split; auto. destruct FR as (F0 & FL & FE). cbn [f0 fs fe aTadd] in *.
  destruct (addu_f _ _ FE) as (_ & FE2 & D1). destruct (addd_f _ _ F0) as (F3 & F4 & D3).
  destruct (subu_f _ _ FE2) as (F7 & _ & D6). destruct (addu_f _ _ F7) as (_ & _ & D7).
  assert (H0 : Rabs (rv c + rv (f0 x) - rv (addd c (f0 x))) <= rv (addu c (f0 x)) - rv (addd c (f0 x))) by (rewrite Rabs_pos_eq; lra).
  eapply Rle_trans; [eapply abs_eq; [apply (tri2 _ _ _ _ HX H0)|ring]|]. lra.
Qed.
Lemma asubT_ok e (x : form) (c : S) u : assignment e -> frep e x u -> ffin (asubT x c) -> frep e (asubT x c) (u - rv c).
Proof.
  intros AS [FX HX] FR. split; auto. destruct FR as (F0 & FL & FE). cbn [f0 fs fe asubT] in *.
  destruct (addu_f _ _ FE) as (_ & FE2 & D1). destruct (subd_f _ _ F0) as (F3 & F4 & D3).
  destruct (subu_f _ _ FE2) as (F7 & _ & D6). destruct (subu_f _ _ F7) as (_ & _ & D7).
  assert (H0 : Rabs (rv (f0 x) - rv c - rv (subd (f0 x) c)) <= rv (subu (f0 x) c) - rv (subd (f0 x) c)) by (rewrite Rabs_pos_eq; lra).
  eapply Rle_trans; [eapply abs_eq; [apply (tri2 _ _ _ _ HX H0)|ring]|]. lra.
Qed.
Lemma aTsub_ok e (x : form) (c : S) u : assignment e -> frep e x u -> ffin (aTsub c x) -> frep e (aTsub c x) (rv c - u).
Proof.
  intros AS [FX HX] FR. split; auto. destruct FR as (F0 & FL & FE). cbn [f0 fs fe aTsub] in *.
  destruct (addu_f _ _ FE) as (_ & FE2 & D1). destruct (subd_f _ _ F0) as (F3 & F4 & D3).
  destruct (subu_f _ _ FE2) as (F7 & _ & D6). destruct (subu_f _ _ F7) as (_ & _ & D7).
  destruct (lsum_neg e (fs x) 1%nat FL) as [_ E]. rewrite E.
  assert (H0 : Rabs (rv c - rv (f0 x) - rv (subd c (f0 x))) <= rv (subu c (f0 x)) - rv (subd c (f0 x))) by (rewrite Rabs_pos_eq; lra).
  rewrite <- Rabs_Ropp in HX. eapply Rle_trans; [eapply abs_eq; [apply (tri2 _ _ _ _ HX H0)|ring]|]. lra.
Qed.
Lemma aneg_ok e (x : form) u : frep e x u -> ffin (aneg x) -> frep e (aneg x) (- u).
Proof.
  intros [FX HX] FR. split; auto. destruct FR as (F0 & FL & FE). cbn [f0 fs fe aneg] in *.
  destruct (lsum_neg e (fs x) 1%nat FL) as [_ E]. destruct (sneg_f _ F0) as [_ R0]. rewrite E, R0.
  rewrite <- Rabs_Ropp in HX. eapply abs_eq; [apply HX|ring].
Qed.

(* ---- the rounded image of the coefficients under a map f (exact value g), with its error ---- *)
Section Map.
Variables (fd fu : S -> S) (g : R).
Hypothesis Hd : forall a, fin a -> fin (fd a) -> rv (fd a) <= g * rv a.
Hypothesis Hu : forall a, fin a -> fin (fu a) -> g * rv a <= rv (fu a).
Lemma lmap_ok e (AS : assignment e) (xs : list S) : forall (c : S) k, Forall fin xs -> Forall fin (map fd xs) ->
  fin (fold_left (fun c a => addu c (subu (fu a) (fd a))) xs c) ->
  fin c /\ Rabs (g * lsum e k xs - lsum e k (map fd xs)) <= rv (fold_left (fun c a => addu c (subu (fu a) (fd a))) xs c) - rv c.
Proof.
  induction xs as [|a xs IH]; intros c k FX FM F; cbn [map fold_left lsum] in *.
  - split; auto. rewrite Rabs_pos_eq; lra.
  - inversion FX; inversion FM; subst. destruct (IH _ (1 + k)%nat H2 H6 F) as [F1 D1].
    destruct (addu_f _ _ F1) as (FC & F2 & D2). destruct (subu_f _ _ F2) as (F3 & F4 & D3).
    pose proof (Hd a H1 F4). pose proof (Hu a H1 F3). split; auto.
    replace (g * (rv a * e k + lsum e (1 + k) xs) - (rv (fd a) * e k + lsum e (1 + k) (map fd xs)))
      with ((g * rv a - rv (fd a)) * e k + (g * lsum e (1 + k) xs - lsum e (1 + k) (map fd xs))) by ring.
    eapply Rle_trans; [apply Rabs_triang|].
    assert (Rabs ((g * rv a - rv (fd a)) * e k) <= rv (fu a) - rv (fd a)). { apply mul_abs1; auto. rewrite Rabs_pos_eq; lra. }
    lra.
Qed.
End Map.

Lemma mulabs g u d : Rabs u <= d -> Rabs (g * u) <= Rabs g * d.
Proof. intros. rewrite Rabs_mult. pose proof (Rabs_pos g). pose proof (Rabs_pos u). nra. Qed.
Lemma amulT_ok e (x : form) (c : S) u : assignment e -> frep e x u -> ffin (amulT x c) -> frep e (amulT x c) (u * rv c).
Proof.
  intros AS [FX HX] FR. split; auto. destruct FR as (F0 & FL & FE). destruct FX as (FX0 & FXL & FXE). cbn [f0 fs fe amulT] in *.
  destruct (addu_f _ _ FE) as (FE1 & FE2 & D1). destruct (mulu_f _ _ FE1) as (_ & F3 & D2). destruct (sabs_f _ F3) as [FC RC]. rewrite RC in D2.
  cbn [fold_left] in FE2, D1. destruct (muld_f _ _ F0) as (F4 & _ & D3).
  destruct (lmap_ok (fun a => muld a c) (fun a => mulu a c) (rv c)) with (e := e) (xs := fs x) (k := 1%nat)
     (c := addu s0 (subu (mulu (f0 x) c) (muld (f0 x) c))) as [F5 D4]; auto.
  { intros a _ Fa. destruct (muld_f _ _ Fa) as (_ & _ & ?). lra. }
  { intros a _ Fa. destruct (mulu_f _ _ Fa) as (_ & _ & ?). lra. }
  destruct (addu_f _ _ F5) as (_ & F6 & D5). destruct (subu_f _ _ F6) as (F7 & _ & D6). destruct (mulu_f _ _ F7) as (_ & _ & D7).
  rewrite (proj2 s0_f) in D5.
  assert (H0 : Rabs (rv (f0 x) * rv c - rv (muld (f0 x) c)) <= rv (mulu (f0 x) c) - rv (muld (f0 x) c)) by (rewrite Rabs_pos_eq; lra).
  eapply Rle_trans; [eapply abs_eq; [apply (tri3 _ _ _ _ _ _ (mulabs (rv c) _ _ HX) H0 D4)|ring]|]. cbn [fold_left]. lra.
Qed.
Lemma aTmul_ok e (x : form) (c : S) u : assignment e -> frep e x u -> ffin (aTmul c x) -> frep e (aTmul c x) (rv c * u).
Proof.
  intros AS [FX HX] FR. split; auto. destruct FR as (F0 & FL & FE). destruct FX as (FX0 & FXL & FXE). cbn [f0 fs fe aTmul] in *.
  destruct (addu_f _ _ FE) as (FE1 & FE2 & D1). destruct (mulu_f _ _ FE1) as (_ & F3 & D2). destruct (sabs_f _ F3) as [FC RC]. rewrite RC in D2.
  cbn [fold_left] in FE2, D1. destruct (muld_f _ _ F0) as (F4 & _ & D3).
  destruct (lmap_ok (fun a => muld c a) (fun a => mulu c a) (rv c)) with (e := e) (xs := fs x) (k := 1%nat)
     (c := addu s0 (subu (mulu c (f0 x)) (muld c (f0 x)))) as [F5 D4]; auto.
  { intros a _ Fa. destruct (muld_f _ _ Fa) as (_ & _ & ?). lra. }
  { intros a _ Fa. destruct (mulu_f _ _ Fa) as (_ & _ & ?). lra. }
  destruct (addu_f _ _ F5) as (_ & F6 & D5). destruct (subu_f _ _ F6) as (F7 & _ & D6). destruct (mulu_f _ _ F7) as (_ & _ & D7).
  rewrite (proj2 s0_f) in D5.
  assert (H0 : Rabs (rv c * rv (f0 x) - rv (muld c (f0 x))) <= rv (mulu c (f0 x)) - rv (muld c (f0 x))) by (rewrite Rabs_pos_eq; lra).
  eapply Rle_trans; [eapply abs_eq; [apply (tri3 _ _ _ _ _ _ (mulabs (rv c) _ _ HX) H0 D4)|ring]|]. cbn [fold_left]. lra.
Qed.
Lemma adivT_ok e (x : form) (c : S) u : assignment e -> frep e x u -> fin c -> rv c <> 0 -> ffin (adivT x c) -> frep e (adivT x c) (u / rv c).
Proof.
  intros AS [FX HX] FC NZ FR. split; auto. destruct FR as (F0 & FL & FE). destruct FX as (FX0 & FXL & FXE). cbn [f0 fs fe adivT] in *.
  destruct (addu_f _ _ FE) as (FE2 & FE1 & D1).
  assert (SA : sval (sabs c) = XR (Rabs (rv c))) by (rewrite (af_abs _ AL), (fin_ex _ FC); auto).
  destruct (rv_ex _ _ SA) as [FA RA].
  assert (D2 := divu_f _ _ FXE FA ltac:(rewrite RA; apply Rabs_no_R0; auto) FE1). rewrite RA in D2.
  cbn [fold_left] in FE2, D1. assert (D3 := divd_f _ _ FX0 FC NZ F0).
  destruct (lmap_ok (fun a => divd a c) (fun a => divu a c) (/ rv c)) with (e := e) (xs := fs x) (k := 1%nat)
     (c := addu s0 (subu (divu (f0 x) c) (divd (f0 x) c))) as [F5 D4]; auto.
  { intros a Fa Fa'. pose proof (divd_f _ _ Fa FC NZ Fa'). unfold Rdiv in H. lra. }
  { intros a Fa Fa'. pose proof (divu_f _ _ Fa FC NZ Fa'). unfold Rdiv in H. lra. }
  destruct (addu_f _ _ F5) as (_ & F6 & D5). destruct (subu_f _ _ F6) as (F7 & _ & D6). assert (D7 := divu_f _ _ FX0 FC NZ F7).
  rewrite (proj2 s0_f) in D5.
  assert (H0 : Rabs (rv (f0 x) / rv c - rv (divd (f0 x) c)) <= rv (divu (f0 x) c) - rv (divd (f0 x) c)) by (rewrite Rabs_pos_eq; lra).
  eapply Rle_trans; [eapply abs_eq; [apply (tri3 _ _ _ _ _ _ (mulabs (/ rv c) _ _ HX) H0 D4)|unfold Rdiv; ring]|]. cbn [fold_left].
  rewrite Rabs_inv. unfold Rdiv in *. lra.
Qed.

(* ---- rad, to_interval ---- *)
Lemma fold_abs_ok e (AS : assignment e) (xs : list S) : forall (c : S) k, fin (fold_left (fun r a => addu r (sabs a)) xs c) ->
  fin c /\ Rabs (lsum e k xs) <= rv (fold_left (fun r a => addu r (sabs a)) xs c) - rv c.
Proof.
  induction xs as [|a xs IH]; intros c k F; cbn [fold_left lsum] in *.
  - split; auto. rewrite Rabs_R0; lra.
  - destruct (IH _ (1 + k)%nat F) as [F1 D1]. destruct (addu_f _ _ F1) as (FC & F2 & D2). destruct (sabs_f _ F2) as [_ E]. rewrite E in D2.
    split; auto. eapply Rle_trans; [apply Rabs_triang|]. assert (Rabs (rv a * e k) <= Rabs (rv a)) by (apply mul_abs1; auto; lra). lra.
Qed.
Lemma frad_ok e (x : form) u : assignment e -> frep e x u -> fin (frad x) -> Rabs (u - rv (f0 x)) <= rv (frad x).
Proof.
  intros AS [FX HX] F. unfold frad in *. destruct (addu_f _ _ F) as (F1 & _ & D1).
  destruct (fold_abs_ok e AS (fs x) s0 1%nat F1) as [_ D2]. rewrite (proj2 s0_f) in D2.
  eapply Rle_trans; [eapply abs_eq; [apply (tri2 _ _ _ _ HX D2)|ring]|]. lra.
Qed.
Lemma frad_sum e (x : form) : assignment e -> fin (frad x) -> Rabs (lsum e 1 (fs x)) + rv (fe x) <= rv (frad x).
Proof.
  intros AS F. unfold frad in *. destruct (addu_f _ _ F) as (F1 & _ & D1).
  destruct (fold_abs_ok e AS (fs x) s0 1%nat F1) as [_ D2]. rewrite (proj2 s0_f) in D2. lra.
Qed.
Lemma to_iv_ok e (x : form) u : assignment e -> frep e x u -> frange x -> rv (lo (to_iv x)) <= u <= rv (hi (to_iv x)).
Proof.
  intros AS H [F1 F2]. cbn [to_iv lo hi] in *. destruct (subd_f _ _ F1) as (_ & F3 & D1). destruct (addu_f _ _ F2) as (_ & _ & D2).
  pose proof (frad_ok _ _ _ AS H F3) as D3. apply Rabs_le_inv in D3. lra.
Qed.
(* the same without the hypothesis that the range is finite *)
Lemma to_iv_isin e (x : form) u : assignment e -> frep e x u -> isin (to_iv x) u.
Proof.
  intros AS H. destruct H as [(F0 & FL & FE) HX]. split; [apply wf|]. split; [apply wf|]. cbn [to_iv lo hi].
  assert (RU : ub (sval (frad x)) (Rabs (u - rv (f0 x)))).
  { destruct (sval (frad x)) eqn:E; simpl; auto.
    - assert (F : fin (frad x)) by (unfold fin; rewrite E; simpl; auto).
      pose proof (frad_ok e x u AS (conj (conj F0 (conj FL FE)) HX) F) as K. rewrite (proj2 (rv_ex _ _ E)) in K. auto.
    - exfalso. assert (U : forall xs c, Forall fin xs -> ub (sval c) 0 -> ub (sval (fold_left (fun r a => addu r (sabs a)) xs c)) 0).
      { induction xs as [|a xs IH]; intros c F H; simpl; auto. inversion F; subst. apply IH; auto.
        destruct (ok_addu _ OK c (sabs a) (wf _) (wf _)) as [_ U]. rewrite (af_abs _ AL), (fin_ex _ H2) in U.
        pose proof (Rabs_pos (rv a)). destruct (sval c); simpl in *; try tauto; rewrite ?U; simpl; auto.
        destruct (sval (addu c (sabs a))); simpl in *; try tauto. lra. }
      unfold frad in E. destruct (ok_addu _ OK (fold_left (fun r a => addu r (sabs a)) (fs x) s0) (fe x) (wf _) (wf _)) as [_ U2].
      rewrite E, (fin_ex _ FE) in U2. specialize (U (fs x) s0 FL ltac:(rewrite (fin_ex _ (proj1 s0_f)), (proj2 s0_f); simpl; lra)).
      destruct (sval (fold_left (fun r a => addu r (sabs a)) (fs x) s0)); simpl in *; try tauto; congruence.
    - exfalso. assert (U : forall xs c, Forall fin xs -> ub (sval c) 0 -> ub (sval (fold_left (fun r a => addu r (sabs a)) xs c)) 0).
      { induction xs as [|a xs IH]; intros c F H; simpl; auto. inversion F; subst. apply IH; auto.
        destruct (ok_addu _ OK c (sabs a) (wf _) (wf _)) as [_ U]. rewrite (af_abs _ AL), (fin_ex _ H2) in U.
        pose proof (Rabs_pos (rv a)). destruct (sval c); simpl in *; try tauto; rewrite ?U; simpl; auto.
        destruct (sval (addu c (sabs a))); simpl in *; try tauto. lra. }
      unfold frad in E. destruct (ok_addu _ OK (fold_left (fun r a => addu r (sabs a)) (fs x) s0) (fe x) (wf _) (wf _)) as [_ U2].
      rewrite E, (fin_ex _ FE) in U2. specialize (U (fs x) s0 FL ltac:(rewrite (fin_ex _ (proj1 s0_f)), (proj2 s0_f); simpl; lra)).
      destruct (sval (fold_left (fun r a => addu r (sabs a)) (fs x) s0)); simpl in *; try tauto; congruence. }
  pose proof (Rle_abs (u - rv (f0 x))). pose proof (Rle_abs (- (u - rv (f0 x)))). rewrite Rabs_Ropp in H0.
  split.
  - destruct (ok_subd _ OK (f0 x) (frad x) (wf _) (wf _)) as [_ D]. rewrite (fin_ex _ F0) in D.
    destruct (sval (frad x)); simpl in *; try tauto; [|rewrite D; simpl; auto].
    destruct (sval (subd (f0 x) (frad x))); simpl in *; try tauto. lra.
  - destruct (ok_addu _ OK (f0 x) (frad x) (wf _) (wf _)) as [_ D]. rewrite (fin_ex _ F0) in D.
    destruct (sval (frad x)); simpl in *; try tauto; [|rewrite D; simpl; auto].
    destruct (sval (addu (f0 x) (frad x))); simpl in *; try tauto. lra.
Qed.

(* ---- a new symbol ---- *)
Lemma assign_fresh m e (v c : R) : assignment e -> Rabs v <= c -> exists e', extends m e e' /\ c * e' (1 + m)%nat = v.
Proof.
  intros AS H. set (t := if Req_EM_T c 0 then 0 else v / c).
  assert (T : -1 <= t <= 1 /\ c * t = v).
  { unfold t. destruct (Req_EM_T c 0) as [->|N]. { split; [lra|]. assert (v = 0); [|lra]. destruct (Req_dec v 0) as [|N]; auto. apply Rabs_pos_lt in N. lra. }
    assert (0 < c). { pose proof (Rabs_pos v). lra. }
    split; [|field; lra]. apply Rabs_le_inv in H. split; apply Rmult_le_reg_r with c; auto; unfold Rdiv; rewrite ?Rmult_assoc, ?Rinv_l; lra. }
  exists (fun i => if Nat.eqb i (1 + m) then t else e i). split; [split|].
  - intros i. destruct (Nat.eqb i (1 + m)); [apply T|apply AS].
  - intros i Hi. destruct (Nat.eqb i (1 + m)) eqn:E; auto. apply Nat.eqb_eq in E. lia.
  - rewrite Nat.eqb_refl. apply T.
Qed.
Lemma extends_refl m e : assignment e -> extends m e e. Proof. split; auto. Qed.
Lemma extends_le m m' e e' : (m' <= m)%nat -> extends m e e' -> extends m' e e'.
Proof. intros L [A B]. split; auto. intros i Hi. apply B. lia. Qed.
Lemma extends_trans m m' e e' e'' : (m <= m')%nat -> extends m e e' -> extends m' e' e'' -> extends m e e''.
Proof. intros L [A B] [C D]. split; auto. intros i Hi. rewrite D by lia. auto. Qed.
Lemma frep_extends m e e' (x : form) u : over m x -> extends m e e' -> frep e x u -> frep e' x u.
Proof.
  intros O [A B] [F H]. split; auto. rewrite (lsum_ext e e'); auto. intros i Hi. apply B. unfold over in O. lia.
Qed.

Lemma close_ok m (l : list S) err r e (v c0 : R) : close m l err = Ok r -> (length l <= m)%nat -> assignment e -> Forall fin l ->
  fin err -> Rabs (v - (c0 + lsum e 1 l)) <= rv err ->
  length r = (1 + m)%nat /\ exists e', extends m e e' /\ v = c0 + lsum e' 1 r.
Proof.
  intros C L AS FL FE H. unfold close in C. rewrite (proj2 (Nat.leb_le _ _) L) in C. injection C as <-. split.
  { rewrite !app_length, repeat_length. simpl. lia. }
  destruct (assign_fresh m e _ _ AS H) as (e' & X & E). exists e'. split; auto.
  rewrite !lsum_app, lsum_zeros, repeat_length. rewrite (lsum_ext e e').
  - replace (m - length l + (length l + 1))%nat with (1 + m)%nat by lia. cbn [lsum]. lra.
  - intros i Hi. apply X. lia.
Qed.
Lemma close_fin m (l : list S) err r : close m l err = Ok r -> (length l <= m)%nat -> Forall fin r -> Forall fin l /\ fin err.
Proof.
  intros C L F. unfold close in C. rewrite (proj2 (Nat.leb_le _ _) L) in C. injection C as <-.
  rewrite !Forall_app in F. destruct F as (F1 & _ & F2). inversion F2; auto.
Qed.

(* result of a function that introduces a symbol *)
Definition newsym (m : nat) (e : nat -> R) (r : nat * form) (v : R) : Prop :=
  (m <= fst r)%nat /\ over (fst r) (snd r) /\ exists e', extends m e e' /\ frep e' (snd r) v.

Lemma of_iv_ok m (I : iv) u e : assignment e -> isin I u -> ffin (snd (of_iv m I)) -> newsym m e (of_iv m I) u.
Proof.
  intros AS HI F. destruct F as (F0 & FL & FE). cbn [of_iv fst snd f0 fs fe] in *. set (a0 := mulu (addu (hi I) (lo I)) shalf) in *.
  apply Forall_app in FL as [FL1 FL2]. inversion FL2 as [|? ? F1 _]; subst.
  destruct (subu_f _ _ F1) as (_ & F2 & D1). destruct (mulu_f _ _ F0) as (F3 & _ & D2). destruct (addu_f _ _ F3) as (F4 & _ & D3).
  rewrite (proj2 half_f) in D2. fold a0 in D2.
  destruct HI as (_ & _ & L & U). rewrite (fin_ex _ F2) in L. rewrite (fin_ex _ F4) in U. simpl in L, U.
  assert (H : Rabs (u - rv a0) <= rv (subu a0 (lo I))). { apply Rabs_le. lra. }
  destruct (assign_fresh m e _ _ AS H) as (e' & X & E).
  unfold newsym, over, of_iv; fold a0; cbn [fst snd fs f0 fe]. split; [lia|]. split. { rewrite app_length, repeat_length; simpl; lia. }
  exists e'. split; auto. split. { split; [exact F0|]. split; [apply Forall_app; auto|exact FE]. }
  cbn [fst snd fs f0 fe]. rewrite lsum_app, lsum_zeros, repeat_length. cbn [lsum]. rewrite (proj2 s0_f).
  replace (m + 1)%nat with (1 + m)%nat by lia. rewrite E. rewrite Rabs_pos_eq; lra.
Qed.

(* ---- multiplication ---- *)
Lemma lmul_ok e (AS : assignment e) (x0 y0 : S) (xs : list S) : forall (ys : list S) (c : S) k, Forall fin xs -> Forall fin ys -> fin x0 -> fin y0 ->
  fin (lmul_err c x0 y0 xs ys) -> Forall fin (lmul x0 y0 xs ys) ->
  fin c /\ Rabs (rv y0 * lsum e k xs + rv x0 * lsum e k ys - lsum e k (lmul x0 y0 xs ys)) <= rv (lmul_err c x0 y0 xs ys) - rv c.
Proof.
  intros ys c k FX FY FX0 FY0. revert ys c k FX FY.
  assert (T : forall b0 zs c k, fin b0 -> Forall fin zs -> fin (fold_left (fun e0 b => addu e0 (subu (mulu b0 b) (muld b0 b))) zs c) ->
    Forall fin (map (fun b => muld b0 b) zs) ->
    fin c /\ Rabs (rv b0 * lsum e k zs - lsum e k (map (fun b => muld b0 b) zs)) <= rv (fold_left (fun e0 b => addu e0 (subu (mulu b0 b) (muld b0 b))) zs c) - rv c).
  { intros b0 zs c k FB FZ F FL. apply (lmap_ok (fun b => muld b0 b) (fun b => mulu b0 b) (rv b0)); auto.
    - intros a _ Fa. destruct (muld_f _ _ Fa) as (_ & _ & ?). lra.
    - intros a _ Fa. destruct (mulu_f _ _ Fa) as (_ & _ & ?). lra. }
  induction xs as [|a xs IH]; intros [|b ys] c k FX FY F FL.
  - cbn [lmul lmul_err map fold_left lsum] in *. split; auto. rewrite Rabs_pos_eq; lra.
  - cbn [lmul lmul_err] in *. destruct (T x0 (b :: ys) c k FX0 FY F FL) as [FC D]. split; auto. eapply abs_eq; [apply D|]. simpl. ring.
  - cbn [lmul lmul_err] in *. destruct (T y0 (a :: xs) c k FY0 FX F FL) as [FC D]. split; auto. eapply abs_eq; [apply D|]. simpl. ring.
  - cbn [lmul lmul_err] in *. inversion FX; inversion FY; inversion FL; subst. destruct (IH ys _ (1 + k)%nat H2 H6 F H10) as [F1 D1].
    destruct (addu_f _ _ F1) as (FC & F2 & D2). destruct (subu_f _ _ F2) as (F3 & _ & D3). destruct (addu_f _ _ F3) as (F4 & F5 & D4).
    destruct (mulu_f _ _ F4) as (_ & _ & D5). destruct (mulu_f _ _ F5) as (_ & _ & D6).
    destruct (addd_f _ _ H9) as (F6 & F7 & D7). destruct (muld_f _ _ F6) as (_ & _ & D8). destruct (muld_f _ _ F7) as (_ & _ & D9).
    split; auto. cbn [lsum]. set (p := rv (addd (muld y0 a) (muld x0 b))) in *.
    replace (rv y0 * (rv a * e k + lsum e (1 + k) xs) + rv x0 * (rv b * e k + lsum e (1 + k) ys) - (p * e k + lsum e (1 + k) (lmul x0 y0 xs ys)))
      with ((rv y0 * rv a + rv x0 * rv b - p) * e k + (rv y0 * lsum e (1 + k) xs + rv x0 * lsum e (1 + k) ys - lsum e (1 + k) (lmul x0 y0 xs ys))) by ring.
    set (q := rv (addu (mulu y0 a) (mulu x0 b))) in *.
    eapply Rle_trans; [apply Rabs_triang|].
    assert (Rabs ((rv y0 * rv a + rv x0 * rv b - p) * e k) <= q - p). { apply mul_abs1; auto. rewrite Rabs_pos_eq; lra. }
    lra.
Qed.
Lemma lmul_len (x0 y0 : S) (xs : list S) : forall ys, length (lmul x0 y0 xs ys) = Nat.max (length xs) (length ys).
Proof. induction xs as [|a xs IH]; intros [|b ys]; simpl; rewrite ?map_length; auto. Qed.
Lemma amul_ok m (x y : form) r e u v : amul m x y = Ok r -> over m x -> over m y -> assignment e -> frep e x u -> frep e y v ->
  ffin (snd r) -> newsym m e r (u * v).
Proof.
  intros Q OX OY AS RX RY FR. unfold amul in Q. apply bind_ok in Q as (l & Q & E). injection E as <-. cbn [fst snd] in *.
  destruct FR as (F0 & FL & FE0). cbn [f0 fs fe] in *.
  assert (L : (length (lmul (f0 x) (f0 y) (fs x) (fs y)) <= m)%nat). { rewrite lmul_len. unfold over in *. lia. }
  destruct (close_fin _ _ _ _ Q L FL) as [FM FE].
  destruct RX as [FX HX]. destruct RY as [FY HY]. pose proof FX as (FX0 & FXL & FXE). pose proof FY as (FY0 & FYL & FYE).
  destruct (addu_f _ _ FE) as (FE1 & FE2 & D1). destruct (addu_f _ _ FE1) as (FE3 & FE4 & D2).
  destruct (mulu_f _ _ FE4) as (FRX & FRY & D3). destruct (addu_f _ _ FE2) as (FE5 & FE6 & D4).
  destruct (mulu_f _ _ FE5) as (FA1 & _ & D5). destruct (mulu_f _ _ FE6) as (FA2 & _ & D6).
  destruct (sabs_f _ FA1) as [_ EA1]. destruct (sabs_f _ FA2) as [_ EA2]. rewrite EA1 in D5. rewrite EA2 in D6.
  destruct (lmul_ok e AS (f0 x) (f0 y) (fs x) (fs y) _ 1%nat FXL FYL FX0 FY0 FE3 FM) as [FC D7].
  destruct (subu_f _ _ FC) as (FC1 & _ & D8). destruct (mulu_f _ _ FC1) as (_ & _ & D9). destruct (muld_f _ _ F0) as (_ & _ & D10).
  pose proof (frad_sum e x AS FRX) as S1. pose proof (frad_sum e y AS FRY) as S2.
  set (X := rv (f0 x)) in *. set (Y := rv (f0 y)) in *. set (A := lsum e 1 (fs x)) in *. set (B := lsum e 1 (fs y)) in *.
  set (dx := u - (X + A)) in *. set (dy := v - (Y + B)) in *. set (ex := rv (fe x)) in *. set (ey := rv (fe y)) in *.
  set (LM := lsum e 1 (lmul (f0 x) (f0 y) (fs x) (fs y))) in *.
  assert (K : Rabs (u * v - (rv (muld (f0 x) (f0 y)) + LM)) <=
    rv (addu (addu (lmul_err (subu (mulu (f0 x) (f0 y)) (muld (f0 x) (f0 y))) (f0 x) (f0 y) (fs x) (fs y)) (mulu (frad x) (frad y)))
             (addu (mulu (sabs (f0 y)) (fe x)) (mulu (sabs (f0 x)) (fe y))))).
  { assert (H0 : Rabs (X * Y - rv (muld (f0 x) (f0 y))) <= rv (mulu (f0 x) (f0 y)) - rv (muld (f0 x) (f0 y))) by (rewrite Rabs_pos_eq; lra).
    assert (H1 : Rabs ((A + dx) * (B + dy)) <= rv (frad x) * rv (frad y)).
    { rewrite Rabs_mult. pose proof (Rabs_triang A dx). pose proof (Rabs_triang B dy).
      apply Rmult_le_compat; try apply Rabs_pos; lra. }
    pose proof (mulabs Y _ _ HX) as H2. pose proof (mulabs X _ _ HY) as H3.
    eapply Rle_trans; [eapply abs_eq; [apply (tri2 _ _ _ _ (tri3 _ _ _ _ _ _ H0 D7 H1) (tri2 _ _ _ _ H2 H3))|unfold dx, dy; ring]|]. lra. }
  destruct (close_ok _ _ _ _ e (u * v) (rv (muld (f0 x) (f0 y))) Q L AS FM FE K) as (LR & e' & X' & E').
  split; [cbn; lia|]. split; [unfold over; cbn [fst snd fs]; lia|]. exists e'. split; auto. split. { split; auto. }
  cbn [snd f0 fs fe]. rewrite E', (proj2 s0_f). rewrite Rabs_pos_eq; lra.
Qed.

(* ---- a*x + [range] ---- *)
Lemma linfin_ok m (x : form) (a : S) (range : iv) r e u v : linfin m x a range = Ok r -> over m x -> assignment e -> frep e x u -> ffin (snd r) ->
  (fin a -> isin range (v - rv a * u)) -> newsym m e r v.
Proof.
  intros Q OX AS [FX HX] FR HR. unfold linfin in Q. apply bind_ok in Q as (l & Q & E). injection E as <-. cbn [fst snd] in *.
  destruct FR as (F0 & FL & FE0). cbn [f0 fs fe] in *.
  assert (L : (length (map (fun c => muld c a) (fs x)) <= m)%nat). { rewrite map_length. exact OX. }
  destruct (close_fin _ _ _ _ Q L FL) as [FM FE]. pose proof FX as (FX0 & FXL & FXE).
  set (b := mulu (addu (hi range) (lo range)) shalf) in *.
  set (lb_ := addd (muld (f0 x) a) b) in *. set (ub_ := addu (mulu (f0 x) a) b) in *. set (r0 := mulu (addu lb_ ub_) shalf) in *.
  destruct (addu_f _ _ FE) as (FE1 & FE2 & D1). destruct (mulu_f _ _ FE2) as (FA1 & _ & D2). destruct (sabs_f _ FA1) as [FA EA]. rewrite EA in D2.
  destruct (addu_f _ _ FE1) as (FE3 & FE4 & D3). destruct (subu_f _ _ FE4) as (_ & Flb & D4).
  destruct (mulu_f _ _ F0) as (F1 & _ & D5). destruct (addu_f _ _ F1) as (_ & Fub & D6). rewrite (proj2 half_f) in D5.
  destruct (addd_f _ _ Flb) as (Fm1 & Fb & D7). destruct (addu_f _ _ Fub) as (Fm2 & _ & D8).
  destruct (muld_f _ _ Fm1) as (_ & _ & D9). destruct (mulu_f _ _ Fm2) as (_ & _ & D10).
  specialize (HR FA). destruct (mulu_f _ _ Fb) as (Fs & _ & D11). destruct (addu_f _ _ Fs) as (Fhi & Flo & D12). rewrite (proj2 half_f) in D11.
  destruct HR as (_ & _ & HL & HU). rewrite (fin_ex _ Flo) in HL. rewrite (fin_ex _ Fhi) in HU. simpl in HL, HU.
  destruct (lmap_ok (fun c => muld c a) (fun c => mulu c a) (rv a)) with (e := e) (xs := fs x) (k := 1%nat) (c := subu b (lo range)) as [F5 D13]; auto.
  { intros c _ Fa. destruct (muld_f _ _ Fa) as (_ & _ & ?). lra. }
  { intros c _ Fa. destruct (mulu_f _ _ Fa) as (_ & _ & ?). lra. }
  destruct (subu_f _ _ F5) as (_ & _ & D14). fold b in D11. fold lb_ in D7. fold ub_ in D8. fold r0 in D5.
  set (w := v - rv a * u) in *. set (A := lsum e 1 (fs x)) in *. set (AM := lsum e 1 (map (fun c => muld c a) (fs x))) in *.
  set (sm := fold_left (fun c a0 => addu c (subu (mulu a0 a) (muld a0 a))) (fs x) (subu b (lo range))) in *.
  assert (K : Rabs (v - (rv r0 + AM)) <= rv (addu (addu sm (subu r0 lb_)) (mulu (sabs a) (fe x)))).
  { assert (H0 : Rabs (w - rv b) <= rv (subu b (lo range))) by (apply Rabs_le; lra).
    assert (H1 : Rabs (rv a * rv (f0 x) + rv b - rv r0) <= rv r0 - rv lb_) by (apply Rabs_le; lra).
    pose proof (mulabs (rv a) _ _ HX) as H2. fold A in H2.
    eapply Rle_trans; [eapply abs_eq; [apply (tri2 _ _ _ _ (tri3 _ _ _ _ _ _ H0 H1 H2) D13)|unfold w; ring]|]. lra. }
  destruct (close_ok _ _ _ _ e v (rv r0) Q L AS FM FE K) as (LR & e' & X' & E').
  split; [cbn; lia|]. split; [unfold over; cbn [fst snd fs]; lia|]. exists e'. split; auto. split. { split; auto. }
  cbn [snd f0 fs fe]. rewrite E', (proj2 s0_f). rewrite Rabs_pos_eq; lra.
Qed.
End Proofs.
