(* Finite-dimensional real linear algebra: vectors are functions nat -> R read below a dimension. *)
From Coq Require Import Reals Lra Lia Psatz Arith.
Open Scope R_scope.

Fixpoint vsum (n : nat) (f : nat -> R) : R := match n with O => 0 | S k => vsum k f + f k end.
Lemma vsum_ext n f g : (forall i, (i < n)%nat -> f i = g i) -> vsum n f = vsum n g.
Proof. induction n; simpl; intros H; auto. rewrite IHn, H; auto. Qed.
Lemma vsum_plus n f g : vsum n (fun i => f i + g i) = vsum n f + vsum n g.
Proof. induction n; simpl; [ring|rewrite IHn; ring]. Qed.
Lemma vsum_minus n f g : vsum n (fun i => f i - g i) = vsum n f - vsum n g.
Proof. induction n; simpl; [ring|rewrite IHn; ring]. Qed.
Lemma vsum_scal n c f : vsum n (fun i => c * f i) = c * vsum n f.
Proof. induction n; simpl; [ring|rewrite IHn; ring]. Qed.
Lemma vsum_scal_r n c f : vsum n (fun i => f i * c) = vsum n f * c.
Proof. induction n; simpl; [ring|rewrite IHn; ring]. Qed.
Lemma vsum_0 n : vsum n (fun _ => 0) = 0.
Proof. induction n; simpl; [auto|rewrite IHn; ring]. Qed.
Lemma vsum_zero n f : (forall i, (i < n)%nat -> f i = 0) -> vsum n f = 0.
Proof. intros H. rewrite (vsum_ext n f (fun _ => 0)); auto using vsum_0. Qed.
Lemma vsum_swap n m f : vsum n (fun i => vsum m (fun j => f i j)) = vsum m (fun j => vsum n (fun i => f i j)).
Proof. induction n; simpl; [symmetry; apply vsum_0|]. rewrite IHn, <- vsum_plus. apply vsum_ext; auto. Qed.
Lemma vsum_single n k f : (k < n)%nat -> (forall i, (i < n)%nat -> i <> k -> f i = 0) -> vsum n f = f k.
Proof.
  induction n; intros H Z; [lia|]. simpl. destruct (Nat.eq_dec k n) as [-> |N].
  - rewrite vsum_zero; [ring|]. intros. apply Z; lia.
  - rewrite IHn, (Z n); try lia; try ring; intros; apply Z; lia.
Qed.
Lemma vsum_le n f g : (forall i, (i < n)%nat -> f i <= g i) -> vsum n f <= vsum n g.
Proof. induction n; simpl; intros H; [lra|]. pose proof (H n (Nat.lt_succ_diag_r n)). assert (vsum n f <= vsum n g) by auto. lra. Qed.
Lemma vsum_pos n f : (forall i, (i < n)%nat -> 0 <= f i) -> 0 <= vsum n f.
Proof. intros H. rewrite <- (vsum_0 n). apply vsum_le; auto. Qed.
Lemma vsum_abs n f : Rabs (vsum n f) <= vsum n (fun i => Rabs (f i)).
Proof. induction n; simpl; [rewrite Rabs_R0; lra|]. pose proof (Rabs_triang (vsum n f) (f n)). lra. Qed.
Lemma vsum_term n k f : (forall i, (i < n)%nat -> 0 <= f i) -> (k < n)%nat -> f k <= vsum n f.
Proof.
  induction n; intros P H; [lia|]. simpl. assert (0 <= vsum n f) by (apply vsum_pos; auto). pose proof (P n (Nat.lt_succ_diag_r n)).
  destruct (Nat.eq_dec k n) as [-> |N]; [lra|]. assert (f k <= vsum n f) by (apply IHn; auto; lia). lra.
Qed.

Definition dlt (i j : nat) : R := if Nat.eq_dec i j then 1 else 0.
Definition mv (n : nat) (A : nat -> nat -> R) (x : nat -> R) (i : nat) : R := vsum n (fun j => A i j * x j).
Definition mm (n : nat) (A B : nat -> nat -> R) (i j : nat) : R := vsum n (fun k => A i k * B k j).
Lemma mv_dlt n x i : (i < n)%nat -> mv n dlt x i = x i.
Proof.
  intros H. unfold mv. rewrite (vsum_single n i); auto.
  - unfold dlt. destruct Nat.eq_dec; [ring|congruence].
  - intros j _ N. unfold dlt. destruct Nat.eq_dec; [congruence|ring].
Qed.
Lemma mv_ext n A x y i : (forall j, (j < n)%nat -> x j = y j) -> mv n A x i = mv n A y i.
Proof. intros H. apply vsum_ext. intros. rewrite H; auto. Qed.
Lemma mv_ext_m n A B x i : (forall j, (j < n)%nat -> A i j = B i j) -> mv n A x i = mv n B x i.
Proof. intros H. apply vsum_ext. intros. rewrite H; auto. Qed.
Lemma mv_minus n A x y i : mv n A (fun j => x j - y j) i = mv n A x i - mv n A y i.
Proof. unfold mv. rewrite <- vsum_minus. apply vsum_ext. intros; ring. Qed.
Lemma mv_plus n A x y i : mv n A (fun j => x j + y j) i = mv n A x i + mv n A y i.
Proof. unfold mv. rewrite <- vsum_plus. apply vsum_ext. intros; ring. Qed.
Lemma mv_minus_m n A B x i : mv n (fun i j => A i j - B i j) x i = mv n A x i - mv n B x i.
Proof. unfold mv. rewrite <- vsum_minus. apply vsum_ext. intros; ring. Qed.
Lemma mv_0 n A i : mv n A (fun _ => 0) i = 0.
Proof. apply vsum_zero. intros; ring. Qed.
Lemma mv_mm n A B x i : mv n (mm n A B) x i = mv n A (mv n B x) i.
Proof.
  unfold mv, mm.
  rewrite (vsum_ext n _ (fun j => vsum n (fun k => A i k * B k j * x j))) by (intros; rewrite <- vsum_scal_r; auto).
  rewrite vsum_swap. apply vsum_ext. intros k _. rewrite <- vsum_scal. apply vsum_ext. intros; ring.
Qed.
Lemma mv_scal n A c x i : mv n A (fun j => c * x j) i = c * mv n A x i.
Proof. unfold mv. rewrite <- vsum_scal. apply vsum_ext. intros; ring. Qed.

(* n+1 vectors of dimension n are dependent *)
Definition skip (p k : nat) : nat := if le_lt_dec p k then S k else k.
Lemma skip_ne p k : skip p k <> p.
Proof. unfold skip. destruct le_lt_dec; lia. Qed.
Lemma skip_lt p k n : (p <= n)%nat -> (k < n)%nat -> (skip p k < S n)%nat.
Proof. unfold skip. destruct le_lt_dec; lia. Qed.
Definition unskip (p k : nat) : nat := if le_lt_dec k p then k else (k - 1)%nat.
Lemma unskip_skip p k : unskip p (skip p k) = k.
Proof. unfold skip, unskip. destruct le_lt_dec; destruct le_lt_dec; lia. Qed.
Lemma vsum_skip n p f : (p <= n)%nat -> vsum (S n) f = f p + vsum n (fun k => f (skip p k)).
Proof.
  intros H. induction n.
  - assert (p = O) as -> by lia. simpl. ring.
  - destruct (Nat.eq_dec p (S n)) as [-> |N].
    + change (vsum (S (S n)) f) with (vsum (S n) f + f (S n)). rewrite Rplus_comm. f_equal. apply vsum_ext.
      intros i Hi. unfold skip. destruct le_lt_dec; [lia|auto].
    + change (vsum (S (S n)) f) with (vsum (S n) f + f (S n)). rewrite IHn by lia.
      change (vsum (S n) (fun k => f (skip p k))) with (vsum n (fun k => f (skip p k)) + f (skip p n)).
      replace (skip p n) with (S n) by (unfold skip; destruct le_lt_dec; lia). ring.
Qed.
Lemma dependent n : forall v : nat -> nat -> R, exists c : nat -> R, (exists k, (k <= n)%nat /\ c k <> 0) /\
  forall i, (i < n)%nat -> vsum (S n) (fun k => c k * v k i) = 0.
Proof.
  induction n as [|n IH]; intros v.
  - exists (fun _ => 1). split; [exists O; split; auto; lra|]. intros; lia.
  - assert (D : (forall p, (p <= S n)%nat -> v p n = 0) \/ exists p, (p <= S n)%nat /\ v p n <> 0).
    { assert (G : forall m, (forall p, (p <= m)%nat -> v p n = 0) \/ exists p, (p <= m)%nat /\ v p n <> 0).
      { induction m as [|m [Hm|(p & Hp & Np)]].
        - destruct (Req_dec (v O n) 0); [left; intros p Hp; assert (p = O) as -> by lia; auto|right; exists O; auto].
        - destruct (Req_dec (v (S m) n) 0); [left; intros p Hp|right; exists (S m); auto].
          destruct (Nat.eq_dec p (S m)) as [-> |]; auto. apply Hm; lia.
        - right. exists p. split; auto. }
      apply G. }
    destruct D as [Z|(p & Hp & Np)].
    + destruct (IH v) as (c & (k & Hk & Nk) & Hc). exists (fun j => if le_lt_dec j n then c j else 0). split.
      * exists k. split; [lia|]. destruct le_lt_dec; [auto|lia].
      * intros i Hi. change (vsum (S (S n)) ?f) with (vsum (S n) f + f (S n)). cbv beta. destruct (le_lt_dec (S n) n); [lia|].
        rewrite (vsum_ext (S n) _ (fun k => c k * v k i)).
        2:{ intros j Hj. destruct le_lt_dec; [auto|lia]. }
        destruct (Nat.eq_dec i n) as [-> |N].
        -- rewrite vsum_zero; [ring|]. intros j Hj. rewrite Z by lia. ring.
        -- rewrite Hc by lia. ring.
    + destruct (IH (fun k i => v (skip p k) i - v (skip p k) n / v p n * v p i)) as (c & (k & Hk & Nk) & Hc).
      set (cp := - vsum (S n) (fun k => c k * (v (skip p k) n / v p n))).
      exists (fun j => if Nat.eq_dec j p then cp else c (unskip p j)). split.
      * exists (skip p k). split; [pose proof (skip_lt p k (S n) Hp ltac:(lia)); lia|].
        destruct Nat.eq_dec as [E|E]; [elim (skip_ne p k E)|]. rewrite unskip_skip. auto.
      * intros i Hi. rewrite (vsum_skip (S n) p) by auto. destruct (Nat.eq_dec p p); [|congruence].
        rewrite (vsum_ext (S n) (fun k0 => (if Nat.eq_dec (skip p k0) p then cp else c (unskip p (skip p k0))) * v (skip p k0) i)
          (fun k0 => c k0 * v (skip p k0) i)).
        2:{ intros j _. destruct Nat.eq_dec as [E|E]; [elim (skip_ne p j E)|]. rewrite unskip_skip. auto. }
        assert (R1 : vsum (S n) (fun k0 => c k0 * (v (skip p k0) i - v (skip p k0) n / v p n * v p i)) =
          vsum (S n) (fun k0 => c k0 * v (skip p k0) i) - vsum (S n) (fun k0 => c k0 * (v (skip p k0) n / v p n)) * v p i).
        { rewrite <- vsum_scal_r, <- vsum_minus. apply vsum_ext. intros; ring. }
        destruct (Nat.eq_dec i n) as [-> |N].
        -- unfold cp. rewrite Ropp_mult_distr_l_reverse, <- vsum_scal_r.
           rewrite (vsum_ext (S n) (fun i => c i * (v (skip p i) n / v p n) * v p n) (fun k0 => c k0 * v (skip p k0) n)).
           { ring. } intros j _. field. auto.
        -- rewrite Hc in R1 by lia. unfold cp. lra.
Qed.

(* square systems *)
Definition injective n A := forall x, (forall i, (i < n)%nat -> mv n A x i = 0) -> forall i, (i < n)%nat -> x i = 0.
Definition surjective n A := forall b, exists x, forall i, (i < n)%nat -> mv n A x i = b i.
Lemma inj_surj n A : injective n A -> surjective n A.
Proof.
  intros H b. destruct (dependent n (fun k i => if Nat.eq_dec k n then b i else A i k)) as (c & (k & Hk & Nk) & Hc).
  assert (E : forall i, (i < n)%nat -> mv n A c i + c n * b i = 0).
  { intros i Hi. rewrite <- (Hc i Hi). simpl. destruct (Nat.eq_dec n n); [|congruence]. f_equal.
    unfold mv. apply vsum_ext. intros j Hj. destruct Nat.eq_dec; [lia|ring]. }
  assert (N : c n <> 0).
  { intros Z. assert (forall i, (i < n)%nat -> c i = 0). { apply H. intros i Hi. specialize (E i Hi). rewrite Z in E. lra. }
    destruct (Nat.eq_dec k n) as [-> |]; [auto|]. apply Nk, H0. lia. }
  exists (fun j => - / c n * c j). intros i Hi. rewrite mv_scal. specialize (E i Hi).
  replace (mv n A c i) with (- (c n * b i)) by lra. field. auto.
Qed.
Lemma fin_choice {A} (d : A) n (P : nat -> A -> Prop) : (forall j, (j < n)%nat -> exists x, P j x) -> exists f, forall j, (j < n)%nat -> P j (f j).
Proof.
  induction n; intros H; [exists (fun _ => d); intros; lia|].
  destruct IHn as [f Hf]; [auto|]. destruct (H n (Nat.lt_succ_diag_r n)) as [x Hx].
  exists (fun j => if Nat.eq_dec j n then x else f j). intros j Hj. destruct Nat.eq_dec as [-> |N]; auto. apply Hf; lia.
Qed.
Lemma surj_inj n A : surjective n A -> injective n A.
Proof.
  intros H.
  destruct (fin_choice (fun _ : nat => 0) n (fun j x => forall i, (i < n)%nat -> mv n A x i = dlt i j)) as [B HB].
  { intros j _. apply (H (fun i => dlt i j)). }
  assert (AB : forall y i, (i < n)%nat -> mv n A (mv n (fun k j => B j k) y) i = y i).
  { intros y i Hi. rewrite <- mv_mm. transitivity (mv n dlt y i); [|apply mv_dlt; auto]. apply mv_ext_m. intros j Hj. unfold mm.
    specialize (HB j Hj i Hi). unfold mv in HB. auto. }
  assert (IB : injective n (fun k j => B j k)).
  { intros y Hy i Hi. rewrite <- (AB y i Hi). rewrite <- (mv_0 n A i). apply mv_ext. auto. }
  intros x Hx. destruct (inj_surj _ _ IB x) as [y Hy].
  assert (Y0 : forall i, (i < n)%nat -> y i = 0).
  { intros i Hi. rewrite <- (AB y i Hi), <- (Hx i Hi). apply mv_ext. auto. }
  intros i Hi. rewrite <- (Hy i Hi). unfold mv. apply vsum_zero. intros j Hj. rewrite Y0 by auto. ring.
Qed.
(* RA injective: both factors are *)
Lemma prod_inj n R A : injective n (mm n R A) -> injective n R /\ injective n A.
Proof.
  intros H. split.
  - apply surj_inj. intros b. destruct (inj_surj _ _ H b) as [x Hx]. exists (mv n A x).
    intros i Hi. rewrite <- mv_mm. auto.
  - intros x Hx. apply H. intros i Hi. rewrite mv_mm. rewrite <- (mv_0 n R i). apply mv_ext. auto.
Qed.
(* a matrix close to the identity in a weighted maximum norm is injective *)
Lemma near_id_inj n B w : (forall i, (i < n)%nat -> 0 < w i) ->
  (forall i, (i < n)%nat -> vsum n (fun j => Rabs (dlt i j - B i j) * w j) < w i) -> injective n B.
Proof.
  intros W H x Hx.
  assert (M : n = O \/ exists k, (k < n)%nat /\ forall i, (i < n)%nat -> Rabs (x i) / w i <= Rabs (x k) / w k).
  { clear. induction n; auto. right. destruct IHn as [-> |(k & Hk & Hm)].
    - exists O. split; auto. intros i Hi. assert (i = O) as -> by lia. lra.
    - destruct (Rle_dec (Rabs (x n) / w n) (Rabs (x k) / w k)) as [L|L].
      + exists k. split; [lia|]. intros i Hi. destruct (Nat.eq_dec i n) as [-> |]; auto. apply Hm; lia.
      + exists n. split; [lia|]. intros i Hi. destruct (Nat.eq_dec i n) as [-> |]; [lra|].
        specialize (Hm i ltac:(lia)). lra. }
  destruct M as [-> |(k & Hk & Hm)]; [intros; lia|].
  set (q := Rabs (x k) / w k) in *.
  assert (E : x k = mv n (fun i j => dlt i j - B i j) x k).
  { rewrite mv_minus_m, mv_dlt, Hx by auto. ring. }
  pose proof (W k Hk) as Wk. assert (Q : Rabs (x k) = q * w k) by (unfold q; field; lra).
  assert (Q0 : 0 <= q). { unfold q. apply Rmult_le_pos; [apply Rabs_pos|]. left. apply Rinv_0_lt_compat; auto. }
  assert (L : q * w k <= q * vsum n (fun j => Rabs (dlt k j - B k j) * w j)).
  { rewrite <- Q, E. unfold mv. eapply Rle_trans; [apply vsum_abs|]. rewrite <- vsum_scal. apply vsum_le. intros j Hj.
    rewrite Rabs_mult. specialize (Hm j Hj). pose proof (W j Hj). pose proof (Rabs_pos (dlt k j - B k j)).
    assert (Rabs (x j) <= q * w j). { replace (Rabs (x j)) with (Rabs (x j) / w j * w j) by (field; lra). apply Rmult_le_compat_r; lra. }
    nra. }
  specialize (H k Hk). assert (q = 0) by nra.
  intros i Hi. specialize (Hm i Hi). pose proof (W i Hi). pose proof (Rabs_pos (x i)). rewrite H0 in Hm.
  assert (Rabs (x i) <= 0). { replace (Rabs (x i)) with (Rabs (x i) / w i * w i) by (field; lra). nra. }
  destruct (Req_dec (x i) 0) as [|N]; auto. apply Rabs_pos_lt in N. lra.
Qed.
