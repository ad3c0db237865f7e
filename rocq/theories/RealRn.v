(* Existence and uniqueness of zeros in a box from Krawczyk's condition, over the reals. *)
From Coq Require Import Reals Lra Lia Psatz Arith.
From Coquelicot Require Import Coquelicot.
From Verif Require Import LinAlg.
Open Scope R_scope.

Definition inbox (n : nat) (I : nat -> R -> Prop) (x : nat -> R) : Prop := forall i, (i < n)%nat -> I i (x i).

Lemma fin_max n (f : nat -> R) : exists m, 0 <= m /\ forall i, (i < n)%nat -> f i <= m.
Proof.
  induction n as [|n [m [M0 M]]]; [exists 0; split; [lra|intros; lia]|].
  exists (Rmax m (f n)). split; [eapply Rle_trans; [apply M0|apply Rmax_l]|]. intros i Hi.
  destruct (Nat.eq_dec i n) as [-> |]; [apply Rmax_r|]. eapply Rle_trans; [apply M; lia|apply Rmax_l].
Qed.
Lemma fin_lt1 n (f : nat -> R) : (forall i, (i < n)%nat -> f i < 1) -> exists m, 0 <= m < 1 /\ forall i, (i < n)%nat -> f i <= m.
Proof.
  induction n as [|n IH]; intros H; [exists 0; split; [lra|intros; lia]|].
  destruct IH as (m & M0 & M); [auto|].
  exists (Rmax m (f n)). split.
  - split; [eapply Rle_trans; [apply M0|apply Rmax_l]|]. apply Rmax_lub_lt; [lra|apply H; lia].
  - intros i Hi. destruct (Nat.eq_dec i n) as [-> |]; [apply Rmax_r|]. eapply Rle_trans; [apply M; lia|apply Rmax_l].
Qed.

(* the weighted maximum norm of x - y is at most d *)
Definition wclose (n : nat) (w : nat -> R) (x y : nat -> R) (d : R) : Prop :=
  forall i, (i < n)%nat -> Rabs (x i - y i) <= d * w i.

Lemma lim_all n (x : nat -> nat -> R) (l : nat -> R) (w : nat -> R) : (forall i, (i < n)%nat -> 0 < w i) ->
  (forall i, (i < n)%nat -> is_lim_seq (fun k => x k i) (l i)) ->
  forall e, 0 < e -> exists N, forall k, (N <= k)%nat -> wclose n w (x k) l e.
Proof.
  intros W L e He. induction n as [|n IH]; [exists O; intros k _ i Hi; lia|].
  destruct IH as [N HN]; auto.
  pose proof (L n (Nat.lt_succ_diag_r n)) as Ln. apply is_lim_seq_spec in Ln.
  pose proof (W n (Nat.lt_succ_diag_r n)) as Wn.
  assert (P : 0 < e * w n) by nra. destruct (Ln (mkposreal _ P)) as [N' HN']. simpl in HN'.
  exists (max N N'). intros k Hk i Hi. destruct (Nat.eq_dec i n) as [-> |].
  - specialize (HN' k ltac:(lia)). lra.
  - apply HN; lia.
Qed.

Section Banach.
Variables (n : nat) (w : nat -> R) (I : nat -> R -> Prop) (kl ku : nat -> R) (g : (nat -> R) -> nat -> R) (q : R) (c : nat -> R).
Hypothesis Wp : forall i, (i < n)%nat -> 0 < w i.
Hypothesis Q : 0 <= q < 1.
Hypothesis KI : forall i r, (i < n)%nat -> kl i <= r <= ku i -> I i r.
Hypothesis GK : forall x, inbox n I x -> forall i, (i < n)%nat -> kl i <= g x i <= ku i.
Hypothesis GC : forall x y d, inbox n I x -> inbox n I y -> wclose n w x y d -> 0 <= d -> wclose n w (g x) (g y) (q * d).
Hypothesis C : inbox n I c.

Fixpoint it (k : nat) : nat -> R := match k with O => c | S k => g (it k) end.
Lemma it_in k : inbox n I (it k).
Proof using KI GK C. destruct k; simpl; auto. induction k; simpl; intros i Hi; apply KI; auto. Qed.
Lemma it_step : exists D, 0 <= D /\ forall k, wclose n w (it (S k)) (it k) (q ^ k * D).
Proof using Wp Q KI GK GC C.
  destruct (fin_max n (fun i => Rabs (it 1 i - it 0 i) / w i)) as (D & D0 & HD).
  exists D. split; auto. induction k.
  - intros i Hi. specialize (HD i Hi). pose proof (Wp i Hi). rewrite pow_O, Rmult_1_l.
    replace (Rabs (it 1 i - it 0 i)) with (Rabs (it 1 i - it 0 i) / w i * w i) by (field; lra). apply Rmult_le_compat_r; lra.
  - simpl pow. rewrite Rmult_assoc. change (it (S (S k))) with (g (it (S k))). change (it (S k)) with (g (it k)) at 2.
    apply GC; auto using it_in. apply Rmult_le_pos; auto. apply pow_le; lra.
Qed.
Lemma it_lim i : (i < n)%nat -> exists l, is_lim_seq (fun k => it k i) (Finite l).
Proof using Wp Q KI GK GC C.
  intros Hi. destruct it_step as (D & D0 & HD).
  assert (E : ex_series (fun k => it (S k) i - it k i)).
  { apply (@ex_series_le R_AbsRing R_CompleteNormedModule _ (fun k => (D * w i) * q ^ k)).
    - intros k. change (Rabs (it (S k) i - it k i) <= D * w i * q ^ k). specialize (HD k i Hi). lra.
    - apply (ex_series_scal_l (D * w i) (fun k => q ^ k)). apply ex_series_geom. rewrite Rabs_pos_eq; lra. }
  destruct E as [s Hs]. exists (it 0 i + s).
  apply is_lim_seq_incr_1.
  apply (is_lim_seq_ext (fun k => it 0 i + sum_n (fun k => it (S k) i - it k i) k)).
  - intros k. induction k; [rewrite sum_O; simpl; ring|].
    rewrite sum_Sn. unfold plus; simpl plus in *. change (AbelianGroup.plus _ _ ?a ?b) with (a + b) in *. simpl in *. lra.
  - apply is_lim_seq_plus'; [apply is_lim_seq_const|exact Hs].
Qed.
Lemma banach : exists x, (forall i, (i < n)%nat -> kl i <= x i <= ku i) /\ (forall i, (i < n)%nat -> g x i = x i).
Proof using Wp Q KI GK GC C.
  destruct (fin_choice 0 n (fun i l => is_lim_seq (fun k => it k i) (Finite l)) it_lim) as [l Hl].
  assert (KB : forall i, (i < n)%nat -> kl i <= l i <= ku i).
  { intros i Hi. specialize (Hl i Hi). apply is_lim_seq_incr_1 in Hl.
    pose proof (fun k => GK (it k) (it_in k) i Hi) as B. split.
    - apply (is_lim_seq_le (fun _ => kl i) _ (kl i) (l i)) in Hl; auto; [|apply is_lim_seq_const]. intros k. apply B.
    - apply (is_lim_seq_le _ (fun _ => ku i) (l i) (ku i)) in Hl; auto; [|apply is_lim_seq_const]. intros k. apply B. }
  exists l. split; auto. intros i Hi.
  assert (IL : inbox n I l) by (intros j Hj; apply KI; auto).
  pose proof (Wp i Hi) as Wi.
  assert (Z : forall e, 0 < e -> Rabs (g l i - l i) <= e).
  { intros e He. set (d := e / (2 * w i)). assert (Hd : 0 < d) by (unfold d; apply Rdiv_lt_0_compat; lra).
    destruct (lim_all n it l w Wp Hl d Hd) as [N HN].
    pose proof (HN N (Nat.le_refl N)) as H1. pose proof (HN (S N) (Nat.le_succ_diag_r N)) as H2.
    pose proof (GC _ _ d (it_in N) IL H1 ltac:(lra) i Hi) as H3. specialize (H2 i Hi).
    change (g (it N) i) with (it (S N) i) in H3.
    assert (d * w i = e / 2) by (unfold d; field; lra).
    replace (g l i - l i) with (- (it (S N) i - g l i) + (it (S N) i - l i)) by ring.
    eapply Rle_trans; [apply Rabs_triang|]. rewrite Rabs_Ropp. nra. }
  destruct (Req_dec (g l i) (l i)) as [|NE]; auto. assert (P : 0 < Rabs (g l i - l i)) by (apply Rabs_pos_lt; lra).
  specialize (Z (Rabs (g l i - l i) / 2) ltac:(lra)). lra.
Qed.
End Banach.

(* Krawczyk's condition.  JS is a set of matrices containing, for any two points of the box I,
   a matrix of slopes of f between them; [kl,ku] bounds Krawczyk's operator at c over JS and I,
   lies in I and is narrower than I in every coordinate. *)
Theorem krawczyk_real n (I : nat -> R -> Prop) (kl ku : nat -> R) (f : (nat -> R) -> nat -> R) (Rm : nat -> nat -> R)
  (c : nat -> R) (JS : (nat -> nat -> R) -> Prop) :
  inbox n I c ->
  (forall x y, inbox n I x -> inbox n I y -> exists J, JS J /\ forall k, (k < n)%nat -> f y k - f x k = mv n J (fun j => y j - x j) k) ->
  (forall J x i, JS J -> inbox n I x -> (i < n)%nat ->
     kl i <= c i - mv n Rm (f c) i + vsum n (fun j => (dlt i j - mm n Rm J i j) * (x j - c j)) <= ku i) ->
  (forall i r, (i < n)%nat -> kl i <= r <= ku i -> I i r) ->
  (forall i, (i < n)%nat -> exists a b, I i a /\ I i b /\ ku i - kl i < b - a) ->
  exists x, (forall i, (i < n)%nat -> kl i <= x i <= ku i) /\ (forall i, (i < n)%nat -> f x i = 0) /\
    forall y, inbox n I y -> (forall i, (i < n)%nat -> f y i = 0) -> forall i, (i < n)%nat -> y i = x i.
Proof.
  intros C SL G KI WD.
  destruct (fin_choice (0, 0) n (fun i p => I i (fst p) /\ I i (snd p) /\ ku i - kl i < snd p - fst p)) as [p Hp].
  { intros i Hi. destruct (WD i Hi) as (a & b & H). exists (a, b). auto. }
  set (w := fun i => snd (p i) - fst (p i)).
  destruct (SL c c C C) as (J0 & HJ0 & _).
  assert (KW : forall i, (i < n)%nat -> kl i <= ku i). { intros i Hi. pose proof (G J0 c i HJ0 C Hi). lra. }
  assert (Wp : forall i, (i < n)%nat -> 0 < w i). { intros i Hi. unfold w. destruct (Hp i Hi) as (_ & _ & H). specialize (KW i Hi). lra. }
  assert (Row : forall J i, JS J -> (i < n)%nat -> vsum n (fun j => Rabs (dlt i j - mm n Rm J i j) * w j) <= ku i - kl i).
  { intros J i HJ Hi.
    set (m := fun j => dlt i j - mm n Rm J i j).
    set (X := fun j => if Rle_dec 0 (m j) then snd (p j) else fst (p j)). set (Y := fun j => if Rle_dec 0 (m j) then fst (p j) else snd (p j)).
    assert (HX : inbox n I X). { intros j Hj. unfold X. destruct (Hp j Hj) as (? & ? & _). destruct Rle_dec; auto. }
    assert (HY : inbox n I Y). { intros j Hj. unfold Y. destruct (Hp j Hj) as (? & ? & _). destruct Rle_dec; auto. }
    pose proof (G J X i HJ HX Hi) as GX. pose proof (G J Y i HJ HY Hi) as GY. fold m in GX, GY.
    assert (E : vsum n (fun j => Rabs (m j) * w j) = vsum n (fun j => m j * (X j - c j)) - vsum n (fun j => m j * (Y j - c j))).
    { rewrite <- vsum_minus. apply vsum_ext. intros j _. unfold X, Y, w. destruct Rle_dec.
      - rewrite Rabs_pos_eq by auto. ring.
      - rewrite Rabs_left by lra. ring. }
    change (vsum n (fun j => Rabs (m j) * w j) <= ku i - kl i).
    rewrite E. unfold m at 1 2. lra. }
  assert (RowL : forall J i, JS J -> (i < n)%nat -> vsum n (fun j => Rabs (dlt i j - mm n Rm J i j) * w j) < w i).
  { intros J i HJ Hi. eapply Rle_lt_trans; [apply Row; auto|]. apply Hp; auto. }
  destruct (prod_inj n Rm J0) as [RI _].
  { apply (near_id_inj n _ w Wp). intros i Hi. apply RowL; auto. }
  set (g := fun x i => x i - mv n Rm (f x) i).
  destruct (fin_lt1 n (fun i => (ku i - kl i) / w i)) as (q & Hq & HQ).
  { intros i Hi. pose proof (Wp i Hi). apply Rmult_lt_reg_r with (w i); auto. unfold Rdiv. rewrite Rmult_assoc, Rinv_l by lra.
    destruct (Hp i Hi) as (_ & _ & L). unfold w. lra. }
  assert (GD : forall x y, inbox n I x -> inbox n I y -> exists J, JS J /\ forall i, (i < n)%nat ->
     g y i - g x i = vsum n (fun j => (dlt i j - mm n Rm J i j) * (y j - x j))).
  { intros x y Hx Hy. destruct (SL x y Hx Hy) as (J & HJ & E). exists J. split; auto. intros i Hi. unfold g.
    replace (y i - mv n Rm (f y) i - (x i - mv n Rm (f x) i)) with ((y i - x i) - (mv n Rm (f y) i - mv n Rm (f x) i)) by ring.
    rewrite <- mv_minus. rewrite (mv_ext n Rm _ (mv n J (fun j => y j - x j))) by auto.
    rewrite <- mv_mm. rewrite <- (mv_dlt n (fun j => y j - x j) i Hi). rewrite <- mv_minus_m. reflexivity. }
  assert (GC : forall x y d, inbox n I x -> inbox n I y -> wclose n w x y d -> 0 <= d -> wclose n w (g x) (g y) (q * d)).
  { intros x y d Hx Hy D D0 i Hi. destruct (GD y x Hy Hx) as (J & HJ & E). rewrite E by auto.
    eapply Rle_trans; [apply vsum_abs|].
    eapply Rle_trans; [apply (vsum_le n _ (fun j => d * (Rabs (dlt i j - mm n Rm J i j) * w j)))|].
    - intros j Hj. rewrite Rabs_mult. specialize (D j Hj). pose proof (Rabs_pos (dlt i j - mm n Rm J i j)). nra.
    - rewrite vsum_scal. specialize (HQ i Hi). pose proof (Wp i Hi). pose proof (Row J i HJ Hi).
      assert (ku i - kl i <= q * w i).
      { replace (ku i - kl i) with ((ku i - kl i) / w i * w i) by (field; lra). apply Rmult_le_compat_r; lra. }
      nra. }
  assert (GK : forall x, inbox n I x -> forall i, (i < n)%nat -> kl i <= g x i <= ku i).
  { intros x Hx i Hi. destruct (GD c x C Hx) as (J & HJ & E). specialize (E i Hi). pose proof (G J x i HJ Hx Hi).
    unfold g in E at 2. lra. }
  destruct (banach n w I kl ku g q c Wp Hq KI GK GC C) as (x & XB & XF).
  assert (IX : inbox n I x) by (intros i Hi; apply KI; auto).
  exists x. split; auto. split.
  - apply RI. intros i Hi. specialize (XF i Hi). unfold g in XF. lra.
  - intros y Hy Fy.
    assert (YF : forall i, (i < n)%nat -> g y i = y i).
    { intros i Hi. unfold g. rewrite (mv_ext n Rm _ (fun _ => 0)) by auto. rewrite mv_0. ring. }
    destruct (fin_max n (fun i => Rabs (y i - x i) / w i)) as (D & D0 & HD).
    assert (IT : forall k, wclose n w y x (q ^ k * D)).
    { induction k.
      - intros i Hi. specialize (HD i Hi). pose proof (Wp i Hi). rewrite pow_O, Rmult_1_l.
        replace (Rabs (y i - x i)) with (Rabs (y i - x i) / w i * w i) by (field; lra). apply Rmult_le_compat_r; lra.
      - intros i Hi. rewrite <- (YF i Hi), <- (XF i Hi). change (q ^ S k) with (q * q ^ k). rewrite (Rmult_assoc q (q ^ k) D).
        refine (GC y x (q ^ k * D) Hy IX IHk _ i Hi). apply Rmult_le_pos; auto. apply pow_le; lra. }
    intros i Hi. destruct (Req_dec (y i) (x i)) as [|NE]; auto. exfalso.
    assert (P : 0 < Rabs (y i - x i)) by (apply Rabs_pos_lt; lra). pose proof (Wp i Hi).
    assert (DW : 0 <= D * w i) by nra.
    destruct (pow_lt_1_zero q) with (y := Rabs (y i - x i) / (D * w i + 1)) as [N HN].
    + rewrite Rabs_pos_eq; lra.
    + apply Rdiv_lt_0_compat; lra.
    + specialize (HN N (Nat.le_refl N)). specialize (IT N i Hi). rewrite Rabs_pos_eq in HN by (apply pow_le; lra).
      apply Rmult_lt_compat_r with (r := D * w i + 1) in HN; [|lra]. unfold Rdiv in HN. rewrite Rmult_assoc, Rinv_l in HN by lra.
      assert (0 <= q ^ N) by (apply pow_le; lra). nra.
Qed.

(* Krawczyk's operator contains every zero of the box *)
Lemma krawczyk_zero n (f : (nat -> R) -> nat -> R) Rm J c x :
  (forall k, (k < n)%nat -> f x k - f c k = mv n J (fun j => x j - c j) k) ->
  (forall k, (k < n)%nat -> f x k = 0) ->
  forall i, (i < n)%nat -> x i = c i - mv n Rm (f c) i + vsum n (fun j => (dlt i j - mm n Rm J i j) * (x j - c j)).
Proof.
  intros E Z i Hi.
  change (vsum n (fun j => (dlt i j - mm n Rm J i j) * (x j - c j))) with (mv n (fun i j => dlt i j - mm n Rm J i j) (fun j => x j - c j) i).
  rewrite mv_minus_m, mv_dlt, mv_mm by auto.
  rewrite (mv_ext n Rm (mv n J (fun j => x j - c j)) (fun k => 0 - f c k)).
  2:{ intros k Hk. rewrite <- E, Z by auto. auto. }
  rewrite mv_minus, mv_0. ring.
Qed.

(* slopes from derivatives: df is the Jacobian of f on the convex box I *)
Definition jacobian n (I : nat -> R -> Prop) (f : (nat -> R) -> nat -> R) (df : (nat -> R) -> nat -> nat -> R) : Prop :=
  forall x v k, inbox n I x -> (k < n)%nat -> derivable_pt_lim (fun t => f (fun i => x i + t * v i) k) 0 (vsum n (fun j => df x k j * v j)).
Definition convexb n (I : nat -> R -> Prop) : Prop := forall i a b t, (i < n)%nat -> I i a -> I i b -> 0 <= t <= 1 -> I i (a + t * (b - a)).

Lemma jacobian_mvt n I f df : (forall x y, (forall i, x i = y i) -> forall k, f x k = f y k) ->
  convexb n I -> jacobian n I f df -> forall x y k, inbox n I x -> inbox n I y -> (k < n)%nat ->
  exists z, inbox n I z /\ f y k - f x k = vsum n (fun j => df z k j * (y j - x j)).
Proof.
  intros FE CV JA x y k Hx Hy Hk.
  set (v := fun i => y i - x i).
  assert (IN : forall t, 0 <= t <= 1 -> inbox n I (fun i => x i + t * v i)).
  { intros t Ht i Hi. unfold v. apply CV; auto. }
  destruct (MVT_cor2 (fun t => f (fun i => x i + t * v i) k) (fun t => vsum n (fun j => df (fun i => x i + t * v i) k j * v j)) 0 1) as (t & Ht & T).
  - lra.
  - intros t Ht. specialize (JA (fun i => x i + t * v i) v k (IN t Ht) Hk).
    intros e He. destruct (JA e He) as [d Hd]. exists d. intros h Hh Hh2. specialize (Hd h Hh Hh2).
    rewrite (FE (fun i => x i + (t + h) * v i) (fun i => x i + t * v i + (0 + h) * v i)) by (intros; ring).
    rewrite (FE (fun i => x i + t * v i) (fun i => x i + t * v i + 0 * v i)) at 1 by (intros; ring). exact Hd.
  - exists (fun i => x i + t * v i). split; [apply IN; lra|]. rewrite Rminus_0_r, Rmult_1_r in Ht. 
    rewrite (FE y (fun i => x i + 1 * v i)) by (intros; unfold v; ring).
    rewrite (FE x (fun i => x i + 0 * v i)) at 1 by (intros; unfold v; ring). exact Ht.
Qed.
