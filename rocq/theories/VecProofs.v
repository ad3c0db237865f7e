(* Proofs about interval vectors, vleq and Krawczyk's test. *)
From Coq Require Import Reals Lra Lia Psatz ZArith Bool Arith.
From Flocq Require Import Core.
From Verif Require Import Ext Scalar IntervalModel IntervalSpec IntervalProofs IntervalEncl IntervalSets IntervalMore.
From Verif Require Import LinAlg RealRn VecModel.
Open Scope R_scope.

(* a not-a-number exact result is returned as NaN *)
Record scal_nan (S : scal) : Prop := mksnan {
  nn_wf : forall x : S, swf x;
  nn_addd : forall x y : S, xadd (sval x) (sval y) = Xn -> sval (addd x y) = Xn;
  nn_addu : forall x y : S, xadd (sval x) (sval y) = Xn -> sval (addu x y) = Xn;
  nn_subd : forall x y : S, xsub (sval x) (sval y) = Xn -> sval (subd x y) = Xn;
  nn_subu : forall x y : S, xsub (sval x) (sval y) = Xn -> sval (subu x y) = Xn;
  nn_muld : forall x y : S, xmul (sval x) (sval y) = Xn -> sval (muld x y) = Xn;
  nn_mulu : forall x y : S, xmul (sval x) (sval y) = Xn -> sval (mulu x y) = Xn;
  nn_divu : forall x y : S, sval y <> XR 0 -> xdiv (sval x) (sval y) = Xn -> sval (divu x y) = Xn
}.

(* the points of a box; a vector of intervals whose first n components are valid *)
Lemma force_ext {A} n (f : nat -> A) : force n f = f.
Proof.
  apply FunctionalExtensionality.functional_extensionality. intros i. induction n; simpl; auto.
  destruct (Nat.eqb_spec i n); subst; auto.
Qed.
Definition vin {S : scal} (n : nat) (X : nat -> iv S) (x : nat -> R) : Prop := forall i, (i < n)%nat -> isin (X i) (x i).
Definition min {S : scal} (n : nat) (X : nat -> nat -> iv S) (x : nat -> nat -> R) : Prop :=
  forall i j, (i < n)%nat -> (j < n)%nat -> isin (X i j) (x i j).
Definition ifinite {S : scal} (X : iv S) : Prop := is_fin (sval (lo X)) /\ is_fin (sval (hi X)).

Section P.
Context {S : scal} (OK : scal_ok S).
Hypothesis W : forall x : S, swf x.

Lemma vall_spec n p : vall n p = true <-> forall i, (i < n)%nat -> p i = true.
Proof.
  induction n; simpl; [split; auto; intros; lia|]. rewrite andb_true_iff, IHn. split.
  - intros [H1 H2] i Hi. destruct (Nat.eq_dec i n) as [-> |]; auto. apply H1; lia.
  - intros H. split; intros; apply H; lia.
Qed.
Lemma vall_false n p : vall n p = false -> exists i, (i < n)%nat /\ p i = false.
Proof.
  induction n; simpl; [discriminate|]. rewrite andb_false_iff. intros [H|H].
  - destruct (IHn H) as (i & Hi & E). exists i. auto.
  - exists n. auto.
Qed.

(* sums and products *)
Lemma isin_isum n f g : (forall i, (i < n)%nat -> isin (f i) (g i)) -> isin (isum (S := S) n f) (vsum n g).
Proof. induction n; simpl; intros H; [apply (isin_i0 OK)|]. apply (isin_add OK); auto. Qed.
Lemma isin_mvI n (A : nat -> nat -> iv S) X A' x i : (forall j, (j < n)%nat -> isin (A i j) (A' i j)) -> vin n X x -> isin (mvI n A X i) (mv n A' x i).
Proof. intros HA HX. apply isin_isum. intros j Hj. apply (isin_mul OK); auto. Qed.
Lemma isin_mvSI n (A : nat -> nat -> S) X A' x i : (forall j, (j < n)%nat -> sval (A i j) = XR (A' i j)) -> vin n X x -> isin (mvSI n A X i) (mv n A' x i).
Proof. intros HA HX. apply isin_isum. intros j Hj. apply (isin_Smul OK); auto. Qed.
Lemma isin_mmSI n (A : nat -> nat -> S) B A' B' i j : (forall k, (k < n)%nat -> sval (A i k) = XR (A' i k)) ->
  (forall k, (k < n)%nat -> isin (B k j) (B' k j)) -> isin (mmSI n A B i j) (mm n A' B' i j).
Proof. intros HA HB. apply isin_isum. intros k Hk. apply (isin_Smul OK); auto. Qed.
Lemma idS_v i j : sval (@idS S i j) = XR (dlt i j).
Proof. unfold idS, dlt. destruct Nat.eq_dec; [apply (ok_s1 _ OK)|apply (ok_s0 _ OK)]. Qed.

(* norms *)
Lemma maxloop_ub n f r : (forall i, (i < n)%nat -> sval (f i) <> Xn) ->
  (exists i, (i < n)%nat /\ ub (sval (f i)) r) -> ub (sval (maxloop (S := S) n f)) r.
Proof.
  induction n; intros N (i & Hi & U); [lia|]. simpl.
  assert (NN : forall k, (k <= n)%nat -> sval (maxloop k f) <> Xn).
  { induction k; simpl; intros Hk; [rewrite (proj2 (ok_s0 _ OK)); discriminate|].
    destruct slt; [apply N; lia|apply IHk; lia]. }
  destruct (slt (maxloop n f) (f n)) eqn:E; [apply (slt_true OK) in E|apply (slt_false OK) in E]; auto.
  - destruct (Nat.eq_dec i n) as [-> |]; auto. eapply ub_xle; [apply xlt_xle; eauto|]. apply IHn; [intros; apply N; lia|].
    exists i. split; auto. lia.
  - destruct (Nat.eq_dec i n) as [-> |]; [eapply ub_xle; eauto|]. apply IHn; [intros; apply N; lia|]. exists i. split; auto. lia.
Qed.
Lemma maxloop_0 n f : (forall i, (i < n)%nat -> sval (f i) <> Xn) -> ub (sval (maxloop (S := S) n f)) 0.
Proof.
  induction n; intros N; simpl; [rewrite (proj2 (ok_s0 _ OK)); simpl; lra|].
  destruct (slt (maxloop n f) (f n)) eqn:E; [|apply IHn; auto]. apply (slt_true OK) in E; auto.
  eapply ub_xle; [apply xlt_xle; eauto|]. apply IHn; auto.
Qed.
Lemma sumu_ub n f g : (forall i, (i < n)%nat -> ub (sval (f i)) (g i)) -> ub (sval (sumu (S := S) n f)) (vsum n g).
Proof.
  induction n; simpl; intros H; [rewrite (proj2 (ok_s0 _ OK)); simpl; lra|].
  assert (H1 : ub (sval (sumu n f)) (vsum n g)) by auto. specialize (H n (Nat.lt_succ_diag_r n)).
  destruct (ok_addu _ OK (sumu n f) (f n) (W _) (W _)) as [_ U].
  destruct (sval (sumu n f)), (sval (f n)); simpl in *; try contradiction; try (rewrite U; simpl; auto; fail).
  destruct (sval (addu _ _)); simpl in *; auto; lra.
Qed.
Lemma mag_u X x : isin X x -> ub (sval (mag (S := S) X)) (Rabs x).
Proof. intros H. apply (mag_ub OK X x H). Qed.
Lemma mag_nn X x : isin X x -> sval (mag (S := S) X) <> Xn.
Proof. intros H. apply mag_u in H. destruct (sval _); simpl in *; try discriminate; tauto. Qed.
Lemma sabsc_v (x : S) r : sval x = XR r -> sval (sabsc x) = XR (Rabs r).
Proof.
  intros E. unfold sabsc. destruct (sle s0 x) eqn:L.
  - apply (sle_true OK) in L; auto. rewrite (proj2 (ok_s0 _ OK)), E in L. simpl in L. rewrite Rabs_pos_eq; auto.
  - apply (sle_false OK) in L; auto; rewrite ?(proj2 (ok_s0 _ OK)), ?E in *; try discriminate. simpl in L.
    rewrite (proj2 (ok_neg _ OK x (W _))), E. simpl. rewrite Rabs_left; auto.
Qed.
Lemma vmax_norm_ub n X x i : vin n X x -> (i < n)%nat -> ub (sval (vmax_norm (S := S) n X)) (Rabs (x i)).
Proof.
  intros H Hi. apply maxloop_ub.
  - intros k Hk. apply (mag_nn _ (x k)); auto.
  - exists i. split; auto. apply mag_u; auto.
Qed.
Lemma mmax_norm_ub n1 n2 (X : nat -> nat -> iv S) x i : (forall i j, (i < n1)%nat -> (j < n2)%nat -> isin (X i j) (x i j)) -> (i < n1)%nat ->
  ub (sval (mmax_norm n1 n2 X)) (vsum n2 (fun j => Rabs (x i j))).
Proof.
  intros H Hi. apply maxloop_ub.
  - intros k Hk. pose proof (sumu_ub n2 (fun j => mag (X k j)) (fun j => Rabs (x k j)) ltac:(intros; apply mag_u; auto)).
    destruct (sval _); simpl in *; try discriminate; tauto.
  - exists i. split; auto. apply sumu_ub. intros. apply mag_u; auto.
Qed.
Lemma vmax_normS_ub n (X : nat -> S) x i : (forall i, (i < n)%nat -> sval (X i) = XR (x i)) -> (i < n)%nat ->
  ub (sval (vmax_normS n X)) (Rabs (x i)).
Proof.
  intros H Hi. apply maxloop_ub.
  - intros k Hk. rewrite (sabsc_v _ _ (H k Hk)). discriminate.
  - exists i. split; auto. rewrite (sabsc_v _ _ (H i Hi)). simpl; lra.
Qed.
Lemma mmax_normS_ub n1 n2 (X : nat -> nat -> S) x i : (forall i j, (i < n1)%nat -> (j < n2)%nat -> sval (X i j) = XR (x i j)) -> (i < n1)%nat ->
  ub (sval (mmax_normS n1 n2 X)) (vsum n2 (fun j => Rabs (x i j))).
Proof.
  intros H Hi.
  assert (U : forall k, (k < n1)%nat -> ub (sval (sumu n2 (fun j => sabsc (X k j)))) (vsum n2 (fun j => Rabs (x k j)))).
  { intros k Hk. apply sumu_ub. intros j Hj. rewrite (sabsc_v _ _ (H k j Hk Hj)). simpl; lra. }
  apply maxloop_ub.
  - intros k Hk. specialize (U k Hk). destruct (sval _); simpl in *; try discriminate; tauto.
  - exists i. split; auto.
Qed.
(* ... and the norms are attained: they are the componentwise maxima, no larger than needed *)
Lemma maxloop_in n f : (maxloop (S := S) n f = s0) \/ exists i, (i < n)%nat /\ maxloop n f = f i.
Proof.
  induction n; simpl; auto. destruct slt; [right; exists n; auto|]. destruct IHn as [E|(i & Hi & E)]; [left; auto|right; exists i; auto].
Qed.
End P.

Lemma near1_inj n A Rm N : (forall i, (i < n)%nat -> vsum n (fun j => Rabs (dlt i j - mm n Rm A i j)) <= N) -> N < 1 -> injective n A.
Proof.
  intros HG HN. assert (IJ : injective n (mm n Rm A)).
  { apply (near_id_inj n _ (fun _ => 1)); [intros; lra|]. intros i Hi. rewrite vsum_scal_r, Rmult_1_r. eapply Rle_lt_trans; [apply HG|]; auto. }
  apply prod_inj in IJ as [_ IA]. auto.
Qed.
(* the exact solution is near the approximate one *)
Lemma vleq_real n A Rm b xt N N2 N3 : (0 < n)%nat ->
  (forall i, (i < n)%nat -> vsum n (fun j => Rabs (dlt i j - mm n Rm A i j)) <= N) -> N < 1 ->
  (forall i, (i < n)%nat -> vsum n (fun j => Rabs (Rm i j)) <= N2) ->
  (forall i, (i < n)%nat -> Rabs (mv n A xt i - b i) <= N3) ->
  forall x, (forall i, (i < n)%nat -> mv n A x i = b i) ->
   forall i, (i < n)%nat -> Rabs (x i - xt i) * (1 - N) <= N2 * N3.
Proof.
  intros NZ HG HN H2 H3.
  intros x Hx.
  assert (M : exists k, (k < n)%nat /\ forall i, (i < n)%nat -> Rabs (x i - xt i) <= Rabs (x k - xt k)).
  { clear - NZ. induction n; [lia|]. destruct n; [exists O; split; auto; intros i Hi; assert (i = O) as -> by lia; lra|].
    destruct IHn as (k & Hk & Hm); [lia|]. destruct (Rle_dec (Rabs (x (S n) - xt (S n))) (Rabs (x k - xt k))).
    - exists k. split; [lia|]. intros i Hi. destruct (Nat.eq_dec i (S n)) as [-> |]; auto. apply Hm; lia.
    - exists (S n). split; [lia|]. intros i Hi. destruct (Nat.eq_dec i (S n)) as [-> |]; [lra|]. specialize (Hm i ltac:(lia)). lra. }
  destruct M as (k & Hk & Hm). set (D := Rabs (x k - xt k)) in *.
  assert (E : x k - xt k = mv n (fun i j => dlt i j - mm n Rm A i j) (fun j => x j - xt j) k + mv n Rm (fun j => b j - mv n A xt j) k).
  { rewrite mv_minus_m, mv_dlt, mv_mm by auto.
    rewrite (mv_ext n Rm (mv n A (fun j => x j - xt j)) (fun j => b j - mv n A xt j)).
    2:{ intros j Hj. rewrite mv_minus, Hx by auto. ring. }
    ring. }
  assert (B1 : Rabs (mv n (fun i j => dlt i j - mm n Rm A i j) (fun j => x j - xt j) k) <= N * D).
  { unfold mv at 1. eapply Rle_trans; [apply vsum_abs|]. eapply Rle_trans; [|apply Rmult_le_compat_r; [apply Rabs_pos|apply (HG k Hk)]].
    rewrite <- vsum_scal_r. apply vsum_le. intros j Hj. rewrite Rabs_mult. apply Rmult_le_compat_l; [apply Rabs_pos|]. apply Hm; auto. }
  assert (N30 : 0 <= N3). { eapply Rle_trans; [apply Rabs_pos|apply (H3 O NZ)]. }
  assert (B2 : Rabs (mv n Rm (fun j => b j - mv n A xt j) k) <= N2 * N3).
  { unfold mv at 1. eapply Rle_trans; [apply vsum_abs|]. eapply Rle_trans; [|apply Rmult_le_compat_r; [auto|apply (H2 k Hk)]].
    rewrite <- vsum_scal_r. apply vsum_le. intros j Hj. rewrite Rabs_mult. apply Rmult_le_compat_l; [apply Rabs_pos|].
    rewrite <- Rabs_Ropp. replace (- (b j - mv n A xt j)) with (mv n A xt j - b j) by ring. apply H3; auto. }
  assert (D <= N * D + N2 * N3).
  { unfold D at 1. rewrite E. eapply Rle_trans; [apply Rabs_triang|]. lra. }
  intros i Hi. specialize (Hm i Hi). fold D in Hm. nra.
Qed.

Section V.
Context {S : scal} (OK : scal_ok S) (NN : scal_nan S).
Let W := nn_wf _ NN.

Lemma sneg_x (x : S) : sval (sneg x) = xneg (sval x).
Proof. apply (ok_neg _ OK); auto. Qed.
Lemma addd_lo (x y : S) : is_lo (sval (addd x y)) -> is_lo (sval x) /\ is_lo (sval y).
Proof.
  intros H. pose proof (nn_addd _ NN x y) as N. destruct (ok_addd _ OK x y (W _) (W _)) as [_ D].
  destruct (sval x), (sval y); simpl in *; auto; try (rewrite N in H by auto; simpl in H; tauto); try (rewrite D in H; simpl in H; tauto).
Qed.
Lemma addu_hi (x y : S) : is_hi (sval (addu x y)) -> is_hi (sval x) /\ is_hi (sval y).
Proof.
  intros H. pose proof (nn_addu _ NN x y) as N. destruct (ok_addu _ OK x y (W _) (W _)) as [_ D].
  destruct (sval x), (sval y); simpl in *; auto; try (rewrite N in H by auto; simpl in H; tauto); try (rewrite D in H; simpl in H; tauto).
Qed.
Lemma mulu_fin (x y : S) : is_fin (sval (mulu x y)) -> is_fin (sval x) /\ is_fin (sval y).
Proof.
  intros H. pose proof (nn_mulu _ NN x y) as N. destruct (ok_mulu _ OK x y (W _) (W _)) as [_ D].
  destruct (sval x) as [r| | |], (sval y) as [q| | |]; simpl in *; auto; try (rewrite N in H by auto; simpl in H; tauto);
  unfold xsgn_inf in *; try destruct (Rcompare _ _); try (rewrite N in H by auto; simpl in H; tauto); try (rewrite D in H; simpl in H; tauto).
Qed.
Lemma muld_fin (x y : S) : is_fin (sval (muld x y)) -> is_fin (sval x) /\ is_fin (sval y).
Proof.
  intros H. pose proof (nn_muld _ NN x y) as N. destruct (ok_muld _ OK x y (W _) (W _)) as [_ D].
  destruct (sval x) as [r| | |], (sval y) as [q| | |]; simpl in *; auto; try (rewrite N in H by auto; simpl in H; tauto);
  unfold xsgn_inf in *; try destruct (Rcompare _ _); try (rewrite N in H by auto; simpl in H; tauto); try (rewrite D in H; simpl in H; tauto).
Qed.
Lemma addd_fin (x y : S) : is_fin (sval (addd x y)) -> is_fin (sval x) /\ is_fin (sval y).
Proof.
  intros H. pose proof (nn_addd _ NN x y) as N. destruct (ok_addd _ OK x y (W _) (W _)) as [_ D].
  destruct (sval x), (sval y); simpl in *; auto; try (rewrite N in H by auto; simpl in H; tauto); try (rewrite D in H; simpl in H; tauto).
Qed.
Lemma addu_fin (x y : S) : is_fin (sval (addu x y)) -> is_fin (sval x) /\ is_fin (sval y).
Proof.
  intros H. pose proof (nn_addu _ NN x y) as N. destruct (ok_addu _ OK x y (W _) (W _)) as [_ D].
  destruct (sval x), (sval y); simpl in *; auto; try (rewrite N in H by auto; simpl in H; tauto); try (rewrite D in H; simpl in H; tauto).
Qed.
Lemma subd_fin (x y : S) : is_fin (sval (subd x y)) -> is_fin (sval x) /\ is_fin (sval y).
Proof.
  intros H. pose proof (nn_subd _ NN x y) as N. destruct (ok_subd _ OK x y (W _) (W _)) as [_ D]. unfold xsub in *.
  destruct (sval x), (sval y); simpl in *; auto; try (rewrite N in H by auto; simpl in H; tauto); try (rewrite D in H; simpl in H; tauto).
Qed.
Lemma subu_fin (x y : S) : is_fin (sval (subu x y)) -> is_fin (sval x) /\ is_fin (sval y).
Proof.
  intros H. pose proof (nn_subu _ NN x y) as N. destruct (ok_subu _ OK x y (W _) (W _)) as [_ D]. unfold xsub in *.
  destruct (sval x), (sval y); simpl in *; auto; try (rewrite N in H by auto; simpl in H; tauto); try (rewrite D in H; simpl in H; tauto).
Qed.

(* If R is finite and the returned column consists of valid intervals, it contains the unique solution of every system *)
Theorem vleq_mat_ok n a b (Rs : nat -> nat -> S) Rm X col A bb :
  vleq_mat n a b (Some Rs) = Some X ->
  (forall i j, (i < n)%nat -> (j < n)%nat -> sval (Rs i j) = XR (Rm i j)) ->
  (forall i, (i < n)%nat -> is_lo (sval (lo (X i col))) /\ is_hi (sval (hi (X i col)))) ->
  min n a A -> (forall i, (i < n)%nat -> isin (b i col) (bb i)) ->
  exists x, (forall i, (i < n)%nat -> mv n A x i = bb i) /\
    (forall y, (forall i, (i < n)%nat -> mv n A y i = bb i) -> forall i, (i < n)%nat -> y i = x i) /\
    forall i, (i < n)%nat -> isin (X i col) (x i).
Proof.
  intros HV HR HX HA HB. destruct (Nat.eq_dec n 0) as [-> |NZ].
  { exists (fun _ => 0). repeat split; intros; lia. }
  assert (NP : (0 < n)%nat) by lia. clear NZ.
  unfold vleq_mat in HV. cbv zeta in HV.
  set (EmRA := fun i j => iSsub (idS i j) (mmSI n Rs a i j)) in HV.
  set (norm1 := subd s1 (mmax_norm n n EmRA)) in HV.
  destruct (sle norm1 s0) eqn:E1; [discriminate|]. injection HV as HV.
  set (x0 := fun i j => mmS n Rs (mmid b) i j) in HV. set (norm2 := mmax_normS n n Rs) in HV.
  assert (HG : forall i j, (i < n)%nat -> (j < n)%nat -> isin (EmRA i j) (dlt i j - mm n Rm A i j)).
  { intros i j Hi Hj. apply (isin_Ssub OK); [auto|apply (idS_v OK)|]. apply (isin_mmSI OK W); intros; auto. }
  pose proof (fun i => mmax_norm_ub OK W n n EmRA _ i HG) as UN.
  assert (N1 : exists N d, (forall i, (i < n)%nat -> vsum n (fun j => Rabs (dlt i j - mm n Rm A i j)) <= N) /\ sval norm1 = XR d /\ 0 < d <= 1 - N).
  { destruct (ok_subd _ OK s1 (mmax_norm n n EmRA) (W _) (W _)) as [_ D]. fold norm1 in D. rewrite (proj2 (ok_s1 _ OK)) in D.
    destruct (sval (mmax_norm n n EmRA)) as [N| | |] eqn:EN; try (exfalso; exact (UN O NP)).
    - simpl in D. destruct (sval norm1) as [d| | |] eqn:Ed; try contradiction.
      + exists N, d. split; [exact UN|]. split; auto. split; [|lra]. apply (sle_false OK) in E1; auto; rewrite ?Ed, ?(proj2 (ok_s0 _ OK)); try discriminate.
        rewrite Ed, (proj2 (ok_s0 _ OK)) in E1. exact E1.
      + exfalso. assert (sle norm1 s0 = true); [|congruence]. apply (ok_le _ OK); auto. rewrite Ed, (proj2 (ok_s0 S OK)). exact Logic.I.
    - exfalso. simpl in D. assert (sle norm1 s0 = true); [|congruence]. apply (ok_le _ OK); auto. rewrite D, (proj2 (ok_s0 _ OK)). exact Logic.I. }
  destruct N1 as (N & d & HN & Ed & Hd).
  assert (U2 := fun i => mmax_normS_ub OK W n n Rs Rm i HR). fold norm2 in U2.
  set (rt := fun j => isub (mvI n a (fun j => ipt (x0 j col)) j) (b j col)).
  set (norm3 := vmax_norm n rt). set (er := divu (mulu norm2 norm3) norm1).
  assert (XE : forall i, X i col = iadd (ipt (x0 i col)) (mkiv (sneg er) er)). { intros i. rewrite <- HV. reflexivity. }
  assert (FX : forall i, (i < n)%nat -> exists r, sval (x0 i col) = XR r).
  { intros i Hi. destruct (HX i Hi) as [L H]. rewrite XE in L, H. cbn [iadd lo hi ipt] in L, H.
    apply addd_lo in L as [L _]. apply addu_hi in H as [H _]. destruct (sval (x0 i col)); simpl in *; try tauto. exists r; auto. }
  destruct (fin_choice 0 n (fun i r => sval (x0 i col) = XR r) FX) as [xt Hxt].
  assert (HR3 : vin n rt (fun i => mv n A xt i - bb i)).
  { intros i Hi. apply (isin_sub OK); auto. apply (isin_mvI OK).
    - intros j Hj. apply HA; auto.
    - intros j Hj. apply (isin_pt (S := S)); auto. }
  pose proof (fun i => vmax_norm_ub OK W n rt _ i HR3) as U3. fold norm3 in U3.
  (* solution *)
  destruct (HX O NP) as [L0 _]. rewrite XE in L0. cbn [iadd lo hi] in L0. apply addd_lo in L0 as [_ L0]. rewrite sneg_x in L0.
  assert (IA : injective n A) by (apply (near1_inj n A Rm N HN); lra).
  destruct (inj_surj n A IA bb) as [x Hx]. exists x. split; auto. split.
  { intros y Hy i Hi. assert (y i - x i = 0); [|lra]. apply (IA (fun j => y j - x j)); auto. intros k Hk. rewrite mv_minus, Hx, Hy; auto. ring. }
  intros i Hi. rewrite XE. replace (x i) with (xt i + (x i - xt i)) by ring. apply (isin_add OK).
  { apply (isin_pt (S := S)); auto. }
  unfold isin; cbn [lo hi]. rewrite sneg_x.
  assert (U : ub (sval er) (Rabs (x i - xt i))).
  { destruct (sval er) as [e| | |] eqn:Ee; simpl in L0; try tauto; simpl; auto.
    assert (Dn : sval norm1 <> XR 0) by (rewrite Ed; intros Q; injection Q; lra).
    destruct (ok_divu _ OK (mulu norm2 norm3) norm1 (W _) (W _) Dn) as [_ DU]. fold er in DU. rewrite Ee, Ed in DU.
    pose proof (nn_divu _ NN (mulu norm2 norm3) norm1 Dn) as DN. fold er in DN. rewrite Ee, Ed in DN.
    assert (FM : is_fin (sval (mulu norm2 norm3))).
    { destruct (sval (mulu norm2 norm3)); simpl in *; auto; try (rewrite xsgn_inf_pos in DU by lra; discriminate); try (specialize (DN eq_refl); discriminate). }
    destruct (mulu_fin _ _ FM) as [F2 F3]. destruct (ok_mulu _ OK norm2 norm3 (W _) (W _)) as [_ MU].
    destruct (sval norm2) as [n2| | |] eqn:E2; try contradiction. destruct (sval norm3) as [n3| | |] eqn:E3; try contradiction.
    destruct (sval (mulu norm2 norm3)) as [mu| | |] eqn:E4; try contradiction. simpl in MU, DU, U2, U3.
    assert (VB := vleq_real n A Rm bb xt N n2 n3 NP HN ltac:(lra) U2 U3 x Hx i Hi).
    assert (mu / d * d = mu) by (field; lra). pose proof (Rabs_pos (x i - xt i)). nra. }
  split; auto. split; auto. split; [|eapply ub_le; [exact U|apply Rle_abs]].
  replace (x i - xt i) with (- (- (x i - xt i))) by ring. apply ub_neg. eapply ub_le; [exact U|]. rewrite <- Rabs_Ropp. apply Rle_abs.
Qed.
End V.
