(* Proofs about eig.hpp: what veig guarantees, and the cases where it is wrong. *)
From Coq Require Import Reals Lra Lia Psatz ZArith Bool Arith List FunctionalExtensionality.
From Coquelicot Require Import Complex.
From Flocq Require Import Core BinarySingleNaN.
From Verif Require Import Fp64 Ext Scalar IntervalModel IntervalSpec IntervalProofs IntervalEncl IntervalSets IntervalMid Backends ElemModel Elem64 PropsElem PropsTight.
From Verif Require Import LinAlg VecModel VecProofs VecInst CplxModel CplxProofs EigModel.
Import ListNotations.
Open Scope R_scope.

(* ---- specification: eigenpairs of a real matrix over the complex numbers ---- *)
Definition cvsum (n : nat) (f : nat -> C) : C := (vsum n (fun k => fst (f k)), vsum n (fun k => snd (f k))).
Definition eigpair (n : nat) (A : nat -> nat -> R) (lam : C) (w : nat -> C) : Prop :=
  (exists i, (i < n)%nat /\ w i <> 0%C) /\ forall i, (i < n)%nat -> cvsum n (fun k => RtoC (A i k) * w k)%C = (lam * w i)%C.
Definition eigenvalue (n : nat) (A : nat -> nat -> R) (lam : C) : Prop := exists w, eigpair n A lam w.

Lemma bwf b (x : bscal b) : swf x. Proof. destruct b; exact Logic.I. Qed.
Lemma fold_seq_S {A} (f : A -> nat -> A) n a : fold_left f (seq 0 (S n)) a = f (fold_left f (seq 0 n) a) n.
Proof. rewrite seq_S, fold_left_app. reflexivity. Qed.
Lemma vsum_app n m f : vsum (n + m) f = vsum n f + vsum m (fun j => f (n + j)%nat).
Proof. induction m as [|m IH]; simpl; [rewrite Nat.add_0_r; ring|]. rewrite Nat.add_succ_r. simpl. rewrite IH. ring. Qed.
Lemma cvsum_ext n f g : (forall k, (k < n)%nat -> f k = g k) -> cvsum n f = cvsum n g.
Proof. intros H. unfold cvsum. f_equal; apply vsum_ext; intros k L; now rewrite H. Qed.
Lemma Cpair (x y : C) : fst x = fst y -> snd x = snd y -> x = y. Proof. destruct x, y. simpl. congruence. Qed.

Lemma classic_all n (z : nat -> C) : (forall j, (j < n)%nat -> z j = 0%C) \/ exists j, (j < n)%nat /\ z j <> 0%C.
Proof.
  induction n as [|n [IH|(j & L & N)]]; [left; lia| |right; exists j; split; [lia|exact N]]. destruct (Ceq_dec (z n) 0%C) as [Z|Z]; [|right; exists n; split; [lia|exact Z]].
  left. intros j L. destruct (Nat.eq_dec j n) as [->|]; auto. apply IH. lia.
Qed.

Section Sound.
Variable b : backend.
Notation S_ := (bscal b).
Notation I := (iv S_).
Variables (n : nat) (V : list (list (@cs S_))).
Variable (X : nat -> nat -> C).
Hypothesis HV : forall i j, (i < n)%nat -> (j < n)%nat -> sval (cre (mget z0 V i j)) = XR (fst (X i j)) /\ sval (cim (mget z0 V i j)) = XR (snd (X i j)).
Lemma X_in i j : (i < n)%nat -> (j < n)%nat -> cin (veig_X V i j) (X i j).
Proof. intros Hi Hj. destruct (HV i j Hi Hj) as [H1 H2]. split; simpl; apply isin_pt; auto using bwf. Qed.
Lemma csum_in m (f : nat -> cx S_) g : (forall k, (k < m)%nat -> cin (f k) (g k)) -> cin (csum m f) (cvsum m g).
Proof.
  induction m as [|m IH]; intros H; unfold csum in *.
  - split; simpl; apply (isin_i0 (bok b)).
  - rewrite fold_seq_S. destruct (IH (fun k L => H k (Nat.lt_lt_succ_r _ _ L))) as [A1 A2]. destruct (H m (Nat.lt_succ_diag_r m)) as [B1 B2]. split; simpl; now apply (isin_add (bok b)).
Qed.
(* the real matrix of X acting on (real parts, imaginary parts) *)
Definition MX (i j : nat) : R := if (i <? n)%nat then (if (j <? n)%nat then fst (X i j) else - snd (X i (j - n)%nat)) else (if (j <? n)%nat then snd (X (i - n)%nat j) else fst (X (i - n)%nat (j - n)%nat)).
Lemma BA_in i j : (i < 2 * n)%nat -> (j < 2 * n)%nat -> isin (veig_BA n V i j) (MX i j).
Proof.
  intros Hi Hj. unfold veig_BA, MX. destruct (Nat.ltb_spec i n), (Nat.ltb_spec j n).
  - now apply X_in. - apply (isin_neg (bok b)). apply X_in; lia. - apply X_in; lia. - apply X_in; lia.
Qed.
Definition flat (w : nat -> C) (i : nat) : R := if (i <? n)%nat then fst (w i) else snd (w (i - n)%nat).
Lemma MX_flat w i : (i < n)%nat -> mv (2 * n) MX (flat w) i = fst (cvsum n (fun k => X i k * w k)%C) /\ mv (2 * n) MX (flat w) (n + i) = snd (cvsum n (fun k => X i k * w k)%C).
Proof.
  intros Hi. unfold mv. replace (2 * n)%nat with (n + n)%nat by lia. rewrite !vsum_app, <- !vsum_plus. unfold cvsum. cbn [fst snd]. split; apply vsum_ext; intros k Hk; unfold MX, flat.
  - destruct (Nat.ltb_spec i n); [|lia]. destruct (Nat.ltb_spec k n); [|lia]. destruct (Nat.ltb_spec (n + k) n); [lia|]. replace (n + k - n)%nat with k by lia. simpl. ring.
  - destruct (Nat.ltb_spec (n + i) n); [lia|]. destruct (Nat.ltb_spec k n); [|lia]. destruct (Nat.ltb_spec (n + k) n); [lia|]. replace (n + k - n)%nat with k by lia. replace (n + i - n)%nat with i by lia. simpl. ring.
Qed.
(* columns of X are eigenvectors *)
Variables (A : nat -> nat -> R) (lam : nat -> C) (Cm : nat -> nat -> cx S_).
Hypothesis HC : forall i j, (i < n)%nat -> (j < n)%nat -> cin (Cm i j) (cvsum n (fun k => RtoC (A i k) * X k j)%C).
Hypothesis HE : forall i j, (i < n)%nat -> (j < n)%nat -> cvsum n (fun k => RtoC (A i k) * X k j)%C = (lam j * X i j)%C.
Variables (R0 : nat -> nat -> S_) (Rm : nat -> nat -> R) (G : nat -> nat -> I).
Hypothesis HR : forall i j, (i < 2 * n)%nat -> (j < 2 * n)%nat -> sval (R0 i j) = XR (Rm i j).
Hypothesis HG : vleq_mat (2 * n) (veig_BA n V) (veig_BC n Cm) (Some R0) = Some G.
Hypothesis HB : forall i j, (i < 2 * n)%nat -> (j < n)%nat -> is_fin (sval (lo (G i j))) /\ is_fin (sval (hi (G i j))).
Definition evec (j : nat) (c : C) (k : nat) : C := if Nat.eqb k j then c else 0%C.
Lemma evec_sum (f : nat -> C) j c : (j < n)%nat -> cvsum n (fun k => f k * evec j c k)%C = (f j * c)%C.
Proof.
  intros Hj. unfold cvsum. apply Cpair; cbn [fst snd]; rewrite (vsum_single n j); auto; unfold evec; try (rewrite Nat.eqb_refl; reflexivity); intros k Hk N; apply Nat.eqb_neq in N; rewrite N; simpl; ring.
Qed.
Lemma col_sys j : (j < n)%nat -> exists x, (forall i, (i < 2 * n)%nat -> isin (G i j) (x i)) /\ (forall i, (i < 2 * n)%nat -> x i = flat (evec j (lam j)) i) /\
  (forall y, (forall i, (i < 2 * n)%nat -> mv (2 * n) MX y i = mv (2 * n) MX (flat (evec j (lam j))) i) -> forall i, (i < 2 * n)%nat -> y i = x i).
Proof using HV HC HE HR HG HB.
  intros Hj. set (bb := fun i => if (i <? n)%nat then fst (cvsum n (fun k => RtoC (A i k) * X k j)%C) else snd (cvsum n (fun k => RtoC (A (i - n)%nat k) * X k j)%C)).
  assert (SY : forall i, (i < 2 * n)%nat -> mv (2 * n) MX (flat (evec j (lam j))) i = bb i).
  { intros i Hi. unfold bb. destruct (Nat.ltb_spec i n) as [L|L].
    - destruct (MX_flat (evec j (lam j)) i L) as [-> _]. rewrite evec_sum, HE by auto. f_equal. apply Cmult_comm.
    - replace i with (n + (i - n))%nat at 1 by lia. destruct (MX_flat (evec j (lam j)) (i - n)%nat) as [_ ->]; [lia|]. rewrite evec_sum, HE by (auto; lia). f_equal. apply Cmult_comm. }
  destruct (vleq_mat_ok (bok b) (bscal_nan b) (2 * n)%nat (veig_BA n V) (veig_BC n Cm) R0 Rm G j MX bb HG HR) as (x & X1 & X2 & X3).
  - intros i Hi. destruct (HB i j Hi Hj) as [B1 B2]. split; [destruct (sval (lo (G i j)))|destruct (sval (hi (G i j)))]; simpl in *; tauto.
  - intros i k Hi Hk. now apply BA_in.
  - intros i Hi. unfold veig_BC, bb. destruct (Nat.ltb_spec i n); apply HC; lia.
  - exists x. split; [exact X3|]. split; [intros i Hi; symmetry; apply X2; auto|]. intros y Hy. apply X2. intros i Hi. rewrite Hy, SY by auto. reflexivity.
Qed.
Lemma G_in r j : (r < n)%nat -> (j < n)%nat -> isin (G r j) (fst (evec j (lam j) r)) /\ isin (G (r + n)%nat j) (snd (evec j (lam j) r)).
Proof using HV HC HE HR HG HB.
  intros Hr Hj. destruct (col_sys j Hj) as (x & X1 & X2 & _). split.
  - specialize (X1 r ltac:(lia)). rewrite X2 in X1 by lia. unfold flat in X1. destruct (Nat.ltb_spec r n); [exact X1|lia].
  - specialize (X1 (r + n)%nat ltac:(lia)). rewrite X2 in X1 by lia. unfold flat in X1. destruct (Nat.ltb_spec (r + n) n); [lia|]. replace (r + n - n)%nat with r in X1 by lia. exact X1.
Qed.
Lemma row_in r i v : (i < n)%nat -> (r < 2 * n)%nat -> isin (G r i) v -> (forall j, (j < n)%nat -> j <> i -> isin (G r j) 0) -> isin (veig_row n G r i) v.
Proof using HB.
  intros Hi Hr H1 H2. unfold veig_row. destruct (HB r i Hr Hi) as [B1 B2].
  assert (VV : ivalid (G r i)). { pose proof H1 as (W1 & W2 & L1 & L2). split; [|split; [|split; [|split]]]; auto; try (eapply lb_is_lo; eauto; fail); try (eapply ub_is_hi; eauto; fail). eapply lb_ub_xle; eauto. }
  destruct (C17_mid_in b (G r i) VV B1 B2) as (m & M1 & _). set (d := mid (G r i)) in *.
  replace v with (m + (v - m)) by ring. apply (isin_add (bok b)); [apply isin_pt; auto using bwf|].
  assert (K : forall k, (k <= n)%nat -> isin (fold_left (fun s j => iadd s (if Nat.eqb j i then isub (G r i) (ipt d) else G r j)) (seq 0 k) i0) (if (i <? k)%nat then v - m else 0)).
  { induction k as [|k IH]; intros Hk; [simpl; apply (isin_i0 (bok b))|]. rewrite fold_seq_S. specialize (IH ltac:(lia)).
    assert (T : isin (if (k =? i)%nat then isub (G r i) (ipt d) else G r k) (if (k =? i)%nat then v - m else 0)).
    { destruct (Nat.eqb_spec k i) as [->|N]; [apply (isin_sub (bok b)); auto; apply isin_pt; auto using bwf|apply H2; auto]. }
    replace (if (i <? S k)%nat then v - m else 0) with ((if (i <? k)%nat then v - m else 0) + (if (k =? i)%nat then v - m else 0)); [now apply (isin_add (bok b))|].
    destruct (Nat.ltb_spec i k), (Nat.ltb_spec i (S k)), (Nat.eqb_spec k i); try lia; ring. }
  specialize (K n (Nat.le_refl n)). destruct (Nat.ltb_spec i n); [exact K|lia].
Qed.
Theorem out_in i : (i < n)%nat -> cin (nth i (veig_out n G) (cofS s0)) (lam i).
Proof using HV HC HE HR HG HB.
  intros Hi. unfold veig_out. rewrite (nth_indep _ _ ((fun i => mkcx (veig_row n G i i) (veig_row n G (i + n) i)) 0%nat)) by (rewrite map_length, seq_length; exact Hi).
  rewrite (map_nth (fun i => mkcx (veig_row n G i i) (veig_row n G (i + n) i)) (seq 0 n) 0%nat i), seq_nth by exact Hi. rewrite Nat.add_0_l.
  split; cbn [re im]; apply row_in; try lia.
  - destruct (G_in i i Hi Hi) as [H _]. unfold evec in H. rewrite Nat.eqb_refl in H. exact H.
  - intros j Hj N. destruct (G_in i j Hi Hj) as [H _]. unfold evec in H. destruct (Nat.eqb_spec i j); [congruence|exact H].
  - destruct (G_in i i Hi Hi) as [_ H]. unfold evec in H. rewrite Nat.eqb_refl in H. exact H.
  - intros j Hj N. destruct (G_in i j Hi Hj) as [_ H]. unfold evec in H. destruct (Nat.eqb_spec i j); [congruence|exact H].
Qed.
(* X has independent columns, so the lam j are all the eigenvalues *)
Lemma X_inj : (0 < n)%nat -> injective (2 * n) MX.
Proof using HV HC HE HR HG HB.
  intros NZ x Hx. destruct (col_sys 0 NZ) as (x0 & _ & E & U). intros i Hi.
  assert (Q : forall i, (i < 2 * n)%nat -> x i + flat (evec 0 (lam 0)) i = x0 i). { apply U. intros k Hk. rewrite mv_plus, (Hx k Hk). ring. }
  specialize (Q i Hi). rewrite (E i Hi) in Q. lra.
Qed.
Theorem all_eigenvalues mu : eigenvalue n A mu -> exists j, (j < n)%nat /\ mu = lam j.
Proof using HV HC HE HR HG HB.
  intros (w & (i0 & Hi0 & NZ) & HW). assert (PN : (0 < n)%nat) by lia. pose proof (X_inj PN) as INJ. destruct (inj_surj _ _ INJ (flat w)) as [z Hz].
  set (zc := fun k => (z k, z (n + k)%nat) : C).
  assert (ZF : forall i, (i < 2 * n)%nat -> z i = flat zc i). { intros i Hi. unfold flat, zc. destruct (Nat.ltb_spec i n); simpl; auto. f_equal. lia. }
  assert (XW : forall i, (i < n)%nat -> cvsum n (fun k => X i k * zc k)%C = w i).
  { intros i Hi. destruct (MX_flat zc i Hi) as [E1 E2]. apply Cpair.
    - rewrite <- E1, <- (mv_ext _ _ z _ _ ZF), Hz by lia. unfold flat. destruct (Nat.ltb_spec i n); [reflexivity|lia].
    - rewrite <- E2, <- (mv_ext _ _ z _ _ ZF), Hz by lia. unfold flat. destruct (Nat.ltb_spec (n + i) n); [lia|]. do 2 f_equal. lia. }
  (* some coordinate of zc is not zero *)
  assert (ZN : exists j, (j < n)%nat /\ zc j <> 0%C).
  { destruct (classic_all n zc) as [Z|Z]; [|exact Z]. exfalso. apply NZ. rewrite <- XW by auto. apply Cpair; unfold cvsum; cbn [fst snd RtoC]; apply vsum_zero; intros k Hk; rewrite (Z k Hk); simpl; ring. }
  destruct ZN as (j & Hj & NJ). exists j. split; auto.
  (* A X zc = mu X zc and A X zc = X (lam zc) *)
  assert (D : forall i, (i < n)%nat -> cvsum n (fun k => X i k * ((lam k - mu) * zc k))%C = 0%C).
  { intros i Hi.
    transitivity (cvsum n (fun k => (lam k * X i k) * zc k) - cvsum n (fun k => mu * (X i k * zc k)))%C.
    { apply Cpair; (etransitivity; [|exact (vsum_minus n _ _)]); apply vsum_ext; intros k Hk; simpl; ring. }
    assert (E1 : cvsum n (fun k => lam k * X i k * zc k)%C = cvsum n (fun l => RtoC (A i l) * w l)%C).
    { transitivity (cvsum n (fun k => cvsum n (fun l => RtoC (A i l) * X l k)%C * zc k)%C). { apply cvsum_ext. intros k Hk. now rewrite (HE i k Hi Hk). }
      transitivity (cvsum n (fun l => RtoC (A i l) * cvsum n (fun k => X l k * zc k))%C).
      - apply Cpair; cbn [fst snd cvsum Cmult RtoC].
        + transitivity (vsum n (fun k => vsum n (fun l => A i l * (fst (X l k) * fst (zc k) - snd (X l k) * snd (zc k))))).
          * apply vsum_ext. intros k Hk. rewrite <- !vsum_scal_r, <- vsum_minus. apply vsum_ext. intros l Hl. ring.
          * rewrite vsum_swap. apply vsum_ext. intros l Hl. rewrite vsum_scal. ring.
        + transitivity (vsum n (fun k => vsum n (fun l => A i l * (fst (X l k) * snd (zc k) + snd (X l k) * fst (zc k))))).
          * apply vsum_ext. intros k Hk. rewrite <- !vsum_scal_r, <- vsum_plus. apply vsum_ext. intros l Hl. ring.
          * rewrite vsum_swap. apply vsum_ext. intros l Hl. rewrite vsum_scal. ring.
      - apply cvsum_ext. intros l Hl. now rewrite (XW l Hl). }
    assert (E2 : cvsum n (fun k => mu * (X i k * zc k))%C = (mu * w i)%C).
    { rewrite <- (XW i Hi). apply Cpair; cbn [fst snd cvsum Cmult].
      - rewrite <- !vsum_scal, <- vsum_minus. apply vsum_ext. intros k Hk. simpl. ring.
      - rewrite <- !vsum_scal, <- vsum_plus. apply vsum_ext. intros k Hk. simpl. ring. }
    rewrite E1, E2, (HW i Hi). apply Cpair; simpl; ring. }
  set (u := fun k => ((lam k - mu) * zc k)%C).
  assert (U0 : forall i, (i < 2 * n)%nat -> flat u i = 0).
  { apply INJ. intros i Hi. destruct (Nat.lt_ge_cases i n) as [L|L].
    - destruct (MX_flat u i L) as [-> _]. unfold u. now rewrite D.
    - replace i with (n + (i - n))%nat by lia. destruct (MX_flat u (i - n)%nat) as [_ ->]; [lia|]. unfold u. rewrite D by lia. reflexivity. }
  assert (UJ : u j = 0%C). { apply Cpair; [specialize (U0 j ltac:(lia))|specialize (U0 (n + j)%nat ltac:(lia))]; unfold flat in U0.
    - destruct (Nat.ltb_spec j n); [exact U0|lia]. - destruct (Nat.ltb_spec (n + j) n); [lia|]. replace (n + j - n)%nat with j in U0 by lia. exact U0. }
  unfold u in UJ. assert (LM : (lam j - mu)%C = 0%C). { destruct (Ceq_dec (lam j - mu)%C 0%C) as [Z|Z]; auto. exfalso. exact (Cmult_neq_0 _ _ Z NJ UJ). }
  apply Cpair; [apply (f_equal fst) in LM|apply (f_equal snd) in LM]; simpl in LM; lra.
Qed.
Lemma lam_eig j : (j < n)%nat -> eigenvalue n A (lam j).
Proof using HV HC HE HR HG HB.
  intros Hj. exists (fun i => X i j). split; [|intros i Hi; now apply HE]. destruct (classic_all n (fun i => X i j)) as [Z|Z]; [|exact Z]. exfalso.
  assert (PN : (0 < n)%nat) by lia. pose proof (X_inj PN (flat (evec j (RtoC 1)))) as Q.
  assert (K : flat (evec j (RtoC 1)) j = 0).
  { apply Q; [|lia]. intros i Hi. destruct (Nat.lt_ge_cases i n) as [L|L].
    - destruct (MX_flat (evec j (RtoC 1)) i L) as [-> _]. rewrite (evec_sum (X i)) by auto. rewrite (Z i L). simpl. ring.
    - replace i with (n + (i - n))%nat by lia. destruct (MX_flat (evec j (RtoC 1)) (i - n)%nat) as [_ ->]; [lia|]. rewrite (evec_sum (X (i - n)%nat)) by auto. rewrite (Z (i - n)%nat) by lia. simpl. ring. }
  unfold flat, evec in K. destruct (Nat.ltb_spec j n); [|lia]. rewrite Nat.eqb_refl in K. simpl in K. lra.
Qed.
End Sound.

(* the computed vectors are finite and exact eigenvectors *)
Definition exact_vectors {S : scal} (n : nat) (V : list (list (@cs S))) (A : nat -> nat -> R) (lam : nat -> C) : Prop :=
  exists X : nat -> nat -> C, (forall i j, (i < n)%nat -> (j < n)%nat -> sval (cre (mget z0 V i j)) = XR (fst (X i j)) /\ sval (cim (mget z0 V i j)) = XR (snd (X i j))) /\
  forall i j, (i < n)%nat -> (j < n)%nat -> cvsum n (fun k => RtoC (A i k) * X k j)%C = (lam j * X i j)%C.
(* the approximate inverse is finite, vleq succeeds and its result is bounded *)
Definition solved {S : scal} (n : nat) (V : list (list (@cs S))) (Cm : nat -> nat -> cx S) (invert : list (list S) -> option (list (list S))) : Prop :=
  exists R0 G, invert (mtab (2 * n) (2 * n) (mmid (veig_BA n V))) = Some R0 /\ (forall i j, (i < 2 * n)%nat -> (j < 2 * n)%nat -> is_fin (sval (mget s0 R0 i j))) /\
  vleq_mat (2 * n) (veig_BA n V) (veig_BC n Cm) (Some (mget s0 R0)) = Some G /\ forall i j, (i < 2 * n)%nat -> (j < n)%nat -> is_fin (sval (lo (G i j))) /\ is_fin (sval (hi (G i j))).
Definition xval (x : ext) : R := match x with XR r => r | _ => 0 end.
Lemma xval_fin x : is_fin x -> x = XR (xval x). Proof. destruct x; simpl; tauto. Qed.

Lemma veig_G_exact b n (V : list (list (@cs (bscal b)))) Cm invert A' lam (X : nat -> nat -> C) :
  (forall i j, (i < n)%nat -> (j < n)%nat -> sval (cre (mget z0 V i j)) = XR (fst (X i j)) /\ sval (cim (mget z0 V i j)) = XR (snd (X i j))) ->
  (forall i j, (i < n)%nat -> (j < n)%nat -> cvsum n (fun k => RtoC (A' i k) * X k j)%C = (lam j * X i j)%C) ->
  (forall i j, (i < n)%nat -> (j < n)%nat -> cin (Cm i j) (cvsum n (fun k => RtoC (A' i k) * X k j)%C)) ->
  solved n V Cm invert -> let v := veig_out n (veig_G invert n V Cm) in
  (forall i, (i < n)%nat -> eigenvalue n A' (lam i) /\ cin (nth i v (cofS s0)) (lam i)) /\ (forall mu, eigenvalue n A' mu -> exists i, (i < n)%nat /\ cin (nth i v (cofS s0)) mu).
Proof.
  intros HV HE HC (R0 & G & I0 & FR & VG & BG) v.
  assert (HG : veig_G invert n V Cm = G). { unfold veig_G. cbv zeta. rewrite I0, VG. reflexivity. }
  assert (HR : forall i j, (i < 2 * n)%nat -> (j < 2 * n)%nat -> sval (mget s0 R0 i j) = XR (xval (sval (mget s0 R0 i j)))). { intros i j Hi Hj. now apply xval_fin, FR. }
  assert (OI : forall i, (i < n)%nat -> cin (nth i v (cofS s0)) (lam i)). { intros i Hi. unfold v. rewrite HG. exact (out_in b n V X HV A' lam Cm HC HE (mget s0 R0) _ G HR VG BG i Hi). }
  split.
  - intros i Hi. split; [exact (lam_eig b n V X HV A' lam Cm HC HE (mget s0 R0) _ G HR VG BG i Hi)|now apply OI].
  - intros mu Hm. destruct (all_eigenvalues b n V X HV A' lam Cm HC HE (mget s0 R0) _ G HR VG BG mu Hm) as (j & Hj & ->). exists j. split; auto.
Qed.
Lemma veig_exact : forall b (P : elemp (bscal b)) L invert fuel n (A : list (list (bscal b))) v V D A' lam,
  veig P L invert fuel n A = Ok v -> eig P L fuel n A = Ok (V, D) -> (forall i j, (i < n)%nat -> (j < n)%nat -> sval (mget s0 A i j) = XR (A' i j)) ->
  exact_vectors n V A' lam -> solved n V (fun i j => csum n (fun k => cSmul (mget s0 A i k) (veig_X V k j))) invert ->
  (forall i, (i < n)%nat -> eigenvalue n A' (lam i) /\ cin (nth i v (cofS s0)) (lam i)) /\ (forall mu, eigenvalue n A' mu -> exists i, (i < n)%nat /\ cin (nth i v (cofS s0)) mu).
Proof.
  intros b P L invert fuel n A v V D A' lam Ev Ee HA (X & HV & HE) SO. unfold veig in Ev. rewrite Ee in Ev. cbn [bind fst] in Ev. injection Ev as <-.
  apply (veig_G_exact b n V _ invert A' lam X HV HE); [|exact SO]. intros i j Hi Hj. apply csum_in. intros k Hk. apply (cin_Smul (bok b)); [apply bwf|now apply HA|now apply X_in with (n := n)].
Qed.
Lemma veigI_exact : forall b (P : elemp (bscal b)) L invert fuel n (A : list (list (iv (bscal b)))) v V D A' lam,
  veigI P L invert fuel n A = Ok v -> eig P L fuel n (mtab n n (fun i j => mid (mget i0 A i j))) = Ok (V, D) -> (forall i j, (i < n)%nat -> (j < n)%nat -> isin (mget i0 A i j) (A' i j)) ->
  exact_vectors n V A' lam -> solved n V (fun i j => csum n (fun k => cImul (mget i0 A i k) (veig_X V k j))) invert ->
  (forall i, (i < n)%nat -> eigenvalue n A' (lam i) /\ cin (nth i v (cofS s0)) (lam i)) /\ (forall mu, eigenvalue n A' mu -> exists i, (i < n)%nat /\ cin (nth i v (cofS s0)) mu).
Proof.
  intros b P L invert fuel n A v V D A' lam Ev Ee HA (X & HV & HE) SO. unfold veigI in Ev. rewrite Ee in Ev. cbn [bind fst] in Ev. injection Ev as <-.
  apply (veig_G_exact b n V _ invert A' lam X HV HE); [|exact SO]. intros i j Hi Hj. apply csum_in. intros k Hk. apply (cin_Imul (bok b)); [now apply HA|now apply X_in with (n := n)].
Qed.
