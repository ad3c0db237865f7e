(* Krawczyk's test (kv/kraw-approx.hpp) and the all-solution search (kv/allsol-simple.hpp). *)
From Coq Require Import Reals Lra Lia Psatz ZArith Bool Arith List.
From Flocq Require Import Core.
From Verif Require Import Ext Scalar IntervalModel IntervalSpec IntervalProofs IntervalEncl IntervalSets IntervalMore.
From Verif Require Import LinAlg RealRn VecModel VecProofs.
Import ListNotations.
Open Scope R_scope.

(* fI / fD are correct: values are enclosed; between any two points of the box there is a matrix
   of slopes in the returned Jacobian *)
Definition val_ext {S : scal} (n : nat) (fI : (nat -> iv S) -> res (nat -> iv S)) (f : (nat -> R) -> nat -> R) : Prop :=
  forall X Y x, fI X = Ok Y -> vin n X x -> vin n Y (f x).
Definition slope_ext {S : scal} (n : nat) (fD : (nat -> iv S) -> res ((nat -> iv S) * (nat -> nat -> iv S))) (f : (nat -> R) -> nat -> R) : Prop :=
  forall X Y J, fD X = Ok (Y, J) ->
    (forall x, vin n X x -> vin n Y (f x)) /\
    (forall x y, vin n X x -> vin n X y -> exists J', min n J J' /\
       forall k, (k < n)%nat -> f y k - f x k = mv n J' (fun j => y j - x j) k).
(* the usual way to obtain this: J encloses the Jacobian matrix of f on the box *)
Definition diff_ext {S : scal} (n : nat) (fD : (nat -> iv S) -> res ((nat -> iv S) * (nat -> nat -> iv S)))
  (f : (nat -> R) -> nat -> R) (df : (nat -> R) -> nat -> nat -> R) : Prop :=
  forall X Y J, fD X = Ok (Y, J) ->
    jacobian n (fun i r => isin (X i) r) f df /\
    forall x, vin n X x -> vin n Y (f x) /\ min n J (df x).

Lemma isin_conv {S : scal} (X : iv S) a b t : isin X a -> isin X b -> 0 <= t <= 1 -> isin X (a + t * (b - a)).
Proof.
  intros (W1 & W2 & L & U) (_ & _ & L' & U') H. split; auto. split; auto. split.
  - destruct (sval (lo X)); simpl in *; auto. nra.
  - destruct (sval (hi X)); simpl in *; auto. nra.
Qed.
Lemma diff_slope {S : scal} n fD f df : @diff_ext S n fD f df -> slope_ext n fD f.
Proof.
  intros H X Y J E. destruct (H X Y J E) as [JA HX]. split; [intros x Hx; apply HX; auto|].
  intros x y Hx Hy.
  assert (CV : convexb n (fun i r => isin (X i) r)). { intros i a b t _ Ha Hb Ht. apply isin_conv; auto. }
  destruct (fin_choice (fun _ : nat => 0) n (fun k z => vin n X z /\ f y k - f x k = vsum n (fun j => df z k j * (y j - x j)))) as [z Hz].
  { intros k Hk. destruct (jacobian_mvt n (fun i r => isin (X i) r) f df) with (x := x) (y := y) (k := k) as (z & Iz & Ez); auto.
    - intros p q PQ k'. f_equal. apply FunctionalExtensionality.functional_extensionality. auto.
    - exists z. auto. }
  exists (fun k j => df (z k) k j). split.
  - intros i j Hi Hj. destruct (Hz i Hi) as [Hv _]. apply HX; auto.
  - intros k Hk. destruct (Hz k Hk) as [_ E']. exact E'.
Qed.

Section K.
Context {S : scal} (OK : scal_ok S) (NN : scal_nan S).
Let W := nn_wf _ NN.

(* the scalar acts on intervals like multiplication by the real r (a NaN acts like 0) *)
Definition acts (s : S) (r : R) : Prop := forall X x, isin X x -> isin (iSmul s X) (r * x).
Lemma acts_fin s r : sval s = XR r -> acts s r.
Proof. intros E X x H. apply (isin_Smul OK); auto. Qed.
Lemma iSmul_nan s X : sval s = Xn -> iSmul s X = i0 (S := S).
Proof.
  intros E. unfold iSmul.
  destruct (slt s0 s) eqn:E1; [apply (slt_true OK) in E1; auto; rewrite E in E1; destruct (sval s0); simpl in E1; tauto|].
  destruct (slt s s0) eqn:E2; [apply (slt_true OK) in E2; auto; rewrite E in E2; destruct (sval s0); simpl in E2; tauto|]. auto.
Qed.
Lemma acts_nan s : sval s = Xn -> acts s 0.
Proof. intros E X x H. rewrite iSmul_nan by auto. rewrite Rmult_0_l. apply (isin_i0 OK). Qed.
Lemma iSmul_fin_acts s X : ifinite (iSmul s X) -> exists r, acts s r.
Proof.
  intros [F _]. destruct (sval s) as [r| | |] eqn:E.
  - exists r. apply acts_fin; auto.
  - exfalso. unfold iSmul in F. replace (slt s0 s) with true in F.
    + cbn [lo] in F. apply (muld_fin OK NN) in F as [F _]. rewrite E in F. exact F.
    + symmetry. apply (ok_lt _ OK); auto. rewrite E, (proj2 (ok_s0 _ OK)). exact I.
  - exfalso. unfold iSmul in F. replace (slt s0 s) with false in F; [replace (slt s s0) with true in F|].
    + cbn [lo] in F. apply (muld_fin OK NN) in F as [F _]. rewrite E in F. exact F.
    + symmetry. apply (ok_lt _ OK); auto. rewrite E, (proj2 (ok_s0 _ OK)). exact I.
    + symmetry. destruct (slt s0 s) eqn:Q; auto. apply (slt_true OK) in Q; auto. rewrite E, (proj2 (ok_s0 _ OK)) in Q. elim Q.
  - exists 0. apply acts_nan; auto.
Qed.
Lemma iadd_fin X Y : ifinite (iadd (S := S) X Y) -> ifinite X /\ ifinite Y.
Proof. intros [A B]. cbn [iadd lo hi] in *. apply (addd_fin OK NN) in A as []. apply (addu_fin OK NN) in B as []. repeat split; auto. Qed.
Lemma isub_fin X Y : ifinite (isub (S := S) X Y) -> ifinite X /\ ifinite Y.
Proof. intros [A B]. cbn [isub lo hi] in *. apply (subd_fin OK NN) in A as []. apply (subu_fin OK NN) in B as []. repeat split; auto. Qed.
Lemma isum_fin n f : ifinite (isum (S := S) n f) -> forall i, (i < n)%nat -> ifinite (f i).
Proof.
  induction n; intros H i Hi; [lia|]. simpl in H. apply iadd_fin in H as [H1 H2].
  destruct (Nat.eq_dec i n) as [-> |]; auto. apply IHn; auto; lia.
Qed.
Lemma acts_mvSI n A X A' x i : (forall j, (j < n)%nat -> acts (A i j) (A' i j)) -> vin n X x -> isin (mvSI n A X i) (mv n A' x i).
Proof. intros HA HX. apply (isin_isum OK). intros j Hj. apply HA; auto. Qed.
Lemma acts_mmSI n A B A' B' i j : (forall k, (k < n)%nat -> acts (A i k) (A' i k)) ->
  (forall k, (k < n)%nat -> isin (B k j) (B' k j)) -> isin (mmSI (S := S) n A B i j) (mm n A' B' i j).
Proof. intros HA HB. apply (isin_isum OK). intros k Hk. apply HA; auto. Qed.

(* Krawczyk's operator encloses *)
Lemma kraw_op_in n C Rfc I Rs fdi c rf Rm J x i : vin n C c -> vin n Rfc rf -> vin n I x -> min n fdi J ->
  (forall i j, (i < n)%nat -> (j < n)%nat -> acts (Rs i j) (Rm i j)) -> (i < n)%nat ->
  isin (kraw_op n C Rfc I Rs fdi i) (c i - rf i + vsum n (fun j => (dlt i j - mm n Rm J i j) * (x j - c j))).
Proof.
  intros HC HRf HI HJ HR Hi. apply (isin_add OK); [apply (isin_sub OK); auto|].
  apply (isin_mvI OK n _ (fun j => isub (I j) (C j)) (fun i j => dlt i j - mm n Rm J i j) (fun j => x j - c j)).
  - intros j Hj. apply (isin_sub OK); [apply (isin_pt (S := S)); auto; apply (idS_v OK)|]. apply acts_mmSI; auto.
  - intros j Hj. apply (isin_sub OK); auto.
Qed.
(* the same with T - interval for the entries of M, as in allsol *)
Definition kraw_op2 n (C Rfc I : nat -> iv S) (Rs : nat -> nat -> S) (fdi : nat -> nat -> iv S) : nat -> iv S :=
  fun i => iadd (isub (C i) (Rfc i)) (mvI n (fun i j => iSsub (idS i j) (mmSI n Rs fdi i j)) (fun j => isub (I j) (C j)) i).
Lemma kraw_op2_in n C Rfc I Rs fdi c rf Rm J x i : vin n C c -> vin n Rfc rf -> vin n I x -> min n fdi J ->
  (forall i j, (i < n)%nat -> (j < n)%nat -> acts (Rs i j) (Rm i j)) -> (i < n)%nat ->
  isin (kraw_op2 n C Rfc I Rs fdi i) (c i - rf i + vsum n (fun j => (dlt i j - mm n Rm J i j) * (x j - c j))).
Proof.
  intros HC HRf HI HJ HR Hi. apply (isin_add OK); [apply (isin_sub OK); auto|].
  apply (isin_mvI OK n _ (fun j => isub (I j) (C j)) (fun i j => dlt i j - mm n Rm J i j) (fun j => x j - c j)).
  - intros j Hj. apply (isin_Ssub OK); auto; [apply (idS_v OK)|]. apply acts_mmSI; auto.
  - intros j Hj. apply (isin_sub OK); auto.
Qed.

Lemma ifinite_bounds (X : iv S) r : ifinite X -> isin X r -> exists l u, sval (lo X) = XR l /\ sval (hi X) = XR u /\ forall q, isin X q <-> l <= q <= u.
Proof.
  intros [A B] _. destruct (sval (lo X)) as [l| | |] eqn:E1; try contradiction. destruct (sval (hi X)) as [u| | |] eqn:E2; try contradiction.
  exists l, u. split; auto. split; auto. intros q. unfold isin. rewrite E1, E2. simpl. intuition.
Qed.

(* common core: K bounds Krawczyk's operator over J and I, is finite and a proper subset of I *)
Lemma kraw_core n (I K : nat -> iv S) f c (Rm : nat -> nat -> R) (JS : (nat -> nat -> R) -> Prop) :
  vin n I c ->
  (forall x y, vin n I x -> vin n I y -> exists J, JS J /\ forall k, (k < n)%nat -> f y k - f x k = mv n J (fun j => y j - x j) k) ->
  (forall J x i, JS J -> vin n I x -> (i < n)%nat ->
     isin (K i) (c i - mv n Rm (f c) i + vsum n (fun j => (dlt i j - mm n Rm J i j) * (x j - c j)))) ->
  (forall i, (i < n)%nat -> ifinite (K i)) -> vproper n K I = true ->
  exists x, vin n K x /\ (forall i, (i < n)%nat -> f x i = 0) /\
    forall y, vin n I y -> (forall i, (i < n)%nat -> f y i = 0) -> forall i, (i < n)%nat -> y i = x i.
Proof.
  intros HC SL HK FK PR.
  destruct (SL c c HC HC) as (J0 & HJ0 & _).
  assert (BD : forall i, (i < n)%nat -> exists p : R * R, forall q, isin (K i) q <-> fst p <= q <= snd p).
  { intros i Hi. destruct (ifinite_bounds (K i) _ (FK i Hi) (HK J0 c i HJ0 HC Hi)) as (l & u & _ & _ & H). exists (l, u). auto. }
  destruct (fin_choice (0, 0) n _ BD) as [p Hp].
  assert (PS : forall i, (i < n)%nat -> (forall r, isin (K i) r -> isin (I i) r) /\ exists r, isin (I i) r /\ ~ isin (K i) r).
  { intros i Hi. unfold vproper in PR. rewrite vall_spec in PR. specialize (PR i Hi). apply (iproper_spec OK) in PR; auto.
    - eapply isin_valid. apply (HK J0 c i HJ0 HC Hi).
    - eapply isin_valid. apply (HC i Hi). }
  destruct (krawczyk_real n (fun i r => isin (I i) r) (fun i => fst (p i)) (fun i => snd (p i)) f Rm c JS) as (x & X1 & X2 & X3).
  - exact HC.
  - exact SL.
  - intros J x i HJ Hx Hi. apply Hp; auto.
  - intros i r Hi Hr. apply PS; auto. apply Hp; auto.
  - intros i Hi. destruct (PS i Hi) as [SB (r & Ir & Nr)].
    assert (K0 := HK J0 c i HJ0 HC Hi). apply Hp in K0; auto. rewrite Hp in Nr by auto.
    destruct (Rlt_le_dec r (fst (p i))).
    + exists r, (snd (p i)). split; auto. split; [apply SB, Hp; auto; lra|lra].
    + exists (fst (p i)), r. split; [apply SB, Hp; auto; lra|]. split; auto. lra.
  - exists x. split; [intros i Hi; apply Hp; auto|]. split; auto.
Qed.

Lemma pm1_0 s : isin (iSmul s (@ipm1 S)) 0.
Proof.
  assert (P : isin (@ipm1 S) 0).
  { unfold isin, ipm1. cbn [lo hi]. rewrite (sneg_x OK NN), (proj2 (ok_s1 _ OK)). simpl. repeat split; auto; lra. }
  destruct (sval s) as [r| | |] eqn:E.
  - replace 0 with (r * 0) by ring. apply (isin_Smul OK); auto.
  - unfold iSmul. replace (slt s0 s) with true.
    + unfold isin, ipm1. cbn [lo hi]. split; auto. split; auto.
      destruct (ok_muld _ OK s (sneg s1) (W _) (W _)) as [_ D]. destruct (ok_mulu _ OK s s1 (W _) (W _)) as [_ U].
      rewrite E, (sneg_x OK NN), (proj2 (ok_s1 _ OK)) in *. simpl in *. rewrite xsgn_inf_neg in D by lra. rewrite xsgn_inf_pos in U by lra.
      rewrite D, U. simpl; auto.
    + symmetry. apply (ok_lt _ OK); auto. rewrite E, (proj2 (ok_s0 _ OK)). exact I.
  - unfold iSmul. replace (slt s0 s) with false; [replace (slt s s0) with true|].
    + unfold isin, ipm1. cbn [lo hi]. split; auto. split; auto.
      destruct (ok_muld _ OK s s1 (W _) (W _)) as [_ D]. destruct (ok_mulu _ OK s (sneg s1) (W _) (W _)) as [_ U].
      rewrite E, ?(sneg_x OK NN), (proj2 (ok_s1 _ OK)) in *. simpl in *. rewrite xsgn_inf_pos in D by lra. rewrite xsgn_inf_neg in U by lra.
      rewrite D, U. simpl; auto.
    + symmetry. apply (ok_lt _ OK); auto. rewrite E, (proj2 (ok_s0 _ OK)). exact I.
    + symmetry. destruct (slt s0 s) eqn:Q; auto. apply (slt_true OK) in Q; auto. rewrite E, (proj2 (ok_s0 _ OK)) in Q. elim Q.
  - rewrite iSmul_nan by auto. apply (isin_i0 OK).
Qed.

Section Kraw.
Variables (n : nat) (tmin : S) (fD : (nat -> iv S) -> res ((nat -> iv S) * (nat -> nat -> iv S))) (inv : (nat -> nat -> S) -> option (nat -> nat -> S)).
Variable f : (nat -> R) -> nat -> R.
Hypothesis FD : slope_ext n fD f.

Lemma kraw_test_ok twice c2 I K : kraw_test n tmin fD inv twice c2 = Ok (Some (I, K)) ->
  (forall i, (i < n)%nat -> ifinite (K i)) ->
  exists x, vin n K x /\ (forall i, (i < n)%nat -> f x i = 0) /\
    forall y, vin n I y -> (forall i, (i < n)%nat -> f y i = 0) -> forall i, (i < n)%nat -> y i = x i.
Proof.
  unfold kraw_test. intros H FK.
  destruct (fD (fun i => ipt (c2 i))) as [[fc fdc]|[]] eqn:EC; try discriminate.
  destruct (inv (mmid fdc)) as [Rs|]; try discriminate.
  cbv zeta in H. rewrite !force_ext in H. set (Rfc := mvSI n Rs fc) in *. set (st := kraw_radius n tmin twice (fun i => ipt (c2 i)) Rfc) in *.
  set (I0 := fun i => iadd (ipt (c2 i)) (iSmul (st i) ipm1)) in *.
  destruct (fD I0) as [[fi fdi]|[]] eqn:EI; try discriminate. rewrite force_ext in H.
  destruct (vproper n _ I0) eqn:PR; try discriminate. injection H as EqI EqK. subst I K.
  (* finiteness *)
  assert (FP : forall i, (i < n)%nat -> ifinite (ipt (c2 i)) /\ ifinite (Rfc i)).
  { intros i Hi. specialize (FK i Hi). unfold kraw_op in FK. apply iadd_fin in FK as [FK _]. apply isub_fin in FK. auto. }
  destruct (fin_choice 0 n (fun i r => sval (c2 i) = XR r)) as [c Hc].
  { intros i Hi. destruct (FP i Hi) as [[F _] _]. cbn [ipt lo] in F. destruct (sval (c2 i)); try contradiction. eauto. }
  destruct (fin_choice (fun _ : nat => 0) n (fun i row => forall j, (j < n)%nat -> acts (Rs i j) (row j))) as [Rm HR].
  { intros i Hi. apply (fin_choice 0 n (fun j r => acts (Rs i j) r)). intros j Hj.
    destruct (FP i Hi) as [_ F]. unfold Rfc in F. eapply iSmul_fin_acts. apply (isum_fin _ _ F j Hj). }
  assert (HC : vin n (fun i => ipt (c2 i)) c). { intros i Hi. apply (isin_pt (S := S)); auto. }
  assert (HCI : vin n I0 c).
  { intros i Hi. replace (c i) with (c i + 0) by ring. apply (isin_add OK); [apply HC; auto|apply pm1_0]. }
  destruct (FD _ _ _ EC) as [VC _]. destruct (FD _ _ _ EI) as [_ SL].
  assert (HRf : vin n Rfc (mv n Rm (f c))). { intros i Hi. apply acts_mvSI; auto. }
  apply (kraw_core n I0 _ f c Rm (min n fdi)); auto.
  intros J x i HJ Hx Hi. apply kraw_op_in; auto.
Qed.
Theorem krawczyk_approx_ok twice c nm I K : krawczyk_approx n tmin fD inv twice c nm = Ok (Some (I, K)) ->
  (forall i, (i < n)%nat -> ifinite (K i)) ->
  exists x, vin n K x /\ (forall i, (i < n)%nat -> f x i = 0) /\
    forall y, vin n I y -> (forall i, (i < n)%nat -> f y i = 0) -> forall i, (i < n)%nat -> y i = x i.
Proof.
  unfold krawczyk_approx. intros H. destruct (newton n fD inv nm c) as [[c2|]|]; try discriminate. apply kraw_test_ok with (1 := H).
Qed.
End Kraw.

(* ------------------------------------------------------------------ *)
Section Allsol.
Variables (n : nat) (fI : (nat -> iv S) -> res (nat -> iv S)) (fD : (nat -> iv S) -> res ((nat -> iv S) * (nat -> nat -> iv S)))
  (inv : (nat -> nat -> S) -> option (nat -> nat -> S)).
Variable f : (nat -> R) -> nat -> R.
(* the domain of f: enclosures of values are needed at its points only; a run of fD that succeeds shows that the box lies in it *)
Variable Dom : (nat -> R) -> Prop.
Hypothesis FI : forall X Y x, fI X = Ok Y -> vin n X x -> Dom x -> vin n Y (f x).
Hypothesis FD : slope_ext n fD f.
Hypothesis FDom : forall X Y J, fD X = Ok (Y, J) -> forall x, vin n X x -> Dom x.
Hypothesis INV : forall L Rs i j, inv L = Some Rs -> (i < n)%nat -> (j < n)%nat -> sval (Rs i j) <> Xp /\ sval (Rs i j) <> Xm.
Hypothesis MID : forall X : iv S, ivalid X -> ifinite X -> exists m, sval (mid X) = XR m /\ isin X m.

Definition zero (x : nat -> R) : Prop := Dom x /\ forall i, (i < n)%nat -> f x i = 0.
Definition same (x y : nat -> R) : Prop := forall i, (i < n)%nat -> x i = y i.
Definition vfin (X : nat -> iv S) : Prop := forall i, (i < n)%nat -> ifinite (X i).
Definition vvalid (X : nat -> iv S) : Prop := forall i, (i < n)%nat -> ivalid (X i).
Definition vsub (X Y : nat -> iv S) : Prop := forall i r, (i < n)%nat -> isin (X i) r -> isin (Y i) r.
Definition only_zero (X : nat -> iv S) (x : nat -> R) : Prop := forall y, vin n X y -> zero y -> same y x.

Lemma vin_valid (X : nat -> iv S) x : vin n X x -> vvalid X.
Proof. intros H i Hi. eapply isin_valid. apply H; auto. Qed.
Lemma vin_same (X : nat -> iv S) x y : same x y -> vin n X x -> vin n X y.
Proof. intros E H i Hi. rewrite <- E by auto. apply H; auto. Qed.
Lemma vin_sub (X Y : nat -> iv S) x : vsub X Y -> vin n X x -> vin n Y x.
Proof. intros H HX i Hi. apply H; auto. Qed.
Lemma mid_vec X : vvalid X -> vfin X -> exists c, vin n (fun i => ipt (mid (X i))) c /\ vin n X c.
Proof.
  intros V F. destruct (fin_choice 0 n (fun i m => sval (mid (X i)) = XR m /\ isin (X i) m)) as [c Hc].
  { intros i Hi. apply MID; auto. }
  exists c. split; intros i Hi; destruct (Hc i Hi); auto. apply (isin_pt (S := S)); auto.
Qed.
Lemma acts_inv L Rs : inv L = Some Rs -> exists Rm, forall i j, (i < n)%nat -> (j < n)%nat -> acts (Rs i j) (Rm i j).
Proof.
  intros E. destruct (fin_choice (fun _ : nat => 0) n (fun i row => forall j, (j < n)%nat -> acts (Rs i j) (row j))) as [Rm HR].
  { intros i Hi. apply (fin_choice 0 n (fun j r => acts (Rs i j) r)). intros j Hj.
    destruct (INV _ _ i j E Hi Hj) as [A B]. destruct (sval (Rs i j)) as [r| | |] eqn:V; try congruence.
    - exists r. apply acts_fin; auto.
    - exists 0. apply acts_nan; auto. }
  exists Rm. intros; apply HR; auto.
Qed.
Lemma intersect_fin (X Y : iv S) x : ifinite X -> isin X x -> isin Y x -> ifinite (intersect X Y).
Proof.
  intros [A B] HX HY.
  assert (H : isin (intersect X Y) x) by (apply (isin_intersect OK); eauto using isin_valid).
  destruct H as (_ & _ & L & U). unfold ifinite, intersect in *. cbn [lo hi] in *. destruct HX as (_&_&LX&UX), HY as (_&_&LY&UY).
  split.
  - destruct (slt (lo X) (lo Y)) eqn:E; auto. apply (slt_true OK) in E; auto. destruct (sval (lo X)), (sval (lo Y)); simpl in *; auto; contradiction.
  - destruct (slt (hi Y) (hi X)) eqn:E; auto. apply (slt_true OK) in E; auto. destruct (sval (hi X)), (sval (hi Y)); simpl in *; auto; contradiction.
Qed.

(* one Krawczyk refinement keeps the zero *)
Lemma refine_ok Rs Rm fdi I K K' x : refine_once n fI Rs (fun i j => iSsub (idS i j) (mmSI n Rs fdi i j)) K = Ok K' ->
  (forall i j, (i < n)%nat -> (j < n)%nat -> acts (Rs i j) (Rm i j)) ->
  (forall x y, vin n I x -> vin n I y -> exists J, min n fdi J /\ forall k, (k < n)%nat -> f y k - f x k = mv n J (fun j => y j - x j) k) ->
  (forall x, vin n I x -> Dom x) ->
  vsub K I -> vfin K -> vin n K x -> zero x ->
  vsub K' K /\ vfin K' /\ vin n K' x.
Proof.
  unfold refine_once. intros H HR SL DI KI FK Kx Zx. apply bind_ok in H as (fc & Ef & H). rewrite force_ext in H. injection H as <-.
  destruct (mid_vec K (vin_valid _ _ Kx) FK) as (c & Cc & Kc).
  assert (Fc : vin n fc (f c)) by (eapply FI; eauto; apply DI; eapply vin_sub; eauto).
  destruct (SL c x (vin_sub _ _ _ KI Kc) (vin_sub _ _ _ KI Kx)) as (J & HJ & EJ).
  set (I1 := fun i => iadd (isub (ipt (mid (K i))) (mvSI n Rs fc i)) (mvI n (fun i0 j => iSsub (idS i0 j) (mmSI n Rs fdi i0 j)) (fun j => isub (K j) (ipt (mid (K j)))) i)).
  assert (HI1 : vin n I1 x).
  { intros i Hi. rewrite (krawczyk_zero n f Rm J c x EJ (proj2 Zx) i Hi).
    apply (kraw_op2_in n (fun i => ipt (mid (K i))) (mvSI n Rs fc) K Rs fdi c (mv n Rm (f c)) Rm J x i); auto.
    intros k Hk. apply acts_mvSI; auto. }
  assert (VI : forall i, (i < n)%nat -> ivalid (I1 i)) by (intros; eapply isin_valid; apply HI1; auto).
  assert (VK : forall i, (i < n)%nat -> ivalid (K i)) by (intros; eapply isin_valid; apply Kx; auto).
  split; [|split].
  - intros i r Hi Hr. unfold vintersect in Hr. apply (isin_intersect OK) in Hr; auto. tauto.
  - intros i Hi. unfold vintersect. apply intersect_fin with (x i); auto.
  - intros i Hi. unfold vintersect. apply (isin_intersect OK); auto.
Qed.

Lemma not_overlap (K p : nat -> iv S) x y : voverlap n K p = false -> vin n K x -> vin n p y -> ~ same x y.
Proof.
  intros O Hx Hy E. unfold voverlap in O. apply vall_false in O as (i & Hi & O).
  assert (overlap (K i) (p i) = true); [|congruence]. apply (overlap_spec OK).
  - eapply isin_valid; eauto.
  - eapply isin_valid; eauto.
  - exists (x i). split; auto. rewrite (E i Hi). auto.
Qed.
Lemma vsubset_sub (K p : nat -> iv S) x y : vsubset n K p = true -> vin n K x -> vin n p y -> vsub K p.
Proof.
  intros H Hx Hy i r Hi Hr. unfold vsubset in H. rewrite vall_spec in H. specialize (H i Hi).
  assert (VK : ivalid (K i)) by (eapply isin_valid; eauto). assert (VP : ivalid (p i)) by (eapply isin_valid; eauto).
  exact (proj1 (isubset_spec OK _ _ VK VP) H r Hr).
Qed.

(* the list of solutions: each box K, inside its box I, holds a zero that is the only one in I *)
Definition sol_ok (s : (nat -> iv S) * (nat -> iv S)) (z : nat -> R) : Prop :=
  vin n (fst s) z /\ zero z /\ vsub (fst s) (snd s) /\ only_zero (snd s) z.

Section Box.
Variables (Rs : nat -> nat -> S) (Rm : nat -> nat -> R) (fdi : nat -> nat -> iv S) (I : nat -> iv S) (x : nat -> R).
Let M := fun i j => iSsub (idS i j) (mmSI n Rs fdi i j).
Hypothesis HR : forall i j, (i < n)%nat -> (j < n)%nat -> acts (Rs i j) (Rm i j).
Hypothesis SL : forall x y, vin n I x -> vin n I y -> exists J, min n fdi J /\ forall k, (k < n)%nat -> f y k - f x k = mv n J (fun j => y j - x j) k.
Hypothesis DI : forall x, vin n I x -> Dom x.
Hypothesis Zx : zero x.
Hypothesis UX : only_zero I x.

Lemma separate_ok fuel p p2 z : sol_ok (p, p2) z -> forall K b K', separate n fI fuel Rs M p p2 K = Ok (b, K') ->
  vsub K I -> vfin K -> vin n K x ->
  vsub K' I /\ vfin K' /\ vin n K' x /\ (if b then vin n p x else ~ same x z).
Proof using All.
  intros SK. induction fuel as [|fuel IH]; intros K b K' H KI FK Kx; [discriminate|]. simpl in H.
  apply bind_ok in H as (K1 & E1 & H).
  destruct (refine_ok Rs Rm fdi I K K1 x E1 HR SL DI KI FK Kx Zx) as (S1 & F1 & X1).
  assert (K1I : vsub K1 I). { intros i r Hi Hr. auto. }
  destruct SK as (Pz & Zz & PP & UZ). simpl fst in *. simpl snd in *.
  destruct (vsubset n K1 p2) eqn:ES.
  - injection H as <- <-. split; [auto|]. split; [auto|]. split; [auto|].
    apply (vin_same p z x); auto. intros i Hi. symmetry. apply UZ; auto.
    apply (vin_sub K1); auto. eapply vsubset_sub; eauto. eapply vin_sub; eauto.
  - destruct (voverlap n K1 p) eqn:EO; simpl in H.
    + eapply IH; eauto.
    + injection H as <- <-. split; [auto|]. split; [auto|]. split; [auto|]. eapply not_overlap; eauto.
Qed.
Lemma find_dup_ok fuel : forall sols zs, Forall2 sol_ok sols zs -> forall K b K', find_dup n fI fuel Rs M I K sols = Ok (b, K') ->
  vsub K I -> vfin K -> vin n K x ->
  vsub K' I /\ vfin K' /\ vin n K' x /\ (if b then Forall (fun z => ~ same x z) zs else exists s, In s sols /\ vin n (fst s) x).
Proof using All.
  intros sols zs F2. induction F2 as [|[p p2] z sols zs SK F2 IH]; intros K b K' H KI FK Kx; simpl in H.
  - injection H as <- <-. split; [auto|]. split; [auto|]. split; [auto|]. constructor.
  - pose proof SK as (Pz & Zz & PP & UZ). simpl fst in *. simpl snd in *.
    destruct (voverlap n K p) eqn:EO.
    + destruct (vsubset n K p2 || vsubset n p I) eqn:ES.
      * injection H as <- <-. split; auto. split; auto. split; auto. exists (p, p2). split; [left; auto|]. simpl.
        apply orb_true_iff in ES as [ES|ES].
        -- apply (vin_same p z x); auto. intros i Hi. symmetry. apply UZ; auto.
           apply (vin_sub K); auto. eapply vsubset_sub; eauto. eapply vin_sub; eauto.
        -- apply (vin_same p z x); auto. apply UX; auto. apply (vin_sub p); auto.
           eapply vsubset_sub; eauto. eapply vin_sub; eauto.
      * apply bind_ok in H as ([b1 K1] & E1 & H). cbn [fst snd] in H.
        destruct (separate_ok fuel p p2 z SK K b1 K1 E1 KI FK Kx) as (A1 & A2 & A3 & A4).
        destruct b1.
        -- injection H as <- <-. split; [auto|]. split; [auto|]. split; [auto|]. exists (p, p2). split; [left; auto|auto].
        -- destruct (IH K1 b K' H A1 A2 A3) as (B1 & B2 & B3 & B4). split; [auto|]. split; [auto|]. split; [auto|].
           destruct b; [constructor; auto|]. destruct B4 as (s & Is & Hs). exists s. split; auto. right; auto.
    + destruct (IH K b K' H KI FK Kx) as (B1 & B2 & B3 & B4). split; [auto|]. split; [auto|]. split; [auto|].
      destruct b; [constructor; auto; eapply not_overlap; eauto|]. destruct B4 as (s & Is & Hs). exists s. split; auto. right; auto.
Qed.
Lemma improve_ok fuel : forall K K', improve n fI fuel Rs M K = Ok K' -> vsub K I -> vfin K -> vin n K x -> vsub K' I /\ vin n K' x.
Proof using All.
  induction fuel as [|fuel IH]; intros K K' H KI FK Kx; [discriminate|]. simpl in H.
  apply bind_ok in H as (K1 & E1 & H).
  destruct (refine_ok Rs Rm fdi I K K1 x E1 HR SL DI KI FK Kx Zx) as (S1 & F1 & X1).
  assert (K1I : vsub K1 I). { intros i r Hi Hr. auto. }
  destruct (slt p9 _).
  - injection H as <-. auto.
  - eapply IH; eauto.
Qed.
End Box.

(* invariant: target boxes are valid; solutions hold pairwise different zeros *)
Definition inv_ok (st : astate S) : Prop :=
  Forall vvalid (targets st) /\ exists zs, Forall2 sol_ok (sols st) zs /\ ForallOrdPairs (fun z z' => ~ same z z') zs.
Definition covered (st : astate S) (x : nat -> R) : Prop :=
  (exists B, In B (targets st) /\ vin n B x) \/ (exists s, In s (sols st) /\ vin n (fst s) x) \/ (exists B, In B (small st) /\ vin n B x).
Definition grows (st st' : astate S) : Prop :=
  incl (targets st) (targets st') /\ incl (sols st) (sols st') /\ incl (small st) (small st') /\ seen st' = seen st.
Lemma grows_refl st : grows st st. Proof. repeat split; apply incl_refl. Qed.
Lemma grows_covered st st' x : grows st st' -> covered st x -> covered st' x.
Proof.
  intros (A & B & C & _) [(Q & I1 & H)|[(Q & I1 & H)|(Q & I1 & H)]]; [left|right; left|right; right]; exists Q; split; auto.
Qed.

Lemma seqb_false_ne (a b : S) r q : seqb a b = false -> sval a = XR r -> sval b = XR q -> r <> q.
Proof. intros H A B E. assert (seqb a b = true); [|congruence]. apply (ok_eq _ OK); auto. rewrite A, B. exact E. Qed.

Lemma divide_ok st I st' : divide n st I = Ok st' -> vvalid I -> vfin I -> inv_ok st ->
  grows st st' /\ inv_ok st' /\ forall x, vin n I x -> covered st' x.
Proof.
  unfold divide. cbv zeta. intros H V F (VT & ZS). destruct (search_maxwidth n I) as [mi|] eqn:EM; [|discriminate].
  destruct (seqb _ _ || seqb _ _) eqn:EQ.
  - injection H as <-. cbn [targets sols small seen]. split; [|split].
    + repeat split; try apply incl_refl. apply incl_appl, incl_refl.
    + split; auto.
    + intros x Hx. right; right. exists I. split; auto. simpl. apply in_or_app. right; left; auto.
  - rewrite !force_ext in H. injection H as <-.
    assert (Hmi : (mi < n)%nat).
    { unfold search_maxwidth in EM. clear - EM. revert mi EM. induction n as [|k IH]; simpl; [discriminate|].
      destruct (maxwidth_loop k I) as [m o] eqn:E. simpl in IH. destruct (slt m (width (I k))); simpl; intros mi EM.
      - injection EM as <-. lia.
      - specialize (IH _ EM). lia. }
    destruct (MID (I mi) (V mi Hmi) (F mi Hmi)) as (m & Em & Im).
    set (I1 := fun i => if Nat.eq_dec i mi then mkiv (lo (I mi)) (mid (I mi)) else I i).
    set (I2 := fun i => if Nat.eq_dec i mi then mkiv (mid (I mi)) (hi (I mi)) else I i).
    destruct Im as (W1 & W2 & Lm & Um). destruct (F mi Hmi) as [F1 F2].
    split; [|split].
    + repeat split; try apply incl_refl. apply incl_appl, incl_refl.
    + split; auto. simpl. apply Forall_app. split; auto. constructor; [|constructor; auto].
      * intros i Hi. unfold I1. destruct Nat.eq_dec; auto. apply isin_valid with m. unfold isin; cbn [lo hi]. rewrite Em. simpl. repeat split; auto. lra.
      * intros i Hi. unfold I2. destruct Nat.eq_dec; auto. apply isin_valid with m. unfold isin; cbn [lo hi]. rewrite Em. simpl. repeat split; auto. lra.
    + intros x Hx. left. destruct (Rle_dec (x mi) m) as [L|L].
      * exists I1. split; [simpl; apply in_or_app; right; left; auto|]. intros i Hi. unfold I1. destruct Nat.eq_dec as [-> |]; auto.
        destruct (Hx mi Hi) as (? & ? & ? & ?). unfold isin; cbn [lo hi]. rewrite Em. simpl. auto.
      * exists I2. split; [simpl; apply in_or_app; right; right; left; auto|]. intros i Hi. unfold I2. destruct Nat.eq_dec as [-> |]; auto.
        destruct (Hx mi Hi) as (? & ? & ? & ?). unfold isin; cbn [lo hi]. rewrite Em. simpl. repeat split; auto. lra.
Qed.

Lemma fop_app {A} (P : A -> A -> Prop) l z : ForallOrdPairs P l -> Forall (fun y => P y z) l -> ForallOrdPairs P (l ++ [z]).
Proof.
  induction l; simpl; intros H G; [constructor; auto; constructor|]. inversion H; subst. inversion G; subst. constructor; auto.
  apply Forall_app. split; auto.
Qed.

Lemma zero_in_vec (Y : nat -> iv S) y : vin n Y y -> (forall i, (i < n)%nat -> y i = 0) -> vzero_in n Y = true.
Proof.
  intros H Z. unfold vzero_in. apply vall_spec. intros i Hi. apply (zero_in_spec OK); [eapply isin_valid; eauto|].
  rewrite <- (Z i Hi). auto.
Qed.

Lemma astep_ok fuel st I st' : astep n fI fD inv fuel st I = Ok st' -> vvalid I -> vfin I -> inv_ok st ->
  grows st st' /\ inv_ok st' /\ forall x, vin n I x -> zero x -> covered st' x.
Proof.
  unfold astep. cbv zeta. intros H V F IO.
  assert (DV : forall J, divide n st J = Ok st' -> vvalid J -> vfin J -> (forall x, vin n I x -> zero x -> vin n J x) ->
     grows st st' /\ inv_ok st' /\ forall x, vin n I x -> zero x -> covered st' x).
  { intros J HJ VJ FJ X. destruct (divide_ok st J st' HJ VJ FJ IO) as (A & B & C). split; [auto|]. split; auto. }
  destruct (fI I) as [fi0|[]] eqn:E0; try discriminate; [|apply (DV I); auto].
  destruct (vzero_in n fi0) eqn:Z0; cbn [negb] in H.
  2:{ injection H as <-. split; [apply grows_refl|]. split; auto. intros x Hx Zx. exfalso.
      rewrite (zero_in_vec fi0 (f x)) in Z0; [discriminate| |apply Zx]. eapply FI; eauto. apply Zx. }
  destruct (mid_vec I V F) as (c & Cc & Ic). set (C := fun i => ipt (mid (I i))) in *.
  destruct (fI C) as [fc|[]] eqn:E1; try discriminate; [|apply (DV I); auto].
  destruct (fD I) as [[fi fdi]|[]] eqn:E2; try discriminate; [|apply (DV I); auto].
  destruct (FD _ _ _ E2) as [_ SL]. pose proof (FDom _ _ _ E2) as DI.
  assert (Fc : vin n fc (f c)) by (eapply FI; eauto).
  set (mvf := fun i => iadd (fc i) (mvI n fdi (fun j => isub (I j) (ipt (mid (I j)))) i)) in *.
  destruct (vzero_in n mvf) eqn:Z1; cbn [negb] in H.
  2:{ injection H as <-. split; [apply grows_refl|]. split; auto. intros x Hx Zx. exfalso.
      destruct (SL c x Ic Hx) as (J & HJ & EJ).
      rewrite (zero_in_vec mvf (f x)) in Z1; [discriminate| |apply Zx]. intros i Hi.
      replace (f x i) with (f c i + mv n J (fun j => x j - c j) i) by (rewrite <- EJ by auto; ring).
      apply (isin_add OK); auto. apply (isin_mvI OK); [intros; apply HJ; auto|]. intros j Hj. apply (isin_sub OK); [auto|]. apply (Cc j Hj). }
  destruct (inv (mmid fdi)) as [Rs|] eqn:ER; [|apply (DV I); auto].
  destruct (acts_inv _ _ ER) as (Rm & HR). rewrite !force_ext in H.
  set (M := fun i j => iSsub (idS i j) (mmSI n Rs fdi i j)) in *.
  set (K := fun i => iadd (isub (ipt (mid (I i))) (mvSI n Rs fc i)) (mvI n M (fun j => isub (I j) (ipt (mid (I j)))) i)) in *.
  assert (KO : forall J x i, min n fdi J -> vin n I x -> (i < n)%nat ->
     isin (K i) (c i - mv n Rm (f c) i + vsum n (fun j => (dlt i j - mm n Rm J i j) * (x j - c j)))).
  { intros J x i HJ Hx Hi. apply (kraw_op2_in n C (mvSI n Rs fc) I Rs fdi c (mv n Rm (f c)) Rm J x i); auto.
    intros k Hk. apply acts_mvSI; auto. }
  assert (KZ : forall x, vin n I x -> zero x -> vin n K x).
  { intros x Hx Zx i Hi. destruct (SL c x Ic Hx) as (J & HJ & EJ). rewrite (krawczyk_zero n f Rm J c x EJ (proj2 Zx) i Hi). apply KO; auto. }
  assert (VK : vvalid K).
  { intros i Hi. destruct (SL c c Ic Ic) as (J & HJ & _). eapply isin_valid. apply (KO J c i HJ Ic Hi). }
  destruct (voverlap n K I) eqn:OV; cbn [negb] in H.
  2:{ injection H as <-. split; [apply grows_refl|]. split; auto. intros x Hx Zx. exfalso.
      apply (not_overlap K I x x OV (KZ x Hx Zx) Hx). intros i Hi; auto. }
  destruct (vproper n K I) eqn:PR.
  { assert (SUB : vsub K I).
    { intros i r Hi Hr. unfold vproper in PR. rewrite vall_spec in PR. specialize (PR i Hi).
      apply (iproper_spec OK) in PR; auto. apply PR; auto. }
    assert (FK : vfin K).
    { intros i Hi. unfold vproper in PR. rewrite vall_spec in PR. specialize (PR i Hi).
      unfold iproper, isubset in PR. apply andb_prop in PR as [PR _]. apply andb_prop in PR as [P1 P2].
      apply (sle_true OK) in P1; auto. apply (sle_true OK) in P2; auto. destruct (F i Hi) as [F1 F2]. destruct (VK i Hi) as (_ & _ & L & U & _).
      split; [destruct (sval (lo (I i))), (sval (lo (K i)))|destruct (sval (hi (I i))), (sval (hi (K i)))]; simpl in *; auto; contradiction. }
    destruct (kraw_core n I K f c Rm (min n fdi) Ic SL KO FK PR) as (x & Kx & Zx0 & UX0).
    assert (Zx : zero x) by (split; [apply DI; apply (vin_sub K); auto|auto]).
    assert (UX : only_zero I x) by (intros y Hy [_ Zy] i Hi; apply UX0; auto).
    destruct IO as (VT & zs & F2 & DS).
    apply bind_ok in H as ([b K1] & ED & H). cbn [fst snd] in H.
    destruct (find_dup_ok Rs Rm fdi I x HR SL DI Zx UX fuel (sols st) zs F2 K b K1 ED SUB FK Kx) as (A1 & A2 & A3 & A4).
    destruct b.
    - apply bind_ok in H as (K2 & EI & H). injection H as <-.
      destruct (improve_ok Rs Rm fdi I x HR SL DI Zx UX fuel K1 K2 EI A1 A2 A3) as (B1 & B2).
      split; [|split].
      + repeat split; try apply incl_refl. simpl. apply incl_appl, incl_refl.
      + split; auto. simpl. exists (zs ++ [x]). split.
        * apply Forall2_app; auto. constructor; auto. split; [auto|]. split; auto.
        * apply fop_app; auto. apply Forall_impl with (2 := A4). intros z Hz Q. apply Hz. intros i Hi. symmetry. auto.
      + intros y Hy Zy. right; left. exists (K2, I). split; [simpl; apply in_or_app; right; left; auto|]. simpl.
        apply (vin_same K2 x y); auto. intros i Hi. symmetry. apply UX; auto.
    - injection H as <-. split; [apply grows_refl|]. split; [split; auto; exists zs; auto|].
      intros y Hy Zy. right; left. destruct A4 as (s & Is & Hs). exists s. split; auto.
      apply (vin_same (fst s) x y); auto. intros i Hi. symmetry. apply UX; auto. }
  destruct (slt (widthratio_max n K I) p9).
  { injection H as <-. split; [|split].
    - repeat split; try apply incl_refl. simpl. apply incl_appl, incl_refl.
    - destruct IO as (VT & ZS). split; auto. simpl. apply Forall_app. auto.
    - intros x Hx Zx. left. exists K. split; auto. simpl. apply in_or_app. right; left; auto. }
  assert (OVi : forall i, (i < n)%nat -> exists r, isin (K i) r /\ isin (I i) r).
  { intros i Hi. unfold voverlap in OV. rewrite vall_spec in OV. specialize (OV i Hi). apply (overlap_spec OK) in OV; auto. }
  apply (DV (vintersect I K)); auto.
  - intros i Hi. destruct (OVi i Hi) as (r & R1 & R2). unfold vintersect. apply isin_valid with r. apply (isin_intersect OK); auto.
  - intros i Hi. destruct (OVi i Hi) as (r & R1 & R2). unfold vintersect. apply intersect_fin with r; auto.
  - intros x Hx Zx i Hi. unfold vintersect. apply (isin_intersect OK); auto. split; auto. apply KZ; auto.
Qed.

Lemma divide_seen (st : astate S) I st' : divide n st I = Ok st' -> seen st' = seen st.
Proof. unfold divide. destruct search_maxwidth; [|discriminate]. destruct (_ || _); intros H; injection H as <-; auto. Qed.
Lemma astep_seen fuel st I st' : astep n fI fD inv fuel st I = Ok st' -> seen st' = seen st.
Proof.
  unfold astep. intros H.
  destruct (fI I) as [fi0|[]]; try discriminate; [|apply divide_seen in H; auto].
  destruct (negb _); [injection H as <-; auto|].
  destruct (fI _) as [fc|[]]; try discriminate; [|apply divide_seen in H; auto].
  destruct (fD _) as [[fi fdi]|[]]; try discriminate; [|apply divide_seen in H; auto].
  destruct (negb _); [injection H as <-; auto|].
  destruct (inv _); [|apply divide_seen in H; auto].
  destruct (negb _); [injection H as <-; auto|].
  destruct (vproper _ _ _).
  { apply bind_ok in H as (r & _ & H). destruct (fst r); [apply bind_ok in H as (K2 & _ & H)|]; injection H as <-; auto. }
  destruct (slt _ _); [injection H as <-; auto|]. apply divide_seen in H; auto.
Qed.
Lemma aloop_seen fuel : forall st st', aloop n fI fD inv fuel st = Ok st' -> incl (seen st) (seen st').
Proof.
  induction fuel as [|fuel IH]; intros st st' H; simpl in H; destruct (targets st) as [|B rest] eqn:ET; try discriminate;
    try (injection H as <-; apply incl_refl).
  apply bind_ok in H as (st1 & E1 & H). apply IH in H. apply astep_seen in E1. cbn [seen] in E1. rewrite E1 in H.
  intros Q HQ. apply H. apply in_or_app; auto.
Qed.
Lemma aloop_ok fuel : forall st st', aloop n fI fD inv fuel st = Ok st' -> (forall B, In B (seen st') -> vfin B) -> inv_ok st ->
  targets st' = [] /\ inv_ok st' /\ forall x, zero x -> covered st x -> covered st' x.
Proof.
  induction fuel as [|fuel IH]; intros st st' H FS IO; simpl in H; destruct (targets st) as [|B rest] eqn:ET; try discriminate;
    try (injection H as <-; auto).
  apply bind_ok in H as (st1 & E1 & H).
  destruct IO as (VT & ZS). rewrite ET in VT. inversion VT as [|? ? VB VR]; subst.
  pose proof (astep_seen _ _ _ _ E1) as SE. cbn [seen] in SE.
  assert (FB : vfin B). { apply FS. apply (aloop_seen _ _ _ H). rewrite SE. apply in_or_app. right; left; auto. }
  destruct (astep_ok _ _ _ _ E1 VB FB) as (G & IO1 & CV); [split; auto|].
  destruct (IH _ _ H FS IO1) as (T & IO2 & CV2). split; auto. split; auto.
  intros x Zx Cx. apply CV2; auto.
  destruct Cx as [(Q & I1 & Hx)|Cx].
  - rewrite ET in I1. destruct I1 as [<- |I1]; [auto|]. apply (grows_covered _ _ _ G). left. exists Q. auto.
  - apply (grows_covered _ _ _ G). right. exact Cx.
Qed.

(* C50, C51 *)
Theorem allsol_list_complete fuel ts st' : allsol_list_simple n fI fD inv fuel ts = Ok st' ->
  Forall vvalid ts -> (forall B, In B (seen st') -> vfin B) ->
  forall x T, In T ts -> vin n T x -> zero x ->
    (exists s, In s (sols st') /\ vin n (fst s) x) \/ (exists B, In B (small st') /\ vin n B x).
Proof.
  intros H V FS x T IT Hx Zx.
  destruct (aloop_ok _ _ _ H FS) as (E & _ & CV); [split; [exact V|exists []; split; constructor]|].
  destruct (CV x Zx) as [(Q & I1 & _)|C]; [left; exists T; auto| |exact C]. rewrite E in I1. elim I1.
Qed.
Theorem allsol_list_exact fuel ts st' : allsol_list_simple n fI fD inv fuel ts = Ok st' ->
  Forall vvalid ts -> (forall B, In B (seen st') -> vfin B) ->
  exists zs, Forall2 sol_ok (sols st') zs /\ ForallOrdPairs (fun z z' => ~ same z z') zs.
Proof.
  intros H V FS.
  destruct (aloop_ok _ _ _ H FS) as (_ & (_ & E) & _); [split; [exact V|exists []; split; constructor]|]. exact E.
Qed.
End Allsol.
End K.
