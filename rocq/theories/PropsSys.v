(* Property theorems: the solvers applied to systems given as expressions (C65-C68), with automatic differentiation
   supplying the Jacobian matrix; every double back end, every dimension. *)
From Coq Require Import Reals Lra Lia ZArith Bool Arith List.
From Flocq Require Import Core BinarySingleNaN.
From Verif Require Import Fp64 RDoubleHw.
From Verif Require Import Ext Scalar IntervalModel IntervalSpec IntervalProofs IntervalEncl Backends Ex64 ElemModel.
From Verif Require Import LinAlg RealRn VecModel VecProofs VecMore KrawProofs VecInst PropsElem PropsLin ADModel ADReal ADProofs ADInst ADSys.
Import ListNotations.
Open Scope R_scope.

(* x is a zero of the system: every expression is defined at x and has the value 0 *)
Definition sys_zero (n : nat) (fs : nat -> aexpr) (x : nat -> R) : Prop :=
  forall k, (k < n)%nat -> adom (fs k) x /\ rval (fs k) x = 0.
(* well-formed systems: variables below n, representable literals, logarithms of constants of positive constants only *)
Definition sys_wf (n : nat) (fs : nat -> aexpr) : Prop := forall k, (k < n)%nat -> awf n (fs k) /\ clog (fs k).
Definition no_inf_inverse {S : scal} (n : nat) (inv : (nat -> nat -> S) -> option (nat -> nat -> S)) : Prop :=
  forall L R i j, inv L = Some R -> (i < n)%nat -> (j < n)%nat -> sval (R i j) <> Xp /\ sval (R i j) <> Xm.
Definition bounded_box {S : scal} (n : nat) (X : nat -> iv S) : Prop := forall i, (i < n)%nat -> ifinite (X i).

(* ---- C65 ---- *)
Theorem C65_vleq_finite_inverse : forall (b : backend) n (A : nat -> nat -> iv (bscal b)) B R X,
  vleq n A B (Some R) = Some X ->
  (forall i j, (i < n)%nat -> (j < n)%nat -> is_fin (sval (R i j))) ->
  (forall i, (i < n)%nat -> is_lo (sval (lo (X i))) /\ is_hi (sval (hi (X i)))) ->
  forall A' b', (forall i j, (i < n)%nat -> (j < n)%nat -> isin (A i j) (A' i j)) -> vin n B b' ->
  exists x, (forall i, (i < n)%nat -> vsum n (fun j => A' i j * x j) = b' i) /\
    (forall y, (forall i, (i < n)%nat -> vsum n (fun j => A' i j * y j) = b' i) -> forall i, (i < n)%nat -> y i = x i) /\
    vin n X x.
Proof. exact C48_vleq_vector_partial. Qed.
Print Assumptions C65_vleq_finite_inverse.

(* ---- C66 ---- *)
Theorem C66_krawczyk_expressions : forall (b : backend) fuel n fs tmin inv twice c newton_max I K,
  sys_wf n fs ->
  krawczyk_approx n tmin (sysD (bpar b) fuel n fs) inv twice c newton_max = Ok (Some (I, K)) ->
  bounded_box n K ->
  exists x, vin n K x /\ sys_zero n fs x /\
    forall y, vin n I y -> sys_zero n fs y -> forall i, (i < n)%nat -> y i = x i.
Proof.
  intros b fuel n fs tmin inv twice c nm I K WF H FK.
  pose proof (sysD_diff (bok b) (bpar b) (bexp b) (blog b) (btrig b) fuel n fs WF) as DE.
  destruct (krawczyk_approx_ok (bscal_ok b) (bscal_nan b) n tmin _ inv (sysf fs) (diff_slope _ _ _ _ DE) twice c nm I K H FK) as (x & Kx & Zx & U).
  exists x. split; auto.
  assert (D : forall y, vin n I y -> sysdom n fs y).
  { unfold krawczyk_approx in H. destruct (newton n (sysD (bpar b) fuel n fs) inv nm c) as [[c2|]|]; try discriminate.
    unfold kraw_test in H. cbv zeta in H. destruct (sysD (bpar b) fuel n fs (fun i => ipt (c2 i))) as [[fc fdc]|[]]; try discriminate.
    destruct (inv (mmid fdc)) as [Rs|]; [|discriminate].
    match type of H with match sysD _ _ _ _ ?J with _ => _ end = _ => destruct (sysD (bpar b) fuel n fs J) as [[fi fdi]|[]] eqn:ED; try discriminate end.
    destruct (vproper _ _ _); [|discriminate]. injection H as <- _.
    exact (sysD_dom (bok b) (bpar b) (bexp b) (blog b) (btrig b) fuel n fs WF _ _ _ ED). }
  assert (KI : vin n I x).
  { unfold krawczyk_approx in H. destruct (newton n (sysD (bpar b) fuel n fs) inv nm c) as [[c2|]|]; try discriminate.
    unfold kraw_test in H. cbv zeta in H. destruct (sysD (bpar b) fuel n fs (fun i => ipt (c2 i))) as [[fc fdc]|[]]; try discriminate.
    destruct (inv (mmid fdc)) as [Rs|]; [|discriminate].
    match type of H with match sysD _ _ _ _ ?J with _ => _ end = _ => destruct (sysD (bpar b) fuel n fs J) as [[fi fdi]|[]] eqn:ED; try discriminate end.
    match type of H with (if vproper _ ?A ?B then _ else _) = _ => destruct (vproper n A B) eqn:PR; [|discriminate] end. injection H as <- <-.
    intros i Hi. unfold vproper in PR. rewrite vall_spec in PR. specialize (PR i Hi).
    unfold iproper, isubset in PR. apply andb_prop in PR as [PR _]. apply andb_prop in PR as [P1 P2].
    destruct (Kx i Hi) as (W1 & W2 & L & U1).
    pose proof (nn_wf _ (bscal_nan b)) as NW.
    apply (sle_true (bok b)) in P1; auto. apply (sle_true (bok b)) in P2; auto.
    split; auto. split; auto. split.
    - match goal with |- lb (sval ?p) _ => match type of L with lb (sval ?q) _ => destruct (sval p), (sval q) end end; simpl in *; auto; try contradiction; lra.
    - match goal with |- ub (sval ?p) _ => match type of U1 with ub (sval ?q) _ => destruct (sval p), (sval q) end end; simpl in *; auto; try contradiction; lra. }
  split.
  - intros k Hk. split; [apply (D x KI k Hk)|apply (Zx k Hk)].
  - intros y Hy Zy. apply U; auto. intros i Hi. apply (Zy i Hi).
Qed.
Print Assumptions C66_krawczyk_expressions.

(* ---- C67 ---- *)
Theorem C67_allsol_complete : forall (b : backend) fuel0 fuel n fs inv ts st,
  sys_wf n fs -> no_inf_inverse n inv ->
  allsol_list_simple n (sysI (bpar b) fuel0 n fs) (sysD (bpar b) fuel0 n fs) inv fuel ts = Ok st ->
  (forall T, In T ts -> valid_box n T) ->
  (forall B, In B (seen st) -> bounded_box n B) ->
  forall x T, In T ts -> vin n T x -> sys_zero n fs x ->
    (exists s, In s (sols st) /\ vin n (fst s) x) \/ (exists B, In B (small st) /\ vin n B x).
Proof.
  intros b fuel0 fuel n fs inv ts st WF INV H V FS x T IT Hx Zx.
  apply (allsol_list_complete (bscal_ok b) (bscal_nan b) n (sysI (bpar b) fuel0 n fs) (sysD (bpar b) fuel0 n fs) inv (sysf fs) (sysdom n fs)) with (fuel := fuel) (ts := ts) (T := T); auto.
  - intros X Y y E Hy Dy. exact (sysI_ok (bok b) (bpar b) (bexp b) (blog b) (btrig b) fuel0 n fs WF X Y y E Hy Dy).
  - exact (diff_slope _ _ _ _ (sysD_diff (bok b) (bpar b) (bexp b) (blog b) (btrig b) fuel0 n fs WF)).
  - apply (sysD_dom (bok b) (bpar b) (bexp b) (blog b) (btrig b) fuel0 n fs WF).
  - apply bscal_mid.
  - apply Forall_forall. auto.
  - split; intros k Hk; apply (Zx k Hk).
Qed.
Print Assumptions C67_allsol_complete.

(* ---- C68 ---- *)
Theorem C68_allsol_exact : forall (b : backend) fuel0 fuel n fs inv ts st,
  sys_wf n fs -> no_inf_inverse n inv ->
  allsol_list_simple n (sysI (bpar b) fuel0 n fs) (sysD (bpar b) fuel0 n fs) inv fuel ts = Ok st ->
  (forall T, In T ts -> valid_box n T) ->
  (forall B, In B (seen st) -> bounded_box n B) ->
  exists zs : list (nat -> R),
    Forall2 (fun s z => vin n (fst s) z /\ sys_zero n fs z /\
        (forall i r, (i < n)%nat -> isin (fst s i) r -> isin (snd s i) r) /\
        (forall y, vin n (snd s) y -> sys_zero n fs y -> forall i, (i < n)%nat -> y i = z i)) (sols st) zs /\
    ForallOrdPairs (fun z z' => ~ forall i, (i < n)%nat -> z i = z' i) zs.
Proof.
  intros b fuel0 fuel n fs inv ts st WF INV H V FS.
  destruct (allsol_list_exact (bscal_ok b) (bscal_nan b) n (sysI (bpar b) fuel0 n fs) (sysD (bpar b) fuel0 n fs) inv (sysf fs) (sysdom n fs)) with (fuel := fuel) (ts := ts) (st' := st)
    as (zs & A & B); auto.
  - intros X Y y E Hy Dy. exact (sysI_ok (bok b) (bpar b) (bexp b) (blog b) (btrig b) fuel0 n fs WF X Y y E Hy Dy).
  - exact (diff_slope _ _ _ _ (sysD_diff (bok b) (bpar b) (bexp b) (blog b) (btrig b) fuel0 n fs WF)).
  - apply (sysD_dom (bok b) (bpar b) (bexp b) (blog b) (btrig b) fuel0 n fs WF).
  - apply bscal_mid.
  - apply Forall_forall. auto.
  - exists zs. split; auto. clear - A. induction A as [|s z ls zs (A1 & (A2 & A2') & A3 & A4)]; constructor; auto.
    split; auto. split; [|split; auto].
    + intros k Hk. split; [apply A2|apply A2']; auto.
    + intros y Hy Zy. apply A4; auto. split; intros k Hk; apply (Zy k Hk).
Qed.
Print Assumptions C68_allsol_exact.

(* example: x0^2 + x1^2 - 1 = 0, x0 - x1 = 0 near (0.7, 0.7); 2x2 inverse by Cramer's rule *)
Definition inv2 (m : nat -> nat -> D_hw) : option (nat -> nat -> D_hw) :=
  let d := nsub (nmul (m 0 0)%nat (m 1 1)%nat) (nmul (m 0 1)%nat (m 1 0)%nat) in
  if seqb d s0 then None
  else let a := ndiv (m 1 1)%nat d in let b := ndiv (sneg (m 0 1)%nat) d in let c := ndiv (sneg (m 1 0)%nat) d in let e := ndiv (m 0 0)%nat d in
    if sf_fin a && sf_fin b && sf_fin c && sf_fin e
    then Some (fun i j => match i, j with O, O => a | O, _ => b | _, O => c | _, _ => e end) else None.
Lemma sf_fin_ninf (x : D_hw) : sf_fin x = true -> sval x <> Xp /\ sval x <> Xm.
Proof. intros H. apply sf_fin_v in H. destruct (sval x); simpl in H; try contradiction; split; discriminate. Qed.
Lemma inv2_fin : no_inf_inverse 2 inv2.
Proof.
  intros L R i j H _ _. unfold inv2 in H. cbv zeta in H. destruct (seqb _ _); [discriminate|].
  destruct (sf_fin _ && sf_fin _ && sf_fin _ && sf_fin _) eqn:E; [|discriminate].
  apply andb_prop in E as [E E4]. apply andb_prop in E as [E E3]. apply andb_prop in E as [E1 E2].
  assert (Q : forall A (x y : A), Some x = Some y -> x = y) by congruence. apply Q in H. subst R.
  destruct i, j; apply sf_fin_ninf; auto.
Qed.
Definition ex_fs (k : nat) : aexpr :=
  match k with O => XSc SOsub 1 0 (XAdd (XPowZ (XVar 0) 2) (XPowZ (XVar 1) 2)) | _ => XSub (XVar 0) (XVar 1) end.
Example C66_C67_C68_wf : sys_wf 2 ex_fs.
Proof. intros [|[|k]] Hk; simpl; unfold lit; repeat split; lia. Qed.
Definition ex_c0 (i : nat) : D_hw := bdy 7 (-3).
Example C66_ex : match krawczyk_approx 2 tmin64 (sysD (bpar BHw) 50 2 ex_fs) inv2 false ex_c0 5 with
  | Ok (Some (_, K)) => sf_fin (lo (K 0%nat)) && sf_fin (hi (K 0%nat)) && sf_fin (lo (K 1%nat)) && sf_fin (hi (K 1%nat)) | _ => false end = true.
Proof. vm_compute. reflexivity. Qed.
(* [-2,2]^2 has two zeros *)
Definition ex_box (i : nat) : iv D_hw := qiv (-2) 0 2 0.
Example C67_C68_ex : valid_box 2 ex_box /\
  match allsol_simple 2 (sysI (bpar BHw) 50 2 ex_fs) (sysD (bpar BHw) 50 2 ex_fs) inv2 150 ex_box with
  | Ok st => (length (sols st) =? 2)%nat && (length (small st) =? 0)%nat &&
      forallb (fun B => sf_fin (lo (B 0%nat)) && sf_fin (hi (B 0%nat)) && sf_fin (lo (B 1%nat)) && sf_fin (hi (B 1%nat))) (seen st)
  | _ => false end = true.
Proof. split; [intros i Hi; qval 0|]. vm_compute. reflexivity. Qed.
