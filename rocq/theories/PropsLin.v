(* Property theorems: verified linear solver (C48), Krawczyk's test (C49), all-solution search (C50, C51),
   mm_mult (C61), interval vectors (C62), for every double back end, every dimension. *)
From Coq Require Import Reals Lra Lia ZArith Bool Arith List.
From Flocq Require Import Core BinarySingleNaN.
From Verif Require Import IntervalSets.
From Verif Require Import Fp64 RDoubleHw.
From Verif Require Import Ext Scalar IntervalModel IntervalSpec IntervalProofs IntervalEncl Backends Ex64 Elem64.
From Verif Require Import LinAlg RealRn VecModel VecProofs VecMore KrawProofs VecInst.
Import ListNotations.
Open Scope R_scope.

(* 1x1 inverse, as LU does it *)
Definition inv1 (m : nat -> nat -> D_hw) : option (nat -> nat -> D_hw) :=
  if seqb (m 0 0)%nat s0 then None else let r := ndiv s1 (m 0 0)%nat in Some (fun _ _ => r).

(* ---- C48 ---- *)
Theorem C48_vleq_matrix_partial : forall (b : backend) n (A B : nat -> nat -> iv (bscal b)) R X,
  vleq_mat n A B (Some R) = Some X ->
  (* the approximate inverse is finite *)
  (forall i j, (i < n)%nat -> (j < n)%nat -> is_fin (sval (R i j))) ->
  forall col, (* the returned column has no NaN bound (and no lower bound +inf, upper bound -inf) *)
  (forall i, (i < n)%nat -> is_lo (sval (lo (X i col))) /\ is_hi (sval (hi (X i col)))) ->
  forall A' b', (forall i j, (i < n)%nat -> (j < n)%nat -> isin (A i j) (A' i j)) ->
    (forall i, (i < n)%nat -> isin (B i col) (b' i)) ->
  exists x, (forall i, (i < n)%nat -> vsum n (fun j => A' i j * x j) = b' i) /\
    (forall y, (forall i, (i < n)%nat -> vsum n (fun j => A' i j * y j) = b' i) -> forall i, (i < n)%nat -> y i = x i) /\
    forall i, (i < n)%nat -> isin (X i col) (x i).
Proof.
  intros b n A B R X H F col E A' b' HA Hb.
  apply (vleq_mat_ok (bscal_ok b) (bscal_nan b) n A B R (fun i j => match sval (R i j) with XR r => r | _ => 0 end) X col A' b'); auto.
  intros i j Hi Hj. specialize (F i j Hi Hj). destruct (sval (R i j)); simpl in F; tauto.
Qed.
Print Assumptions C48_vleq_matrix_partial.
Theorem C48_vleq_vector_partial : forall (b : backend) n (A : nat -> nat -> iv (bscal b)) B R X,
  vleq n A B (Some R) = Some X ->
  (forall i j, (i < n)%nat -> (j < n)%nat -> is_fin (sval (R i j))) ->
  (forall i, (i < n)%nat -> is_lo (sval (lo (X i))) /\ is_hi (sval (hi (X i)))) ->
  forall A' b', (forall i j, (i < n)%nat -> (j < n)%nat -> isin (A i j) (A' i j)) -> vin n B b' ->
  exists x, (forall i, (i < n)%nat -> vsum n (fun j => A' i j * x j) = b' i) /\
    (forall y, (forall i, (i < n)%nat -> vsum n (fun j => A' i j * y j) = b' i) -> forall i, (i < n)%nat -> y i = x i) /\
    vin n X x.
Proof.
  intros b n A B R X H F E A' b' HA Hb. unfold vleq in H. destruct (vleq_mat n A (fun i _ => B i) (Some R)) as [X'|] eqn:EX; [|discriminate].
  injection H as <-. exact (C48_vleq_matrix_partial b n A _ R X' EX F 0%nat E A' b' HA Hb).
Qed.
Print Assumptions C48_vleq_vector_partial.
(* 2x2: [[2,1],[1,3]] (x) = (1,2) with R ~ inverse *)
Definition exA (i j : nat) : iv D_hw :=
  match i, j with O, O => qiv 2 0 2 0 | O, _ => qiv 1 0 1 0 | S _, O => qiv 1 0 1 0 | _, _ => qiv 3 0 3 0 end.
Definition exR (i j : nat) : D_hw :=
  match i, j with O, O => bdy 39 (-6) | O, _ => bdy (-13) (-6) | S _, O => bdy (-13) (-6) | _, _ => bdy 26 (-6) end.
Definition exB (i : nat) : iv D_hw := match i with O => qiv 1 0 1 0 | _ => qiv 2 0 2 0 end.
Definition sf_fin (x : D_hw) : bool := is_finite (x : b64).
Lemma sf_fin_v (x : D_hw) : sf_fin x = true -> is_fin (sval x).
Proof. intros H. change (is_fin (v64 x)). unfold sf_fin in H. destruct (x : b64); simpl in *; auto; discriminate. Qed.
Example C48_ex : match vleq 2 exA exB (Some exR) with
  | Some X => sf_fin (lo (X 0%nat)) && sf_fin (hi (X 0%nat)) && sf_fin (lo (X 1%nat)) && sf_fin (hi (X 1%nat)) | None => false end = true.
Proof. vm_compute. reflexivity. Qed.

(* Without the finiteness of R the claim is false: max_norm skips NaN rows (kv/interval-vector.hpp 308-326),
   so the matrix (0) with the user-supplied approximate inverse (+inf) is "solved". *)
Theorem C48_infinite_inverse_refuted : exists (A : nat -> nat -> iv D_hw) (B : nat -> iv D_hw) (R0 : nat -> nat -> D_hw),
  (exists A', forall i j, isin (A i j) (A' i j)) /\ vin 1 B (fun _ => 1) /\
  (exists X, vleq 1 A B (Some R0) = Some X) /\
  exists A', (forall i j, (i < 1)%nat -> (j < 1)%nat -> isin (A i j) (A' i j)) /\
    forall x : nat -> R, vsum 1 (fun j => A' 0%nat j * x j) <> 1.
Proof.
  exists (fun _ _ => qiv 0 0 0 0), (fun _ => qiv 1 0 1 0), (fun _ _ => (bpinf : D_hw)).
  split; [exists (fun _ _ => 0); intros; qin|]. split; [intros i Hi; qin|]. split.
  - destruct (vleq 1 _ _ _) as [X|] eqn:E; [exists X; auto|]. exfalso.
    assert (Q : (match vleq 1 (fun _ _ => qiv 0 0 0 0) (fun _ => qiv 1 0 1 0) (Some (fun _ _ => (bpinf : D_hw))) with Some _ => true | None => false end) = true) by (vm_compute; reflexivity).
    rewrite E in Q. discriminate.
  - exists (fun _ _ => 0). split; [intros; qin|]. intros x. simpl. lra.
Qed.
Print Assumptions C48_infinite_inverse_refuted.

(* ---- C49 ---- *)
Theorem C49_krawczyk_partial : forall (b : backend) n tmin fD inv f twice c newton_max I K,
  (* fD encloses f and slopes of f *)
  @slope_ext (bscal b) n fD f ->
  krawczyk_approx n tmin fD inv twice c newton_max = Ok (Some (I, K)) ->
  (* the returned box is bounded *)
  (forall i, (i < n)%nat -> ifinite (K i)) ->
  exists x, vin n K x /\ (forall i, (i < n)%nat -> f x i = 0) /\
    forall y, vin n I y -> (forall i, (i < n)%nat -> f y i = 0) -> forall i, (i < n)%nat -> y i = x i.
Proof. intros b n tmin fD inv f twice c nm I K FD. exact (krawczyk_approx_ok (bscal_ok b) (bscal_nan b) n tmin fD inv f FD twice c nm I K). Qed.
Print Assumptions C49_krawczyk_partial.
(* the same when fD encloses f and its Jacobian matrix *)
Theorem C49_krawczyk_jacobian_partial : forall (b : backend) n tmin fD inv f df twice c newton_max I K,
  @diff_ext (bscal b) n fD f df ->
  krawczyk_approx n tmin fD inv twice c newton_max = Ok (Some (I, K)) ->
  (forall i, (i < n)%nat -> ifinite (K i)) ->
  exists x, vin n K x /\ (forall i, (i < n)%nat -> f x i = 0) /\
    forall y, vin n I y -> (forall i, (i < n)%nat -> f y i = 0) -> forall i, (i < n)%nat -> y i = x i.
Proof. intros b n tmin fD inv f df twice c nm I K FD. exact (C49_krawczyk_partial b n tmin fD inv f twice c nm I K (diff_slope _ _ _ _ FD)). Qed.
Print Assumptions C49_krawczyk_jacobian_partial.

(* example: x^2 - 2 from the approximation 92681/65536 *)
Definition sqI (X : nat -> iv D_hw) : res (nat -> iv D_hw) := let x := X 0%nat in let y := isub (imul x x) (qiv 2 0 2 0) in Ok (fun _ => y).
Definition sqD (X : nat -> iv D_hw) : res ((nat -> iv D_hw) * (nat -> nat -> iv D_hw)) :=
  let x := X 0%nat in let y := isub (imul x x) (qiv 2 0 2 0) in let d := imul (qiv 2 0 2 0) x in Ok (fun _ => y, fun _ _ => d).
Definition sqf (x : nat -> R) (i : nat) : R := x 0%nat * x 0%nat - 2.
Lemma sqI_ext : @val_ext D_hw 1 sqI sqf.
Proof.
  intros X Y x E H i Hi. injection E as <-. apply (isin_sub (bscal_ok BHw)); [apply (isin_mul (bscal_ok BHw)); apply H; lia|qin].
Qed.
Lemma sqD_ext : @slope_ext D_hw 1 sqD sqf.
Proof.
  intros X Y J E. injection E as <- <-. split.
  - intros x H. exact (sqI_ext X _ x eq_refl H).
  - intros x y Hx Hy. exists (fun _ _ => 2 * (x 0%nat + / 2 * (y 0%nat - x 0%nat))). split.
    + intros i j Hi Hj. apply (isin_mul (bscal_ok BHw)); [qin|]. apply isin_conv; [apply Hx; lia|apply Hy; lia|lra].
    + intros k Hk. unfold sqf, mv. simpl. field.
Qed.
Definition tmin64 : D_hw := bdy 1 (-1022).
Definition c14142 (i : nat) : D_hw := bdy 92681 (-16).
Example C49_ex : @slope_ext D_hw 1 sqD sqf /\
  match krawczyk_approx 1 tmin64 sqD inv1 false c14142 0 with
  | Ok (Some (_, K)) => sf_fin (lo (K 0%nat)) && sf_fin (hi (K 0%nat)) | _ => false end = true.
Proof. split; [exact sqD_ext|vm_compute; reflexivity]. Qed.

(* An unbounded result proves nothing: f(x) = atan(x - 2^1023) - 2^1022 has no zero, but from the starting point
   2^1023 the candidate is [0,+inf], Krawczyk's operator gives [2^1022,+inf] and the test succeeds. *)
Definition atD (X : nat -> iv D_hw) : res ((nat -> iv D_hw) * (nat -> nat -> iv D_hw)) :=
  if seqb (lo (X 0%nat)) (bdy 1 1023 : D_hw) && seqb (hi (X 0%nat)) (bdy 1 1023 : D_hw)
  then Ok (fun _ => mkiv (bdy (-1) 1022 : D_hw) (bdy (-1) 1022 : D_hw), fun _ _ => qiv 1 0 1 0)
  else Ok (fun _ => isub (qiv (-2) 0 2 0) (mkiv (bdy 1 1022 : D_hw) (bdy 1 1022 : D_hw)), fun _ _ => qiv 0 0 1 0).
Definition atf (x : nat -> R) (i : nat) : R := atan (x 0%nat - bpow radix2 1023) - bpow radix2 1022.
Definition catf (i : nat) : D_hw := bdy 1 1023.

Lemma v1023 : v64 (bdy 1 1023) = XR (bpow radix2 1023).
Proof.
  rewrite (v64_lit (bdy 1 1023) false 4503599627370496 971) by reflexivity. f_equal. change (cond_Zopp false 4503599627370496%Z) with (Z.pow 2 52).
  rewrite <- (IZR_Zpower radix2) by lia. rewrite <- (IZR_Zpower radix2 1023) by lia. rewrite <- mult_IZR. f_equal.
Qed.
Lemma v1022 : v64 (bdy 1 1022) = XR (bpow radix2 1022).
Proof.
  rewrite (v64_lit (bdy 1 1022) false 4503599627370496 970) by reflexivity. f_equal. change (cond_Zopp false 4503599627370496%Z) with (Z.pow 2 52).
  rewrite <- (IZR_Zpower radix2) by lia. rewrite <- (IZR_Zpower radix2 1022) by lia. rewrite <- mult_IZR. f_equal.
Qed.
Lemma v1022m : v64 (bdy (-1) 1022) = XR (- bpow radix2 1022).
Proof.
  rewrite (v64_lit (bdy (-1) 1022) true 4503599627370496 970) by reflexivity. f_equal. change (cond_Zopp true 4503599627370496%Z) with (- Z.pow 2 52)%Z.
  rewrite <- (IZR_Zpower radix2) by lia. rewrite <- (IZR_Zpower radix2 1022) by lia. rewrite <- mult_IZR, <- opp_IZR. f_equal.
Qed.
Lemma atan_slope a c : exists k, 0 <= k <= 1 /\ atan c - atan a = k * (c - a).
Proof.
  assert (G : forall a c, a < c -> exists k, 0 <= k <= 1 /\ atan c - atan a = k * (c - a)).
  { clear. intros a c L. destruct (MVT_cor2 atan (fun x => / (1 + x ^ 2)) a c L) as (m & E & _).
    - intros x _. apply derivable_pt_lim_atan.
    - exists (/ (1 + m ^ 2)). split; auto. assert (0 <= m ^ 2) by (simpl; nra). split.
      + apply Rlt_le, Rinv_0_lt_compat. lra.
      + rewrite <- Rinv_1. apply Rinv_le_contravar; lra. }
  destruct (Rtotal_order a c) as [L|[-> |L]].
  - auto.
  - exists 0. lra.
  - destruct (G c a L) as (k & K1 & K2). exists k. split; auto. lra.
Qed.
Lemma ok_pair_inj {A B} (a c : A) (b d : B) : Ok (a, b) = Ok (c, d) -> a = c /\ b = d.
Proof. intros H. injection H. auto. Qed.
Lemma atD_ext : @slope_ext D_hw 1 atD atf.
Proof.
  intros X Y J E. unfold atD in E.
  destruct (seqb (lo (X 0%nat)) (bdy 1 1023 : D_hw) && seqb (hi (X 0%nat)) (bdy 1 1023 : D_hw)) eqn:Q; apply ok_pair_inj in E as [<- <-].
  - apply andb_prop in Q as [Q1 Q2].
    assert (P : forall x, vin 1 X x -> x 0%nat = bpow radix2 1023).
    { intros x Hx. destruct (Hx 0%nat ltac:(lia)) as (_ & _ & L & U).
      apply (ok_eq _ (bscal_ok BHw)) in Q1; try exact I. apply (ok_eq _ (bscal_ok BHw)) in Q2; try exact I.
      change (xeq (@sval D_hw (lo (X 0%nat))) (v64 (bdy 1 1023))) in Q1. change (xeq (@sval D_hw (hi (X 0%nat))) (v64 (bdy 1 1023))) in Q2. rewrite v1023 in Q1, Q2.
      destruct (@sval D_hw (lo (X 0%nat))); try tauto. destruct (@sval D_hw (hi (X 0%nat))); try tauto. simpl in *. lra. }
    split.
    + intros x Hx i Hi. unfold atf. rewrite (P x Hx). replace (bpow radix2 1023 - bpow radix2 1023) with 0 by ring. rewrite atan_0. split; [exact I|split; [exact I|]]. cbn [lo hi].
      change (lb (v64 (bdy (-1) 1022)) (0 - bpow radix2 1022) /\ ub (v64 (bdy (-1) 1022)) (0 - bpow radix2 1022)). rewrite v1022m. cbn [lb ub]. lra.
    + intros x y Hx Hy. exists (fun _ _ => 1). split; [intros i j _ _; qin|]. intros k Hk. unfold atf, mv. cbn [vsum]. rewrite (P x Hx), (P y Hy). ring.
  - split.
    + intros x Hx i Hi. unfold atf. apply (isin_sub (bscal_ok BHw)).
      * destruct (atan_bound (x 0%nat - bpow radix2 1023)) as [A1 A2]. pose proof PI_4. apply qiv_in; [reflexivity|]. change (bpow radix2 0) with 1. lra.
      * split; [exact I|split; [exact I|]]. cbn [lo hi]. change (lb (v64 (bdy 1 1022)) (bpow radix2 1022) /\ ub (v64 (bdy 1 1022)) (bpow radix2 1022)).
        rewrite v1022. cbn [lb ub]. lra.
    + intros x y Hx Hy. destruct (atan_slope (x 0%nat - bpow radix2 1023) (y 0%nat - bpow radix2 1023)) as (k & K1 & K2).
      exists (fun _ _ => k). split; [intros i j _ _; apply qiv_in; [reflexivity|simpl; lra]|]. intros q Hq. unfold atf, mv. cbn [vsum]. lra.
Qed.
Theorem C49_unbounded_box_refuted : exists fD inv f c I K,
  @slope_ext D_hw 1 fD f /\ krawczyk_approx 1 tmin64 fD inv false c 0 = Ok (Some (I, K)) /\
  forall x, f x 0%nat <> 0.
Proof.
  destruct (krawczyk_approx 1 tmin64 atD inv1 false catf 0) as [[[B K]|]|] eqn:E.
  2,3: exfalso; assert (Q : (match krawczyk_approx 1 tmin64 atD inv1 false catf 0 with Ok (Some _) => true | _ => false end) = true) by (vm_compute; reflexivity);
    rewrite E in Q; discriminate.
  exists atD, inv1, atf, catf, B, K. split; [exact atD_ext|]. split; auto.
  intros x. unfold atf. pose proof (atan_bound (x 0%nat - bpow radix2 1023)). pose proof PI_4.
  assert (4 <= bpow radix2 1022). { change 4 with (bpow radix2 2). apply bpow_le. lia. } lra.
Qed.
Print Assumptions C49_unbounded_box_refuted.

(* ---- C50 ---- *)
(* every zero in an initial box is in a returned solution box or in a box reported as too small *)
Theorem C50_allsol_simple_partial : forall (b : backend) n fI fD inv f fuel ts st,
  @val_ext (bscal b) n fI f -> slope_ext n fD f ->
  (* invert never returns an infinite entry *)
  (forall L R i j, inv L = Some R -> (i < n)%nat -> (j < n)%nat -> sval (R i j) <> Xp /\ sval (R i j) <> Xm) ->
  allsol_list_simple n fI fD inv fuel ts = Ok st ->
  (forall T, In T ts -> valid_box n T) ->
  (* every box processed is bounded *)
  (forall B, In B (seen st) -> forall i, (i < n)%nat -> ifinite (B i)) ->
  forall x T, In T ts -> vin n T x -> (forall i, (i < n)%nat -> f x i = 0) ->
    (exists s, In s (sols st) /\ vin n (fst s) x) \/ (exists B, In B (small st) /\ vin n B x).
Proof.
  intros b n fI fD inv f fuel ts st FI FD INV H V FS. intros x T IT Hx Zx.
  apply (allsol_list_complete (bscal_ok b) (bscal_nan b) n fI fD inv f (fun _ => True)) with (fuel := fuel) (ts := ts) (T := T); try (intros; exact I); auto.
  - intros X Y y E Hy _. eapply FI; eauto.
  - apply bscal_mid.
  - apply Forall_forall. auto.
  - split; auto.
Qed.
Print Assumptions C50_allsol_simple_partial.

(* ---- C51 ---- *)
(* each returned box holds a zero z that is the only zero in the larger box it came from, hence in itself; zeros of different boxes differ *)
Theorem C51_allsol_simple_partial : forall (b : backend) n fI fD inv f fuel ts st,
  @val_ext (bscal b) n fI f -> slope_ext n fD f ->
  (forall L R i j, inv L = Some R -> (i < n)%nat -> (j < n)%nat -> sval (R i j) <> Xp /\ sval (R i j) <> Xm) ->
  allsol_list_simple n fI fD inv fuel ts = Ok st ->
  (forall T, In T ts -> valid_box n T) ->
  (forall B, In B (seen st) -> forall i, (i < n)%nat -> ifinite (B i)) ->
  exists zs : list (nat -> R),
    Forall2 (fun s z => vin n (fst s) z /\ (forall i, (i < n)%nat -> f z i = 0) /\
        (forall i r, (i < n)%nat -> isin (fst s i) r -> isin (snd s i) r) /\
        (forall y, vin n (snd s) y -> (forall i, (i < n)%nat -> f y i = 0) -> forall i, (i < n)%nat -> y i = z i)) (sols st) zs /\
    ForallOrdPairs (fun z z' => ~ forall i, (i < n)%nat -> z i = z' i) zs.
Proof.
  intros b n fI fD inv f fuel ts st FI FD INV H V FS. 
  destruct (allsol_list_exact (bscal_ok b) (bscal_nan b) n fI fD inv f (fun _ => True)) with (fuel := fuel) (ts := ts) (st' := st) as (zs & A & B); try (intros; exact I); auto.
  - intros X Y y E Hy _. eapply FI; eauto.
  - apply bscal_mid.
  - apply Forall_forall. auto.
  - exists zs. split; auto. clear - A. induction A as [|s z ls zs (A1 & (_ & A2) & A3 & A4)]; constructor; auto.
    split; auto. split; auto. split; auto. intros y Hy Zy. apply A4; auto. split; auto.
Qed.
Print Assumptions C51_allsol_simple_partial.

(* example: x^2 - 2 = 0 on [-2,2]: two solutions, no small box, all boxes bounded, inverses finite *)
Definition inv1f (m : nat -> nat -> D_hw) : option (nat -> nat -> D_hw) :=
  match inv1 m with Some R => if sf_fin (R 0 0)%nat then Some R else None | None => None end.
Lemma inv1f_fin : forall L R i j, inv1f L = Some R -> (i < 1)%nat -> (j < 1)%nat -> sval (R i j) <> Xp /\ sval (R i j) <> Xm.
Proof.
  intros L R i j H Hi Hj. unfold inv1f in H. destruct (inv1 L) as [R'|]; [|discriminate]. destruct (sf_fin _) eqn:E; [|discriminate].
  injection H as <-. replace i with 0%nat by lia. replace j with 0%nat by lia. unfold sf_fin in E.
  change (v64 (R' 0 0)%nat <> Xp /\ v64 (R' 0 0)%nat <> Xm). destruct (R' 0%nat 0%nat : b64); simpl in *; split; congruence.
Qed.
Definition box4 (i : nat) : iv D_hw := qiv (-2) 0 2 0.
Example C50_C51_ex : @val_ext D_hw 1 sqI sqf /\ @slope_ext D_hw 1 sqD sqf /\ valid_box 1 box4 /\
  match allsol_simple 1 sqI sqD inv1f 150 box4 with
  | Ok st => (length (sols st) =? 2)%nat && (length (small st) =? 0)%nat && forallb (fun B => sf_fin (lo (B 0%nat)) && sf_fin (hi (B 0%nat))) (seen st)
  | _ => false end = true.
Proof. split; [exact sqI_ext|]. split; [exact sqD_ext|]. split; [intros i Hi; qval 0|]. vm_compute. reflexivity. Qed.

(* With an infinite entry in the approximate inverse a zero is lost: f(x) = 2^-1030 (x - 1) on [0,3].
   invert returns 1/2^-1030 = +inf, K is [-inf,NaN], overlap(K,I) is false and the box is dropped. *)
Definition smI (X : nat -> iv D_hw) : res (nat -> iv D_hw) :=
  Ok (fun _ => imul (qiv 1 (-1030) 1 (-1030)) (isub (X 0%nat) (qiv 1 0 1 0))).
Definition smD (X : nat -> iv D_hw) : res ((nat -> iv D_hw) * (nat -> nat -> iv D_hw)) :=
  Ok (fun _ => imul (qiv 1 (-1030) 1 (-1030)) (isub (X 0%nat) (qiv 1 0 1 0)), fun _ _ => qiv 1 (-1030) 1 (-1030)).
Definition smf (x : nat -> R) (i : nat) : R := bpow radix2 (-1030) * (x 0%nat - 1).
Lemma sm_in : isin (qiv 1 (-1030) 1 (-1030)) (bpow radix2 (-1030)).
Proof. apply qiv_in; [reflexivity|]. lra. Qed.
Lemma smI_ext : @val_ext D_hw 1 smI smf.
Proof.
  intros X Y x E H i Hi. injection E as <-. apply (isin_mul (bscal_ok BHw)); [apply sm_in|]. apply (isin_sub (bscal_ok BHw)); [apply H; lia|qin].
Qed.
Lemma smD_ext : @slope_ext D_hw 1 smD smf.
Proof.
  intros X Y J E. injection E as <- <-. split.
  - intros x H. exact (smI_ext X _ x eq_refl H).
  - intros x y Hx Hy. exists (fun _ _ => bpow radix2 (-1030)). split; [intros i j Hi Hj; apply sm_in|].
    intros k Hk. unfold smf, mv. cbn [vsum]. ring.
Qed.
Definition box03 (i : nat) : iv D_hw := qiv 0 0 3 0.
Theorem C50_infinite_inverse_refuted : exists fI fD inv f st x,
  @val_ext D_hw 1 fI f /\ slope_ext 1 fD f /\ allsol_simple 1 fI fD inv 10 box03 = Ok st /\
  (forall B, In B (seen st) -> forall i, (i < 1)%nat -> ifinite (B i)) /\
  vin 1 box03 x /\ f x 0%nat = 0 /\ sols st = [] /\ small st = [].
Proof.
  assert (Q : (match allsol_simple 1 smI smD inv1 10 box03 with
     Ok st => (length (sols st) =? 0)%nat && (length (small st) =? 0)%nat && forallb (fun B => sf_fin (lo (B 0%nat)) && sf_fin (hi (B 0%nat))) (seen st)
     | _ => false end) = true) by (vm_compute; reflexivity).
  destruct (allsol_simple 1 smI smD inv1 10 box03) as [st|] eqn:E; [|discriminate].
  exists smI, smD, inv1, smf, st, (fun _ => 1). split; [exact smI_ext|]. split; [exact smD_ext|]. split; [exact E|]. clear E.
  apply andb_prop in Q as [Q Q3]. apply andb_prop in Q as [Q1 Q2]. rewrite forallb_forall in Q3.
  split; [|split; [intros i Hi; qin|split; [unfold smf; ring|split; [apply length_zero_iff_nil, Nat.eqb_eq, Q1|apply length_zero_iff_nil, Nat.eqb_eq, Q2]]]].
  intros B HB i Hi. replace i with 0%nat by lia. specialize (Q3 B HB). apply andb_prop in Q3 as [P1 P2]. split; apply sf_fin_v; auto.
Qed.
Print Assumptions C50_infinite_inverse_refuted.

(* ---- C61: the double specialisation compiled with USE_LAPACK / USE_ATLAS multiplies a by itself ---- *)
Theorem C61_mm_mult_generic_partial : forall (b : backend) n (A B : nat -> nat -> bscal b) i j,
  mm_mult n A B i j = nsum n (fun k => nmul (A i k) (B k j)).
Proof. reflexivity. Qed.
Print Assumptions C61_mm_mult_generic_partial.
(* exact on small integers: entries a(i,k), b(k,j) and all partial sums representable gives the product *)
Theorem C61_mm_mult_exact_partial : forall n (A B : nat -> nat -> D_hw) A' B' i j,
  (forall k, (k < n)%nat -> sval (A i k) = XR (A' i k) /\ sval (B k j) = XR (B' k j) /\
     generic_format radix2 FX (A' i k * B' k j) /\ Rabs (A' i k * B' k j) <= maxR) ->
  (forall k, (k <= n)%nat -> generic_format radix2 FX (vsum k (fun q => A' i q * B' q j)) /\ Rabs (vsum k (fun q => A' i q * B' q j)) <= maxR) ->
  sval (mm_mult n A B i j) = XR (vsum n (fun q => A' i q * B' q j)).
Proof. exact mm_mult_exact. Qed.
Print Assumptions C61_mm_mult_exact_partial.
Theorem C61_lapack_refuted : exists n (A B : nat -> nat -> D_hw) i j (A' B' : nat -> nat -> R),
  (i < n)%nat /\ (j < n)%nat /\ (forall i j, (i < n)%nat -> (j < n)%nat -> sval (A i j) = XR (A' i j) /\ sval (B i j) = XR (B' i j)) /\
  sval (mm_mult n A B i j) = XR (vsum n (fun q => A' i q * B' q j)) /\
  sval (mm_mult_lapack n A B i j) <> XR (vsum n (fun q => A' i q * B' q j)).
Proof.
  exists 1%nat, (fun _ _ => bdy 2 0 : D_hw), (fun _ _ => bdy 3 0 : D_hw), 0%nat, 0%nat, (fun _ _ => 2), (fun _ _ => 3).
  assert (V2 : v64 (bdy 2 0) = XR 2) by (rewrite bdy_v by lia; f_equal; simpl; lra).
  assert (V3 : v64 (bdy 3 0) = XR 3) by (rewrite bdy_v by lia; f_equal; simpl; lra).
  split; [lia|]. split; [lia|]. split; [auto|]. cbn [vsum].
  assert (V4 : v64 (bdy 4 0) = XR 4) by (rewrite bdy_v by lia; f_equal; simpl; lra).
  assert (V6 : v64 (bdy 6 0) = XR 6) by (rewrite bdy_v by lia; f_equal; simpl; lra).
  split.
  - replace (0 + 2 * 3) with 6 by lra. rewrite <- V6. apply v64_sf. vm_compute. reflexivity.
  - replace (0 + 2 * 3) with 6 by lra.
    assert (E : v64 (mm_mult_lapack 1 (fun _ _ => bdy 2 0 : D_hw) (fun _ _ => bdy 3 0 : D_hw) 0%nat 0%nat) = v64 (bdy 4 0)) by (apply v64_sf; vm_compute; reflexivity).
    intros H. assert (XR 4 = XR 6) by (rewrite <- V4, <- E; exact H). injection H0. lra.
Qed.
Print Assumptions C61_lapack_refuted.

(* ---- C62 ---- *)
Theorem C62_sets : forall (b : backend) n (X Y Z : nat -> iv (bscal b)), valid_box n X -> valid_box n Y ->
  (vsubset n X Y = true <-> forall x, vin n X x -> vin n Y x) /\
  (vproper n X Y = true <-> (forall x, vin n X x -> vin n Y x) /\ forall i, (i < n)%nat -> exists y, vin n Y y /\ ~ isin (X i) (y i)) /\
  (voverlap n X Y = true <-> exists x, vin n X x /\ vin n Y x) /\
  (forall x, vin n (vintersect X Y) x <-> vin n X x /\ vin n Y x) /\
  (forall x, vin n X x \/ vin n Y x -> vin n (vhull X Y) x) /\
  ((forall x, vin n X x \/ vin n Y x -> vin n Z x) -> forall x, vin n (vhull X Y) x -> vin n Z x) /\
  (vzero_in n X = true <-> vin n X (fun _ => 0)).
Proof.
  intros b n X Y Z VX VY. pose proof (bscal_ok b) as OK.
  split; [exact (vsubset_iff _ OK n X Y VX VY)|]. split; [exact (vproper_iff _ OK n X Y VX VY)|]. split; [exact (voverlap_iff _ OK n X Y VX VY)|].
  split; [exact (vintersect_iff _ OK n X Y VX VY)|]. destruct (vhull_iff _ OK n X Y Z VX VY) as [H1 H2]. split; [exact H1|]. split; [exact H2|].
  exact (vzero_in_iff _ OK n X VX).
Qed.
Print Assumptions C62_sets.
Theorem C62_mid_mag_mig : forall (b : backend) n (X : nat -> iv (bscal b)) x, vin n X x -> forall i, (i < n)%nat ->
  ub (sval (vmag X i)) (Rabs (x i)) /\ lb (sval (vmig X i)) (Rabs (x i)) /\
  (ifinite (X i) -> exists m, sval (vmid X i) = XR m /\ isin (X i) m).
Proof.
  intros b n X x Hx i Hi. destruct (vmag_mig _ (bscal_ok b) n X x i Hx Hi) as [A B]. split; [exact A|]. split; [exact B|].
  intros F. exact (bscal_mid b (X i) (isin_valid _ _ (Hx i Hi)) F).
Qed.
Print Assumptions C62_mid_mag_mig.
(* rad of vectors; mid, rad, mag, mig, intersect and hull of matrices *)
Theorem C62_rad : forall (b : backend) n (X : nat -> iv (bscal b)) x y i, vin n X x -> vin n X y -> (i < n)%nat -> ub (sval (vrad X i)) ((y i - x i) / 2).
Proof. intros b n X x y i Hx Hy Hi. exact (rad_ub (bscal_ok b) (X i) (x i) (y i) (Hx i Hi) (Hy i Hi)). Qed.
Theorem C62_matrix_entries : forall (b : backend) (X Y : nat -> nat -> iv (bscal b)) i j, ivalid (X i j) -> ivalid (Y i j) ->
  (forall x, isin (X i j) x -> ub (sval (mmag X i j)) (Rabs x) /\ lb (sval (mmig X i j)) (Rabs x)) /\
  (forall x y, isin (X i j) x -> isin (X i j) y -> ub (sval (mrad X i j)) ((y - x) / 2)) /\
  (ifinite (X i j) -> exists m, sval (mmid X i j) = XR m /\ isin (X i j) m) /\
  (forall x, isin (mintersect X Y i j) x <-> isin (X i j) x /\ isin (Y i j) x) /\
  (forall x, isin (X i j) x \/ isin (Y i j) x -> isin (mhull X Y i j) x).
Proof.
  intros b X Y i j VX VY. pose proof (bscal_ok b) as OK. split; [|split; [|split; [|split]]].
  - intros x Hx. split; [exact (proj2 (mag_ub OK _ _ Hx))|exact (proj2 (mig_lb OK _ _ Hx))].
  - intros x y Hx Hy. exact (rad_ub OK _ _ _ Hx Hy).
  - intros F. exact (bscal_mid b _ VX F).
  - intros x. exact (isin_intersect OK _ _ x VX VY).
  - intros x H. apply (isin_hull OK _ _ x VX VY). exists x, x. split; [exact H|]. split; [exact H|]. lra.
Qed.
(* mag of vectors and matrices of plain numbers *)
Theorem C62_mag_numbers : forall (b : backend) (x : nat -> bscal b) (A : nat -> nat -> bscal b) i j r,
  (sval (x i) = XR r -> sval (vmagS x i) = XR (Rabs r)) /\ (sval (A i j) = XR r -> sval (mmagS A i j) = XR (Rabs r)).
Proof. intros b x A i j r. split; intros E; apply (sabsc_v (bscal_ok b) (nn_wf _ (bscal_nan b)) _ _ E). Qed.
Print Assumptions C62_rad. Print Assumptions C62_matrix_entries. Print Assumptions C62_mag_numbers.
(* max_norm of vectors and (row sum) matrices, intervals and plain numbers *)
Theorem C62_max_norm : forall (b : backend) n m,
  (forall (X : nat -> iv (bscal b)) x i, vin n X x -> (i < n)%nat -> ub (sval (vmax_norm n X)) (Rabs (x i))) /\
  (forall (X : nat -> nat -> iv (bscal b)) x i, (forall i j, (i < n)%nat -> (j < m)%nat -> isin (X i j) (x i j)) -> (i < n)%nat ->
     ub (sval (mmax_norm n m X)) (vsum m (fun j => Rabs (x i j)))) /\
  (forall (X : nat -> bscal b) x i, (forall i, (i < n)%nat -> sval (X i) = XR (x i)) -> (i < n)%nat -> ub (sval (vmax_normS n X)) (Rabs (x i))) /\
  (forall (X : nat -> nat -> bscal b) x i, (forall i j, (i < n)%nat -> (j < m)%nat -> sval (X i j) = XR (x i j)) -> (i < n)%nat ->
     ub (sval (mmax_normS n m X)) (vsum m (fun j => Rabs (x i j)))).
Proof.
  intros b n m. pose proof (bscal_ok b) as OK. pose proof (nn_wf _ (bscal_nan b)) as W. split; [|split; [|split]].
  - exact (vmax_norm_ub OK W n).
  - exact (mmax_norm_ub OK W n m).
  - exact (vmax_normS_ub OK W n).
  - exact (mmax_normS_ub OK W n m).
Qed.
Print Assumptions C62_max_norm.
Example C62_ex : valid_box 2 (fun i : nat => qiv (-1) 0 (Z.of_nat i + 1) 0) /\ vin 2 (fun i : nat => qiv (-1) 0 (Z.of_nat i + 1) 0) (fun i => / 2).
Proof.
  assert (H : vin 2 (fun i : nat => qiv (-1) 0 (Z.of_nat i + 1) 0) (fun i => / 2)).
  { intros i Hi. destruct i as [|[|]]; [| |lia]; qin. }
  split; auto. intros i Hi. exact (isin_valid _ _ (H i Hi)).
Qed.
