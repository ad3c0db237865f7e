(* Property theorems: the all-solution search of kv/allsol.hpp (C50, C75, C76, C77), for every double back end, every dimension. *)
From Coq Require Import Reals Lra Lia ZArith Bool Arith List FunctionalExtensionality.
From Flocq Require Import Core BinarySingleNaN.
From Verif Require Import Fp64 RDoubleHw.
From Verif Require Import Ext Scalar IntervalModel IntervalSpec IntervalProofs IntervalEncl Backends Ex64 Elem64 ElemModel PsaModel PropsElem.
From Verif Require Import LinAlg RealRn VecModel VecProofs VecMore KrawProofs VecInst ADModel ADSys Expr PropsSys PropsLin.
From Verif Require Import AllsolModel AllsolRec AllsolProofs.
Import ListNotations.
Open Scope R_scope.

(* boxes produced by shrinking are bounded: recovery_inflation did not overflow *)
Definition trims_bounded {S : scal} (n : nat) (st : fstate S) : Prop := forall B, In B (ftrim st) -> bounded_box n B.

(* ---- C50 for allsol ---- *)
(* every zero in an initial box, and every zero in a box of the list passed as rest, is in a returned box or in a box of rest *)
Theorem C50_allsol_partial : forall (b : backend) n fI fD inv giveup f fuel ts rest0 st,
  @val_ext (bscal b) n fI f -> slope_ext n fD f -> no_inf_inverse n inv ->
  allsol_list n fI fD inv giveup fuel ts rest0 = Ok st ->
  (forall T, In T (ts ++ rest0) -> valid_box n T) ->
  trims_bounded n st ->
  (* no box was discarded at 715 with 0 in A *)
  frisk st = false ->
  forall x T, In T (ts ++ rest0) -> vin n T x -> (forall i, (i < n)%nat -> f x i = 0) ->
    (exists s, In s (fsols st) /\ vin n (fst s) x) \/ (exists B, In B (frest st) /\ vin n B x).
Proof.
  intros b n fI fD inv giveup f fuel ts rest0 st FI FD INV H V FS NR. intros x T IT Hx Zx.
  apply (allsol_complete (bscal_ok b) (bscal_nan b) n fI fD inv giveup f (fun _ => True)) with (fuel := fuel) (ts := ts) (rest0 := rest0);
    try (intros; exact I); auto.
  - intros X Y y E Hy _. eapply FI; eauto.
  - apply bscal_mid.
  - apply midi_ok.
  - apply rec1_ok.
  - apply rec2_ok.
  - apply Forall_forall. intros B HB. apply V. apply in_or_app; auto.
  - apply Forall_forall. intros B HB. apply V. apply in_or_app; auto.
  - split; auto.
  - exists T. auto.
Qed.

(* ---- C75 ---- *)
Theorem C75_allsol_exact : forall (b : backend) n fI fD inv giveup f fuel ts rest0 st,
  @val_ext (bscal b) n fI f -> slope_ext n fD f -> no_inf_inverse n inv ->
  allsol_list n fI fD inv giveup fuel ts rest0 = Ok st ->
  (forall T, In T (ts ++ rest0) -> valid_box n T) ->
  trims_bounded n st ->
  exists zs : list (nat -> R),
    Forall2 (fun s z => vin n (fst s) z /\ (forall i, (i < n)%nat -> f z i = 0) /\
        (forall i r, (i < n)%nat -> isin (fst s i) r -> isin (snd s i) r) /\
        (forall y, vin n (snd s) y -> (forall i, (i < n)%nat -> f y i = 0) -> forall i, (i < n)%nat -> y i = z i)) (fsols st) zs /\
    ForallOrdPairs (fun z z' => ~ forall i, (i < n)%nat -> z i = z' i) zs.
Proof.
  intros b n fI fD inv giveup f fuel ts rest0 st FI FD INV H V FS.
  destruct (allsol_exact (bscal_ok b) (bscal_nan b) n fI fD inv giveup f (fun _ => True)) with (fuel := fuel) (ts := ts) (rest0 := rest0) (st' := st) as (zs & A & B);
    try (intros; exact I); auto.
  - intros X Y y E Hy _. eapply FI; eauto.
  - apply bscal_mid.
  - apply midi_ok.
  - apply rec1_ok.
  - apply rec2_ok.
  - apply Forall_forall. intros B HB. apply V. apply in_or_app; auto.
  - apply Forall_forall. intros B HB. apply V. apply in_or_app; auto.
  - exists zs. split; auto. clear - A. induction A as [|s z ls zs (A1 & (_ & A2) & A3 & A4)]; constructor; auto.
    split; auto. split; auto. split; auto. intros y Hy Zy. apply A4; auto. split; auto.
Qed.
(* the same for systems of equations given by expressions; zeros are points of the domain *)
Theorem C75_allsol_exact_expressions : forall (b : backend) fuel0 fuel n fs inv giveup ts rest0 st,
  sys_wf n fs -> no_inf_inverse n inv ->
  allsol_list n (sysI (bpar b) fuel0 n fs) (sysD (bpar b) fuel0 n fs) inv giveup fuel ts rest0 = Ok st ->
  (forall T, In T (ts ++ rest0) -> valid_box n T) ->
  trims_bounded n st ->
  exists zs : list (nat -> R),
    Forall2 (fun s z => vin n (fst s) z /\ sys_zero n fs z /\
        (forall i r, (i < n)%nat -> isin (fst s i) r -> isin (snd s i) r) /\
        (forall y, vin n (snd s) y -> sys_zero n fs y -> forall i, (i < n)%nat -> y i = z i)) (fsols st) zs /\
    ForallOrdPairs (fun z z' => ~ forall i, (i < n)%nat -> z i = z' i) zs.
Proof.
  intros b fuel0 fuel n fs inv giveup ts rest0 st WF INV H V FS.
  destruct (allsol_exact (bscal_ok b) (bscal_nan b) n (sysI (bpar b) fuel0 n fs) (sysD (bpar b) fuel0 n fs) inv giveup (sysf fs) (sysdom n fs))
    with (fuel := fuel) (ts := ts) (rest0 := rest0) (st' := st) as (zs & A & B); auto.
  - intros X Y y E Hy Dy. exact (sysI_ok (bok b) (bpar b) (bexp b) (blog b) (btrig b) fuel0 n fs WF X Y y E Hy Dy).
  - exact (diff_slope _ _ _ _ (sysD_diff (bok b) (bpar b) (bexp b) (blog b) (btrig b) fuel0 n fs WF)).
  - apply (sysD_dom (bok b) (bpar b) (bexp b) (blog b) (btrig b) fuel0 n fs WF).
  - apply bscal_mid.
  - apply midi_ok.
  - apply rec1_ok.
  - apply rec2_ok.
  - apply Forall_forall. intros B HB. apply V. apply in_or_app; auto.
  - apply Forall_forall. intros B HB. apply V. apply in_or_app; auto.
  - exists zs. split; auto. clear - A. induction A as [|s z ls zs (A1 & (A2 & A2') & A3 & A4)]; constructor; auto.
    split; auto. split; [|split; auto].
    + intros k Hk. split; [apply A2|apply A2']; auto.
    + intros y Hy Zy. apply A4; auto. split; intros k Hk; apply (Zy k Hk).
Qed.

(* ---- C77: one equation ---- *)
Theorem C77_allsol_one_equation : forall (b : backend) fuel0 fuel fs inv giveup ts rest0 st,
  sys_wf 1 fs -> no_inf_inverse 1 inv ->
  allsol_list 1 (sysI (bpar b) fuel0 1 fs) (sysD (bpar b) fuel0 1 fs) inv giveup fuel ts rest0 = Ok st ->
  (forall T, In T (ts ++ rest0) -> valid_box 1 T) ->
  trims_bounded 1 st ->
  forall x T, In T (ts ++ rest0) -> vin 1 T x -> sys_zero 1 fs x ->
    (exists s, In s (fsols st) /\ vin 1 (fst s) x) \/ (exists B, In B (frest st) /\ vin 1 B x).
Proof.
  intros b fuel0 fuel fs inv giveup ts rest0 st WF INV H V FS x T IT Hx Zx.
  assert (P : forall X Y y, sysI (bpar b) fuel0 1 fs X = Ok Y -> vin 1 X y -> sysdom 1 fs y -> vin 1 Y (sysf fs y)).
  { intros X Y y E Hy Dy. exact (sysI_ok (bok b) (bpar b) (bexp b) (blog b) (btrig b) fuel0 1 fs WF X Y y E Hy Dy). }
  pose proof (diff_slope _ _ _ _ (sysD_diff (bok b) (bpar b) (bexp b) (blog b) (btrig b) fuel0 1 fs WF)) as FD.
  pose proof (sysD_dom (bok b) (bpar b) (bexp b) (blog b) (btrig b) fuel0 1 fs WF) as DD.
  assert (V1 : Forall (vvalid 1) ts) by (apply Forall_forall; intros B HB; apply V; apply in_or_app; auto).
  assert (V2 : Forall (vvalid 1) rest0) by (apply Forall_forall; intros B HB; apply V; apply in_or_app; auto).
  apply (allsol_complete (bscal_ok b) (bscal_nan b) 1 (sysI (bpar b) fuel0 1 fs) (sysD (bpar b) fuel0 1 fs) inv giveup (sysf fs) (sysdom 1 fs) P FD DD INV
    (bscal_mid b) (midi_ok b) (rec1_ok b) (rec2_ok b) fuel ts rest0 st H V1 V2 FS); [|split; intros k Hk; apply (Zx k Hk)|exists T; auto].
  exact (allsol_risk1 (bscal_ok b) (bscal_nan b) 1 (sysI (bpar b) fuel0 1 fs) (sysD (bpar b) fuel0 1 fs) inv giveup (sysf fs) (sysdom 1 fs) P FD DD INV
    (bscal_mid b) (midi_ok b) (rec1_ok b) (rec2_ok b) fuel ts rest0 st eq_refl H V1 V2 FS).
Qed.

(* ---- examples ---- *)
Definition trims_fin (n : nat) (st : fstate D_hw) : bool :=
  forallb (fun B => forallb (fun i => sf_fin (lo (B i)) && sf_fin (hi (B i))) (seq 0 n)) (ftrim st).
Definition zg : D_hw := bdy 0 0.
(* x0 - 1 + x1/4 = 0, x0 - x1 - 1/4 = 0 on [-2,2]^2: one solution, found after shrinking; nothing left in rest *)
Definition lin_fs (k : nat) : aexpr :=
  match k with O => XAdd (XSc SOsub 1 0 (XVar 0)) (XSc SOmul 1 (-2) (XVar 1)) | _ => XSc SOsub 1 (-2) (XSub (XVar 0) (XVar 1)) end.
Example C75_wf : sys_wf 2 lin_fs.
Proof. intros [|[|k]] Hk; cbn; repeat split; lia. Qed.
Example C75_ex : match allsol 2 (sysI (bpar BHw) 50 2 lin_fs) (sysD (bpar BHw) 50 2 lin_fs) inv2 zg 20 ex_box [] with
  | Ok st => (length (fsols st) =? 1)%nat && (length (frest st) =? 0)%nat && (1 <=? length (ftrim st))%nat && trims_fin 2 st && negb (frisk st)
  | _ => false end = true.
Proof. vm_compute. reflexivity. Qed.
(* x^2 - 2 = 0 on [-2,2]: two solutions *)
Definition sq_fs (k : nat) : aexpr := XSc SOsub 2 0 (XMul (XVar 0) (XVar 0)).
Example C77_wf : sys_wf 1 sq_fs.
Proof. intros k Hk; cbn; repeat split; lia. Qed.
Example C50_C77_ex : valid_box 1 box4 /\
  match allsol 1 (sysI (bpar BHw) 50 1 sq_fs) (sysD (bpar BHw) 50 1 sq_fs) inv1f zg 50 box4 [] with
  | Ok st => (length (fsols st) =? 2)%nat && (length (frest st) =? 0)%nat && (1 <=? length (ftrim st))%nat && trims_fin 1 st && negb (frisk st)
  | _ => false end = true.
Proof. split; [intros i Hi; qval 0|]. vm_compute. reflexivity. Qed.

(* ---- C50 is false for allsol: a zero is lost ---- *)
(* x0 - 1 + x1/4 = 0, x0^3 - x0 = 0 on [-2,2]^2.  The point (1,0) is a zero.  Row 0 cuts x0 to [1/2,3/2].  In row 1 the
   slope of x0 is an interval with 0 inside and the constant term is [0,0]; their division gives {0}, so J = {0}, which does
   not meet [1/2,3/2], and the box is discarded. *)
Definition lost_fs (k : nat) : aexpr :=
  match k with O => XAdd (XSc SOsub 1 0 (XVar 0)) (XSc SOmul 1 (-2) (XVar 1)) | _ => XSub (XMul (XMul (XVar 0) (XVar 0)) (XVar 0)) (XVar 0) end.
Theorem C50_allsol_zero_lost_refuted : exists n fs inv st x,
  sys_wf n fs /\ no_inf_inverse n inv /\
  allsol n (sysI (bpar BHw) 50 n fs) (sysD (bpar BHw) 50 n fs) inv zg 20 ex_box [] = Ok st /\
  valid_box n ex_box /\ trims_bounded n st /\ vin n ex_box x /\ sys_zero n fs x /\ fsols st = [] /\ frest st = [].
Proof.
  assert (Q : (match allsol 2 (sysI (bpar BHw) 50 2 lost_fs) (sysD (bpar BHw) 50 2 lost_fs) inv2 zg 20 ex_box [] with
     Ok st => (length (fsols st) =? 0)%nat && (length (frest st) =? 0)%nat && (length (ftrim st) =? 0)%nat
     | _ => false end) = true) by (vm_compute; reflexivity).
  destruct (allsol 2 (sysI (bpar BHw) 50 2 lost_fs) (sysD (bpar BHw) 50 2 lost_fs) inv2 zg 20 ex_box []) as [st|] eqn:E; [|discriminate].
  exists 2%nat, lost_fs, inv2, st, (fun i => match i with O => 1 | _ => 0 end).
  split; [intros [|[|k]] Hk; cbn; repeat split; lia|]. split; [exact inv2_fin|]. split; [exact E|]. clear E.
  apply andb_prop in Q as [Q Q3]. apply andb_prop in Q as [Q1 Q2]. apply Nat.eqb_eq, length_zero_iff_nil in Q1, Q2, Q3.
  split; [intros i Hi; qval 0|]. split; [intros B; rewrite Q3; intros []|].
  split; [intros [|i] Hi; qin|]. split; [|auto].
  intros [|[|k]] Hk; [| |lia]; simpl; unfold ADReal.dy; simpl; repeat split; lra.
Qed.
(* ... and on huge boxes: x*2^-100 - m*2^871 with m = 15*2^49 = 0 on [-max,max].  recovery_inflation overflows, the shrunk box is [-inf,inf],
   its mid is NaN and the mean value form drops the box *)
Definition huge_fs (k : nat) : aexpr := XSc SOsub 8444249301319680 871 (XSc SOmul 1 (-100) (XVar 0)).
Definition huge_box (i : nat) : iv D_hw := mkiv (sneg smax) smax.
Theorem C50_allsol_overflow_refuted : exists fs inv st x,
  sys_wf 1 fs /\ no_inf_inverse 1 inv /\
  allsol 1 (sysI (bpar BHw) 50 1 fs) (sysD (bpar BHw) 50 1 fs) inv zg 20 huge_box [] = Ok st /\
  valid_box 1 huge_box /\ bounded_box 1 huge_box /\ frisk st = false /\ vin 1 huge_box x /\ sys_zero 1 fs x /\ fsols st = [] /\ frest st = [].
Proof.
  assert (Q : (match allsol 1 (sysI (bpar BHw) 50 1 huge_fs) (sysD (bpar BHw) 50 1 huge_fs) inv1f zg 20 huge_box [] with
     Ok st => (length (fsols st) =? 0)%nat && (length (frest st) =? 0)%nat && negb (frisk st)
     | _ => false end) = true) by (vm_compute; reflexivity).
  destruct (allsol 1 (sysI (bpar BHw) 50 1 huge_fs) (sysD (bpar BHw) 50 1 huge_fs) inv1f zg 20 huge_box []) as [st|] eqn:E; [|discriminate].
  exists huge_fs, inv1f, st, (fun i => 8444249301319680 * bpow radix2 971).
  split; [intros k Hk; cbn; repeat split; lia|]. split; [exact inv1f_fin|]. split; [exact E|]. clear E.
  apply andb_prop in Q as [Q Q3]. apply andb_prop in Q as [Q1 Q2]. apply Nat.eqb_eq, length_zero_iff_nil in Q1, Q2. apply negb_true_iff in Q3.
  pose proof maxR_pos as MP.
  assert (NM : v64 (Bopp (bmax : b64)) = XR (- maxR)) by (rewrite Bopp_v, bmax_v; reflexivity).
  assert (IN : forall r, - maxR <= r <= maxR -> isin (huge_box 0%nat) r).
  { intros r Hr. split; [exact I|split; [exact I|]]. change (lb (v64 (Bopp (bmax : b64))) r /\ ub (v64 (bmax : b64)) r). rewrite NM, bmax_v. exact Hr. }
  split; [intros i Hi; apply isin_valid with 0, IN; lra|].
  split; [intros i Hi; split; [change (is_fin (v64 (Bopp (bmax : b64)))); rewrite NM|change (is_fin (v64 (bmax : b64))); rewrite bmax_v]; exact I|].
  split; [auto|]. split.
  { intros i Hi. apply IN. unfold maxR. replace (bpow radix2 1024) with (9007199254740992 * bpow radix2 971) by (change 9007199254740992 with (bpow radix2 53); rewrite <- bpow_plus; reflexivity).
    pose proof (bpow_gt_0 radix2 971). lra. }
  split; [|auto]. intros k Hk. cbn -[bpow IZR]. unfold ADReal.dy. repeat split. rewrite Rmult_1_l, Rmult_assoc, <- bpow_plus. replace (971 + -100)%Z with 871%Z by reflexivity. ring.
Qed.

(* ---- C76: a box that is a single point and a zero is examined for ever ---- *)
(* f(x) = x - 1 on [1,1]: K(I) = I is not inside the interior of I, so the zero is not accepted; widthratio_max(K,I) starts
   from 0 and 0/0 never exceeds it, so K counts as much smaller than I and goes back to the list of targets *)
Definition ptI (X : nat -> iv D_hw) : res (nat -> iv D_hw) := let x := X 0%nat in let y := isub x (qiv 1 0 1 0) in Ok (fun _ => y).
Definition ptD (X : nat -> iv D_hw) : res ((nat -> iv D_hw) * (nat -> nat -> iv D_hw)) :=
  let x := X 0%nat in let y := isub x (qiv 1 0 1 0) in Ok (fun _ => y, fun _ _ => qiv 1 0 1 0).
Definition ptf (x : nat -> R) (i : nat) : R := x 0%nat - 1.
Definition pt_box (i : nat) : iv D_hw := qiv 1 0 1 0.
Lemma ptI_ext : @val_ext D_hw 1 ptI ptf.
Proof.
  intros X Y y E Hy i Hi. injection E as <-. apply (isin_sub (bscal_ok BHw)); [apply Hy; lia|]. qin.
Qed.
Lemma ptD_ext : @slope_ext D_hw 1 ptD ptf.
Proof.
  intros X Y J E. injection E as <- <-. split.
  - intros x H. exact (ptI_ext X _ x eq_refl H).
  - intros x y Hx Hy. exists (fun _ _ => 1). split; [intros i j Hi Hj; qin|].
    intros k Hk. unfold ptf, mv. simpl. ring.
Qed.
Definition is1 (x : D_hw) : bool := match B2SF (x : b64) with SpecFloat.S754_finite false m e => Pos.eqb m 4503599627370496 && Z.eqb e (-52) | _ => false end.
Definition at1 (g : nat -> iv D_hw) : nat -> iv D_hw := fun i => if Nat.eqb i 0 then qiv 1 0 1 0 else g i.
Lemma is1_eq x : is1 x = true -> x = bdy 1 0.
Proof.
  intros H. apply (B2SF_inj 53 1024). transitivity (SpecFloat.S754_finite false 4503599627370496 (-52)); [|vm_compute; reflexivity].
  unfold is1 in H. destruct (B2SF x) as [| | |[] m e]; try discriminate.
  apply andb_prop in H as [H1 H2]. apply Pos.eqb_eq in H1. apply Z.eqb_eq in H2. subst. reflexivity.
Qed.
Lemma at1_eq (B : nat -> iv D_hw) : is1 (lo (B 0%nat)) && is1 (hi (B 0%nat)) = true -> B = at1 B.
Proof.
  intros H. apply andb_prop in H as [H1 H2]. apply functional_extensionality. intros [|i]; [|reflexivity]. unfold at1. simpl Nat.eqb. cbv iota.
  destruct (B 0%nat) as [l h]. cbn [lo hi] in H1, H2. rewrite (is1_eq l H1), (is1_eq h H2). reflexivity.
Qed.
Lemma fstep_pt fuel sl rt tr rk g :
  match fstep 1 ptI ptD inv1f zg fuel (mkfst [] sl rt tr rk) (at1 g) with
  | Ok st => match ftargets st with [B] => is1 (lo (B 0%nat)) && is1 (hi (B 0%nat)) | _ => false end | _ => false end = true.
Proof. vm_compute. reflexivity. Qed.
Lemma astep_pt fuel sl sm sn g :
  match astep 1 ptI ptD inv1f fuel (mkast [] sl sm sn) (at1 g) with
  | Ok st => match targets st with [B] => is1 (lo (B 0%nat)) && is1 (hi (B 0%nat)) | _ => false end | _ => false end = true.
Proof. vm_compute. reflexivity. Qed.
Theorem C76_point_box_never_ends : exists (f : (nat -> R) -> nat -> R) fI fD inv B,
  @val_ext D_hw 1 fI f /\ slope_ext 1 fD f /\ no_inf_inverse 1 inv /\ valid_box 1 B /\ bounded_box 1 B /\
  (* B is a point and a zero *)
  (forall x, vin 1 B x -> f x 0%nat = 0) /\
  forall fuel, allsol 1 fI fD inv zg fuel B [] = Err EFuel /\ allsol_simple 1 fI fD inv fuel B = Err EFuel.
Proof.
  assert (V1 : v64 (bdy 1 0) = XR 1) by (change (@sval D_hw (bdy 1 0) = XR 1); rewrite bdy_v by lia; apply f_equal; simpl; lra).
  exists ptf, ptI, ptD, inv1f, pt_box. split; [exact ptI_ext|]. split; [exact ptD_ext|]. split; [exact inv1f_fin|].
  split; [intros i Hi; qval 1|]. split; [intros i Hi; split; change (is_fin (v64 (bdy 1 0))); rewrite V1; exact I|].
  split.
  { intros x Hx. destruct (Hx 0%nat (Nat.lt_0_1)) as (_ & _ & Ha & Hb). unfold ptf.
    change (lb (v64 (bdy 1 0)) (x 0%nat)) in Ha. change (ub (v64 (bdy 1 0)) (x 0%nat)) in Hb. rewrite V1 in Ha, Hb. simpl in Ha, Hb. lra. }
  intros fuel. replace pt_box with (at1 pt_box) by (apply functional_extensionality; intros [|i]; reflexivity).
  unfold allsol, allsol_list, allsol_simple, allsol_list_simple. split.
  - enough (A : forall fuel sl rt tr rk g, floop 1 ptI ptD inv1f zg fuel (mkfst [at1 g] sl rt tr rk) = Err EFuel) by apply A.
    clear fuel. induction fuel as [|fuel IH]; intros; [reflexivity|].
    cbn [floop ftargets fsols frest ftrim frisk]. pose proof (fstep_pt (S fuel) sl rt tr rk g) as Q.
    destruct (fstep 1 ptI ptD inv1f zg (S fuel) (mkfst [] sl rt tr rk) (at1 g)) as [[ts sl' rt' tr' rk']|]; [|discriminate Q].
    cbn [ftargets] in Q. destruct ts as [|B [|B' ts]]; try discriminate Q. cbn [bind]. rewrite (at1_eq B Q). apply IH.
  - enough (A : forall fuel sl sm sn g, aloop 1 ptI ptD inv1f fuel (mkast [at1 g] sl sm sn) = Err EFuel) by apply A.
    clear fuel. induction fuel as [|fuel IH]; intros; [reflexivity|].
    cbn [aloop targets sols small seen]. pose proof (astep_pt (S fuel) sl sm (sn ++ [at1 g]) g) as Q.
    destruct (astep 1 ptI ptD inv1f (S fuel) (mkast [] sl sm (sn ++ [at1 g])) (at1 g)) as [[ts sl' sm' sn']|]; [|discriminate Q].
    cbn [targets] in Q. destruct ts as [|B [|B' ts]]; try discriminate Q. cbn [bind]. rewrite (at1_eq B Q). apply IH.
Qed.

Definition allsol_all := (C50_allsol_partial, C75_allsol_exact, C75_allsol_exact_expressions, C77_allsol_one_equation, C50_allsol_zero_lost_refuted, C50_allsol_overflow_refuted, C76_point_box_never_ends).
Print Assumptions allsol_all.
