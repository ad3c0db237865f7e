(* Property theorems: doubleintegral and doubleintegral_triangle (C94, C95), for every double back end, every order, every expression in two variables. *)
From Coq Require Import Reals ZArith Bool List Lra Lia Psatz Arith.
From Coquelicot Require Import Coquelicot.
From Flocq Require Import Core BinarySingleNaN.
From Verif Require Import Fp64 RDoubleHw.
From Verif Require Import Ext Scalar IntervalModel IntervalSpec IntervalProofs IntervalEncl IntervalSets Backends Ex64 ElemModel PropsElem.
From Verif Require Import RealFun ADModel ADReal ADProofs ADInst PsaModel PsaReal PsaProofs PsaExpr PsaUse PsaUseProofs PsaInst PropsPsa PsaInt.
From Verif Require Import PsaHist PropsPsaHist DblModel DblBase DblInt DblProofs DblFun.
Import List ListNotations.
Open Scope R_scope.

(* interval<T>(-r.upper(), r.upper()) *)
Definition dsym (b : backend) (X : iv (bscal b)) : iv (bscal b) := mkiv (sneg (hi X)) (hi X).
(* x is between a1 and the end of the row at height y: b1, or the line from (b1, a2) to (a1, b2) *)
Definition row_end (triangle : bool) (a1 b1 a2 b2 y : R) : R := if triangle then b1 - (b1 - a1) / (b2 - a2) * (y - a2) else b1.
(* V is the iterated integral of f over a2 <= y <= b2, a1 <= x <= e y *)
Definition is_double (f : R -> R -> R) (a1 a2 b2 : R) (e : R -> R) (V : R) : Prop :=
  exists J, (forall y, a2 <= y <= b2 -> is_RInt (fun x => f x y) a1 (e y) (J y)) /\ is_RInt J a2 b2 V.
Definition at2 (e : aexpr) (x y : R) : R := rval e (fun i => match i with O => x | _ => y end).
Definition defined2 (e : aexpr) (x y : R) : Prop := adom e (fun i => match i with O => x | _ => y end).

Lemma dsym_law b (X : iv (bscal b)) r u : isin X r -> - r <= u <= r -> isin (dsym b X) u.
Proof.
  intros (W1 & W2 & L & U) Hu. destruct (ok_neg _ (bok b) (hi X) W2) as [WN EN]. unfold dsym, isin; cbn [lo hi].
  split; [exact WN|]. split; [exact W2|]. rewrite EN. destruct (sval (hi X)); simpl in *; try tauto. split; lra.
Qed.
Lemma iabs_law b (X : iv (bscal b)) x : isin X x -> isin (iabs X) (Rabs x).
Proof. intros H. apply (isin_abs (bok b)); [exact (isin_valid _ _ H)|]. now exists x. Qed.

(* ---- C94 ---- *)
Theorem C94_encloses_partial : forall b fuel md md' e (start1 end1 start2 end2 : iv (bscal b)) order n triangle v a1 b1 a2 b2,
  (1 <= order)%Z -> (order < 2 ^ 52)%Z -> (1 <= n <= 2 ^ 53)%Z -> awf 2 e -> plog e -> noarc e = true ->
  isin start1 a1 -> isin end1 b1 -> isin start2 a2 -> isin end2 b2 -> a1 <= b1 -> a2 <= b2 ->
  doubleintegral (B:=IB b fuel) (dsym b) md (psafun2 (IB b fuel) e) start1 end1 start2 end2 order n triangle = (Ok v, md') ->
  (triangle = true -> a2 < b2) /\
  (forall x y, a2 <= y <= b2 -> a1 <= x <= row_end triangle a1 b1 a2 b2 y -> defined2 e x y) /\
  exists V, is_double (at2 e) a1 a2 b2 (row_end triangle a1 b1 a2 b2) V /\ isin (v : iv (bscal b)) V.
Proof.
  intros b fuel md md' e start1 end1 start2 end2 order n triangle v a1 b1 a2 b2 O1 O2 N W P NA H1 H2 H3 H4 L1 L2 E.
  assert (K1 : (1 <= Z.to_nat order)%nat) by lia. assert (K2 : (Z.of_nat (S (Z.to_nat order)) <= 2 ^ 52)%Z) by lia.
  destruct (dbl_ok (IB b fuel) _ (IOK b fuel) (isin_itv b fuel) (dsym b) (dsym_law b) (Z.to_nat order) K1 K2 (psafun2 (IB b fuel) e) (Fe e) (De e) (Fe_cont e W NA)
    (fe_point (IB b fuel) _ (IOK b fuel) (isin_itv b fuel) (dsym b) (dsym_law b) e W P NA _ K1 K2) md md' start1 end1 start2 end2 order n triangle v a1 b1 a2 b2) as (DM & T & J & V & HJ & HV & Hv); auto.
  split; [exact T|]. split; [intros x y Hy Hx; exact (DM x y Hy Hx)|]. exists V. split; [exists J; split; [exact HJ|exact HV]|exact Hv].
Qed.
(* exp(x) log(y) + x^3 / sqrt(y) *)
Definition C94_e : aexpr := XAdd (XMul (XFun Aexp (XVar 0)) (XFun Alog (XVar 1))) (XDiv (XPowZ (XVar 0) 3) (XFun Asqrt (XVar 1))).
Local Notation C94_run md e tri a b c d order n := (doubleintegral (B:=IB BHw 60) (dsym BHw) md (psafun2 (IB BHw 60) e) a b c d order n tri).
Definition C94_in (r : res (iv D_hw)) (l u : b64) : bool := match r with Ok v => Bleb l (lo v : b64) && Bleb (hi v : b64) u | _ => false end.
Definition C94_sq : aexpr := XMul (XVar 0) (XVar 0).
(* exp(x) log(y) + ... on [0,1] x [1,2]; x^2 y on the triangle with the corners (0,0), (1,0), (0,1), three cells *)
Example C94_case : awf 2 C94_e /\ plog C94_e /\ noarc C94_e = true /\
  C94_in (fst (C94_run (1, 1)%Z C94_e false (qiv 0 0 0 0) (qiv 1 0 1 0) (qiv 1 0 1 0) (qiv 2 0 2 0) 1 1)) (bdy (-1) 2) (bdy 1 3) = true /\
  C94_in (fst (C94_run (1, 1)%Z (XMul C94_sq (XVar 1)) true (qiv 0 0 0 0) (qiv 1 0 1 0) (qiv 0 0 0 0) (qiv 1 0 1 0) 2 2)) (bdy (-1) (-5)) (bdy 1 (-4)) = true.
Proof. split; [simpl; repeat split; lia|]. split; [simpl; intuition discriminate|]. split; [reflexivity|]. split; vm_compute; reflexivity. Qed.
(* start1 > end1: domain() has its ends exchanged; the integral of x^2 from 1 to 0 (y from 0 to 1), order 1, is said to be in an interval that does not contain -1/3 *)
Local Notation C94_rev := (C94_run (1, 1)%Z C94_sq false (qiv 1 0 1 0) (qiv 0 0 0 0) (qiv 0 0 0 0) (qiv 1 0 1 0) 1 1).
Theorem C94_reversed_refuted : exists v md' V, C94_rev = (Ok v, md') /\ is_double (at2 C94_sq) 1 0 1 (fun _ => 0) V /\ ~ isin (v : iv D_hw) V.
Proof.
  assert (H : match fst C94_rev with Ok v => sle (bdy (-1) (-2) : D_hw) (lo (v : iv D_hw)) | _ => false end = true) by (vm_compute; reflexivity).
  destruct C94_rev as [[v|] md'] eqn:E; [|discriminate H]. clear E. cbn [fst] in H.
  exists v, md', (- / 3). split; [reflexivity|]. split.
  - exists (fun _ => - / 3). split.
    + intros y _. replace (- / 3) with (minus ((fun t => t ^ 3 / 3) 0) ((fun t => t ^ 3 / 3) 1)) by (unfold minus, plus, opp; simpl; field).
      apply (is_RInt_derive (fun t => t ^ 3 / 3) (fun x => at2 C94_sq x y)); intros t _.
      * unfold at2. simpl rval. auto_derive; auto. simpl. field.
      * unfold at2. simpl rval. apply (continuous_mult (K:=R_AbsRing) (fun x : R => x) (fun x : R => x)); apply continuous_id.
    + pose proof (is_RInt_const (V:=R_NormedModule) 0 1 (- / 3)) as K. unfold Hierarchy.scal in K; simpl in K. unfold mult in K; simpl in K. replace ((1 - 0) * - / 3) with (- / 3) in K by ring. exact K.
  - intros (_ & _ & L & _). apply (ok_le _ (bok BHw)) in H; try exact Logic.I. change (bscal BHw) with D_hw in *. rewrite qv in H by lia.
    destruct (sval (lo (v : iv D_hw))); simpl in *; try tauto. lra.
Qed.
(* order 0: v(1) of a vector of size 1 *)
Theorem C94_order_zero_refuted : exists r, C94_run (1, 1)%Z C94_sq false (qiv 0 0 0 0) (qiv 1 0 1 0) (qiv 0 0 0 0) (qiv 1 0 1 0) 0 1 = (Err EUB, r).
Proof. eexists. reflexivity. Qed.
(* the two mode(), those of psa<interval<T>> and of psa< psa<interval<T>> > *)
Theorem C94_modes : forall b fuel md md' f (start1 end1 start2 end2 : iv (bscal b)) order n triangle v,
  doubleintegral (B:=IB b fuel) (dsym b) md f start1 end1 start2 end2 order n triangle = (Ok v, md') ->
  fst md' = (if (fst md =? 0)%Z then 0 else 1)%Z /\ snd md' = (if (snd md =? 0)%Z then 0 else 1)%Z.
Proof.
  intros b fuel md md' f start1 end1 start2 end2 order n triangle v E. unfold doubleintegral in E.
  destruct (dbl_steps _ _ _ _ _) as [[[[s1 s2] r1] r2]|]; [|discriminate]. destruct (order <? 1)%Z; [discriminate|].
  match type of E with match ?X with _ => _ end = _ => destruct X as [w|] end; [|discriminate]. inversion E. split; reflexivity.
Qed.
Theorem C94_independent : forall b fuel md1 md2 f (start1 end1 start2 end2 : iv (bscal b)) order n triangle,
  fst (doubleintegral (B:=IB b fuel) (dsym b) md1 f start1 end1 start2 end2 order n triangle) = fst (doubleintegral (B:=IB b fuel) (dsym b) md2 f start1 end1 start2 end2 order n triangle).
Proof.
  intros. unfold doubleintegral. destruct (dbl_steps _ _ _ _ _) as [[[[s1 s2] r1] r2]|]; [|reflexivity]. destruct (order <? 1)%Z; [reflexivity|].
  match goal with |- fst (match ?X with _ => _ end) = _ => destruct X end; reflexivity.
Qed.
(* mode 2 comes back as mode 1; the exception of 1 / x1 on [-1, 1] leaves both modes at 2 *)
Local Notation C94_mode := (C94_run (2, 0)%Z C94_sq false (qiv 0 0 0 0) (qiv 1 0 1 0) (qiv 0 0 0 0) (qiv 1 0 1 0) 1 1).
Theorem C94_mode_refuted : returns (fst C94_mode) = true /\ snd C94_mode = (1, 0)%Z.
Proof. split; vm_compute; reflexivity. Qed.
Local Notation C94_exc := (C94_run (0, 1)%Z (XSc SOdivr 1 0 (XVar 0)) false (qiv (-1) 0 (-1) 0) (qiv 1 0 1 0) (qiv 0 0 0 0) (qiv 1 0 1 0) 1 1).
Theorem C94_exception_refuted : fst C94_exc = Err EDomain /\ snd C94_exc = (2, 2)%Z.
Proof. split; [apply throws_eq; vm_compute; reflexivity|vm_compute; reflexivity]. Qed.

(* ---- C95: the triangle with the corners (x1, y1), (x2, y2), (x3, y3) is the image of p, q >= 0, p + q <= 1 under the affine map below,
   whose functional determinant is the J of the code ---- *)
Definition map3 (z1 z2 z3 p q : R) : R := z1 + (z2 - z1) * p + (z3 - z1) * q.
Theorem C95_encloses_partial : forall b fuel md md' e (X1 Y1 X2 Y2 X3 Y3 : iv (bscal b)) order n v x1 y1 x2 y2 x3 y3,
  (1 <= order)%Z -> (order < 2 ^ 52)%Z -> (1 <= n <= 2 ^ 53)%Z -> awf 2 e -> plog e -> noarc e = true ->
  isin X1 x1 -> isin Y1 y1 -> isin X2 x2 -> isin Y2 y2 -> isin X3 x3 -> isin Y3 y3 ->
  doubleintegral_triangle (B:=IB b fuel) (dsym b) (iabs : iv (bscal b) -> iv (bscal b)) md e X1 Y1 X2 Y2 X3 Y3 order n = (Ok v, md') ->
  (forall p q, 0 <= p -> 0 <= q -> p + q <= 1 -> defined2 e (map3 x1 x2 x3 p q) (map3 y1 y2 y3 p q)) /\
  exists V, is_double (fun p q => at2 e (map3 x1 x2 x3 p q) (map3 y1 y2 y3 p q) * Rabs ((x2 - x1) * (y3 - y1) - (x3 - x1) * (y2 - y1))) 0 0 1 (fun q => 1 - q) V /\ isin (v : iv (bscal b)) V.
Proof.
  intros b fuel md md' e X1 Y1 X2 Y2 X3 Y3 order n v x1 y1 x2 y2 x3 y3 O1 O2 N W P NA H1 H2 H3 H4 H5 H6 E.
  assert (K1 : (1 <= Z.to_nat order)%nat) by lia. assert (K2 : (Z.of_nat (S (Z.to_nat order)) <= 2 ^ 52)%Z) by lia.
  assert (T0 : isin (t0 (B:=IB b fuel) : iv (bscal b)) 0) by exact (rel0 (IB b fuel) _ (IOK b fuel)). assert (T1 : isin (t1 (B:=IB b fuel) : iv (bscal b)) 1) by exact (PsaProofs.rel1 (IB b fuel) _ (IOK b fuel)).
  unfold doubleintegral_triangle in E.
  destruct (dbl_ok (IB b fuel) _ (IOK b fuel) (isin_itv b fuel) (dsym b) (dsym_law b) (Z.to_nat order) K1 K2 _ (Ft e x1 y1 x2 y2 x3 y3) (Dt e x1 y1 x2 y2 x3 y3) (Ft_cont e W NA x1 y1 x2 y2 x3 y3)
    (ft_point (IB b fuel) _ (IOK b fuel) (isin_itv b fuel) (dsym b) (dsym_law b) e W P NA _ K1 K2 (iabs : iv (bscal b) -> iv (bscal b)) (iabs_law b) X1 Y1 X2 Y2 X3 Y3 x1 y1 x2 y2 x3 y3 H1 H2 H3 H4 H5 H6)
    md md' _ _ _ _ order n true v 0 1 0 1 eq_refl N T0 T1 T0 T1 Rle_0_1 Rle_0_1 E) as (DM & T & J & V & HJ & HV & Hv).
  assert (RE : forall y, rend true 0 1 0 1 y = 1 - y) by (intros y; unfold rend; field).
  split; [intros p q Hp Hq Hs; apply (DM p q); [lra|rewrite RE; lra]|]. exists V. split; [|exact Hv]. exists J. split; [|exact HV].
  intros y Hy. rewrite <- RE. exact (HJ y Hy).
Qed.
(* x y on the triangle (0,0), (2,0), (0,1): 1/6 *)
Local Notation C95_run e n := (doubleintegral_triangle (B:=IB BHw 60) (dsym BHw) (iabs : iv D_hw -> iv D_hw) (1, 1)%Z e (qiv 0 0 0 0) (qiv 0 0 0 0) (qiv 2 0 2 0) (qiv 0 0 0 0) (qiv 0 0 0 0) (qiv 1 0 1 0) 2 n).
Definition C95_e : aexpr := XMul (XVar 0) (XVar 1).
Example C95_case : awf 2 C95_e /\ plog C95_e /\ noarc C95_e = true /\ C94_in (fst (C95_run C95_e 2)) (bdy 1 (-3)) (bdy 3 (-4)) = true.
Proof. split; [simpl; repeat split; lia|]. split; [simpl; intuition discriminate|]. split; [reflexivity|]. vm_compute; reflexivity. Qed.
Definition Dbl_all := (C94_encloses_partial, C94_reversed_refuted, C94_order_zero_refuted, C94_modes, C94_independent, C94_mode_refuted, C94_exception_refuted, C95_encloses_partial).
Print Assumptions Dbl_all.
