(* Property theorems for kv/cardano-ferrari.hpp (C58, C59, C69) and kv/dka.hpp (C54, C70, C71). *)
From Coq Require Import Reals Lra Lia ZArith Bool List.
From Flocq Require Import Core BinarySingleNaN.
From Coquelicot Require Import Complex.
From Verif Require Import Fp64 RDoubleHw Ext Scalar IntervalModel IntervalSpec IntervalProofs IntervalEncl IntervalSets Backends Ex64.
From Verif Require Import ElemModel ElemGen PropsElem CplxModel CplxReal CplxProofs PropsCplx PolyModel PolyReal PolyProofs DkaProofs.
Open Scope R_scope.

(* the box of one complex number (m1 + m2 i) 2^e *)
Definition cpt (m1 m2 e : Z) : cx D_hw := mkcx (qiv m1 e m1 e) (qiv m2 e m2 e).

(* ---- C58 ---- *)
Theorem C58_cardano_rejects : forall b fuel (inp : list (cx (bscal b))), (forall c, In c inp -> exists z, cin c z) ->
  (cardano _ (bpar b) fuel inp = Ok None <-> length inp <> 4%nat \/ cin (nth 3 inp cx0) (RtoC 0)).
Proof.
  intros b f inp V. pose proof (bok b) as OK. split.
  - intros H. destruct (cardano_none (bpar b) f inp H) as [L|(c0 & c1 & c2 & c3 & -> & Z)]; auto. right. simpl.
    destruct (V c3 ltac:(simpl; auto)) as [z Hz]. apply (czero_in OK); auto. eapply cin_valid; eauto.
  - intros H. destruct inp as [|c0 [|c1 [|c2 [|c3 [|c4 l]]]]]; try reflexivity. destruct H as [H|H]; [simpl in H; lia|]. simpl in H.
    cbn [cardano]. rewrite (proj2 (czero_in OK c3 (cin_valid _ _ H)) H). reflexivity.
Qed.
Print Assumptions C58_cardano_rejects.
(* 1 + i z + [-1,1] z^2 + ([-1,1] + [-1,1] i) z^3 *)
Definition C58_in : list (cx D_hw) := cpt 1 0 0 :: cpt 0 1 0 :: mkcx (qiv (-1) 0 1 0) (qiv 0 0 0 0) :: mkcx (qiv (-1) 0 1 0) (qiv (-1) 0 1 0) :: nil.
Example C58_case : (forall c, In c C58_in -> exists z, cin c z) /\ cin (nth 3 C58_in cx0) (RtoC 0).
Proof.
  split; [|split; cbn [C58_in nth re im RtoC fst snd]; qin].
  intros c [<- |[<- |[<- |[<- |[]]]]]; [exists (1, 0)|exists (0, 1)|exists (0, 0)|exists (0, 0)]; split; cbn [cpt re im fst snd]; qin.
Qed.
(* ferrari tests in(4).real() and in(3).imag(): it rejects the leading coefficient i, and does not reject a leading
   coefficient box around zero *)
Theorem C58_ferrari_rejects_refuted :
  (exists inp : list (cx D_hw), length inp = 5%nat /\ ~ cin (nth 4 inp cx0) (RtoC 0) /\ (exists z, cin (nth 4 inp cx0) z) /\ ferrari _ hw 30 inp = Ok None) /\
  (exists inp : list (cx D_hw), length inp = 5%nat /\ cin (nth 4 inp cx0) (RtoC 0) /\ forall f, ferrari _ hw f inp = Err EDomain).
Proof.
  split.
  - exists (cpt 1 0 0 :: cpt 0 0 0 :: cpt 0 0 0 :: cpt 0 0 0 :: cpt 0 1 0 :: nil). split; [reflexivity|]. split; [|split; [|reflexivity]].
    + intros [_ (_ & _ & A & _)]. cbn [nth cpt im RtoC snd qiv lo] in A. rewrite qv in A by lia. simpl in A. lra.
    + exists (0, 1). split; cbn [nth cpt re im fst snd]; qin.
  - exists (cpt 1 0 0 :: cpt 0 0 0 :: cpt 0 0 0 :: cpt 0 1 0 :: mkcx (qiv (-1) 0 1 0) (qiv (-1) 0 1 0) :: nil). split; [reflexivity|].
    split; [split; cbn [nth re im RtoC fst snd]; qin|]. intros f. reflexivity.
Qed.
Print Assumptions C58_ferrari_rejects_refuted.

(* ---- C59 ---- *)
(* the three roots with multiplicity: c3 (x - x1) (x - x2) (x - x3) is the polynomial *)
Theorem C59_cardano_encloses : forall b fuel (C0 C1 C2 C3 : cx (bscal b)) Q c0 c1 c2 c3,
  cardano _ (bpar b) fuel (C0 :: C1 :: C2 :: C3 :: nil) = Ok (Some Q) -> cin C0 c0 -> cin C1 c1 -> cin C2 c2 -> cin C3 c3 ->
  c3 <> RtoC 0 /\ exists X1 X2 X3 x1 x2 x3, Q = X1 :: X2 :: X3 :: nil /\ cin X1 x1 /\ cin X2 x2 /\ cin X3 x3 /\
    forall x, (c0 + c1 * x + c2 * (x * x) + c3 * (x * x * x) = c3 * ((x - x1) * ((x - x2) * (x - x3))))%C.
Proof. intros b f C0 C1 C2 C3 Q c0 c1 c2 c3. exact (cardano_encl (bok b) (bpar b) (bexp b) (blog b) (btrig b) f C0 C1 C2 C3 Q c0 c1 c2 c3). Qed.
Print Assumptions C59_cardano_encloses.
(* hence every root is in one of the boxes *)
Theorem C59_cardano_roots : forall b fuel (C0 C1 C2 C3 : cx (bscal b)) Q c0 c1 c2 c3 x,
  cardano _ (bpar b) fuel (C0 :: C1 :: C2 :: C3 :: nil) = Ok (Some Q) -> cin C0 c0 -> cin C1 c1 -> cin C2 c2 -> cin C3 c3 ->
  (c0 + c1 * x + c2 * (x * x) + c3 * (x * x * x) = RtoC 0)%C -> exists X, In X Q /\ cin X x.
Proof.
  intros b f C0 C1 C2 C3 Q c0 c1 c2 c3 x H H0 H1 H2 H3 E.
  destruct (C59_cardano_encloses b f C0 C1 C2 C3 Q c0 c1 c2 c3 H H0 H1 H2 H3) as (N & X1 & X2 & X3 & x1 & x2 & x3 & -> & I1 & I2 & I3 & R).
  rewrite R in E. assert (Z : (x - x1 = RtoC 0 \/ x - x2 = RtoC 0 \/ x - x3 = RtoC 0)%C).
  { destruct (Ceq_dec (x - x1)%C (RtoC 0)); auto. destruct (Ceq_dec (x - x2)%C (RtoC 0)); auto. destruct (Ceq_dec (x - x3)%C (RtoC 0)); auto.
    exfalso. revert E. repeat apply Cmult_neq_0; auto. }
  assert (W : forall y : C, (x - y = RtoC 0)%C -> x = y) by (intros y Hy; transitivity (x - y + y)%C; [ring|rewrite Hy; ring]).
  destruct Z as [Z|[Z|Z]]; apply W in Z; subst; eexists; (split; [|eassumption]); simpl; auto.
Qed.
Print Assumptions C59_cardano_roots.
(* z^3 + z + 1 + [0, 1/8] i *)
Definition C59_in : list (cx D_hw) := mkcx (qiv 1 0 1 0) (qiv 0 0 1 (-3)) :: cpt 1 0 0 :: cpt 0 0 0 :: cpt 1 0 0 :: nil.
Example C59_case : returns (cardano _ hw 60 C59_in) = true /\ cin (nth 0 C59_in cx0) (1, 1 / 16).
Proof. split; [vm_compute; reflexivity|]. split; cbn [C59_in nth re im fst snd]; qin. Qed.

(* ---- C69 ---- *)
Theorem C69_ferrari_encloses : forall b fuel (C0 C1 C2 C3 C4 : cx (bscal b)) Q c0 c1 c2 c3 c4,
  ferrari _ (bpar b) fuel (C0 :: C1 :: C2 :: C3 :: C4 :: nil) = Ok (Some Q) -> cin C0 c0 -> cin C1 c1 -> cin C2 c2 -> cin C3 c3 -> cin C4 c4 ->
  c4 <> RtoC 0 /\ exists X1 X2 X3 X4 x1 x2 x3 x4, Q = X1 :: X2 :: X3 :: X4 :: nil /\ cin X1 x1 /\ cin X2 x2 /\ cin X3 x3 /\ cin X4 x4 /\
    forall x, (c0 + c1 * x + c2 * (x * x) + c3 * (x * x * x) + c4 * (x * x * x * x) = c4 * (((x - x1) * (x - x2)) * ((x - x3) * (x - x4))))%C.
Proof. intros b f C0 C1 C2 C3 C4 Q c0 c1 c2 c3 c4. exact (ferrari_encl (bok b) (bpar b) (bexp b) (blog b) (btrig b) f C0 C1 C2 C3 C4 Q c0 c1 c2 c3 c4). Qed.
Print Assumptions C69_ferrari_encloses.
(* z^4 + z + 1 *)
Definition C69_in : list (cx D_hw) := cpt 1 0 0 :: cpt 1 0 0 :: cpt 0 0 0 :: cpt 0 0 0 :: cpt 1 0 0 :: nil.
Example C69_case : returns (ferrari _ hw 60 C69_in) = true /\ cin (nth 4 C69_in cx0) (RtoC 1).
Proof. split; [vm_compute; reflexivity|]. split; cbn [C69_in nth cpt re im RtoC fst snd]; qin. Qed.

(* ---- C70 ---- *)
(* p: coefficient boxes in increasing degree, x: the approximations (finite numbers xv).  Every zero of every polynomial
   with coefficients in the boxes is in one of the boxes returned by smith_error, and the k-th box contains x(k). *)
Theorem C70_smith_encloses : forall b fuel (p : list (cx (bscal b))) x r (pv : list C) (xv : nat -> C) z,
  smith_error fuel p x = Ok r -> Forall2 cin p pv -> xfin x xv -> (2 <= length p)%nat -> (Z.of_nat (length p) <= 2 ^ 53)%Z ->
  peval pv z = RtoC 0 ->
  length r = length x /\ (forall k, (k < length x)%nat -> cin (nth k r cx0) (xv k)) /\ exists k, (k < length x)%nat /\ cin (nth k r cx0) z.
Proof. intros b f p x r pv xv z. exact (smith_error_encl (bok b) f p x r pv xv z). Qed.
Print Assumptions C70_smith_encloses.
(* vdka, for any approximate solver dka that returns finite numbers *)
Theorem C70_vdka_encloses : forall b fuel dka (p : list (cx (bscal b))) r (pv : list C) (xv : nat -> C) z,
  vdka fuel dka p = Ok (Some r) -> Forall2 cin p pv -> xfin (dka (map (fun c => (mid (re c), mid (im c))) p)) xv ->
  (2 <= length p)%nat -> (Z.of_nat (length p) <= 2 ^ 53)%Z -> peval pv z = RtoC 0 -> exists X, In X r /\ cin X z.
Proof.
  intros b f dka p r pv xv z H HP HX L B Z. unfold vdka in H. destruct p as [|p0 p']; [discriminate|]. set (p := p0 :: p') in *.
  destruct (zero_in _) in H; [discriminate|]. apply bind_ok in H as (r' & E & H). injection H as <-.
  destruct (smith_error_encl (bok b) f p _ r' pv xv z E HP HX L B Z) as (LR & _ & k & Hk & I).
  exists (nth k r' cx0). split; auto. apply nth_In. lia.
Qed.
Print Assumptions C70_vdka_encloses.
(* z^3 - 2 with three approximations *)
Definition dpt (m1 m2 e : Z) : D_hw * D_hw := (bdy m1 e, bdy m2 e).
Definition C70_p : list (cx D_hw) := cpt (-2) 0 0 :: cpt 0 0 0 :: cpt 0 0 0 :: cpt 1 0 0 :: nil.
Definition C70_x : list (D_hw * D_hw) := dpt 40 0 (-5) :: dpt (-20) 35 (-5) :: dpt (-20) (-35) (-5) :: nil.
Definition C70_xv (k : nat) : C := match k with O => (5 / 4, 0) | 1%nat => (-5 / 8, 35 / 32) | _ => (-5 / 8, -35 / 32) end.
Example C70_case : returns (smith_error 4 C70_p C70_x) = true /\
  Forall2 cin C70_p (RtoC (-2) :: RtoC 0 :: RtoC 0 :: RtoC 1 :: nil) /\ xfin C70_x C70_xv /\
  exists z : C, peval (RtoC (-2) :: RtoC 0 :: RtoC 0 :: RtoC 1 :: nil) z = RtoC 0.
Proof.
  split; [vm_compute; reflexivity|]. split; [|split].
  - unfold C70_p. do 4 (apply Forall2_cons; [split; cbn [cpt re im RtoC fst snd]; qin|]). apply Forall2_nil.
  - intros k Hk. simpl in Hk. destruct k as [|[|[|k]]]; try lia; (split; [exact I|split; [exact I|]]);
      cbn [C70_x nth dpt fst snd C70_xv]; rewrite !qv by lia; simpl; split; f_equal; lra.
  - exists (RtoC (exp (ln 2 / 3))). cbn [peval].
    assert (E : exp (ln 2 / 3) * exp (ln 2 / 3) * exp (ln 2 / 3) = 2).
    { rewrite <- !exp_plus. replace (ln 2 / 3 + ln 2 / 3 + ln 2 / 3) with (ln 2) by field. apply exp_ln. lra. }
    set (t := exp (ln 2 / 3)) in *. rewrite <- !RtoC_mult, <- !RtoC_plus, <- !RtoC_mult, <- ?RtoC_plus, <- ?RtoC_mult, <- ?RtoC_plus, <- ?RtoC_mult, <- ?RtoC_plus. apply f_equal. lra.
Qed.

(* ---- C71 ---- *)
(* the unification loop of smith_error ends, in at most two passes *)
Theorem C71_unify_terminates : forall b (xs : list (cx (bscal b))), (forall c, In c xs -> exists z, cin c z) -> exists r, unify 2 xs = Ok r.
Proof.
  intros b xs V. apply (unify_ends (bok b)); auto. intros k Hk. destruct (V (nth k xs cx0) (nth_In _ _ Hk)) as [z Hz]. eapply cin_valid; eauto.
Qed.
Print Assumptions C71_unify_terminates.
(* and each returned box contains the box it replaces *)
Theorem C71_unify_covers : forall b fuel (xs r : list (cx (bscal b))), (forall c, In c xs -> exists z, cin c z) -> unify fuel xs = Ok r ->
  length r = length xs /\ forall k z, (k < length xs)%nat -> cin (nth k xs cx0) z -> cin (nth k r cx0) z.
Proof.
  intros b f xs r V. apply (unify_cov (bok b)). intros k Hk. destruct (V (nth k xs cx0) (nth_In _ _ Hk)) as [z Hz]. eapply cin_valid; eauto.
Qed.
Print Assumptions C71_unify_covers.
Example C71_case : forall c, In c (cpt 1 0 0 :: cpt 0 1 0 :: cpt 1 0 0 :: nil) -> exists z, cin c z.
Proof. intros c [<- |[<- |[<- |[]]]]; [exists (1, 0)|exists (0, 1)|exists (1, 0)]; split; cbn [cpt re im fst snd]; qin. Qed.

(* ---- C54 ---- *)
(* x^3 - 12 x^2 + 32 x + 16 with the approximations 0, 8, 4: the boxes of 0 and 4 overlap and are replaced by their hull,
   which overlaps the box of 8; that box is not unified with it *)
Definition C54_p : list (cx D_hw) := cpt 16 0 0 :: cpt 32 0 0 :: cpt (-12) 0 0 :: cpt 1 0 0 :: nil.
Definition C54_x : list (D_hw * D_hw) := dpt 0 0 0 :: dpt 8 0 0 :: dpt 4 0 0 :: nil.
(* membership of a double in a box, by computation *)
Definition bin (z : D_hw * D_hw) (X : cx D_hw) : bool := iin (fst z) (re X) && iin (snd z) (im X).
Lemma bin_in m1 m2 X : bin (dpt m1 m2 0) X = true -> (Z.abs m1 <= 2 ^ 53)%Z -> (Z.abs m2 <= 2 ^ 53)%Z -> cin X (IZR m1, IZR m2).
Proof.
  intros H B1 B2. unfold bin, iin in H. rewrite !andb_true_iff in H. destruct H as [[A1 A2] [A3 A4]]. cbn [dpt fst snd] in *.
  assert (E : forall m, (Z.abs m <= 2 ^ 53)%Z -> @sval D_hw (bdy m 0) = XR (IZR m)) by (intros m Hm; rewrite qv by lia; simpl; f_equal; lra).
  pose proof (bok BHw) as OK.
  apply (ok_le _ OK) in A1; try exact I. apply (ok_le _ OK) in A2; try exact I. apply (ok_le _ OK) in A3; try exact I. apply (ok_le _ OK) in A4; try exact I.
  change (bscal BHw) with D_hw in *. rewrite E in A1, A2, A3, A4 by auto.
  split; apply isin_ends; try exact I; cbn [fst snd].
  - destruct (sval (lo (re X))); simpl in *; tauto. - destruct (sval (hi (re X))); simpl in *; tauto.
  - destruct (sval (lo (im X))); simpl in *; tauto. - destruct (sval (hi (im X))); simpl in *; tauto.
Qed.
Definition C54_check (r : list (cx D_hw)) : bool :=
  match r with X :: Y :: _ :: nil => bin (dpt 7 0 0) X && bin (dpt 7 0 0) Y && bin (dpt 0 0 0) X && slt s0 (lo (re Y)) | _ => false end.
Lemma C54_run : match smith_error 4 C54_p C54_x with Ok r => C54_check r | Err _ => false end = true.
Proof. vm_compute. reflexivity. Qed.
(* two returned boxes share the point 7, and 0 is in one but not in the other *)
Theorem C54_smith_unify_refuted : exists p x r, smith_error 4 p x = Ok r /\
  exists X Y : cx D_hw, In X r /\ In Y r /\ (cin X (7, 0) /\ cin Y (7, 0)) /\ (cin X (0, 0) /\ ~ cin Y (0, 0)).
Proof.
  exists C54_p, C54_x. pose proof C54_run as R. destruct (smith_error 4 C54_p C54_x) as [r|]; [|discriminate].
  exists r. split; auto. destruct r as [|X [|Y [|W [|? ?]]]]; try discriminate. exists X, Y.
  unfold C54_check in R. rewrite !andb_true_iff in R. destruct R as [[[R1 R2] R3] R4].
  split; [simpl; auto|]. split; [simpl; auto|]. split; split.
  - apply (bin_in 7 0); auto; lia. - apply (bin_in 7 0); auto; lia. - apply (bin_in 0 0); auto; lia.
  - intros [(_ & _ & A & _) _]. apply (ok_lt _ (bok BHw)) in R4; try exact I. destruct (ok_s0 _ (bok BHw)) as [_ V0].
    change (bscal BHw) with D_hw in *. rewrite V0 in R4. cbn [fst] in A. destruct (sval (lo (re Y))); simpl in *; try tauto. lra.
Qed.
Print Assumptions C54_smith_unify_refuted.
