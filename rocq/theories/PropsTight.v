(* Property theorems: tightness (C13), isotonicity (C14), mid/rad (C17), floor/ceil (C18) for
   interval<double> with every back end. *)
From Coq Require Import Reals Lra Lia ZArith Bool.
From Flocq Require Import Core BinarySingleNaN.
From Verif Require Import Fp64 RDoubleHw NohwModel NohwDiv.
From Verif Require Import Ext Scalar IntervalModel IntervalSpec IntervalProofs IntervalTight IntervalMid Expr ExprIso Backends Ex64.
Open Scope R_scope.

(* ---- C13: any double interval Z that encloses the exact range contains the computed interval ---- *)
Theorem C13_add_sub_mul_tightest : forall (b : backend) (X Y Z : iv (bscal b)), ivalid X -> ivalid Y ->
  ((forall x y, isin X x -> isin Y y -> isin Z (x + y)) -> forall r, isin (iadd X Y) r -> isin Z r) /\
  ((forall x y, isin X x -> isin Y y -> isin Z (x - y)) -> forall r, isin (isub X Y) r -> isin Z r) /\
  ((forall x y, isin X x -> isin Y y -> isin Z (x * y)) -> forall r, isin (imul X Y) r -> isin Z r).
Proof.
  intros b X Y Z VX VY. split; [|split]; intros H.
  - exact (tight_add (bscal_ok b) (bscal_best b) X Y Z VX VY H).
  - exact (tight_sub (bscal_ok b) (bscal_best b) X Y Z VX VY H).
  - exact (tight_mul (bscal_ok b) (bscal_best b) X Y Z VX VY H).
Qed.
Print Assumptions C13_add_sub_mul_tightest.
Theorem C13_div_tightest : forall (b : backend) (X Y Z Q : iv (bscal b)), ivalid X -> ivalid Y -> idiv X Y = Ok Q ->
  (forall x y, isin X x -> isin Y y -> isin Z (x / y)) -> forall r, isin Q r -> isin Z r.
Proof. intros b X Y Z Q. exact (tight_div (bscal_ok b) (bscal_best b) X Y Q Z). Qed.
Print Assumptions C13_div_tightest.
Theorem C13_sqrt_tightest : forall (b : backend) (X Z Q : iv (bscal b)), ivalid X -> isqrt X = Ok Q ->
  (forall x, isin X x -> isin Z (sqrt x)) -> forall r, isin Q r -> isin Z r.
Proof. intros b X Z Q. exact (tight_sqrt (bscal_ok b) (bscal_best b) X Q Z). Qed.
Print Assumptions C13_sqrt_tightest.
Example C13_ex : ivalid (qiv (-1) 0 3 (-1)) /\ ivalid (qivr 2 0) /\ exists Q, idiv (qiv (-1) 0 3 (-1)) (qivr 2 0) = Ok Q.
Proof. split; [qval 0|split; [qval 3|]]. eexists. reflexivity. Qed.

(* ---- C14 ---- *)
Theorem C14_isotone_operations : forall (b : backend) (X1 X2 Y1 Y2 : iv (bscal b)), ivalid X1 -> ivalid Y1 ->
  (forall r, isin X1 r -> isin X2 r) -> (forall r, isin Y1 r -> isin Y2 r) ->
  (forall r, isin (iadd X1 Y1) r -> isin (iadd X2 Y2) r) /\
  (forall r, isin (isub X1 Y1) r -> isin (isub X2 Y2) r) /\
  (forall r, isin (imul X1 Y1) r -> isin (imul X2 Y2) r) /\
  (forall Q2, idiv X2 Y2 = Ok Q2 -> exists Q1, idiv X1 Y1 = Ok Q1 /\ forall r, isin Q1 r -> isin Q2 r) /\
  (forall Q2, isqrt X2 = Ok Q2 -> exists Q1, isqrt X1 = Ok Q1 /\ forall r, isin Q1 r -> isin Q2 r).
Proof.
  intros b X1 X2 Y1 Y2 VX VY HX HY. pose proof (bscal_ok b) as OK. pose proof (bscal_best b) as BE.
  split; [|split; [|split; [|split]]].
  - exact (iso_add OK BE _ _ _ _ VX VY HX HY).
  - exact (iso_sub OK BE _ _ _ _ VX VY HX HY).
  - exact (iso_mul OK BE _ _ _ _ VX VY HX HY).
  - intros Q2. exact (iso_div OK BE _ _ _ _ Q2 VX VY HX HY).
  - intros Q2. exact (iso_sqrt OK BE _ _ Q2 VX HX).
Qed.
Print Assumptions C14_isotone_operations.
(* every composed expression of + - * / neg sqrt abs max min *)
Theorem C14_isotone_expressions : forall (b : backend) (e : expr Empty_set) (e1 e2 : nat -> iv (bscal b)) Q2,
  cst_ok e -> nopow e -> (forall n, ivalid (e1 n)) -> (forall n r, isin (e1 n) r -> isin (e2 n) r) ->
  ieval nofun e2 e = Ok Q2 -> exists Q1, ieval nofun e1 e = Ok Q1 /\ forall r, isin Q1 r -> isin Q2 r.
Proof. intros b e e1 e2 Q2. exact (ieval_iso (bscal_ok b) (bscal_best b) e e1 e2 Q2). Qed.
Print Assumptions C14_isotone_expressions.
Example C14_ex : (forall r, isin (qiv 1 0 2 0) r -> isin (qiv 0 0 4 0) r) /\
  exists Q, ieval nofun (fun _ => qiv 1 0 4 0 : iv (bscal BHw)) (EDiv (ESqrt (EVar 0)) (EAdd (EVar 1) (ECst 1 0))) = Ok Q.
Proof.
  split.
  - intros r (_ & _ & L & U). unfold qiv, lo, hi in L, U. rewrite qv in L, U by lia. simpl in L, U. qin.
  - eexists. reflexivity.
Qed.

(* ---- C17 ---- *)
Theorem C17_mid_in : forall (b : backend) (X : iv (bscal b)), ivalid X -> is_fin (sval (lo X)) -> is_fin (sval (hi X)) ->
  exists m, sval (mid X) = XR m /\ isin X m.
Proof.
  intros b. destruct (bscal_ideal b) as (au & ad & su & sd & mu & md & du & dd & qu & qd & I1 & ->). intros X V L H.
  exact (mid_in au ad su sd mu md du dd qu qd X V (conj L H)).
Qed.
Print Assumptions C17_mid_in.
Theorem C17_rad_width : forall (b : backend) (X : iv (bscal b)) (l u x y : R), sval (lo X) = XR l -> sval (hi X) = XR u ->
  isin X x -> isin X y ->
  ub (sval (rad X)) (Rabs (x - (l + u) / 2)) /\ ub (sval (rad X)) (Rabs (x - y) / 2) /\ ub (sval (width X)) (Rabs (x - y)).
Proof.
  intros b. destruct (bscal_ideal b) as (au & ad & su & sd & mu & md & du & dd & qu & qd & I1 & ->). intros X l u x y L U Hx Hy.
  split; [|split; [exact (rad_ok _ _ _ _ _ _ _ _ _ _ I1 X x y Hx Hy)|exact (width_ok _ _ _ _ _ _ _ _ _ _ I1 X x y Hx Hy)]].
  assert (V : ivalid X) by (eapply isin_valid; eauto).
  pose proof (IntervalSets.valid_lo_att X l V L) as Hl. pose proof (IntervalSets.valid_hi_att X u V U) as Hu.
  pose proof (rad_ok _ _ _ _ _ _ _ _ _ _ I1 X u l Hu Hl) as R. destruct Hx as (_ & _ & Lx & Ux). rewrite L in Lx. rewrite U in Ux. simpl in Lx, Ux.
  eapply ub_le; [exact R|]. rewrite (Rabs_pos_eq (u - l)) by lra. apply Rabs_le. lra.
Qed.
Print Assumptions C17_rad_width.
Theorem C17_midrad_covers : forall (b : backend) (X : iv (bscal b)), ivalid X -> is_fin (sval (lo X)) -> is_fin (sval (hi X)) ->
  exists m, sval (fst (midrad X)) = XR m /\ isin X m /\
  forall x, isin X x -> ub (sval (snd (midrad X))) (Rabs (x - m)).
Proof.
  intros b. destruct (bscal_ideal b) as (au & ad & su & sd & mu & md & du & dd & qu & qd & I1 & ->). intros X V L H.
  exact (midrad_ok _ _ _ _ _ _ _ _ _ _ I1 X V (conj L H)).
Qed.
Print Assumptions C17_midrad_covers.
Example C17_ex : ivalid (mkiv (bmaxneg : bscal BHw) (bdy 1 0 : bscal BHw)) /\ is_fin (sval (bmaxneg : bscal BHw)) /\ is_fin (sval (bdy 1 0 : bscal BHw)).
Proof.
  split; [|split].
  - split; [exact I|split; [exact I|]]. unfold lo, hi.
    change (is_lo (v64 bmaxneg) /\ is_hi (v64 (bdy 1 0)) /\ xle (v64 bmaxneg) (v64 (bdy 1 0))).
    unfold bmaxneg. rewrite Bopp_v, bmax_v, bdy_v by lia. simpl. pose proof maxR_pos. lra.
  - exact I.
  - exact I.
Qed.

(* ---- C18 (floor, ceil) ---- *)
Theorem C18_floor_ceil_enclose : forall (b : backend) (X : iv (bscal b)) (x : R), isin X x ->
  isin (ifloor X) (IZR (Zfloor x)) /\ isin (iceil X) (IZR (Zceil x)).
Proof.
  intros b. destruct (bscal_ideal b) as (au & ad & su & sd & mu & md & du & dd & qu & qd & I1 & ->). intros X x H.
  split; [exact (floor_in _ _ _ _ _ _ _ _ _ _ X x H)|exact (ceil_in _ _ _ _ _ _ _ _ _ _ X x H)].
Qed.
Print Assumptions C18_floor_ceil_enclose.
Theorem C18_floor_ceil_attained : forall (b : backend) (X : iv (bscal b)), ivalid X ->
  (forall l, sval (lo X) = XR l -> sval (lo (ifloor X)) = XR (IZR (Zfloor l)) /\ sval (lo (iceil X)) = XR (IZR (Zceil l)) /\ isin X l) /\
  (forall u, sval (hi X) = XR u -> sval (hi (ifloor X)) = XR (IZR (Zfloor u)) /\ sval (hi (iceil X)) = XR (IZR (Zceil u)) /\ isin X u).
Proof.
  intros b. destruct (bscal_ideal b) as (au & ad & su & sd & mu & md & du & dd & qu & qd & I1 & ->). intros X V.
  destruct (floor_tight _ _ _ _ _ _ _ _ _ _ X V) as [F1 F2]. destruct (ceil_tight _ _ _ _ _ _ _ _ _ _ X V) as [C1 C2].
  split; intros r E; [destruct (F1 r E), (C1 r E)|destruct (F2 r E), (C2 r E)]; auto.
Qed.
Print Assumptions C18_floor_ceil_attained.
