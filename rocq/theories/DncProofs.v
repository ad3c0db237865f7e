(* Proofs about DncModel.v: the product rule, the two error terms. *)
From Coq Require Import Reals ZArith QArith Qreals Bool List Lra Lia Arith.
From Coquelicot Require Import Coquelicot.
From Verif Require Import Ext Scalar RealFun IntervalModel IntervalSpec IntervalProofs IntervalEncl ElemModel ADModel ADReal ADProofs ADInst PsaModel PsaReal PsaProofs PsaExpr PsaInt.
From Verif Require Import Fp64 Backends PropsElem PsaInst NcReal NcModel NcRule NcProofs DncModel.
Import ListNotations.
Open Scope R_scope.

(* ---- sums over the nodes ---- *)
Section L.
Variables (n : nat) (T : list QArith_base.Q).
Notation ls g := (lsum g n T).
Lemma lsum_ext g g' m c i : (0 <= i)%Z -> (forall j, (i <= j < i + Z.of_nat c)%Z -> g (IZR j) = g' (IZR j)) -> ls g m c i = ls g' m c i.
Proof. revert i. induction c; intros i I0 H; [reflexivity|]. cbn [lsum]. rewrite H by lia. rewrite IHc; [reflexivity|lia|]. intros j Hj. apply H. lia. Qed.
Lemma lsum_plus g g' m c i : ls (fun u => g u + g' u) m c i = ls g m c i + ls g' m c i.
Proof. revert i. induction c; intros i; cbn [lsum]; [ring|]. rewrite IHc. ring. Qed.
Lemma lsum_scal k g m c i : ls (fun u => k * g u) m c i = k * ls g m c i.
Proof. revert i. induction c; intros i; cbn [lsum]; [ring|]. rewrite IHc. ring. Qed.
Lemma lsum_0 m c i : ls (fun _ => 0) m c i = 0.
Proof. revert i. induction c; intros i; cbn [lsum]; [ring|]. rewrite IHc. ring. Qed.
Lemma lsum_swap (g : R -> R -> R) m c i m' c' i' : ls (fun u => ls (g u) m' c' i') m c i = ls (fun v => ls (fun u => g u v) m c i) m' c' i'.
Proof.
  revert i. induction c; intros i; cbn [lsum]; [now rewrite lsum_0|]. rewrite IHc. rewrite lsum_plus, lsum_scal. reflexivity.
Qed.
Lemma lsum_int (g : R -> R -> R) (J : R -> R) a b m c i : (0 <= i)%Z -> (forall j, (i <= j < i + Z.of_nat c)%Z -> is_RInt (fun x => g x (IZR j)) a b (J (IZR j))) ->
  is_RInt (fun x => ls (g x) m c i) a b (ls J m c i).
Proof.
  revert i. induction c; intros i I0 H; cbn [lsum].
  - pose proof (is_RInt_const (V := R_NormedModule) a b 0) as K. change (is_RInt (fun _ : R => 0) a b ((b - a) * 0)) in K. rewrite Rmult_0_r in K. exact K.
  - apply (is_RInt_plus (V := R_NormedModule)); [apply (is_RInt_scal (V := R_NormedModule)); apply H; lia|]. apply IHc; [lia|]. intros j Hj. apply H. lia.
Qed.
Hypothesis POS : forall i, 0 <= Q2R (nth i T 0%Q).
Lemma lsum_le g g' m c i : (0 <= i)%Z -> (forall j, (i <= j < i + Z.of_nat c)%Z -> g (IZR j) <= g' (IZR j)) -> ls g m c i <= ls g' m c i.
Proof.
  revert i. induction c; intros i I0 H; cbn [lsum]; [lra|]. apply Rplus_le_compat; [apply Rmult_le_compat_l; [apply POS|apply H; lia]|]. apply IHc; [lia|]. intros j Hj. apply H. lia.
Qed.
End L.

Section Real.
Variable b : backend.
Notation rel := (@isin (bscal b)).
(* means stay in an interval *)
Lemma in_mean (X : iv (bscal b)) v w (x0 : R) : 0 < w -> rel X x0 -> (forall l, (forall z, rel X z -> l <= z) -> l * w <= v) -> (forall u, (forall z, rel X z -> z <= u) -> v <= u * w) -> rel X (v / w).
Proof.
  intros W H0 HL HU. assert (H00 := H0). destruct H0 as (W1 & W2 & A & C). split; [exact W1|]. split; [exact W2|]. split.
  - destruct (sval (lo X)) as [l| | |] eqn:E; simpl in *; try tauto. apply Rmult_le_reg_r with w; auto. replace (v / w * w) with v by (field; lra). apply HL. intros z (_ & _ & K & _). rewrite E in K. exact K.
  - destruct (sval (hi X)) as [u| | |] eqn:E; simpl in *; try tauto. apply Rmult_le_reg_r with w; auto. replace (v / w * w) with v by (field; lra). apply HU. intros z (_ & _ & _ & K). rewrite E in K. exact K.
Qed.
Lemma int_mean (X : iv (bscal b)) z a c J : a <> c -> is_RInt z a c J -> (forall x, Rmin a c <= x <= Rmax a c -> rel X (z x)) -> rel X (J / (c - a)).
Proof.
  assert (Q : forall a c J, a < c -> is_RInt z a c J -> (forall x, a <= x <= c -> rel X (z x)) -> rel X (J / (c - a))).
  { clear a c J. intros a c J L HJ HX. apply (in_mean X J (c - a) (z a)); [lra|apply HX; lra| |].
    - intros l Hl. rewrite Rmult_comm. apply (is_RInt_le (fun _ => l) z a c); [lra|apply (is_RInt_const (V := R_NormedModule))|exact HJ|]. intros x Hx. apply Hl, HX. lra.
    - intros l Hl. rewrite Rmult_comm. apply (is_RInt_le z (fun _ => l) a c); [lra|exact HJ|apply (is_RInt_const (V := R_NormedModule))|]. intros x Hx. apply Hl, HX. lra. }
  intros N HJ HX. destruct (Rlt_or_le a c) as [L|L].
  - apply Q; auto. intros x Hx. apply HX. rewrite Rmin_left, Rmax_right by lra. exact Hx.
  - assert (L' : c < a) by lra. replace (J / (c - a)) with (- J / (a - c)) by (field; lra). apply Q; auto; [apply (is_RInt_swap (V := R_NormedModule)); exact HJ|]. intros x Hx. apply HX. rewrite Rmin_right, Rmax_left by lra. exact Hx.
Qed.
Lemma node_in a c h N j : c - a = h * INR N -> (0 <= j <= Z.of_nat N)%Z -> Rmin a c <= a + IZR j * h <= Rmax a c.
Proof.
  intros HH Hj. assert (J : 0 <= IZR j <= INR N) by (rewrite INR_IZR_INZ; split; [apply (IZR_le 0); lia|apply IZR_le; lia]). pose proof (pos_INR N).
  unfold Rmin, Rmax. destruct (Rle_dec a c).
  - destruct (Rle_lt_dec 0 h); [nra|]. nra.
  - destruct (Rle_lt_dec h 0); [nra|]. nra.
Qed.
Lemma good_facts n err : nc_good n err = true -> Q2R (toQ err) < 0 /\ length (map toQ (nc_row n)) = S n.
Proof.
  intros GD. unfold nc_good in GD. repeat (apply andb_prop in GD as [GD ?H]). split; [|apply Nat.eqb_eq; assumption].
  apply Z.ltb_lt in H6. apply Z.leb_le in H7. unfold toQ, Q2R. cbn [Qnum Qden]. apply IZR_lt in H6. pose proof (Rinv_0_lt_compat (IZR (Z.pos (Z.to_pos (snd err)))) ltac:(apply IZR_lt; lia)). nra.
Qed.
Lemma weights_sum n M err a c h : nc_good n err = true -> c - a = h * INR (n * S M) -> (0 < Z.to_nat (nc_d n))%nat -> h * lsum (fun _ => 1) n (map toQ (nc_row n)) (Z.of_nat (n * S M)) (n * S M + 1) 0 = c - a.
Proof.
  intros GD HH DP. destruct (rule_ok (fun k _ => match k with O => 1 | _ => 0 end) (fun _ => True)) with (a := a) (b := c) (h := h) (n := n) (M := M) (err := err) as (x1 & x2 & z & _ & _ & BZ & HI); auto.
  { intros k y _. destruct k; apply (is_derive_const (V := R_NormedModule)). }
  destruct (Z.to_nat (nc_d n)); [lia|]. assert (z = 0) by lra. subst z. unfold rule in HI. pose proof (is_RInt_const (V := R_NormedModule) a c 1) as K. pose proof (is_RInt_unique _ _ _ _ HI) as U1. pose proof (is_RInt_unique _ _ _ _ K) as U2. cbv beta in U1, U2. rewrite U1 in U2. unfold Hierarchy.scal in U2. simpl in U2. unfold mult in U2. simpl in U2. lra.
Qed.
Section R2.
Variables (Fx Fy : nat -> R -> R -> R) (F : R -> R -> R) (a c a' c' h1 h2 : R) (n M1 M2 : nat) (err : Z * Z) (HX HY : iv (bscal b)).
Notation p := (Z.to_nat (nc_d n)).
Notation T := (map toQ (nc_row n)).
Notation inx x := (Rmin a c <= x <= Rmax a c).
Notation iny y := (Rmin a' c' <= y <= Rmax a' c').
Notation m1 := (Z.of_nat (n * S M1)).
Notation m2 := (Z.of_nat (n * S M2)).
Notation e := (Q2R (toQ err)).
Hypothesis GOOD : nc_good n err = true.
Hypothesis DP : (0 < p)%nat.
Hypothesis POS : forall i, 0 <= Q2R (nth i T 0%Q).
Hypothesis HH1 : c - a = h1 * INR (n * S M1).
Hypothesis HH2 : c' - a' = h2 * INR (n * S M2).
Hypothesis FX0 : forall x y, inx x -> iny y -> Fx O x y = F x y.
Hypothesis FY0 : forall x y, inx x -> iny y -> Fy O x y = F x y.
Hypothesis DX : forall k x y, inx x -> iny y -> is_derive (fun t => Fx k t y) x (Fx (S k) x y).
Hypothesis DY : forall k x y, inx x -> iny y -> is_derive (fun t => Fy k x t) y (Fy (S k) x y).
Hypothesis RX : forall x y, inx x -> iny y -> rel HX (Fx p x y).
Hypothesis RY : forall x y, inx x -> iny y -> rel HY (Fy p x y).
Notation LX y := (lsum (fun u => F (a + u * h1) y) n T m1 (n * S M1 + 1) 0).
Notation LY x := (lsum (fun v => F x (a' + v * h2)) n T m2 (n * S M2 + 1) 0).
Lemma convex X p0 q r : rel X p0 -> rel X q -> p0 <= r <= q -> rel X r.
Proof. intros (W1 & W2 & A & _) (_ & _ & _ & C) H. split; [exact W1|]. split; [exact W2|]. split; [destruct (sval (lo X))|destruct (sval (hi X))]; simpl in *; try tauto; lra. Qed.
Lemma nodex j : (0 <= j <= m1)%Z -> inx (a + IZR j * h1). Proof. now apply node_in. Qed.
Lemma nodey j : (0 <= j <= m2)%Z -> iny (a' + IZR j * h2). Proof. now apply node_in. Qed.
Lemma ruleX y : iny y -> exists z, rel HX z /\ is_RInt (fun x => F x y) a c (h1 * LX y + z * (c - a) * h1 ^ p * e).
Proof.
  intros Hy. destruct (rule_ok (fun k t => Fx k t y) (fun x => inx x)) with (a := a) (b := c) (h := h1) (n := n) (M := M1) (err := err) as (x1 & x2 & z & B1 & B2 & BZ & HI); auto.
  exists z. split; [apply (convex _ (Fx p x1 y) (Fx p x2 y)); auto|]. apply (is_RInt_ext (V := R_NormedModule) (fun x => Fx O x y)). { intros x Hx. apply FX0; auto. lra. }
  unfold rule in HI. rewrite (lsum_ext n T _ (fun u => F (a + u * h1) y)) in HI; [exact HI|lia|]. intros j Hj. apply FX0; auto. apply nodex. lia.
Qed.
Lemma ruleY x : inx x -> exists z, rel HY z /\ is_RInt (fun y => F x y) a' c' (h2 * LY x + z * (c' - a') * h2 ^ p * e).
Proof.
  intros Hx. destruct (rule_ok (fun k t => Fy k x t) (fun y => iny y)) with (a := a') (b := c') (h := h2) (n := n) (M := M2) (err := err) as (x1 & x2 & z & B1 & B2 & BZ & HI); auto.
  exists z. split; [apply (convex _ (Fy p x x1) (Fy p x x2)); auto|]. apply (is_RInt_ext (V := R_NormedModule) (fun y => Fy O x y)). { intros y Hy. apply FY0; auto. lra. }
  unfold rule in HI. rewrite (lsum_ext n T _ (fun v => F x (a' + v * h2))) in HI; [exact HI|lia|]. intros j Hj. apply FY0; auto. apply nodey. lia.
Qed.
Lemma endx : inx a. Proof. pose proof (Rmin_l a c). pose proof (Rmax_l a c). lra. Qed.
Lemma endy : iny a'. Proof. pose proof (Rmin_l a' c'). pose proof (Rmax_l a' c'). lra. Qed.
Lemma rule2 (I : R) : is_RInt (fun x => RInt (F x) a' c') a c I -> exists zx zy, rel HX zx /\ rel HY zy /\
  I = h1 * h2 * lsum (fun u => LY (a + u * h1)) n T m1 (n * S M1 + 1) 0 + zx * (c - a) * (c' - a') * h1 ^ p * e + zy * (c - a) * (c' - a') * h2 ^ p * e.
Proof.
  intros HI. destruct (good_facts n err GOOD) as [EN TL]. assert (N1 : 0 < INR (n * S M1)). { apply lt_0_INR. destruct n; [simpl in DP; unfold nc_d in DP; simpl in DP; lia|lia]. } assert (N2 : 0 < INR (n * S M2)). { apply lt_0_INR. destruct n; [simpl in DP; unfold nc_d in DP; simpl in DP; lia|lia]. }
  destruct (Req_dec a c) as [E1|E1].
  { exists (Fx p a a'), (Fy p a a'). split; [apply RX; auto using endx, endy|]. split; [apply RY; auto using endx, endy|]. assert (h1 = 0) by nra. rewrite <- E1 in HI |- *. pose proof (is_RInt_unique _ _ _ _ HI) as U. rewrite RInt_point in U. assert (U0 : I = 0) by (symmetry; exact U). clear U. subst h1. replace (a - a) with 0 by ring. rewrite U0. ring. }
  destruct (Req_dec a' c') as [E2|E2].
  { exists (Fx p a a'), (Fy p a a'). split; [apply RX; auto using endx, endy|]. split; [apply RY; auto using endx, endy|]. assert (h2 = 0) by nra. rewrite <- E2 in HI |- *. assert (K : is_RInt (fun _ => 0) a c I). { apply (is_RInt_ext (V := R_NormedModule) _ _ _ _ _ (fun x _ => RInt_point (V := R_CompleteNormedModule) a' (F x))). exact HI. }
    pose proof (is_RInt_unique _ _ _ _ K) as U. rewrite RInt_const in U. assert (U0 : I = (c - a) * 0) by (symmetry; exact U). clear U. subst h2. replace (a' - a') with 0 by ring. rewrite U0. ring. }
  assert (H1 : h1 <> 0) by (intros ->; apply E1; lra). assert (H2 : h2 <> 0) by (intros ->; apply E2; lra). pose proof (pow_nonzero h1 p H1) as P1. pose proof (pow_nonzero h2 p H2) as P2.
  set (K1 := (c - a) * h1 ^ p * e). set (K2 := (c' - a') * h2 ^ p * e). assert (K10 : K1 <> 0) by (unfold K1; apply Rmult_integral_contrapositive_currified; [apply Rmult_integral_contrapositive_currified; [lra|exact P1]|lra]). assert (K20 : K2 <> 0) by (unfold K2; apply Rmult_integral_contrapositive_currified; [apply Rmult_integral_contrapositive_currified; [lra|exact P2]|lra]).
  set (J := (fun y => RInt (fun x => F x y) a c) : R -> R). set (zx := fun y => (J y - h1 * LX y) / K1). set (zy := fun x => (RInt (F x) a' c' - h2 * LY x) / K2).
  assert (HJ : forall y, iny y -> is_RInt (fun x => F x y) a c (J y) /\ rel HX (zx y)).
  { intros y Hy. destruct (ruleX y Hy) as (z & Hz & Q). pose proof (is_RInt_unique _ _ _ _ Q) as U. unfold zx, J. rewrite U. split; [exact Q|]. replace (_ / K1) with z; [exact Hz|]. unfold K1. field. repeat split; auto; lra. }
  assert (HZ : forall x, inx x -> rel HY (zy x)).
  { intros x Hx. destruct (ruleY x Hx) as (z & Hz & Q). assert (U : RInt (F x) a' c' = h2 * LY x + z * (c' - a') * h2 ^ p * e) by exact (is_RInt_unique _ _ _ _ Q). unfold zy. rewrite U. replace (_ / K2) with z; [exact Hz|]. unfold K2. field. repeat split; auto; lra. }
  set (SJ := lsum (fun v => J (a' + v * h2)) n T m2 (n * S M2 + 1) 0).
  assert (HS : is_RInt (fun x => LY x) a c SJ). { apply (lsum_int n T (fun x v => F x (a' + v * h2)) (fun v => J (a' + v * h2))); [lia|]. intros j Hj. apply HJ, nodey. lia. }
  assert (HZI : is_RInt zy a c ((I - h2 * SJ) / K2)).
  { apply (is_RInt_ext (V := R_NormedModule) (fun x => / K2 * (RInt (F x) a' c' - h2 * LY x))); [intros x _; apply Rmult_comm|]. replace ((I - h2 * SJ) / K2) with (/ K2 * (I - h2 * SJ)) by (unfold Rdiv; ring).
    apply (is_RInt_scal (V := R_NormedModule)). apply (is_RInt_minus (V := R_NormedModule)); [exact HI|]. apply (is_RInt_scal (V := R_NormedModule)). exact HS. }
  pose proof (int_mean HY zy a c _ E1 HZI HZ) as MY.
  set (W := lsum (fun _ => 1) n T m2 (n * S M2 + 1) 0). assert (HW : h2 * W = c' - a') by (apply (weights_sum n M2 err a' c' h2); auto).
  set (SZ := lsum (fun v => zx (a' + v * h2)) n T m2 (n * S M2 + 1) 0).
  assert (W0 : 0 < W). { destruct (Rle_lt_dec W 0) as [L|L]; auto. assert (WN : W = INR (n * S M2)) by (apply Rmult_eq_reg_l with h2; [lra|exact H2]). lra. }
  assert (MX : rel HX (SZ / W)).
  { apply (in_mean HX SZ W (zx a')); [exact W0|apply HJ, endy| |].
    - intros l Hl. unfold W. rewrite <- lsum_scal. apply lsum_le; [exact POS|lia|]. intros j Hj. rewrite Rmult_1_r. apply Hl, HJ, nodey. lia.
    - intros l Hl. unfold W. rewrite <- lsum_scal. apply lsum_le; [exact POS|lia|]. intros j Hj. rewrite Rmult_1_r. apply Hl, HJ, nodey. lia. }
  exists (SZ / W), (((I - h2 * SJ) / K2) / (c - a)). split; [exact MX|]. split; [exact MY|].
  assert (ES : SJ = h1 * lsum (fun v => LX (a' + v * h2)) n T m2 (n * S M2 + 1) 0 + K1 * SZ).
  { unfold SJ, SZ. rewrite <- !lsum_scal, <- lsum_plus. apply lsum_ext; [lia|]. intros j Hj. unfold zx. set (jj := J (a' + IZR j * h2)). clearbody jj. field. exact K10. }
  rewrite (lsum_swap n T (fun u v => F (a + u * h1) (a' + v * h2))). set (DD := lsum (fun v => LX (a' + v * h2)) n T m2 (n * S M2 + 1) 0) in *.
  replace (h1 * h2 * DD + SZ / W * (c - a) * (c' - a') * h1 ^ p * e + (I - h2 * SJ) / K2 / (c - a) * (c - a) * (c' - a') * h2 ^ p * e) with (h2 * (h1 * DD + K1 * SZ) + (I - h2 * SJ)); [rewrite <- ES; ring|].
  rewrite <- HW at 1. unfold K1. replace ((I - h2 * SJ) / K2 / (c - a) * (c - a) * (c' - a') * h2 ^ p * e) with (I - h2 * SJ); [field; lra|]. unfold K2. field. repeat split; auto; lra.
Qed.
End R2.
End Real.

(* ---- the loops ---- *)
Section Loops.
Variables (b : backend) (fuel : nat).
Notation rel := (@isin (bscal b)).
Notation I := (iv (bscal b)).
Notation B := (Ibase (bpar b) fuel).
Variables (row : list (Z * Z)) (f : I -> I -> res I) (F : R -> R -> R) (a h1 a' h2 : R) (A H1 A' H2 : I) (n : nat) (m1 m2 : Z).
Hypothesis RS : forallb smallp row = true.
Hypothesis RA : rel A a.
Hypothesis RH1 : rel H1 h1.
Hypothesis RA' : rel A' a'.
Hypothesis RH2 : rel H2 h2.
Hypothesis MS1 : (m1 <= 2 ^ 53)%Z.
Hypothesis MS2 : (0 <= m2 <= 2 ^ 53)%Z.
Hypothesis RF : forall X Y V i j, (0 <= i <= m1)%Z -> (0 <= j <= m2)%Z -> f X Y = Ok V -> rel X (a + IZR i * h1) -> rel Y (a' + IZR j * h2) -> rel V (F (a + IZR i * h1) (a' + IZR j * h2)).
Notation OK := (IOK b fuel).
Notation LY x := (lsum (fun v => F x (a' + v * h2)) n (map toQ row) m2).
Lemma inner_ok i k1 K1 X cnt j r R0 Y : (0 <= i <= m1)%Z -> rel X (a + IZR i * h1) -> rel K1 k1 -> (0 <= j)%Z -> (j + Z.of_nat cnt <= m2 + 1)%Z -> rel R0 r ->
  dnc_inner (B := B) row f K1 X A' H2 (Z.of_nat n) m2 cnt j R0 = Ok Y -> rel Y (r + k1 * LY (a + IZR i * h1) cnt j).
Proof.
  intros Hi HX HK. revert j r R0. induction cnt as [|cnt IH]; intros j r R0 J0 J1 HR E; cbn [dnc_inner lsum] in *.
  - apply oki in E. subst Y. rewrite Rmult_0_r, Rplus_0_r. exact HR.
  - cbv zeta in E. apply bind_ok in E as (k2 & Ek & E). apply bind_ok in E as (v & Ev & E).
    pose proof (frac_ok B rel OK _ _ (row_small row RS _) Ek) as HK2.
    assert (HN : rel (badd (b := B) A' (bSmul (b := B) j 0 H2)) (a' + IZR j * h2)). { apply (bk_add _ _ OK); auto. rewrite <- (dy_int j). apply (bk_Smul _ _ OK); auto. apply lit_int. lia. }
    pose proof (RF _ _ _ i j Hi ltac:(lia) Ev HX HN) as HV.
    set (q := Q2R (toQ (nth (nc_idx (Z.of_nat n) m2 j) row (0, 1)%Z))) in *.
    apply (IH (j + 1)%Z (r + k1 * q * F (a + IZR i * h1) (a' + IZR j * h2))) in E; try lia.
    + unfold cw. change 0%Q with (toQ (0, 1)%Z). rewrite map_nth. fold q. replace (r + k1 * (q * F (a + IZR i * h1) (a' + IZR j * h2) + LY (a + IZR i * h1) cnt (j + 1)%Z)) with (r + k1 * q * F (a + IZR i * h1) (a' + IZR j * h2) + k1 * LY (a + IZR i * h1) cnt (j + 1)%Z) by ring. exact E.
    + apply (bk_add _ _ OK); auto. apply (bk_mul _ _ OK); auto. apply (bk_mul _ _ OK); auto.
Qed.
Lemma outer_ok cnt i r R0 Y : (0 <= i)%Z -> (i + Z.of_nat cnt <= m1 + 1)%Z -> rel R0 r ->
  dnc_outer (B := B) row f A H1 A' H2 (Z.of_nat n) m1 m2 cnt i R0 = Ok Y -> rel Y (r + lsum (fun u => LY (a + u * h1) (Z.to_nat (m2 + 1)) 0%Z) n (map toQ row) m1 cnt i).
Proof.
  revert i r R0. induction cnt as [|cnt IH]; intros i r R0 I0 I1 HR E; cbn [dnc_outer lsum] in *.
  - apply oki in E. subst Y. rewrite Rplus_0_r. exact HR.
  - cbv zeta in E. apply bind_ok in E as (k1 & Ek & E). apply bind_ok in E as (v & Ev & E).
    pose proof (frac_ok B rel OK _ _ (row_small row RS _) Ek) as HK1.
    assert (HN : rel (badd (b := B) A (bSmul (b := B) i 0 H1)) (a + IZR i * h1)). { apply (bk_add _ _ OK); auto. rewrite <- (dy_int i). apply (bk_Smul _ _ OK); auto. apply lit_int. lia. }
    set (q := Q2R (toQ (nth (nc_idx (Z.of_nat n) m1 i) row (0, 1)%Z))) in *.
    apply (inner_ok i q _ _ _ 0%Z r) in Ev; auto; try lia.
    apply (IH (i + 1)%Z (r + q * LY (a + IZR i * h1) (Z.to_nat (m2 + 1)) 0%Z)) in E; try lia; auto.
    unfold cw. change 0%Q with (toQ (0, 1)%Z). rewrite map_nth. fold q. rewrite <- Rplus_assoc. exact E.
Qed.
End Loops.

Lemma row_pos n : In n [1; 2; 4; 6; 3; 5; 7]%nat -> forall i, 0 <= Q2R (nth i (map toQ (nc_row n)) 0%Q).
Proof.
  intros Hn i. assert (K : forallb (fun q => Qle_bool 0 q) (map toQ (nc_row n)) = true) by (destruct Hn as [<-|[<-|[<-|[<-|[<-|[<-|[<-|[]]]]]]]]; vm_compute; reflexivity).
  destruct (Nat.lt_ge_cases i (length (map toQ (nc_row n)))) as [L|L]; [|rewrite nth_overflow by auto; rewrite Q2R_0; lra].
  rewrite forallb_forall in K. specialize (K _ (nth_In _ 0%Q L)). apply Qle_bool_iff, Qle_Rle in K. rewrite Q2R_0 in K. exact K.
Qed.

Section Sum.
Variables (b : backend) (fuel : nat).
Notation rel := (@isin (bscal b)).
Notation I := (iv (bscal b)).
Notation B := (Ibase (bpar b) fuel).
Theorem dnc_sum_ok (Fx Fy : nat -> R -> R -> R) (F : R -> R -> R) n m1 m2 err (f : I -> I -> res I) (A E A' E' HX HY V : I) a c a' c' J :
  In (Z.to_nat n) [1; 2; 4; 6; 3; 5; 7]%nat -> (1 <= n)%Z -> (1 <= m1 < 2 ^ 52)%Z -> (1 <= m2 < 2 ^ 52)%Z -> nc_good (Z.to_nat n) err = true ->
  (forall x y, Rmin a c <= x <= Rmax a c -> Rmin a' c' <= y <= Rmax a' c' -> Fx O x y = F x y /\ Fy O x y = F x y /\
    rel HX (Fx (Z.to_nat (nc_d (Z.to_nat n))) x y) /\ rel HY (Fy (Z.to_nat (nc_d (Z.to_nat n))) x y) /\
    (forall X Y W, f X Y = Ok W -> rel X x -> rel Y y -> rel W (F x y)) /\
    forall k, is_derive (fun t => Fx k t y) x (Fx (S k) x y) /\ is_derive (fun t => Fy k x t) y (Fy (S k) x y)) ->
  rel A a -> rel E c -> rel A' a' -> rel E' c' -> is_RInt (fun x => RInt (F x) a' c') a c J ->
  dnc_sum (B := B) (nc_row (Z.to_nat n)) err (nc_d (Z.to_nat n)) f A E A' E' HX HY n m1 m2 = Ok V -> rel V J.
Proof.
  intros HN N1 M1 M2 GD HF RA RE RA' RE' HJ H. unfold dnc_sum in H. cbv zeta in H. pose proof (IOK b fuel) as OK.
  assert (N7 : (n <= 7)%Z) by (destruct HN as [Q|[Q|[Q|[Q|[Q|[Q|[Q|[]]]]]]]]; lia).
  destruct (round_ok n m1 N1 ltac:(lia)) as (K1 & EM1 & BM1). destruct (round_ok n m2 N1 ltac:(lia)) as (K2 & EM2 & BM2). set (m1' := nc_round n m1) in *. set (m2' := nc_round n m2) in *. set (n' := Z.to_nat n) in *. set (d := nc_d n') in *.
  apply bind_ok in H as (h1 & Eh1 & H). apply bind_ok in H as (h2 & Eh2 & H). apply bind_ok in H as (r & Er & H). apply bind_ok in H as (et & Ee & H). apply bind_ok in H as (q1 & Eq1 & H). apply bind_ok in H as (q2 & Eq2 & H). apply oki in H. subst V.
  assert (RW1 : rel (bsub (b := B) E A) (c - a)) by (apply (bk_sub _ _ OK); auto). assert (RW2 : rel (bsub (b := B) E' A') (c' - a')) by (apply (bk_sub _ _ OK); auto).
  destruct (bk_divS _ _ OK _ _ _ _ _ (lit_int m1' ltac:(lia)) Eh1 RW1) as [NZ1 Rh1]. rewrite dy_int in NZ1, Rh1. destruct (bk_divS _ _ OK _ _ _ _ _ (lit_int m2' ltac:(lia)) Eh2 RW2) as [NZ2 Rh2]. rewrite dy_int in NZ2, Rh2.
  set (g1 := (c - a) / IZR m1') in *. set (g2 := (c' - a') / IZR m2') in *.
  assert (HH1 : c - a = g1 * INR (n' * S K1)) by (rewrite INR_IZR_INZ, <- EM1; unfold g1; field; auto). assert (HH2 : c' - a' = g2 * INR (n' * S K2)) by (rewrite INR_IZR_INZ, <- EM2; unfold g2; field; auto).
  assert (DP : (1 <= d)%Z) by apply (nc_d_range n ltac:(lia)).
  destruct (rule2 b Fx Fy F a c a' c' g1 g2 n' K1 K2 err HX HY GD) with (I := J) as (zx & zy & RX & RY & EJ); auto; try (intros; apply HF; auto); try (fold d; lia).
  { now apply row_pos. }
  assert (GD2 := GD). unfold nc_good in GD2. apply andb_prop in GD2 as [_ SM]. cbn [forallb] in SM. apply andb_prop in SM as [SE SR].
  pose proof (frac_ok B rel OK _ _ SE Ee) as RE1. fold d in EJ.
  assert (RQ1 : rel q1 (g1 ^ Z.to_nat d)). { destruct (bk_pow _ _ OK _ _ _ _ Eq1 Rh1) as [_ Q]. rewrite <- (Z2Nat.id d) in Q by lia. rewrite <- pow_powerRZ in Q. exact Q. }
  assert (RQ2 : rel q2 (g2 ^ Z.to_nat d)). { destruct (bk_pow _ _ OK _ _ _ _ Eq2 Rh2) as [_ Q]. rewrite <- (Z2Nat.id d) in Q by lia. rewrite <- pow_powerRZ in Q. exact Q. }
  rewrite EJ. apply (bk_add _ _ OK); [apply (bk_add _ _ OK)|]; [rewrite Rmult_comm| |]; repeat (apply (bk_mul _ _ OK); auto).
  assert (En : n = Z.of_nat n') by (unfold n'; lia). rewrite En, EM1, EM2 in Er. assert (EC1 : Z.to_nat (Z.of_nat (n' * S K1) + 1) = (n' * S K1 + 1)%nat) by lia. rewrite EC1 in Er.
  apply (outer_ok b fuel (nc_row n') f F a g1 a' g2 A h1 A' h2 n' (Z.of_nat (n' * S K1)) (Z.of_nat (n' * S K2))) with (r := 0) in Er; auto; try lia.
  - replace (Z.to_nat (Z.of_nat (n' * S K2) + 1)) with (n' * S K2 + 1)%nat in Er by lia. rewrite Rplus_0_l in Er. exact Er.
  - intros X Y W i j Hi Hj EW HX1 HY1. refine (proj1 (proj2 (proj2 (proj2 (proj2 (HF _ _ _ _))))) X Y W EW HX1 HY1); eapply node_in; eauto.
  - apply (rel0 B rel OK).
Qed.
End Sum.
