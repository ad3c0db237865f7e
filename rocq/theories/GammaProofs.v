(* Proofs about GammaModel.v, for every double back end. *)
From Coq Require Import Reals ZArith Bool List Lra Lia Psatz Arith.
From Coquelicot Require Import Coquelicot.
From Flocq Require Import Core BinarySingleNaN.
From Verif Require Import Fp64 RDoubleHw.
From Verif Require Import Ext Scalar IntervalModel IntervalSpec IntervalProofs IntervalEncl IntervalSets Backends Ex64 ElemModel ElemExp ElemLog ElemConst Elem64 PropsElem.
From Verif Require Import RealFun ADModel ADReal ADProofs ADInst PsaModel PsaReal PsaProofs PsaExpr PsaUseProofs PsaInst PsaHist PsaHistProofs PropsPsa PsaInt.
From Verif Require Import OdeModel OdeProofs OdeIndep PropsPsaHist DefintAuto DefintAutoProofs PropsDefint PropsBessel SingReal SingModel SingProofs PropsSing SingAuto SingAutoProofs PropsSingAuto PowEnv PropsPowPar GammaReal GammaNeg GammaModel.
Import List ListNotations.
Open Scope R_scope.

Lemma nsub_int b (y : bscal b) z : sval y = XR (IZR z) -> (Z.abs z <= 2 ^ 52)%Z -> swf (nsub y s1) /\ sval (nsub y s1) = XR (IZR (z - 1)).
Proof.
  intros E H. rewrite minus_IZR. destruct b as [| |f]; (split; [exact Logic.I|]); apply (minus_exact y b1 (IZR z) 1); auto using b1_v;
    try (rewrite <- minus_IZR; apply F_int; lia); (apply (small_max 53); [lia|]); rewrite <- minus_IZR, <- abs_IZR; change (bpow radix2 53) with (IZR (2 ^ 53)); apply IZR_le; lia.
Qed.

Lemma wfb b (s : bscal b) : swf s. Proof. destruct b; exact Logic.I. Qed.
Section G.
Variables (b : backend) (fuel : nat) (root : bscal b -> nat -> bscal b) (proot : bscal b -> bscal b -> nat -> bscal b).
Variables (toint : bscal b -> Z) (th : bscal b) (t : R) (order : Z) (n : nat) (fast : bool).
Notation I := (iv (bscal b)).
Hypothesis TO : forall (s : bscal b) z, sval s = XR (IZR z) -> (Z.abs z < 2 ^ 31)%Z -> toint s = z.
Hypothesis OR : (1 <= order < 2 ^ 52)%Z.
Hypothesis ET : sval th = XR t.
Hypothesis T1 : 1 <= t.
Notation gr := (gamma_r (bpar b) fuel root proot th order n fast).
Notation gpt := (gamma_point (bpar b) fuel root proot toint th order n fast).
Notation lgpt := (lgamma_point (bpar b) fuel root proot toint th order n fast).
Lemma th_in : isin (ipt th) t.
Proof. apply (isin_pt); auto using wfb. Qed.
Lemma gamma_r_ok X x v l st st' : isin X x -> 1 <= x <= 2 -> gr X st = (Ok (v, l), st') -> steps_in l 0 t -> exists G, is_gamma x G /\ isin v G.
Proof.
  clear TO. intros HX H R HL. unfold gamma_r in R. apply hb_ok in R as (r & s2 & R1 & R). apply hb_ok in R as (e & s3 & R2 & R). unfold hlift in R2. injection R2 as R2 <-.
  unfold hret, hlift in R. injection R as <- <- <-. destruct r as [r lr]. cbn [fst snd] in *. match type of R1 with context [isubS X s1] => idtac end.
  destruct (C98_power_autostep b fuel root proot n fast gamma_e gamma_nopower_e [X] [] [x] [] (ipt s0) (ipt th) (isubS X s1) r order (sdy 1 (-52)) st lr s2 0 t (x - 1)) as (J & HJ & HV); auto; try lra.
  - simpl. unfold lit. repeat split; lia.
  - unfold const_logs. simpl. intuition discriminate.
  - simpl. lia.
  - unfold const_logs. simpl. intuition discriminate.
  - exact (zero_in_ b).
  - exact th_in.
  - destruct (ok_s1 _ (bscal_ok b)). apply (isin_subS (bscal_ok b)); auto.
  - intros y Hy. simpl. rewrite Rminus_0_r. unfold dy. simpl. replace (x - 1 * 1) with (x - 1) by ring. reflexivity.
  - destruct (tail_ok x t T1 ltac:(lra)) as (L & HT & HLb).
    exists (J + L). split.
    + apply (gamma_split x t); auto; [lra|]. intros eps He. destruct (HJ eps He) as (d & Hd & A). exists d. split; auto. intros u Hu Hu'. destruct (A u Hu Hu') as (w & Iw & Lw). exists w. split; auto.
      apply (is_RInt_ext (fun y => Rpower (y - 0) (x - 1) * rval gamma_nopower_e (with_params [] y))); auto. intros z _. simpl. now rewrite Rminus_0_r.
    + apply (isin_add (bscal_ok b)); auto.
      pose proof (iexp_encl (bok b) (bpar b) (bexp b) fuel _ _ _ R2 (isin_neg (bscal_ok b) _ _ th_in)) as HE.
      destruct (ok_s1 _ (bscal_ok b)) as [W1 V1]. pose proof (isin_mul (bscal_ok b) _ _ _ _ HE (isin_addS (bscal_ok b) _ _ _ _ th_in W1 V1)) as HM.
      destruct HM as (_ & W & _ & UB). destruct (ok_s0 _ (bscal_ok b)) as [W0 V0]. split; [exact W0|]. split; [exact W|]. cbn [lo hi]. split.
      * rewrite V0. simpl. lra.
      * destruct (sval (hi (imul e (iaddS (ipt th) s1)))); simpl in *; auto. lra.
Qed.
Lemma int_v z : (Z.abs z <= 2 ^ 53)%Z -> swf (@sdy (bscal b) z 0) /\ sval (@sdy (bscal b) z 0) = XR (IZR z).
Proof. intros H. destruct (ok_dy _ (bscal_ok b) z 0 H ltac:(lia)) as [W V]. split; auto. rewrite V. f_equal. simpl. ring. Qed.
Lemma sub_int (X : I) x z : isin X x -> (Z.abs z <= 2 ^ 53)%Z -> isin (isubS X (sdy z 0)) (x - IZR z).
Proof. intros HX H. destruct (int_v z H). apply (isin_subS (bscal_ok b)); auto. Qed.
Lemma gp_up_ok (X : I) x k : isin X x -> forall r R, (Z.of_nat k <= 2 ^ 53)%Z -> INR k < x -> isin r R -> is_gamma (x - INR k) R -> exists G, is_gamma x G /\ isin (gp_up X k r) G.
Proof.
  intros HX. induction k as [|k IH]; intros r R K H Hr HG.
  - simpl in *. rewrite Rminus_0_r in HG. exists R. auto.
  - cbn [gp_up]. rewrite S_INR in *. apply (IH _ (R * (x - IZR (Z.of_nat (S k))))); [lia|lra| |].
    + apply (isin_mul (bscal_ok b)); auto. apply sub_int; auto; lia.
    + rewrite <- INR_IZR_INZ, S_INR. replace (x - INR k) with (x - (INR k + 1) + 1) by ring. rewrite Rmult_comm. apply gamma_succ; auto. lra.
Qed.
Lemma gp_down_ok (X : I) x k : isin X x -> forall i r R q, (Z.abs i + Z.of_nat k <= 2 ^ 53)%Z -> isin r R -> gp_down X k i r = Ok q ->
  prodf (x - IZR i) k <> 0 /\ isin q (R / prodf (x - IZR i) k).
Proof.
  intros HX. induction k as [|k IH]; intros i r R q K Hr E.
  - simpl in *. injection E as <-. split; [lra|]. replace (R / 1) with R by field. auto.
  - cbn [gp_down] in E. unfold bind in E. destruct (idiv r (isubS X (sdy i 0))) as [d|] eqn:D; [|discriminate].
    destruct (isin_div (bscal_ok b) _ _ _ _ _ D Hr (sub_int X x i HX ltac:(lia))) as [N HD]. destruct (IH (i - 1)%Z d _ q ltac:(lia) HD E) as [N' HQ].
    rewrite minus_IZR in N', HQ. replace (x - (IZR i - 1)) with (x - IZR i + 1) in N', HQ by ring. cbn [prodf]. split; [now apply Rmult_integral_contrapositive|].
    replace (R / ((x - IZR i) * prodf (x - IZR i + 1) k)) with (R / (x - IZR i) / prodf (x - IZR i + 1) k) by (field; auto). exact HQ.
Qed.
(* the value of floor(x.lower()) *)
Definition floor_of (X : I) (z : Z) : Prop := exists w, sval (lo X) = XR w /\ z = Zfloor w.
Lemma floor_v (X : I) z : floor_of X z -> sval (sfloor (lo X)) = XR (IZR z).
Proof. intros (w & E & ->). apply (xl_floor _ _ (bexp b) (lo X) w (wfb b _) E). Qed.
Lemma floor_le (X : I) x z : floor_of X z -> isin X x -> IZR z <= x.
Proof. intros (w & E & ->) (_ & _ & L & _). rewrite E in L. simpl in L. pose proof (Zfloor_lb w). lra. Qed.
Lemma gamma_point_ok X x z v l st st' : isin X x -> floor_of X z -> (Z.abs z < 2 ^ 31 - 1)%Z -> x <= IZR z + 1 -> gpt X st = (Ok (v, l), st') -> steps_in l 0 t -> exists G, is_Gamma x G /\ isin v G.
Proof.
  intros HX HF HZ H R HL. pose proof (floor_le X x z HF HX) as H0. pose proof (floor_v X z HF) as V. unfold gamma_point in R.
  destruct (ok_s1 _ (bscal_ok b)) as [W1 V1]. destruct (seqb (sfloor (lo X)) s1) eqn:E.
  - apply (ok_eq _ (bscal_ok b)) in E; auto using wfb. rewrite V, V1 in E. simpl in E. destruct (gamma_r_ok X x v l st st') as (G & HG & HV); auto; [lra|]. exists G. split; auto. apply Gpos; auto. lra.
  - destruct (nsub_int b _ _ V ltac:(lia)) as [W2 V2]. apply hb_ok in R as (r & s2 & R1 & R). destruct r as [r lr]. cbn [fst snd] in *.
    pose proof (isin_subS (bscal_ok b) _ _ _ _ HX W2 V2) as HX2.
    assert (LE : snd (r, lr) = l). { destruct (slt s1 (sfloor (lo X))); [unfold hret, hlift in R; injection R as _ <- _; auto|]. apply hb_ok in R as (q & s3 & _ & R). unfold hret, hlift in R. injection R as _ <- _. auto. }
    simpl in LE. subst lr. destruct (gamma_r_ok _ _ r l st s2 HX2) as (G & HG & HV); auto. { rewrite minus_IZR. lra. }
    destruct (slt s1 (sfloor (lo X))) eqn:C.
    + apply (ok_lt _ (bscal_ok b)) in C; auto using wfb. rewrite V, V1 in C. simpl in C. apply lt_IZR in C. unfold hret, hlift in R. injection R as <- _.
      rewrite (TO _ (z - 1) V2) by lia. assert (EN : INR (Z.to_nat (z - 1)) = IZR (z - 1)) by (rewrite INR_IZR_INZ, Z2Nat.id by lia; reflexivity).
      destruct (gp_up_ok X x (Z.to_nat (z - 1)) HX r G) as (G' & HG' & HV'); auto.
      * rewrite Z2Nat.id by lia. lia.
      * rewrite EN, minus_IZR. lra.
      * now rewrite EN.
      * exists G'. split; auto. apply Gpos; auto. apply IZR_lt in C. lra.
    + assert (ZL : (z <= 0)%Z). { assert (~ (1 < z)%Z) as N1. { intros Q. assert (slt s1 (sfloor (lo X)) = true); [|congruence]. apply (ok_lt _ (bscal_ok b)); auto using wfb. rewrite V, V1. simpl. now apply IZR_lt. }
        assert (z <> 1)%Z as N2. { intros ->. assert (seqb (sfloor (lo X)) s1 = true); [|congruence]. apply (ok_eq _ (bscal_ok b)); auto using wfb. rewrite V, V1. simpl. reflexivity. } lia. }
      apply hb_ok in R as (q & s3 & R3 & R). unfold hlift in R3. injection R3 as R3 <-. unfold hret, hlift in R. injection R as <- _. rewrite (TO _ z V) in R3 by lia.
      assert (EN : INR (Z.to_nat (1 - z)) = 1 - IZR z) by (rewrite INR_IZR_INZ, Z2Nat.id, minus_IZR by lia; reflexivity).
      destruct (gp_down_ok X x (Z.to_nat (1 - z)) HX 0 r G q) as [N HQ]; auto. { rewrite Z2Nat.id by lia. lia. }
      rewrite Rminus_0_r in N, HQ. exists (G / prodf x (Z.to_nat (1 - z))). split; auto. apply Gamma_down; auto; rewrite EN; [lra|]. rewrite minus_IZR in HG. replace (x + (1 - IZR z)) with (x - (IZR z - 1)) by ring. exact HG.
Qed.
Notation lg := (fun G => ln (Rabs G)).
Lemma lp_up_ok (X : I) x k : isin X x -> forall r R q, (Z.of_nat k <= 2 ^ 53)%Z -> INR k < x -> is_gamma (x - INR k) R -> isin r (ln R) -> lp_up (bpar b) fuel X k r = Ok q -> exists G, is_gamma x G /\ isin q (ln G).
Proof.
  intros HX. induction k as [|k IH]; intros r R q K H HG Hr E.
  - simpl in *. injection E as <-. rewrite Rminus_0_r in HG. exists R. auto.
  - cbn [lp_up] in E. unfold bind in E. destruct (ilog (bscal b) (bpar b) fuel (isubS X (sdy (Z.of_nat (S k)) 0))) as [d|] eqn:D; [|discriminate]. rewrite S_INR in *.
    pose proof (ilog_encl (bok b) (bpar b) (blog b) fuel _ _ _ D (sub_int X x (Z.of_nat (S k)) HX ltac:(lia))) as HD. rewrite <- INR_IZR_INZ, S_INR in HD. specialize (HD ltac:(lra)).
    apply (IH _ ((x - (INR k + 1)) * R) q ltac:(lia) ltac:(lra)) in E; auto.
    + replace (x - INR k) with (x - (INR k + 1) + 1) by ring. apply gamma_succ; auto. lra.
    + rewrite ln_mult; [|lra|now apply (gamma_positive (x - (INR k + 1)))]. rewrite Rplus_comm. now apply (isin_add (bscal_ok b)).
Qed.
Lemma lp_down_ok (X : I) x k : isin X x -> forall i r R q, (Z.abs i + Z.of_nat k <= 2 ^ 53)%Z -> R <> 0 -> prodf (x - IZR i) k <> 0 -> isin r (ln (Rabs R)) -> lp_down (bpar b) fuel X k i r = Ok q ->
  isin q (ln (Rabs (R / prodf (x - IZR i) k))).
Proof.
  intros HX. induction k as [|k IH]; intros i r R q K HR N Hr E.
  - simpl in *. injection E as <-. replace (R / 1) with R by field. auto.
  - cbn [lp_down] in E. unfold bind in E. destruct (ilog (bscal b) (bpar b) fuel (iabs (isubS X (sdy i 0)))) as [d|] eqn:D; [|discriminate].
    cbn [prodf] in N. assert (N1 : x - IZR i <> 0) by (intros Q; apply N; rewrite Q; ring). assert (N2 : prodf (x - IZR i + 1) k <> 0) by (intros Q; apply N; rewrite Q; ring).
    pose proof (sub_int X x i HX ltac:(lia)) as HS. assert (HA : isin (iabs (isubS X (sdy i 0))) (Rabs (x - IZR i))). { apply (isin_abs (bscal_ok b)); [apply (isin_valid _ _ HS)|]. exists (x - IZR i). auto. }
    pose proof (ilog_encl (bok b) (bpar b) (blog b) fuel _ _ _ D HA (Rabs_pos_lt _ N1)) as HD.
    cbn [prodf]. replace (R / ((x - IZR i) * prodf (x - IZR i + 1) k)) with (R / (x - IZR i) / prodf (x - IZR i + 1) k) by (field; auto).
    replace (x - IZR i + 1) with (x - IZR (i - 1)) in * by (rewrite minus_IZR; ring). apply (IH (i - 1)%Z (isub r d)); auto; [lia| |].
    + apply Rmult_integral_contrapositive. split; auto. now apply Rinv_neq_0_compat.
    + unfold Rdiv. rewrite Rabs_mult, Rabs_inv, ln_mult, ln_Rinv; [|now apply Rabs_pos_lt|now apply Rabs_pos_lt|apply Rinv_0_lt_compat; now apply Rabs_pos_lt]. now apply (isin_sub (bscal_ok b)).
Qed.
Lemma lgamma_point_ok X x z v l st st' G : isin X x -> floor_of X z -> (Z.abs z < 2 ^ 31 - 1)%Z -> x <= IZR z + 1 -> lgpt X st = (Ok (v, l), st') -> steps_in l 0 t -> is_Gamma x G -> isin v (lg G).
Proof.
  intros HX HF HZ H R HL HG0. pose proof (floor_le X x z HF HX) as H0. pose proof (floor_v X z HF) as V. unfold lgamma_point in R.
  destruct (ok_s1 _ (bscal_ok b)) as [W1 V1]. destruct (seqb (sfloor (lo X)) s1) eqn:E.
  - apply (ok_eq _ (bscal_ok b)) in E; auto using wfb. rewrite V, V1 in E. simpl in E. apply hb_ok in R as (r & s2 & R1 & R). destruct r as [r lr]. apply hb_ok in R as (q & s3 & R2 & R). unfold hlift in R2. injection R2 as R2 <-. unfold hret, hlift in R. injection R as <- <- _. cbn [fst snd] in *.
    destruct (gamma_r_ok X x r lr st s2) as (G' & HG & HV); auto; [lra|]. pose proof (gamma_positive _ _ HG). apply Gamma_pos_inv in HG0; [|lra]. rewrite (gamma_unique _ _ _ HG0 HG). rewrite Rabs_right by lra. now apply (ilog_encl (bok b) (bpar b) (blog b) fuel r).
  - destruct (nsub_int b _ _ V ltac:(lia)) as [W2 V2]. apply hb_ok in R as (r & s2 & R1 & R). destruct r as [r lr]. cbn [fst snd] in *.
    apply hb_ok in R as (g & s3 & R2 & R). unfold hlift in R2. injection R2 as R2 <-.
    pose proof (isin_subS (bscal_ok b) _ _ _ _ HX W2 V2) as HX2.
    assert (LE : snd (r, lr) = l). { destruct (slt s1 (sfloor (lo X))); apply hb_ok in R as (q & s3 & _ & R); unfold hret, hlift in R; injection R as _ <- _; auto. }
    simpl in LE. subst lr. destruct (gamma_r_ok _ _ r l st s2 HX2) as (G' & HG & HV); auto. { rewrite minus_IZR. lra. }
    pose proof (gamma_positive _ _ HG) as PG. pose proof (ilog_encl (bok b) (bpar b) (blog b) fuel _ _ _ R2 HV PG) as HLG.
    destruct (slt s1 (sfloor (lo X))) eqn:C.
    + apply (ok_lt _ (bscal_ok b)) in C; auto using wfb. rewrite V, V1 in C. simpl in C. apply lt_IZR in C. apply hb_ok in R as (q & s3 & R3 & R). unfold hlift in R3. injection R3 as R3 <-. unfold hret, hlift in R. injection R as <- _.
      rewrite (TO _ (z - 1) V2) in R3 by lia. assert (EN : INR (Z.to_nat (z - 1)) = IZR (z - 1)) by (rewrite INR_IZR_INZ, Z2Nat.id by lia; reflexivity).
      destruct (lp_up_ok X x (Z.to_nat (z - 1)) HX g G' q) as (G2 & HG2 & HV'); auto.
      * rewrite Z2Nat.id by lia. lia.
      * rewrite EN, minus_IZR. lra.
      * now rewrite EN.
      * apply IZR_lt in C. apply Gamma_pos_inv in HG0; [|lra]. rewrite (gamma_unique _ _ _ HG0 HG2). rewrite Rabs_right; auto. left. apply (gamma_positive _ _ HG2).
    + assert (ZL : (z <= 0)%Z). { assert (~ (1 < z)%Z) as N1. { intros Q. assert (slt s1 (sfloor (lo X)) = true); [|congruence]. apply (ok_lt _ (bscal_ok b)); auto using wfb. rewrite V, V1. simpl. now apply IZR_lt. }
        assert (z <> 1)%Z as N2. { intros ->. assert (seqb (sfloor (lo X)) s1 = true); [|congruence]. apply (ok_eq _ (bscal_ok b)); auto using wfb. rewrite V, V1. simpl. reflexivity. } lia. }
      apply hb_ok in R as (q & s3 & R3 & R). unfold hlift in R3. injection R3 as R3 <-. unfold hret, hlift in R. injection R as <- _. rewrite (TO _ z V) in R3 by lia.
      assert (EN : INR (Z.to_nat (1 - z)) = 1 - IZR z) by (rewrite INR_IZR_INZ, Z2Nat.id, minus_IZR by lia; reflexivity).
      pose proof (Gamma_prodf (Z.to_nat (1 - z)) _ _ HG0) as N. rewrite <- (Rminus_0_r x) in N.
      pose proof (lp_down_ok X x (Z.to_nat (1 - z)) HX 0 g G' q ltac:(rewrite Z2Nat.id by lia; lia) ltac:(lra) N) as HQ. rewrite (Rabs_right G') in HQ by lra. specialize (HQ HLG R3).
      rewrite Rminus_0_r in N, HQ. rewrite (Gamma_unique x G (G' / prodf x (Z.to_nat (1 - z)))); auto. apply Gamma_down; auto; rewrite EN; [lra|]. rewrite minus_IZR in HG. replace (x + (1 - IZR z)) with (x - (IZR z - 1)) by ring. exact HG.
Qed.

(* gamma and lgamma: f is the identity, or ln |.| *)
End G.
Section F.
Variables (b : backend) (fuel : nat) (t : R).
Notation I := (iv (bscal b)).
Notation floor_of := (floor_of b).
Variable gp : I -> hM (IB b fuel) (I * list (I * I * I)).
Variable f : R -> R.
Hypothesis GP : forall Y y z v l st st' G, isin Y y -> floor_of Y z -> (Z.abs z < 2 ^ 31 - 1)%Z -> y <= IZR z + 1 -> gp Y st = (Ok (v, l), st') -> steps_in l 0 t -> is_Gamma y G -> isin v (f G).
Hypothesis BT : forall c Gc l u x L U X, is_Gamma c Gc -> (forall y G, cell c y -> is_Gamma y G -> Rabs Gc <= Rabs G) -> cell c l -> cell l u -> l <= x <= u ->
  is_Gamma l L -> is_Gamma u U -> is_Gamma x X -> (btw (f Gc) (f L) (f X) \/ btw (f Gc) (f U) (f X)) /\ (c < l \/ u < c -> btw (f L) (f U) (f X)).
Variable dz : bscal b -> hM (IB b fuel) I.
Variable m2 : I.
(* m contains c and is not too wide *)
Definition narrow (m : I) (c : R) : Prop := isin m c /\ exists z, floor_of m z /\ (Z.abs z < 2 ^ 31 - 1)%Z /\ c <= IZR z + 1.
Lemma steps_app l1 l2 : steps_in (b:=b) (l1 ++ l2) 0 t -> steps_in l1 0 t /\ steps_in l2 0 t.
Proof. intros H. split; intros q Q; apply H; apply in_or_app; auto. Qed.
Lemma btw_hull (A C : I) p q r : isin A p -> isin C q -> btw p q r -> isin (hull A C) r.
Proof. intros HA HC H. apply (isin_hull_mid (bscal_ok b) A C p q r); auto. Qed.
Lemma gp_end s w v l st st' G : sval s = XR w -> (Z.abs (Zfloor w) < 2 ^ 31 - 1)%Z -> gp (ipt s) st = (Ok (v, l), st') -> steps_in l 0 t -> is_Gamma w G -> isin v (f G).
Proof.
  intros E Z R HL HG. apply (GP (ipt s) w (Zfloor w) v l st st' G); auto.
  - apply isin_pt; auto using wfb.
  - exists w. auto.
  - left. apply Zfloor_ub.
Qed.
Lemma cell_val a c : cell a c -> (exists G, is_Gamma a G) /\ exists G, is_Gamma c G.
Proof.
  intros H. assert (K : forall a c, cell a c -> exists G, is_Gamma a G). { clear. intros a c C. apply Gamma_exists. intros k ->. destruct C as [[C _]|(z & Hz & [K1 K2] & _)].
    - pose proof (pos_INR k). lra.
    - rewrite INR_IZR_INZ, <- opp_IZR in *. apply lt_IZR in K1. rewrite <- (plus_IZR z 1) in K2. apply lt_IZR in K2. lia. }
  split; [apply (K a c H)|apply (K c a)]. now apply cell_sym.
Qed.
Lemma ends_min_ok (X m : I) lw uw c st v l st' tl x G : sval (lo X) = XR lw -> sval (hi X) = XR uw -> (Z.abs (Zfloor lw) < 2 ^ 31 - 1)%Z -> (Z.abs (Zfloor uw) < 2 ^ 31 - 1)%Z -> cell lw uw ->
  lowest c -> cell c lw -> narrow m c -> (dh t <- ends (bpar b) fuel gp X; with_min (bpar b) fuel gp X m t) st = (Ok (v, l), st') -> tl = l -> steps_in tl 0 t -> isin X x -> is_Gamma x G -> isin v (f G).
Proof.
  intros EL EU ZL ZU CE (Gc & HGc & Hm) CC (Hc & zm & Fm & Zm & Cm) R -> HL HX HG.
  assert (HXb : lw <= x <= uw) by (destruct HX as (_ & _ & A & C); rewrite EL in A; rewrite EU in C; simpl in *; lra).
  assert (VX : ivalid X) by (apply (isin_valid _ _ HX)).
  destruct (cell_val _ _ CE) as [[L HGL] [U HGU]].
  apply hb_ok in R as (tt & s2 & R1 & R). destruct tt as [tv tls]. unfold ends in R1. apply hb_ok in R1 as (a & s3 & Ra & R1). apply hb_ok in R1 as (d & s4 & Rd & R1).
  destruct a as [a la]. destruct d as [d ld]. unfold hret, hlift in R1. cbn [fst snd] in R1. injection R1 as <- <- <-.
  destruct (BT c Gc lw uw x L U G) as [B1 B2]; auto.
  unfold with_min in R. destruct (overlap X m) eqn:O.
  - apply hb_ok in R as (q & s5 & Rq & R). destruct q as [q lq]. unfold hret, hlift in R. cbn [fst snd] in R. injection R as <- <- _.
    apply steps_app in HL as [HL HL3]. apply steps_app in HL as [HL1 HL2].
    pose proof (gp_end _ _ _ _ _ _ L EL ZL Ra HL1 HGL) as HA. pose proof (gp_end _ _ _ _ _ _ U EU ZU Rd HL2 HGU) as HD.
    pose proof (GP m c zm q lq s4 s5 Gc Hc Fm Zm Cm Rq HL3 HGc) as HQ.
    pose proof (isin_hull_l (bscal_ok b) a d _ HA (isin_valid _ _ HD)) as HA'. pose proof (isin_hull_r (bscal_ok b) a d _ (isin_valid _ _ HA) HD) as HD'.
    destruct B1 as [B1|B1].
    + apply (btw_hull _ _ (f L) (f Gc)); auto. destruct B1; [right|left]; auto.
    + apply (btw_hull _ _ (f U) (f Gc)); auto. destruct B1; [right|left]; auto.
  - unfold hret, hlift in R. injection R as <- <- _. apply steps_app in HL as [HL1 HL2].
    pose proof (gp_end _ _ _ _ _ _ L EL ZL Ra HL1 HGL) as HA. pose proof (gp_end _ _ _ _ _ _ U EU ZU Rd HL2 HGU) as HD.
    apply (btw_hull _ _ (f L) (f U)); auto. apply B2. destruct (Rlt_or_le c lw) as [|N1]; auto. destruct (Rlt_or_le uw c) as [|N2]; auto. exfalso.
    assert (overlap X m = true); [|congruence]. apply (overlap_spec (bscal_ok b)); auto; [apply (isin_valid _ _ Hc)|]. exists c. split; auto.
    destruct HX as (W1 & W2 & _ & _). split; [exact W1|]. split; [exact W2|]. rewrite EL, EU. simpl. lra.
Qed.
(* what digamma_zero is to return: an interval that contains 0, or the lowest point between the poles around its argument *)
Definition zeros_ok : Prop := forall s w, sval s = XR w -> forall st m st', dz s st = (Ok m, st') -> zero_in m = false -> exists c, lowest c /\ cell c w /\ narrow m c.
Hypothesis DZ : zeros_ok.
Hypothesis M2 : exists c, lowest c /\ 0 < c /\ narrow m2 c.
Lemma positive_ok (X : I) lw uw st v l st' x G : sval (lo X) = XR lw -> sval (hi X) = XR uw -> 0 < lw -> (Zfloor uw < 2 ^ 31 - 1)%Z ->
  positive (bpar b) fuel gp dz m2 X st = (Ok (v, l), st') -> steps_in l 0 t -> isin X x -> is_Gamma x G -> isin v (f G).
Proof.
  intros EL EU PL ZU R HL HX HG. assert (HXb : lw <= x <= uw) by (destruct HX as (_ & _ & A & C); rewrite EL in A; rewrite EU in C; simpl in *; lra).
  assert (Z0 : (0 <= Zfloor lw)%Z) by (apply Zfloor_lub; lra). assert (Z1 : (Zfloor lw <= Zfloor uw)%Z) by (apply Zfloor_le; lra).
  unfold positive in R. apply hb_ok in R as (m & s2 & R1 & R). cbv zeta in R. assert (CE : cell lw uw) by (left; lra).
  destruct (zero_in m) eqn:Zm.
  - destruct M2 as (c & H1 & H2 & H3). apply (ends_min_ok X m2 lw uw c s2 v l st' l x G); auto; try lia. left; lra.
  - destruct (DZ _ _ EL _ _ _ R1 Zm) as (c & H1 & H2 & H3). apply (ends_min_ok X m lw uw c s2 v l st' l x G); auto; lia.
Qed.
Lemma negative_ok (X : I) lw uw st v l st' x G : sval (lo X) = XR lw -> sval (hi X) = XR uw -> lw <= 0 -> (- (2 ^ 31 - 1) < Zfloor lw)%Z -> Zfloor lw = Zfloor uw -> IZR (Zfloor lw) <> lw ->
  negative (bpar b) fuel gp dz X st = (Ok (v, l), st') -> steps_in l 0 t -> isin X x -> is_Gamma x G -> isin v (f G).
Proof.
  intros EL EU NL ZL ZE NI R HL HX HG. assert (HXb : lw <= x <= uw) by (destruct HX as (_ & _ & A & C); rewrite EL in A; rewrite EU in C; simpl in *; lra).
  pose proof (Zfloor_lb lw). pose proof (Zfloor_ub uw) as UB. rewrite <- ZE in UB.
  assert (LN : (Zfloor lw < 0)%Z) by (apply lt_IZR; lra).
  assert (CE : cell lw uw). { right. exists (Zfloor lw). repeat split; auto; lra. }
  unfold negative in R. apply hb_ok in R as (m & s2 & R1 & R). destruct (zero_in m) eqn:Zm.
  - apply (GP X x (Zfloor lw) v l s2 st' G); auto; [exists lw; auto|lia|lra].
  - destruct (DZ _ _ EL _ _ _ R1 Zm) as (c & H1 & H2 & H3). apply (ends_min_ok X m lw uw c s2 v l st' l x G); auto; lia.
Qed.
End F.
Lemma whole_in b r : isin (@iwhole (bscal b)) r.
Proof. destruct (ok_ninf _ (bscal_ok b)) as [W1 V1]. destruct (ok_pinf _ (bscal_ok b)) as [W2 V2]. unfold isin, iwhole. cbn [lo hi]. rewrite V1, V2. simpl. auto. Qed.
Lemma xl_floor_b b (s : bscal b) w : sval s = XR w -> sval (sfloor s) = XR (IZR (Zfloor w)).
Proof. intros E. apply (xl_floor _ _ (bexp b) s w (wfb b s) E). Qed.
Lemma slt0_v b (s : bscal b) w : sval s = XR w -> slt s0 s = true <-> 0 < w.
Proof. intros E. destruct (ok_s0 _ (bscal_ok b)) as [W0 V0]. rewrite (ok_lt _ (bscal_ok b)); auto using wfb. rewrite V0, E. simpl. tauto. Qed.
Lemma seqb_v b (s s' : bscal b) w w' : sval s = XR w -> sval s' = XR w' -> seqb s s' = true <-> w = w'.
Proof. intros E E'. rewrite (ok_eq _ (bscal_ok b)); auto using wfb. rewrite E, E'. simpl. tauto. Qed.
