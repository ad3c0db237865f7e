(* Ranges of sin and cos, poles of tan, domains of the partial functions. *)
From Coq Require Import Reals Lra Lia ZArith Bool List.
From Flocq Require Import Core.
From Verif Require Import Ext Scalar IntervalModel IntervalSpec IntervalProofs IntervalEncl IntervalSets IntervalDivPow IntervalMore ElemModel RealFun RealConst RealInv ElemGen ElemExp ElemLog ElemTrig.
Open Scope R_scope.

Ltac inv H := let a := fresh "T" in let E := fresh "E" in apply bind_ok in H as (a & E & H).
Section More.
Context {S : scal} (OK : scal_ok S).
Variable P : elemp S.
Notation iv := (iv S).
Lemma pm1_cut (R : iv) z : isin (intersect R (ipm1 S)) z -> -1 <= z <= 1.
Proof.
  destruct (m1_ok OK) as [Wm Em]. pose proof (s1_wf OK) as W1. pose proof (s1_v OK) as E1.
  intros (A1 & A2 & A3 & A4). unfold intersect, ipm1 in *. cbn [lo hi] in *. split.
  - destruct (slt (lo R) (sneg s1)) eqn:C. { rewrite Em in A3. auto. }
    apply (slt_false OK) in C; auto; try congruence; [|intros N; rewrite N in A3; auto].
    rewrite Em in C. destruct (sval (lo R)); simpl in *; try tauto; lra.
  - destruct (slt s1 (hi R)) eqn:C. { rewrite E1 in A4. auto. }
    apply (slt_false OK) in C; auto; try congruence; [|intros N; rewrite N in A4; auto].
    rewrite E1 in C. destruct (sval (hi R)); simpl in *; try tauto; lra.
Qed.
Lemma pm1_hull z : isin (hullSS (sneg (@s1 S)) s1) z -> -1 <= z <= 1.
Proof.
  destruct (m1_ok OK) as [Wm Em]. pose proof (s1_wf OK) as W1. pose proof (s1_v OK) as E1.
  unfold hullSS. assert (slt (sneg (@s1 S)) s1 = true) as ->.
  { apply (ok_lt _ OK); auto. rewrite Em, E1. simpl. lra. }
  intros (_ & _ & A3 & A4). cbn [lo hi] in *. rewrite Em in A3. rewrite E1 in A4. auto.
Qed.
Lemma pm1_self z : isin (ipm1 S) z -> -1 <= z <= 1.
Proof.
  destruct (m1_ok OK) as [Wm Em]. pose proof (s1_v OK) as E1.
  intros (_ & _ & A3 & A4). unfold ipm1 in *. cbn [lo hi] in *. rewrite Em in A3. rewrite E1 in A4. auto.
Qed.
Lemma sin_in_pm1 f X Q z : isin_ S P f X = Ok Q -> isin Q z -> -1 <= z <= 1.
Proof.
  intros H. unfold isin_ in H. destruct (inf_end S X). { injection H as <-. apply pm1_hull. }
  inv H. destruct sle. { injection H as <-. apply pm1_self. }
  inv H. inv H. injection H as <-. apply pm1_cut.
Qed.
Lemma cos_in_pm1 f X Q z : icos S P f X = Ok Q -> isin Q z -> -1 <= z <= 1.
Proof.
  intros H. unfold icos in H. destruct (inf_end S X). { injection H as <-. apply pm1_hull. }
  inv H. destruct sle. { injection H as <-. apply pm1_self. }
  inv H. inv H. injection H as <-. apply pm1_cut.
Qed.

(* a pole in X: the result is the whole line *)
Variable L : trig_laws S P.
Lemma cos_pos_shift x k : - (PI / 2) < x - IZR k * PI < PI / 2 -> cos x <> 0.
Proof.
  intros H N. pose proof (cos_gt_0 (x - IZR k * PI) ltac:(lra) ltac:(lra)) as C.
  replace x with ((x - IZR k * PI) + IZR k * PI) in N by ring.
  rewrite cos_plus in N. assert (Z1 : sin (IZR k * PI) = 0) by (apply sin_eq_0_1; exists k; auto).
  rewrite Z1, Rmult_0_r, Rminus_0_r in N. apply Rmult_integral in N as [N|N]; [lra|].
  pose proof (sin2_cos2 (IZR k * PI)) as Q. unfold Rsqr in Q. rewrite Z1, N in Q. lra.
Qed.
Lemma tan_pole f X x Q : itan S P f X = Ok Q -> isin X x -> cos x = 0 -> Q = iwhole.
Proof.
  intros H HX HC. pose proof (tl_pi _ _ L) as PII. unfold itan in H. destruct (inf_end S X) eqn:FE.
  { injection H as <-. unfold hullSS. destruct (ok_ninf _ OK) as [W1 E1]. destruct (ok_pinf _ OK) as [W2 E2].
    assert (slt (@sninf S) spinf = true) as -> by (apply (ok_lt _ OK); auto; rewrite E1, E2; simpl; auto). reflexivity. }
  pose proof (inf_end_fin OK _ _ (tl_absm _ _ L) HX FE) as FX. inv H. fold (pih P) in E, H. rename T into I2.
  destruct (sle (hi (pih P)) (hi I2)) eqn:WT. { injection H as <-. reflexivity. }
  exfalso.
  destruct (tl_pihhi _ _ L) as (ph & EPH). pose proof (isin_halfr OK _ _ PII) as HH. pose proof HH as (P1 & P2 & P3 & P4).
  fold (pih P) in HH, P1, P2, P3, P4.
  assert (FB : is_fin (sval (hi (pih P)))) by (rewrite EPH; simpl; auto).
  destruct (reduce_ok OK P L f (hi (pih P)) (c_pi P) PI X x I2) as [N|(k & l & HI & EL & BL)]; auto.
  { unfold by_ends in H. inv H. unfold tan_point in E0. inv E0. destruct (tl_nan _ _ L f _ T0 N) as [K _]. auto. }
  specialize (BL _ EPH). pose proof HI as (I1 & I3 & I4 & I5).
  assert (exists h, sval (hi I2) = XR h /\ h < ph /\ x - IZR k * PI <= h) as (h & EH & HH1 & HH2).
  { destruct (sval (hi I2)) as [h| | |] eqn:EH; simpl in I5; try tauto.
    - exists h. repeat split; auto. apply (sle_false OK) in WT; auto; try congruence. rewrite EPH, EH in WT. auto.
    - exfalso. assert (sle (hi (pih P)) (hi I2) = true); [|congruence]. apply (ok_le _ OK); auto. rewrite EPH, EH. simpl. auto. }
  rewrite EL in I4. simpl in I4.
  pose proof (tl_adj _ _ L _ _ _ I3 EH EPH HH1) as HU.
  assert (HL : - (PI / 2) < l).
  { assert (E3 : sval (sneg (lo I2)) = XR (- l)) by (rewrite (sneg_v OK), EL by auto; auto).
    pose proof (tl_adj _ _ L _ _ _ (sneg_wf OK _ I1) E3 EPH ltac:(lra)). lra. }
  apply (cos_pos_shift x k); auto. lra.
Qed.
End More.
