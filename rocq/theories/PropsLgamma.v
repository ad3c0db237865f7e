(* Property theorem: lgamma across a pole (C101), for every lgamma_point and digamma_zero that fulfil their contracts. *)
From Coq Require Import Reals ZArith Bool List Lra Lia Psatz Arith.
From Coquelicot Require Import Coquelicot.
From Flocq Require Import Core BinarySingleNaN.
From Verif Require Import Fp64 RDoubleHw.
From Verif Require Import Ext Scalar IntervalModel IntervalSpec IntervalProofs IntervalEncl IntervalSets Backends Ex64 ElemModel Elem64 PropsElem.
From Verif Require Import ADModel ADReal ADInst PsaModel PsaInst PsaHist PropsPsa PropsPsaHist OdeModel DefintAuto SingAuto PropsSingAuto PropsPowPar GammaReal GammaNeg GammaMin GammaModel GammaProofs PropsGamma.
Import List ListNotations.
Open Scope R_scope.

(* what lgamma_point is to return (C99) *)
Definition lpoint_ok {b fuel} (lgp : iv (bscal b) -> hM (IB b fuel) (iv (bscal b) * list (iv (bscal b) * iv (bscal b) * iv (bscal b)))) : Prop :=
  forall Y y z v l st st' G, isin Y y -> floor_of b Y z -> (Z.abs z < 2 ^ 31 - 1)%Z -> y <= IZR z + 1 -> lgp Y st = (Ok (v, l), st') -> is_Gamma y G -> isin v (ln (Rabs G)).

(* x = [-6 + 2^-6, -4 - 2^-6].  digamma_zero finds the lowest points in (-6,-5) and (-5,-4) in m1 and m2.  lgamma_point returns [-17/4, inf] for both
   ends of x and for m2, and the whole line otherwise.  tmp is set again after the visit of (-6,-5), so the lower end returned is -17/4. *)
Local Notation xx := (qiv (-383) (-6) (-257) (-6)).
Local Notation m_1 := (qiv (-95) (-4) (-41) (-3)).
Local Notation m_2 := (qiv (-79) (-4) (-33) (-3)).
Definition same (X Y : iv (bscal BHw)) : bool := seqb (lo X) (lo Y) && seqb (hi X) (hi Y).
Definition w_dz (s : bscal BHw) : hM (IB BHw 60) (iv (bscal BHw)) :=
  hret (if seqb s (bdy (-383) (-6)) then m_1 else if seqb s (bdy (-319) (-6)) then m_2 else qiv 0 0 0 0).
Definition w_lgp (Y : iv (bscal BHw)) : hM (IB BHw 60) (iv (bscal BHw) * list (iv (bscal BHw) * iv (bscal BHw) * iv (bscal BHw))) :=
  hret (if same Y (qiv (-383) (-6) (-383) (-6)) || same Y (qiv (-257) (-6) (-257) (-6)) || same Y m_2 then qivr (-17) (-2) else iwhole, []).
Lemma same_in X m1 e1 m2 e2 x : lit m1 e1 -> lit m2 e2 -> same X (qiv m1 e1 m2 e2) = true -> isin X x -> dy m1 e1 <= x <= dy m2 e2.
Proof.
  intros L1 L2 H (_ & _ & A & B). unfold same in H. apply andb_prop in H as [H1 H2]. apply (ok_eq _ (bok BHw)) in H1, H2; try exact Logic.I.
  cbn [lo hi qiv] in H1, H2. rewrite (q_v m1 e1 (dy m1 e1) L1 eq_refl) in H1. rewrite (q_v m2 e2 (dy m2 e2) L2 eq_refl) in H2.
  destruct (sval (lo X)); simpl in H1; try tauto. destruct (sval (hi X)); simpl in H2; try tauto. simpl in A, B. subst. lra.
Qed.
Lemma low_ln G : / 60 <= Rabs G -> isin (S:=bscal BHw) (qivr (-17) (-2)) (ln (Rabs G)).
Proof.
  intros H. apply qivr_in; [reflexivity|]. simpl. destruct exp_174 as [E _]. pose proof (exp_pos (17 / 4)).
  assert (Q : - (17 / 4) <= ln (Rabs G)). { rewrite <- (ln_exp (- (17 / 4))). apply ln_le; [apply exp_pos|]. rewrite exp_Ropp. apply Rle_trans with (/ 60); auto. apply Rinv_le_contravar; lra. }
  lra.
Qed.
Lemma est_60 k y G : is_Gamma y G -> 1 <= y + INR k <= 2 -> Rabs (prodf y k) <= 30 -> / 60 <= Rabs G.
Proof.
  intros HG Hk H. destruct (Gamma_est k y G HG Hk) as [E _]. pose proof (Rabs_pos_lt _ (Gamma_prodf k y _ HG)). apply Rle_trans with (2 := E). apply Rinv_le_contravar; lra.
Qed.
Lemma w_lgp_ok : lpoint_ok w_lgp.
Proof.
  intros Y y z v l st st' G HY _ _ _ R HG. unfold w_lgp, hret, hlift in R. injection R as <- _ _.
  destruct (same Y (qiv (-383) (-6) (-383) (-6))) eqn:C1; cbn [orb].
  { apply (same_in Y _ _ _ _ y) in C1; auto; try (unfold lit; lia). unfold dy in C1. simpl in C1. assert (y = - (383 / 64)) by lra. subst y. apply low_ln. apply (est_60 7 _ _ HG); [simpl; lra|]. cbn [prodf]. apply Rabs_le. lra. }
  destruct (same Y (qiv (-257) (-6) (-257) (-6))) eqn:C2; cbn [orb].
  { apply (same_in Y _ _ _ _ y) in C2; auto; try (unfold lit; lia). unfold dy in C2. simpl in C2. assert (y = - (257 / 64)) by lra. subst y. apply low_ln. apply (est_60 6 _ _ HG); [simpl; lra|]. cbn [prodf]. apply Rabs_le. lra. }
  destruct (same Y m_2) eqn:C3; [|apply whole_in].
  apply (same_in Y _ _ _ _ y) in C3; auto; try (unfold lit; lia). unfold dy in C3. simpl in C3. apply low_ln. apply (est_60 6 _ _ HG); [simpl; lra|]. cbn [prodf].
  rewrite !Rabs_mult, Rabs_R1. assert (AB : forall u c, - c <= u <= c -> Rabs u <= c) by (intros; apply Rabs_le; auto).
  assert (A1 : Rabs y <= 5) by (apply AB; lra). assert (A2 : Rabs (y + 1) <= 4) by (apply AB; lra). assert (A3 : Rabs (y + 1 + 1) <= 3) by (apply AB; lra). assert (A4 : Rabs (y + 1 + 1 + 1) <= 2) by (apply AB; lra).
  assert (A5 : Rabs (y + 1 + 1 + 1 + 1) * (Rabs (y + 1 + 1 + 1 + 1 + 1) * 1) <= / 4).
  { rewrite Rmult_1_r, <- Rabs_mult. apply AB. pose proof (Rle_0_sqr (y + 9 / 2)) as Q. unfold Rsqr in Q. nra. }
  pose proof (Rabs_pos y). pose proof (Rabs_pos (y + 1)). pose proof (Rabs_pos (y + 1 + 1)). pose proof (Rabs_pos (y + 1 + 1 + 1)).
  assert (P0 : 0 <= Rabs (y + 1 + 1 + 1 + 1) * (Rabs (y + 1 + 1 + 1 + 1 + 1) * 1)) by (apply Rmult_le_pos; [apply Rabs_pos|]; apply Rmult_le_pos; [apply Rabs_pos|lra]).
  set (w := Rabs (y + 1 + 1 + 1 + 1) * (Rabs (y + 1 + 1 + 1 + 1 + 1) * 1)) in *.
  replace 30 with (5 * (4 * (3 * (2 * / 4)))) by field. repeat (apply Rmult_le_compat; auto; try (repeat (apply Rmult_le_pos; auto; fail))).
  all: repeat (apply Rmult_le_pos; auto).
Qed.
Local Ltac rabs := repeat match goal with |- context [Rabs ?e] => (rewrite (Rabs_left e) by lra) || (rewrite (Rabs_right e) by lra) end.
Lemma m1_low : exists c, - (95 / 16) <= c <= - (41 / 8) /\ lowest c.
Proof.
  apply (lowest_between 7 (- (95 / 16)) (- (11 / 2)) (- (41 / 8))); try (simpl; lra).
  - right. exists (-6)%Z. split; [lia|]. lra.
  - intros P M HP HM. apply (prod_compare 7 _ _ _ _ HM HP); try (simpl; lra). cbn [prodf]. rabs. lra.
  - intros P M HP HM. apply (prod_compare 7 _ _ _ _ HM HP); try (simpl; lra). cbn [prodf]. rabs. lra.
Qed.
Lemma m2_low : exists c, - (79 / 16) <= c <= - (33 / 8) /\ lowest c.
Proof.
  apply (lowest_between 6 (- (79 / 16)) (- (9 / 2)) (- (33 / 8))); try (simpl; lra).
  - right. exists (-5)%Z. split; [lia|]. lra.
  - intros P M HP HM. apply (prod_compare 6 _ _ _ _ HM HP); try (simpl; lra). cbn [prodf]. rabs. lra.
  - intros P M HP HM. apply (prod_compare 6 _ _ _ _ HM HP); try (simpl; lra). cbn [prodf]. rabs. lra.
Qed.
Lemma w_dz_ok : zeros_ok BHw 60 w_dz.
Proof.
  intros s w E st m st' R Z. unfold w_dz, hret, hlift in R.
  destruct (seqb s (bdy (-383) (-6))) eqn:C1.
  { injection R as <- _. apply (ok_eq _ (bok BHw)) in C1; try exact Logic.I. rewrite E, (q_v (-383) (-6) (- (383 / 64))) in C1; [|unfold lit; lia|unfold dy; simpl; lra]. simpl in C1. subst w.
    destruct m1_low as (c & Hc & HL). exists c. split; [exact HL|]. split; [right; exists (-6)%Z; split; [lia|lra]|]. split; [qin|]. exists (-6)%Z. split; [|split; [lia|simpl; lra]].
    exists (- (95 / 16)). split; [apply q_v; [unfold lit; lia|unfold dy; simpl; lra]|]. symmetry. apply Zfloor_imp. simpl. lra. }
  destruct (seqb s (bdy (-319) (-6))) eqn:C2.
  { injection R as <- _. apply (ok_eq _ (bok BHw)) in C2; try exact Logic.I. rewrite E, (q_v (-319) (-6) (- (319 / 64))) in C2; [|unfold lit; lia|unfold dy; simpl; lra]. simpl in C2. subst w.
    destruct m2_low as (c & Hc & HL). exists c. split; [exact HL|]. split; [right; exists (-5)%Z; split; [lia|lra]|]. split; [qin|]. exists (-5)%Z. split; [|split; [lia|simpl; lra]].
    exists (- (79 / 16)). split; [apply q_v; [unfold lit; lia|unfold dy; simpl; lra]|]. symmetry. apply Zfloor_imp. simpl. lra. }
  injection R as <- _. vm_compute in Z. discriminate Z.
Qed.
Local Notation w_run := (lgamma_of (bpar BHw) 60 w_lgp w_dz (qiv 1 0 1 1) xx (C78_st 1 false false [])).
Definition w_check (r : res (out BHw)) : bool := match r with Ok (v, []) => Beqb (lo v : b64) (bdy (-17) (-2)) | _ => false end.
Lemma w_runs : w_check (fst w_run) = true.
Proof. vm_compute. reflexivity. Qed.
Theorem C101_across_refuted : exists (lgp : iv (bscal BHw) -> hM (IB BHw 60) (out BHw)) dz m2, lpoint_ok lgp /\ zeros_ok BHw 60 dz /\ (exists c, lowest c /\ 0 < c /\ narrow BHw m2 c) /\
  exists X st v st' x G, lgamma_of (bpar BHw) 60 lgp dz m2 X st = (Ok (v, []), st') /\ isin X x /\ is_Gamma x G /\ ~ isin v (ln (Rabs G)).
Proof.
  exists w_lgp, w_dz, (qiv 1 0 1 1). split; [exact w_lgp_ok|]. split; [exact w_dz_ok|]. split; [exact C100_m2_ok|]. exists xx, (C78_st 1 false false []).
  pose proof w_runs as R. destruct w_run as [q st']. cbn [fst] in R. destruct q as [[v [|]]|]; try discriminate. exists v, st', (- (11 / 2)).
  destruct (Gamma_exists (- (11 / 2))) as [G HG].
  { intros k E. assert (Q : 2 * IZR (Z.of_nat k) = 11) by (rewrite <- INR_IZR_INZ; lra). rewrite <- mult_IZR in Q. apply eq_IZR in Q. lia. }
  exists G. split; [reflexivity|]. split; [qin|]. split; [exact HG|]. intros (_ & _ & L & _). unfold w_check in R. apply (ok_eq _ (bok BHw)) in R; try exact Logic.I.
  rewrite (q_v (-17) (-2) (- (17 / 4))) in R; [|unfold lit; lia|unfold dy; simpl; lra]. destruct (sval (lo v)); simpl in R; try tauto. simpl in L. subst r.
  destruct (Gamma_est 7 _ _ HG ltac:(simpl; lra)) as [_ U]. cbn [prodf] in U. match type of U with context [Rabs (- (11 / 2) * ?e)] => (rewrite (Rabs_left (- (11 / 2) * e)) in U by lra) || (rewrite (Rabs_right (- (11 / 2) * e)) in U by lra) end.
  destruct exp_174 as [_ E]. pose proof (exp_pos (17 / 4)). pose proof (Rabs_pos_lt _ (Gamma_nonzero _ _ HG)) as PG.
  assert (KK : ln (Rabs G) < - (17 / 4)); [|lra]. rewrite <- (ln_exp (- (17 / 4))). apply ln_increasing; auto. rewrite exp_Ropp. apply Rle_lt_trans with (1 := U). apply Rinv_lt_contravar; [apply Rmult_lt_0_compat; lra|lra].
Qed.
Definition Lgamma_all := (C101_across_refuted, w_lgp_ok, w_dz_ok).
Print Assumptions Lgamma_all.
