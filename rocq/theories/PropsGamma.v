(* Property theorems: gamma_r, gamma_point, lgamma_point (C99), gamma (C100) and lgamma (C101) of gamma.hpp, for every double back end.
   is_Gamma (GammaNeg.v) is Euler's integral over (0, oo) for positive arguments and Gamma(x + 1) / x for negative ones. *)
From Coq Require Import Reals ZArith Bool List Lra Lia Psatz Arith.
From Coquelicot Require Import Coquelicot.
From Flocq Require Import Core BinarySingleNaN.
From Verif Require Import Fp64 RDoubleHw.
From Verif Require Import Ext Scalar IntervalModel IntervalSpec IntervalProofs IntervalEncl IntervalSets Backends Ex64 ElemModel Elem64 PropsElem.
From Verif Require Import ADModel ADReal ADInst PsaModel PsaInst PsaHist PropsPsa PropsPsaHist OdeModel DefintAuto SingAuto PropsSingAuto PropsPowPar GammaReal GammaNeg GammaModel GammaProofs.
Import List ListNotations.
Open Scope R_scope.

(* the conversion of a double to int *)
Definition int_conv {b} (toint : bscal b -> Z) : Prop := forall (s : bscal b) z, sval s = XR (IZR z) -> (Z.abs z < 2 ^ 31)%Z -> toint s = z.
Section C99.
Variables (b : backend) (fuel : nat) (root : bscal b -> nat -> bscal b) (proot : bscal b -> bscal b -> nat -> bscal b).
Variables (toint : bscal b -> Z) (th : bscal b) (t : R) (order : Z) (n : nat) (fast : bool).
Hypothesis TO : int_conv toint.
Hypothesis OR : (1 <= order < 2 ^ 52)%Z.
Hypothesis ET : sval th = XR t.
Hypothesis T1 : 1 <= t.
Theorem C99_gamma_r : forall (X : iv (bscal b)) x v l st st', isin X x -> 1 <= x <= 2 ->
  gamma_r (bpar b) fuel root proot th order n fast X st = (Ok (v, l), st') -> steps_in l 0 t -> exists G, is_gamma x G /\ isin v G.
Proof.
  intros X x v l st st' HX H R HL. match type of R with gamma_r _ _ _ _ _ _ _ _ X _ = _ => idtac end.
  exact (gamma_r_ok b fuel root proot (fun _ => 0%Z) th t order n fast OR ET T1 X x v l st st' HX H R HL).
Qed.
Theorem C99_gamma_point : forall (X : iv (bscal b)) x z v l st st', isin X x -> floor_of b X z -> (Z.abs z < 2 ^ 31 - 1)%Z -> x <= IZR z + 1 ->
  gamma_point (bpar b) fuel root proot toint th order n fast X st = (Ok (v, l), st') -> steps_in l 0 t -> exists G, is_Gamma x G /\ isin v G.
Proof.
  intros X x z v l st st' HX HF HZ H R HL. match type of R with gamma_point _ _ _ _ _ _ _ _ _ X _ = _ => idtac end.
  exact (gamma_point_ok b fuel root proot toint th t order n fast TO OR ET T1 X x z v l st st' HX HF HZ H R HL).
Qed.
Theorem C99_lgamma_point : forall (X : iv (bscal b)) x z v l st st' G, isin X x -> floor_of b X z -> (Z.abs z < 2 ^ 31 - 1)%Z -> x <= IZR z + 1 ->
  lgamma_point (bpar b) fuel root proot toint th order n fast X st = (Ok (v, l), st') -> steps_in l 0 t -> is_Gamma x G -> isin v (ln (Rabs G)).
Proof.
  intros X x z v l st st' G HX HF HZ H R HL HG. match type of R with lgamma_point _ _ _ _ _ _ _ _ _ X _ = _ => idtac end.
  exact (lgamma_point_ok b fuel root proot toint th t order n fast TO OR ET T1 X x z v l st st' G HX HF HZ H R HL HG).
Qed.

(* ---- C100, C101: digamma_zero returns an interval with 0, or with the lowest point between the two poles around its argument; m2 has the lowest point of the positive axis ---- *)
Variables (dz : bscal b -> hM (IB b fuel) (iv (bscal b))) (m2 : iv (bscal b)).
Hypothesis DZ : zeros_ok b fuel dz.
Hypothesis M2 : exists c, lowest c /\ 0 < c /\ narrow b m2 c.
Theorem C100_gamma : forall (X : iv (bscal b)) lw uw x v l st st' G, sval (lo X) = XR lw -> sval (hi X) = XR uw -> (- (2 ^ 31 - 1) < Zfloor lw)%Z -> (Zfloor uw < 2 ^ 31 - 1)%Z ->
  isin X x -> is_Gamma x G -> gamma (bpar b) fuel root proot toint th order n fast dz m2 X st = (Ok (v, l), st') -> steps_in l 0 t -> isin v G.
Proof.
  intros X lw uw x v l st st' G EL EU ZL ZU HX HG R HL. unfold gamma, gamma_of in R.
  pose proof (xl_floor_b b _ _ EL) as FL. pose proof (xl_floor_b b _ _ EU) as FU.
  assert (GP : forall Y y z v l st st' G, isin Y y -> floor_of b Y z -> (Z.abs z < 2 ^ 31 - 1)%Z -> y <= IZR z + 1 ->
    gamma_point (bpar b) fuel root proot toint th order n fast Y st = (Ok (v, l), st') -> steps_in l 0 t -> is_Gamma y G -> isin v G).
  { intros Y y z v' l' s s' G' H1 H2 H3 H4 H5 H6 H7. destruct (C99_gamma_point Y y z v' l' s s' H1 H2 H3 H4 H5 H6) as (G2 & K1 & K2). now rewrite (Gamma_unique _ _ _ H7 K1). }
  destruct (slt s0 (lo X)) eqn:C1.
  - apply (slt0_v b _ _ EL) in C1. match type of R with positive _ _ (gamma_point _ _ _ _ _ _ _ _ _) _ _ X _ = _ => idtac end.
    exact (positive_ok b fuel t _ (fun G => G) GP Gamma_between dz m2 DZ M2 X lw uw st v l st' x G EL EU C1 ZU R HL HX HG).
  - destruct (seqb (sfloor (lo X)) (sfloor (hi X))) eqn:C2; cbn [negb] in R; [|unfold hret, hlift in R; injection R as <- _ _; apply whole_in].
    destruct (seqb (sfloor (lo X)) (lo X)) eqn:C3; [unfold hret, hlift in R; injection R as <- _ _; apply whole_in|].
    apply (seqb_v b _ _ _ _ FL FU) in C2. apply eq_IZR in C2.
    assert (N3 : IZR (Zfloor lw) <> lw) by (intros Q; assert (seqb (sfloor (lo X)) (lo X) = true) by (apply (seqb_v b _ _ _ _ FL EL); exact Q); congruence).
    assert (N1 : lw <= 0) by (destruct (Rlt_or_le 0 lw) as [Q|Q]; auto; apply (slt0_v b _ _ EL) in Q; congruence).
    match type of R with negative _ _ (gamma_point _ _ _ _ _ _ _ _ _) _ X _ = _ => idtac end.
    exact (negative_ok b fuel t _ (fun G => G) GP Gamma_between dz DZ X lw uw st v l st' x G EL EU N1 ZL C2 N3 R HL HX HG).
Qed.
(* lgamma: intervals of positive numbers, and intervals strictly between two poles; the other intervals are missing, see below *)
Theorem C101_lgamma_partial : forall (X : iv (bscal b)) lw uw x v l st st' G, sval (lo X) = XR lw -> sval (hi X) = XR uw -> (- (2 ^ 31 - 1) < Zfloor lw)%Z -> (Zfloor uw < 2 ^ 31 - 1)%Z ->
  cell lw uw ->
  isin X x -> is_Gamma x G -> lgamma (bpar b) fuel root proot toint th order n fast dz m2 X st = (Ok (v, l), st') -> steps_in l 0 t -> isin v (ln (Rabs G)).
Proof.
  intros X lw uw x v l st st' G EL EU ZL ZU CE HX HG R HL. unfold lgamma, lgamma_of in R.
  pose proof (xl_floor_b b _ _ EL) as FL. pose proof (xl_floor_b b _ _ EU) as FU.
  assert (HXb : lw <= x <= uw) by (destruct HX as (_ & _ & A & C); rewrite EL in A; rewrite EU in C; simpl in *; lra).
  destruct (slt s0 (lo X)) eqn:C1.
  - apply (slt0_v b _ _ EL) in C1. match type of R with positive _ _ (lgamma_point _ _ _ _ _ _ _ _ _) _ _ X _ = _ => idtac end.
    exact (positive_ok b fuel t _ (fun G => ln (Rabs G)) C99_lgamma_point lGamma_between dz m2 DZ M2 X lw uw st v l st' x G EL EU C1 ZU R HL HX HG).
  - assert (N1 : lw <= 0) by (destruct (Rlt_or_le 0 lw) as [Q|Q]; auto; apply (slt0_v b _ _ EL) in Q; congruence).
    destruct CE as [CE|(z & Hz & K1 & K2)]; [lra|]. assert (F1 : Zfloor lw = z) by (apply Zfloor_imp; rewrite plus_IZR; lra). assert (F2 : Zfloor uw = z) by (apply Zfloor_imp; rewrite plus_IZR; lra).
    destruct (seqb (sfloor (lo X)) (sfloor (hi X))) eqn:C2; cbn [negb] in R.
    2: { exfalso. assert (seqb (sfloor (lo X)) (sfloor (hi X)) = true); [|congruence]. apply (seqb_v b _ _ _ _ FL FU). now rewrite F1, F2. }
    destruct (seqb (sfloor (lo X)) (lo X)) eqn:C3; [exfalso; apply (seqb_v b _ _ _ _ FL EL) in C3; rewrite F1 in C3; lra|].
    match type of R with negative _ _ (lgamma_point _ _ _ _ _ _ _ _ _) _ X _ = _ => idtac end.
    exact (negative_ok b fuel t _ (fun G => ln (Rabs G)) C99_lgamma_point lGamma_between dz DZ X lw uw st v l st' x G EL EU N1 ZL ltac:(congruence) ltac:(rewrite F1; lra) R HL HX HG).
Qed.
End C99.
(* an interval whose lower end is 0 or a negative integer: lgamma returns [max, inf] even if it has other points *)
Theorem C101_integer_end_refuted : forall fuel root proot toint th order n fast dz m2 st, exists v, lgamma (S:=bscal BHw) (bpar BHw) fuel root proot toint th order n fast dz m2 (qiv 0 0 1 (-1)) st = (Ok (v, []), st) /\
  isin (S:=bscal BHw) (qiv 0 0 1 (-1)) (/ 2) /\ exists G, is_Gamma (/ 2) G /\ ~ isin v (ln (Rabs G)).
Proof.
  intros. exists (mkiv (S:=bscal BHw) smax spinf). split; [|split; [qin|]].
  - unfold lgamma, lgamma_of. replace (slt s0 (lo (qiv 0 0 1 (-1)))) with false by (symmetry; vm_compute; reflexivity).
    replace (seqb (sfloor (lo (qiv 0 0 1 (-1)))) (sfloor (hi (qiv 0 0 1 (-1))))) with true by (symmetry; vm_compute; reflexivity).
    replace (seqb (sfloor (lo (qiv 0 0 1 (-1)))) (lo (qiv 0 0 1 (-1)))) with true by (symmetry; vm_compute; reflexivity). reflexivity.
  - destruct (gamma_exists (/ 2) ltac:(lra)) as [G HG]. exists G. split; [apply Gpos; auto; lra|]. pose proof (gamma_positive _ _ HG) as PG. rewrite Rabs_right by lra.
    pose proof (gamma_succ (/ 2) G ltac:(lra) HG) as H1. pose proof (gamma_upper 1 2 (/ 2 + 1) _ _ _ ltac:(lra) gamma_one gamma_two H1) as H2. rewrite Rmax_left in H2 by lra.
    assert (LG : ln G <= 1). { pose proof (exp_ineq1 1 ltac:(lra)). rewrite <- (ln_exp 1). apply ln_le; lra. }
    intros (_ & _ & L & _). assert (EM : sval (@smax (bscal BHw)) = XR maxR) by apply bmax_v. cbn [lo] in L. rewrite EM in L. simpl in L. pose proof big_max.
    assert (bpow radix2 1 <= bpow radix2 1023) by (apply bpow_le; lia). simpl (bpow radix2 1) in *. lra.
Qed.

(* ---- a run: th = 1, order 2 ---- *)
Definition toint_b (s : bscal BHw) : Z := Btrunc (s : b64).
Lemma toint_ok : int_conv toint_b.
Proof. intros s z E _. unfold toint_b. apply eq_IZR. rewrite Btrunc_correct by reflexivity. destruct (v64_XR _ _ E) as [_ Q]. rewrite Q. apply round_generic; [apply valid_rnd_ZR|]. apply generic_format_FIX. exists (Float radix2 z 0); [unfold F2R; simpl; ring|reflexivity]. Qed.
Definition steps_b (l : list (iv (bscal BHw) * iv (bscal BHw) * iv (bscal BHw))) : bool :=
  forallb (fun q => let t : iv D_hw := snd (fst q) in Bltb b0 (lo t : b64) && Bleb (lo t : b64) b1 && Bleb (lo t : b64) (hi t : b64)) l.
Lemma steps_b_ok l : steps_b l = true -> steps_in l 0 1.
Proof.
  intros H q Hq. unfold steps_b in H. rewrite forallb_forall in H. specialize (H q Hq). destruct q as [[a [tl tu]] c]. cbn [fst snd lo hi] in *.
  apply andb_prop in H as [H H3]. apply andb_prop in H as [H1 H2].
  apply (ok_lt _ (bok BHw)) in H1; try exact Logic.I. apply (ok_le _ (bok BHw)) in H2, H3; try exact Logic.I.
  assert (Z0 : @sval (bscal BHw) b0 = XR 0) by reflexivity. assert (Z1 : @sval (bscal BHw) b1 = XR 1) by apply b1_v. rewrite Z0 in H1. rewrite Z1 in H2.
  destruct (@sval (bscal BHw) tl) as [w| | |] eqn:E; simpl in H1, H2; try tauto. exists w. split; [lra|]. split; [exact Logic.I|]. split; [exact Logic.I|]. cbn [lo hi]. rewrite E.
  simpl. split; [lra|]. change (ub (@sval (bscal BHw) tu) w). destruct (@sval (bscal BHw) tu); simpl in H3 |- *; try tauto; lra.
Qed.
(* one step, the value between the bounds *)
Definition gcheck (l u e : Z) (r : res (out BHw)) : bool :=
  match r with Ok (v, q :: ls) => Bleb (bdy l e) (lo v : b64) && Bleb (hi v : b64) (bdy u e) && steps_b (q :: ls) | _ => false end.
Lemma gcheck_ok l u e r : lit l e -> lit u e -> gcheck l u e r = true -> exists v ls, r = Ok (v, ls) /\ steps_in ls 0 1 /\ forall x, isin v x -> dy l e <= x <= dy u e.
Proof.
  intros Ll Lu H. destruct r as [[v [|q ls]]|]; try discriminate. exists v, (q :: ls). split; [reflexivity|]. unfold gcheck in H. apply andb_prop in H as [H HS]. apply andb_prop in H as [R1 R2].
  split; [now apply steps_b_ok|]. apply (ok_le _ (bok BHw)) in R1, R2; try exact Logic.I. unfold lit in *. rewrite qv in R1 by lia. rewrite qv in R2 by lia.
  intros x (_ & _ & X1 & X2). unfold lb, ub in *. destruct (sval (lo v)), (sval (hi v)); simpl in *; unfold dy; try tauto; lra.
Qed.
Local Notation C99_run f X := (f (bscal BHw) (bpar BHw) 60%nat C98_root (fun _ => C98_root) toint_b (sdy 1 0 : bscal BHw) 2%Z 1%nat true X (C78_st 1 false false [])) (only parsing).
(* digamma_zero fails, m2 = [1, 2] *)
Definition C100_dz (_ : bscal BHw) : hM (IB BHw 60) (iv (bscal BHw)) := hret (qiv 0 0 0 0).
Local Notation C100_run f X := (f (bscal BHw) (bpar BHw) 60%nat C98_root (fun _ => C98_root) toint_b (sdy 1 0 : bscal BHw) 2%Z 1%nat true C100_dz (qiv 1 0 1 1) X (C78_st 1 false false [])) (only parsing).
Lemma C99_runs : gcheck 13 49 (-4) (fst (C99_run (@gamma_point) (qiv (-3) (-1) (-3) (-1)))) && gcheck (-2) 9 (-3) (fst (C99_run (@lgamma_point) (qiv (-3) (-1) (-3) (-1)))) = true.
Proof. vm_compute. reflexivity. Qed.
Lemma C100_runs : gcheck 1 51 (-5) (fst (C100_run (@gamma) (qiv 5 (-2) 7 (-2)))) && gcheck (-7) 1 (-1) (fst (C100_run (@lgamma) (qiv 5 (-2) 7 (-2)))) = true.
Proof. vm_compute. reflexivity. Qed.
Lemma one_v : @sval (bscal BHw) (sdy 1 0) = XR 1.
Proof. rewrite (proj2 (ok_dy _ (bscal_ok BHw) 1 0 ltac:(lia) ltac:(lia))). f_equal. simpl. ring. Qed.
Lemma q_v m e w : lit m e -> dy m e = w -> @sval (bscal BHw) (bdy m e) = XR w.
Proof. intros H <-. unfold lit in H. rewrite qv by lia. reflexivity. Qed.
Example C99_case : exists v l st' v2 l2 st2 G, C99_run (@gamma_point) (qiv (-3) (-1) (-3) (-1)) = (Ok (v, l), st') /\ C99_run (@lgamma_point) (qiv (-3) (-1) (-3) (-1)) = (Ok (v2, l2), st2) /\
  is_Gamma (-3 / 2) G /\ isin v G /\ 13 / 16 <= G <= 49 / 16 /\ isin v2 (ln (Rabs G)) /\ ln (Rabs G) <= 9 / 8.
Proof.
  destruct (andb_prop _ _ C99_runs) as [R1 R2]. apply gcheck_ok in R1, R2; try (unfold lit; lia). destruct R1 as (v & l & R1 & S1 & B1). destruct R2 as (v2 & l2 & R2 & S2 & B2).
  destruct (C99_run (@gamma_point) (qiv (-3) (-1) (-3) (-1))) as [q st'] eqn:E1. destruct (C99_run (@lgamma_point) (qiv (-3) (-1) (-3) (-1))) as [q2 st2] eqn:E2. cbn [fst] in R1, R2. subst q q2.
  assert (HX : isin (S:=bscal BHw) (qiv (-3) (-1) (-3) (-1)) (-3 / 2)) by qin.
  assert (HF : floor_of BHw (qiv (-3) (-1) (-3) (-1)) (-2)). { exists (-3 / 2). split; [apply q_v; [unfold lit; lia|unfold dy; simpl; lra]|]. symmetry. apply Zfloor_imp. simpl. lra. }
  destruct (C99_gamma_point BHw 60 C98_root (fun _ => C98_root) toint_b (sdy 1 0) 1 2 1 true toint_ok ltac:(lia) one_v ltac:(lra) _ _ _ _ _ _ _ HX HF ltac:(lia) ltac:(lra) E1 S1) as (G & HG & HV).
  pose proof (C99_lgamma_point BHw 60 C98_root (fun _ => C98_root) toint_b (sdy 1 0) 1 2 1 true toint_ok ltac:(lia) one_v ltac:(lra) _ _ _ _ _ _ _ G HX HF ltac:(lia) ltac:(lra) E2 S2 HG) as HV2.
  exists v, l, st', v2, l2, st2, G. split; [reflexivity|]. split; [reflexivity|]. split; [exact HG|]. split; [exact HV|]. apply B1 in HV. pose proof (B2 _ HV2) as K. unfold dy in HV, K. simpl in HV, K. split; [lra|]. split; [exact HV2|lra].
Qed.
Lemma C100_dz_ok : zeros_ok BHw 60 C100_dz.
Proof. intros s w _ st m st' R Z. unfold C100_dz, hret, hlift in R. injection R as <- _. vm_compute in Z. discriminate Z. Qed.
Lemma C100_m2_ok : exists c, lowest c /\ 0 < c /\ narrow BHw (qiv 1 0 1 1) c.
Proof.
  destruct gamma_lowest as (c & Hc & HL). exists c. split; [exact HL|]. split; [lra|]. split; [qin|]. exists 1%Z. split; [|split; [lia|simpl; lra]].
  exists 1. split; [apply q_v; [unfold lit; lia|unfold dy; simpl; lra]|]. symmetry. apply Zfloor_imp. simpl. lra.
Qed.
Example C100_case : exists v l st' v2 l2 st2, C100_run (@gamma) (qiv 5 (-2) 7 (-2)) = (Ok (v, l), st') /\ C100_run (@lgamma) (qiv 5 (-2) 7 (-2)) = (Ok (v2, l2), st2) /\
  forall x, 5 / 4 <= x <= 7 / 4 -> exists G, is_Gamma x G /\ isin v G /\ isin v2 (ln (Rabs G)) /\ G <= 51 / 32 /\ - 7 / 2 <= ln (Rabs G) <= / 2.
Proof.
  destruct (andb_prop _ _ C100_runs) as [R1 R2]. apply gcheck_ok in R1, R2; try (unfold lit; lia). destruct R1 as (v & l & R1 & S1 & B1). destruct R2 as (v2 & l2 & R2 & S2 & B2).
  destruct (C100_run (@gamma) (qiv 5 (-2) 7 (-2))) as [q st'] eqn:E1. destruct (C100_run (@lgamma) (qiv 5 (-2) 7 (-2))) as [q2 st2] eqn:E2. cbn [fst] in R1, R2. subst q q2.
  exists v, l, st', v2, l2, st2. split; [reflexivity|]. split; [reflexivity|]. intros x Hx. destruct (gamma_exists x ltac:(lra)) as [G HG0]. assert (HG : is_Gamma x G) by (apply Gpos; auto; lra).
  assert (HX : isin (S:=bscal BHw) (qiv 5 (-2) 7 (-2)) x) by qin.
  assert (EL : @sval (bscal BHw) (lo (qiv 5 (-2) 7 (-2))) = XR (5 / 4)) by (apply q_v; [unfold lit; lia|unfold dy; simpl; lra]).
  assert (EU : @sval (bscal BHw) (hi (qiv 5 (-2) 7 (-2))) = XR (7 / 4)) by (apply q_v; [unfold lit; lia|unfold dy; simpl; lra]).
  assert (F1 : Zfloor (5 / 4) = 1%Z) by (apply Zfloor_imp; simpl; lra). assert (F2 : Zfloor (7 / 4) = 1%Z) by (apply Zfloor_imp; simpl; lra).
  pose proof (C100_gamma BHw 60 C98_root (fun _ => C98_root) toint_b (sdy 1 0) 1 2 1 true toint_ok ltac:(lia) one_v ltac:(lra) C100_dz (qiv 1 0 1 1) C100_dz_ok C100_m2_ok _ _ _ x _ _ _ _ G EL EU ltac:(rewrite F1; lia) ltac:(rewrite F2; lia) HX HG E1 S1) as K1.
  pose proof (C101_lgamma_partial BHw 60 C98_root (fun _ => C98_root) toint_b (sdy 1 0) 1 2 1 true toint_ok ltac:(lia) one_v ltac:(lra) C100_dz (qiv 1 0 1 1) C100_dz_ok C100_m2_ok _ _ _ x _ _ _ _ G EL EU ltac:(rewrite F1; lia) ltac:(rewrite F2; lia) ltac:(left; lra) HX HG E2 S2) as K2.
  exists G. split; [exact HG|]. split; [exact K1|]. split; [exact K2|]. apply B1 in K1. apply B2 in K2. unfold dy in K1, K2. simpl in K1, K2. lra.
Qed.
Definition Gamma_all := (C99_gamma_r, C99_gamma_point, C99_lgamma_point, C100_gamma, C101_lgamma_partial, C101_integer_end_refuted, C99_case, C100_case).
Print Assumptions Gamma_all.
