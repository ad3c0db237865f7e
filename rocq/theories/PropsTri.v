(* Property theorems: defint_singular_autostep with data members (C104) and trigamma of gamma.hpp (C105), for every double back end, DEFINT_FAST = 0.
   is_Trigamma (TriReal.v) is the integral of t exp(-x t) / (1 - exp(-t)) over (0, oo) for positive x and trigamma(x + 1) + 1 / x^2 for negative x.
   steps_in: the end of every step lies in the range of integration. *)
From Coq Require Import Reals ZArith Bool List Lra Lia Psatz Arith.
From Coquelicot Require Import Coquelicot.
From Flocq Require Import Core BinarySingleNaN.
From Verif Require Import Fp64 RDoubleHw.
From Verif Require Import Ext Scalar IntervalModel IntervalSpec IntervalProofs IntervalEncl IntervalSets Backends Ex64 ElemModel Elem64 PropsElem.
From Verif Require Import ADModel ADReal ADInst PsaModel PsaExpr PsaInst PsaHist PropsPsa PropsPsaHist OdeModel OdeProofs DefintAuto DefintAutoProofs SingModel SingReal SingAuto PropsSing PropsSingAuto PropsBessel PropsPowPar GammaReal GammaNeg GammaModel GammaProofs PropsGamma TriReal TriModel TriProofs.
Import List ListNotations.
Open Scope R_scope.

(* ---- C104 ---- *)
(* g(t) / (f(t) / (t - a)^m) near the end a, h elsewhere *)
Theorem C104_singular_par : forall b fuel root eh ef eg (ch cf cg : list (iv (bscal b))) yh yf yg m n (start end_ : iv (bscal b)) order eps st v l st' a c,
  (2 <= order < 2 ^ 52)%Z -> (0 <= m < order - 1)%Z -> isin start a -> isin end_ c -> a < c ->
  Forall2 isin ch yh -> awf (S (length ch)) eh -> const_logs yh eh -> noarc eh = true ->
  Forall2 isin cf yf -> awf (S (length cf)) ef -> const_logs yf ef -> noarc ef = true ->
  Forall2 isin cg yg -> awf (S (length cg)) eg -> const_logs yg eg -> noarc eg = true ->
  zero_order m (fun t => rval ef (with_params yf (a + t))) ->
  let F := fun y => rval eg (with_params yg y) / (rval ef (with_params yf y) / (y - a) ^ Z.to_nat m) in
  (forall y, a < y <= c -> rval eh (with_params yh y) = F y) ->
  singular_autostep (bpar b) fuel root order n false (pobj (ch : list (bT (IB b fuel))) eh) (hdivcut (pobj (cg : list (bT (IB b fuel))) eg) (pobj (cf : list (bT (IB b fuel))) ef) m) start end_ eps st = (Ok (v, l), st') ->
  steps_in l a c -> exists J, integral_from F a c J /\ isin v J.
Proof.
  intros b fuel root eh ef eg ch cf cg yh yf yg m n start end_ order eps st v l st' a c [O1 O2] M1 Ha Hc AC Ch Wh Ph Nh Cf Wf Pf Nf Cg Wg Pg Ng V F HF E HL.
  match type of E with singular_autostep _ _ _ _ _ false (pobj _ _) (hdivcut (pobj _ _) (pobj _ _) _) _ _ _ _ = _ => idtac end.
  exact (divcut_par_ok b fuel root eh ef eg ch cf cg yh yf yg m n start end_ order eps st v l st' a c Ch Wh Ph Nh Cf Wf Pf Nf Cg Wg Pg Ng O1 O2 M1 Ha Hc AC V HF E HL).
Qed.

(* ---- C105 ---- *)
Section C105.
Variables (b : backend) (fuel : nat) (root : bscal b -> nat -> bscal b).
Variables (toint : bscal b -> Z) (th : bscal b) (t : R) (order : Z) (n : nat).
Hypothesis TO : int_conv toint.
Hypothesis OR : (3 <= order < 2 ^ 52)%Z.
Hypothesis ET : sval th = XR t.
Hypothesis T0 : 0 < t.
Theorem C105_trigamma_plus : forall (X : iv (bscal b)) x v l st st', isin X x -> 0 < x ->
  trigamma_plus (bpar b) fuel root th order n false X st = (Ok (v, l), st') -> steps_in l 0 t -> exists G, is_trigamma x G /\ isin v G.
Proof.
  intros X x v l st st' HX H R HL. match type of R with trigamma_plus _ _ _ _ _ _ false X _ = _ => idtac end.
  exact (tplus_ok b fuel root toint th t order n OR ET T0 X x v l st st' HX H R HL).
Qed.
Theorem C105_trigamma_point : forall (X : iv (bscal b)) x z v l st st', isin X x -> floor_of b X z -> (Z.abs z < 2 ^ 31 - 1)%Z ->
  trigamma_point (bpar b) fuel root toint th order n false X st = (Ok (v, l), st') -> steps_in l 0 t -> exists G, is_Trigamma x G /\ isin v G.
Proof.
  intros X x z v l st st' HX HF HZ R HL. match type of R with trigamma_point _ _ _ _ _ _ _ false X _ = _ => idtac end.
  exact (tpt_ok b fuel root toint th t order n TO OR ET T0 X x z v l st st' HX HF HZ R HL).
Qed.
(* intervals that do not start at a pole, unless they reach over the next integer; the others are missing, see below *)
Theorem C105_trigamma_partial : forall (X : iv (bscal b)) lw uw x v l st st' G, sval (lo X) = XR lw -> sval (hi X) = XR uw -> (- (2 ^ 31 - 1) < Zfloor lw)%Z -> (Zfloor uw < 2 ^ 31 - 1)%Z ->
  (0 < lw \/ lw <> IZR (Zfloor lw) \/ Zfloor lw <> Zfloor uw) ->
  isin X x -> is_Trigamma x G -> trigamma (bpar b) fuel root toint th order n false X st = (Ok (v, l), st') -> steps_in l 0 t -> isin v G.
Proof.
  intros X lw uw x v l st st' G EL EU ZL ZU CE HX HG R HL. unfold trigamma in R.
  pose proof (xl_floor_b b _ _ EL) as FL. pose proof (xl_floor_b b _ _ EU) as FU.
  assert (HXb : lw <= x <= uw) by (destruct HX as (_ & _ & A & C); rewrite EL in A; rewrite EU in C; simpl in *; lra).
  assert (ZM : (Zfloor lw <= Zfloor uw)%Z) by (apply Zfloor_le; lra).
  destruct (slt s0 (lo X)) eqn:C1.
  - apply (slt0_v b _ _ EL) in C1. assert (Z0 : (0 <= Zfloor lw)%Z) by (apply Zfloor_lub; simpl; lra).
    apply hb_ok in R as ([a la] & s2 & R1 & R). apply hb_ok in R as ([c lc] & s3 & R2 & R). unfold hret, hlift in R. cbn [fst snd] in R. injection R as <- <- <-.
    match type of R1 with trigamma_point _ _ _ _ _ _ _ false (ipt (hi X)) _ = _ => idtac end. match type of R2 with trigamma_point _ _ _ _ _ _ _ false (ipt (lo X)) _ = _ => idtac end.
    destruct (C105_trigamma_point (ipt (hi X)) uw (Zfloor uw) a la st s2) as (GA & HA & VA); auto.
    { apply isin_pt; auto using wfb. } { exists uw. auto. } { lia. } { intros q Hq. apply HL. apply in_or_app. auto. }
    destruct (C105_trigamma_point (ipt (lo X)) lw (Zfloor lw) c lc s2 s3) as (GC & HC & VC); auto.
    { apply isin_pt; auto using wfb. } { exists lw. auto. } { lia. } { intros q Hq. apply HL. apply in_or_app. auto. }
    apply Trigamma_pos_inv in HA; [|lra]. apply Trigamma_pos_inv in HC; [|lra]. apply Trigamma_pos_inv in HG; [|lra].
    apply (btw_hull b _ _ GA GC); auto. left. split; [exact (trigamma_decr x uw G GA ltac:(lra) HG HA)|exact (trigamma_decr lw x GC G ltac:(lra) HC HG)].
  - assert (N1 : lw <= 0) by (destruct (Rlt_or_le 0 lw) as [Q|Q]; auto; apply (slt0_v b _ _ EL) in Q; congruence).
    destruct (seqb (sfloor (lo X)) (sfloor (hi X))) eqn:C2; cbn [negb] in R.
    + apply (seqb_v b _ _ _ _ FL FU) in C2. apply eq_IZR in C2. destruct (seqb (sfloor (lo X)) (lo X)) eqn:C3.
      { exfalso. apply (seqb_v b _ _ _ _ FL EL) in C3. destruct CE as [CE|[CE|CE]]; [lra|auto|auto]. }
      assert (ZF : (Zfloor lw <= 0)%Z) by (apply le_IZR; apply Rle_trans with lw; [apply Zfloor_lb|simpl; lra]).
      destruct (C105_trigamma_point X x (Zfloor lw) v l st st') as (G' & HG' & HV); auto; [exists lw; auto|lia|]. now rewrite (Trigamma_unique _ _ _ HG HG').
    + unfold hret, hlift in R. injection R as <- _ _. pose proof (Trigamma_positive _ _ HG). destruct (ok_s0 _ (bscal_ok b)) as [W0 V0]. split; [exact W0|]. split; [apply wfb|]. cbn [lo hi]. rewrite V0.
      split; [simpl; lra|]. destruct (ok_pinf _ (bscal_ok b)) as [_ Vp]. rewrite Vp. exact Logic.I.
Qed.
End C105.
(* ---- bounds for the integrals ---- *)
Lemma bounded_by f k K a c J : a < c -> improper f a c J -> (forall u, a < u < c -> exists W, is_RInt k u c W /\ W <= K) -> (forall t, a < t < c -> f t <= k t) -> J <= K.
Proof.
  intros AC HJ HK HF. destruct (Rle_or_lt J K) as [|N]; auto. destruct (HJ (J - K) ltac:(lra)) as (d & Hd & A). set (u := a + Rmin (d / 2) ((c - a) / 2)).
  assert (M : 0 < Rmin (d / 2) ((c - a) / 2)) by (apply Rmin_pos; lra). pose proof (Rmin_l (d / 2) ((c - a) / 2)). pose proof (Rmin_r (d / 2) ((c - a) / 2)).
  destruct (A u ltac:(unfold u; lra) ltac:(unfold u; lra)) as (w & Iw & Lw). destruct (HK u ltac:(unfold u; lra)) as (W & IW & LW).
  assert (w <= W). { apply (is_RInt_le f k u c); auto; [unfold u; lra|]. intros y Hy. apply HF. unfold u in Hy. lra. } apply Rabs_def2 in Lw. lra.
Qed.
(* f(0) >= 0 and f' >= 0 *)
Lemma up_from_0 f f' : (forall t, is_derive f t (f' t)) -> 0 <= f 0 -> (forall t, 0 <= t -> 0 <= f' t) -> forall t, 0 <= t -> 0 <= f t.
Proof.
  intros D F0 F1 t Ht. destruct (MVT_gen f 0 t f') as (c & Hc & E).
  - intros. apply D.
  - intros x _. apply continuity_pt_filterlim. apply (ex_derive_continuous f). exists (f' x). apply D.
  - rewrite Rmin_left, Rmax_right in Hc by lra. pose proof (F1 c ltac:(lra)). nra.
Qed.
Lemma exp_2 t : 0 <= t -> 0 <= exp t - (1 + t + t * t / 2).
Proof.
  apply (up_from_0 (fun t => exp t - (1 + t + t * t / 2)) (fun t => exp t - (1 + t))).
  - intros y. auto_derive; auto. field.
  - rewrite exp_0. lra.
  - intros y Hy. destruct (Req_dec y 0) as [->|N]; [rewrite exp_0; lra|]. pose proof (exp_ineq1 y N). lra.
Qed.
Lemma frac_bound t : 0 <= t -> t <= (1 - exp (- t)) * (1 + t / 2 + t * t / 12).
Proof.
  intros Ht. enough (0 <= (1 - exp (- t)) * (1 + t / 2 + t * t / 12) - t) by lra. revert t Ht.
  apply (up_from_0 _ (fun t => exp (- t) * (/ 2 + t / 3 + t * t / 12) - / 2 + t / 6)).
  - intros y. auto_derive; auto. field.
  - rewrite Ropp_0, exp_0. lra.
  - apply (up_from_0 _ (fun t => exp (- t) * (- / 6 - t / 6 - t * t / 12) + / 6)).
    + intros y. auto_derive; auto. field.
    + rewrite Ropp_0, exp_0. lra.
    + intros y Hy. pose proof (exp_2 y Hy) as H. assert (E : exp (- y) * exp y = 1) by (rewrite <- exp_plus, Rplus_opp_l; apply exp_0). pose proof (exp_pos (- y)).
      assert (exp (- y) * (1 + y + y * y / 2) <= exp (- y) * exp y) by (apply Rmult_le_compat_l; lra). lra.
Qed.
(* the integral over (0, 1) *)
Lemma tri_01 x J : 0 < x -> improper (tint x) 0 1 J -> J <= 23 / 18.
Proof.
  intros Hx HJ. apply (bounded_by (tint x) (fun t => 1 + t / 2 + t * t / 12) (23 / 18) 0 1 J); auto; [lra| |].
  - intros u Hu. exists ((fun t => t + t * t / 4 + t * t * t / 36) 1 - (fun t => t + t * t / 4 + t * t * t / 36) u). split; [|assert (0 <= u * u) by nra; assert (0 <= u * u * u) by nra; simpl; lra].
    apply (is_RInt_derive (fun t => t + t * t / 4 + t * t * t / 36)).
    + intros y _. auto_derive; auto. field.
    + intros y _. apply (ex_derive_continuous (fun t => 1 + t / 2 + t * t / 12)). auto_derive. auto.
  - intros y Hy. pose proof (den_pos y ltac:(lra)) as Dp. unfold tint. apply Rmult_le_reg_r with (1 - exp (- y)); auto. unfold Rdiv at 1. rewrite Rmult_assoc, Rinv_l, Rmult_1_r by lra.
    apply Rle_trans with (y * 1); [apply Rmult_le_compat_l; [lra|]; rewrite <- exp_0; left; apply exp_increasing; nra|]. pose proof (frac_bound y ltac:(lra)). lra.
Qed.
Lemma trigamma_half G : is_Trigamma (/ 2) G -> G <= 14.
Proof.
  intros HG. apply Trigamma_pos_inv in HG; [|lra]. destruct (left_exists (/ 2) 1 ltac:(lra) ltac:(lra)) as [J HJ]. destruct (ttail_ok (/ 2) 1 ltac:(lra) ltac:(lra)) as (L & HT & HLb).
  rewrite (trigamma_unique _ _ _ HG (tri_split (/ 2) 1 J L ltac:(lra) HJ HT)). pose proof (tri_01 (/ 2) J ltac:(lra) HJ). destruct HLb as [_ HU].
  assert (E1 : exp (Ropp 1) <= / 2). { rewrite exp_Ropp. pose proof (exp_ineq1 1 ltac:(lra)). apply Rinv_le_contravar; lra. }
  assert (E2 : exp (- (/ 2 * 1)) <= 1) by (apply Rle_trans with (exp 0); [left; apply exp_increasing; lra|rewrite exp_0; lra]). pose proof (exp_pos (- (/ 2 * 1))).
  assert (P : tprim (/ 2) 1 <= 6) by (unfold tprim; replace ((/ 2 * 1 + 1) * exp (- (/ 2 * 1)) / (/ 2 * / 2)) with (6 * exp (- (/ 2 * 1))) by field; lra).
  assert (L <= 6 / (1 - exp (Ropp 1))). { apply Rle_trans with (1 := HU). apply Rmult_le_compat_r; auto. left. apply Rinv_0_lt_compat. lra. }
  assert (6 / (1 - exp (Ropp 1)) <= 12). { apply Rmult_le_reg_r with (1 - exp (Ropp 1)); [lra|]. unfold Rdiv. rewrite Rmult_assoc, Rinv_l, Rmult_1_r by lra. lra. } lra.
Qed.
(* an interval whose lower end is 0 or a negative integer and that does not reach the next integer: trigamma returns [max, inf] *)
Theorem C105_integer_end_refuted : forall fuel root toint th order n fast st, exists v, trigamma (S:=bscal BHw) (bpar BHw) fuel root toint th order n fast (qiv 0 0 1 (-1)) st = (Ok (v, []), st) /\
  isin (S:=bscal BHw) (qiv 0 0 1 (-1)) (/ 2) /\ exists G, is_Trigamma (/ 2) G /\ ~ isin v G.
Proof.
  intros. exists (mkiv (S:=bscal BHw) smax spinf). split; [|split; [qin|]].
  - unfold trigamma. replace (slt s0 (lo (qiv 0 0 1 (-1)))) with false by (symmetry; vm_compute; reflexivity).
    replace (seqb (sfloor (lo (qiv 0 0 1 (-1)))) (sfloor (hi (qiv 0 0 1 (-1))))) with true by (symmetry; vm_compute; reflexivity).
    replace (seqb (sfloor (lo (qiv 0 0 1 (-1)))) (lo (qiv 0 0 1 (-1)))) with true by (symmetry; vm_compute; reflexivity). reflexivity.
  - destruct (Trigamma_exists (/ 2)) as [G HG]; [intros k E; pose proof (pos_INR k); lra|]. exists G. split; auto. pose proof (trigamma_half G HG).
    intros (_ & _ & L & _). assert (EM : sval (@smax (bscal BHw)) = XR maxR) by apply bmax_v. cbn [lo] in L. rewrite EM in L. simpl in L. pose proof big_max.
    assert (bpow radix2 4 <= bpow radix2 1023) by (apply bpow_le; lia). simpl (bpow radix2 4) in *. lra.
Qed.
(* DEFINT_FAST = 1, the default: the remainder of the first step is lost.  The integrand of trigamma over [0, 1] at x = 2^-10, order 3 *)
Local Notation F_x := (qiv 1 (-10) 1 (-10)).
Local Notation F_run f := (singular_autostep (S:=bscal BHw) (bpar BHw) 60%nat C98_root 3%Z 1%nat f (pobj [(ineg F_x : bT (IB BHw 60))] trigamma_e)
  (hdivcut (pobj [(ineg F_x : bT (IB BHw 60))] tri_num_e) (pobj ([] : list (bT (IB BHw 60))) tri_den_e) 1) (ipt s0) (ipt (sdy 1 0)) (sdy 1 0) (C78_st 1 false false [])).
Local Notation F_tint := (fun y => rval tri_num_e (with_params [- / 1024] y) / (rval tri_den_e (with_params [] y) / (y - 0) ^ Z.to_nat 1)).
Lemma F_tint_eq y : 0 < y -> F_tint y = tint (/ 1024) y.
Proof.
  intros Hy. simpl. rewrite Rminus_0_r, Rmult_1_r. unfold dy. simpl. replace (1 * 1 - exp (- y)) with (1 - exp (- y)) by ring. unfold tint. replace (- / 1024 * y) with (- (/ 1024 * y)) by ring.
  pose proof (den_pos y Hy). field. lra.
Qed.
Lemma F_x_in : isin (S:=bscal BHw) F_x (/ 1024).
Proof. qin. Qed.
Definition F_check (r : res (out BHw)) : bool := match r with Ok (v, ls) => Bleb (bdy 655 (-9)) (lo v : b64) && steps_b ls | _ => false end.
Lemma F_runs : F_check (fst (F_run true)) = true.
Proof. vm_compute. reflexivity. Qed.
Theorem C104_fast_refuted : exists v l st' J, F_run true = (Ok (v, l), st') /\ steps_in l 0 1 /\ integral_from F_tint 0 1 J /\ ~ isin v J.
Proof.
  pose proof F_runs as R. destruct (F_run true) as [q st']. cbn [fst] in R. destruct q as [[v l]|]; [|discriminate]. unfold F_check in R. apply andb_prop in R as [R1 R2].
  destruct (left_exists (/ 1024) 1 ltac:(lra) ltac:(lra)) as [J HJ]. exists v, l, st', J. split; [reflexivity|]. split; [now apply steps_b_ok|]. split.
  - revert HJ. apply improper_ext. intros y Hy. symmetry. apply F_tint_eq. lra.
  - pose proof (tri_01 (/ 1024) J ltac:(lra) HJ). intros (_ & _ & L & _). apply (ok_le _ (bok BHw)) in R1; try exact Logic.I. rewrite (q_v 655 (-9) (655 / 512)) in R1; [|unfold lit; lia|unfold dy; simpl; lra].
    unfold lb in L. destruct (sval (lo v)); simpl in *; try tauto; lra.
Qed.
(* the same run with DEFINT_FAST = 0 *)
Lemma C104_runs : gcheck 1 2 0 (fst (F_run false)) = true.
Proof. vm_compute. reflexivity. Qed.
Example C104_case : exists v l st' J, F_run false = (Ok (v, l), st') /\ integral_from F_tint 0 1 J /\ isin v J /\ 1 <= J <= 2.
Proof.
  destruct (gcheck_ok 1 2 0 _ ltac:(unfold lit; lia) ltac:(unfold lit; lia) C104_runs) as (v & l & E & HL & HB). destruct (F_run false) as [q st'] eqn:ER. cbn [fst] in E. subst q. exists v, l, st'.
  assert (N : Forall2 isin [ineg F_x] [- / 1024]) by (constructor; [apply (isin_neg (bscal_ok BHw)); exact F_x_in|constructor]).
  destruct (C104_singular_par BHw 60 C98_root trigamma_e tri_den_e tri_num_e [ineg F_x] [] [ineg F_x] [- / 1024] [] [- / 1024] 1 1 (ipt s0) (ipt (sdy 1 0)) 3 (sdy 1 0) (C78_st 1 false false []) v l st' 0 1) as (J & HJ & HV); auto; try lia; try lra.
  - exact (zero_in_ BHw).
  - apply isin_pt; [apply wfb|exact one_v].
  - simpl. unfold lit. repeat split; lia.
  - unfold const_logs. simpl. intuition discriminate.
  - simpl. unfold lit. repeat split; lia.
  - unfold const_logs. simpl. intuition discriminate.
  - simpl. lia.
  - unfold const_logs. simpl. intuition discriminate.
  - exact den_vanish.
  - intros y Hy. simpl. rewrite Rminus_0_r, Rmult_1_r. reflexivity.
  - exists J. split; [reflexivity|]. split; [exact HJ|]. split; [exact HV|]. apply HB in HV. unfold dy in HV. simpl in HV. lra.
Qed.
(* th = 1, order 3: trigamma(-3/2) and trigamma on [1, 3/2] *)
Local Notation C105_run X := (trigamma (S:=bscal BHw) (bpar BHw) 60%nat C98_root toint_b (sdy 1 0) 3%Z 1%nat false X (C78_st 1 false false [])).
Lemma C105_runs : gcheck 7 12 0 (fst (C105_run (qiv (-3) (-1) (-3) (-1)))) = true /\ gcheck (-1) 4 0 (fst (C105_run (qiv 1 0 3 (-1)))) = true.
Proof. split; vm_compute; reflexivity. Qed.
Example C105_case : exists v l st' G, C105_run (qiv (-3) (-1) (-3) (-1)) = (Ok (v, l), st') /\ is_Trigamma (- (3 / 2)) G /\ isin v G /\ 7 <= G <= 12.
Proof.
  destruct C105_runs as [R _]. destruct (gcheck_ok 7 12 0 _ ltac:(unfold lit; lia) ltac:(unfold lit; lia) R) as (v & l & E & HL & HB). destruct (C105_run (qiv (-3) (-1) (-3) (-1))) as [q st'] eqn:ER. cbn [fst] in E. subst q. exists v, l, st'.
  destruct (Trigamma_exists (- (3 / 2))) as [G HG]. { intros k K. assert (Q : 2 * IZR (Z.of_nat k) = 3) by (rewrite <- INR_IZR_INZ; lra). rewrite <- mult_IZR in Q. apply eq_IZR in Q. lia. }
  assert (EL : sval (lo (qiv (-3) (-1) (-3) (-1))) = XR (- (3 / 2))) by (apply q_v; [unfold lit; lia|unfold dy; simpl; lra]). assert (F1 : Zfloor (- (3 / 2)) = (-2)%Z) by (apply Zfloor_imp; simpl; lra).
  pose proof (C105_trigamma_partial BHw 60 C98_root toint_b (sdy 1 0) 1 3 1 toint_ok ltac:(lia) one_v ltac:(lra) _ _ _ (- (3 / 2)) _ _ _ _ G EL EL ltac:(rewrite F1; lia) ltac:(rewrite F1; lia) ltac:(rewrite F1; simpl; lra) ltac:(qin) HG ER HL) as K.
  exists G. split; [reflexivity|]. split; [exact HG|]. split; [exact K|]. apply HB in K. unfold dy in K. simpl in K. lra.
Qed.
Example C105_case_positive : forall x, 1 <= x <= 3 / 2 -> exists v l st' G, C105_run (qiv 1 0 3 (-1)) = (Ok (v, l), st') /\ is_Trigamma x G /\ isin v G /\ G <= 4.
Proof.
  intros x Hx. destruct C105_runs as [_ R]. destruct (gcheck_ok (-1) 4 0 _ ltac:(unfold lit; lia) ltac:(unfold lit; lia) R) as (v & l & E & HL & HB). destruct (C105_run (qiv 1 0 3 (-1))) as [q st'] eqn:ER. cbn [fst] in E. subst q. exists v, l, st'.
  destruct (Trigamma_exists x) as [G HG]. { intros k K. pose proof (pos_INR k). lra. }
  assert (EL : sval (lo (qiv 1 0 3 (-1))) = XR 1) by (apply q_v; [unfold lit; lia|unfold dy; simpl; lra]). assert (EU : sval (hi (qiv 1 0 3 (-1))) = XR (3 / 2)) by (apply q_v; [unfold lit; lia|unfold dy; simpl; lra]).
  assert (F1 : Zfloor 1 = 1%Z) by (apply Zfloor_imp; simpl; lra). assert (F2 : Zfloor (3 / 2) = 1%Z) by (apply Zfloor_imp; simpl; lra).
  pose proof (C105_trigamma_partial BHw 60 C98_root toint_b (sdy 1 0) 1 3 1 toint_ok ltac:(lia) one_v ltac:(lra) _ _ _ x _ _ _ _ G EL EU ltac:(rewrite F1; lia) ltac:(rewrite F2; lia) ltac:(left; lra) ltac:(qin) HG ER HL) as K.
  exists G. split; [reflexivity|]. split; [exact HG|]. split; [exact K|]. apply HB in K. unfold dy in K. simpl in K. lra.
Qed.
Definition Tri_all := (C104_singular_par, C104_fast_refuted, C104_case, C105_trigamma_plus, C105_trigamma_point, C105_trigamma_partial, C105_integer_end_refuted, C105_case, C105_case_positive).
Print Assumptions Tri_all.
