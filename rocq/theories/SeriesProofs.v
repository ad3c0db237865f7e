(* Proofs about the models of kv/geoseries.hpp, kv/hypergeom.hpp and kv/kkt.hpp. *)
From Coq Require Import Reals Lra Lia Psatz ZArith Bool.
From Coquelicot Require Import Coquelicot.
From Verif Require Import Ext Scalar IntervalModel IntervalSpec IntervalProofs IntervalEncl IntervalSets IntervalDivPow IntervalMore ElemModel RealFun RealConst RealInv ElemGen ElemExp ElemLog ElemConst SeriesModel SeriesReal.
Open Scope R_scope.

Section SeriesProofs.
Context {S : scal} (OK : scal_ok S).
Local Notation isin := (@isin S).
Ltac inv H := apply bind_ok in H; let a := fresh "v" in let K := fresh "K" in destruct H as (a & K & H).
Ltac ret H := injection H as <-.
Let W0 := proj1 (ok_s0 _ OK). Let V0 := proj2 (ok_s0 _ OK). Let W1 := proj1 (ok_s1 _ OK). Let V1 := proj2 (ok_s1 _ OK).

(* an interval all of whose reals are in (-1, 1) is bounded *)
Lemma unit_ends (I : iv S) x : isin I x -> (forall y, isin I y -> -1 < y < 1) ->
  exists l u, sval (lo I) = XR l /\ sval (hi I) = XR u /\ -1 < l <= u /\ u < 1 /\ (forall y, isin I y <-> l <= y <= u).
Proof.
  intros (A1 & A2 & A3 & A4) H.
  destruct (sval (lo I)) as [l| | |] eqn:EL; simpl in A3; try tauto.
  2:{ exfalso. assert (isin I (Rmin x (-2))) as K.
      { split; [auto|]. split; [auto|]. rewrite EL. split; [exact Logic.I|]. eapply ub_le; [exact A4|apply Rmin_l]. }
      apply H in K. pose proof (Rmin_r x (-2)). lra. }
  destruct (sval (hi I)) as [u| | |] eqn:EU; simpl in A4; try tauto.
  2:{ exfalso. assert (isin I (Rmax x 2)) as K.
      { split; [auto|]. split; [auto|]. rewrite EL, EU. split; [|exact Logic.I]. simpl. eapply Rle_trans; [exact A3|apply Rmax_l]. }
      apply H in K. pose proof (Rmax_r x 2). lra. }
  assert (E : forall y, isin I y <-> l <= y <= u) by (intros y; unfold IntervalSpec.isin; rewrite EL, EU; simpl; tauto).
  exists l, u. pose proof (H l (proj2 (E l) ltac:(lra))). pose proof (H u (proj2 (E u) ltac:(lra))).
  split; auto. split; auto. split; [lra|]. split; [lra|auto].
Qed.

Theorem geoseries_encl (I Q : iv S) (r : nat -> R) : (forall y, isin I y -> -1 < y < 1) -> (forall k, isin I (r k)) ->
  geoseries I = Ok Q -> exists s : R, is_series (rprod r) s /\ isin Q s.
Proof.
  intros U H G. destruct (unit_ends I (r O) (H O) U) as (l & u & EL & EU & L & U1 & E).
  assert (RR : forall k, l <= r k <= u) by (intros k; apply E, H).
  pose proof (H O) as (WL & WU & _ & _).
  assert (IL : isin (ipt (lo I)) l) by now apply isin_pt. assert (IU : isin (ipt (hi I)) u) by now apply isin_pt.
  unfold geoseries, igeS, ileS in G. destruct (sle s0 (lo I)) eqn:C1.
  - apply (ok_le _ OK) in C1; auto. rewrite V0, EL in C1. simpl in C1.
    destruct (geo_pos r l u) as (s & S1 & S2); auto; try lra. exists s. split; auto.
    assert (P1 : 0 < / (1 - l)) by (apply Rinv_0_lt_compat; lra).
    assert (T : l <= 1 - / s <= u).
    { assert (/ s <= / / (1 - l)) by (apply Rinv_le_contravar; lra). assert (/ / (1 - u) <= / s) by (apply Rinv_le_contravar; lra).
      rewrite Rinv_inv in *. lra. }
    destruct (isin_Sdiv OK _ _ _ 1 (1 - (1 - / s)) G W1 V1) as [_ K].
    { apply isin_Ssub; auto. now apply E. }
    replace (1 / (1 - (1 - / s))) with s in K by (field; lra). auto.
  - destruct (sle (hi I) s0) eqn:C2; cbv zeta in G.
    + apply (ok_le _ OK) in C2; auto. rewrite V0, EU in C2. simpl in C2.
      destruct (geo_neg r l u) as (s & S1 & S2); auto; try lra. exists s. split; auto.
      inv G. inv G. ret G.
      assert (D : isin (iSsub s1 (imul (ipt (lo I)) (ipt (hi I)))) (1 - l * u)) by (apply isin_Ssub; auto; now apply isin_mul).
      destruct (fun h => isin_div OK _ _ _ (1 + l) _ K h D) as [_ A1]. { now apply isin_Sadd. }
      destruct (fun h => isin_div OK _ _ _ (1 + u) _ K0 h D) as [_ A2]. { now apply isin_Sadd. }
      eapply isin_mk; eauto.
    + apply (sle_false OK) in C1; auto; try (rewrite ?EL, ?V0; discriminate).
      apply (sle_false OK) in C2; auto; try (rewrite ?EU, ?V0; discriminate).
      rewrite V0, EL in C1. rewrite V0, EU in C2. simpl in C1, C2.
      destruct (geo_mix r l u) as (s & S1 & S2); auto; try lra. exists s. split; auto.
      inv G. inv G. ret G.
      assert (D : isin (iSsub s1 (ipt (hi I))) (1 - u)) by (apply isin_Ssub; auto).
      destruct (isin_div OK _ _ _ l _ K IL D) as [_ A1].
      destruct (isin_Sdiv OK _ _ _ 1 _ K0 W1 V1 D) as [_ A2].
      apply (isin_mk (iSadd s1 v) v0 (1 + l / (1 - u)) (1 / (1 - u)) s); auto. now apply isin_Sadd. unfold Rdiv at 2. rewrite Rmult_1_l. auto.
Qed.

(* mag(ratio) < 1 *)
Lemma mag_unit (I : iv S) : slt (mag I) s1 = true -> forall y, isin I y -> -1 < y < 1.
Proof.
  intros H y Hy. destruct (mag_ub OK I y Hy) as [W M]. apply (ok_lt _ OK) in H; auto. rewrite V1 in H.
  assert (Rabs y < 1) by (destruct (sval (mag I)); simpl in *; try tauto; lra). now apply Rabs_lt_between.
Qed.
Lemma offset_pos (x o : S) v : swf x -> swf o -> sval o = XR v -> xlt (XR 0) (sval o) -> 0 < v.
Proof. intros _ _ E H. rewrite E in H. exact H. Qed.
Lemma smin_wf (a b : S) : swf a -> swf b -> swf (smin a b). Proof. intros. unfold smin. destruct (slt b a); auto. Qed.

(* every later ratio of two terms is in ratio *)
Lemma hg_ratio_encl ta tb tc td z o ratio A B C D Z off :
  hg_ratio ta tb tc td z o = Ok ratio -> swf o -> sval o = XR off -> 0 < off ->
  isin ta A -> isin tb B -> isin tc C -> isin td D -> isin z Z ->
  forall t, 0 <= t -> C + t <> 0 /\ D + t <> 0 /\ isin ratio ((A + t) * (B + t) / (C + t) / (D + t) * Z).
Proof.
  intros H Wo Eo Po HA HB HC HD HZ t Ht. unfold hg_ratio in H. inv H. cbv zeta in H. inv H.
  assert (I : isin (mkiv o spinf) (off + t)).
  { destruct (ok_pinf _ OK) as [Wp Vp]. split; [auto|]. split; [auto|]. cbn [lo hi]. rewrite Eo, Vp. simpl. split; [lra|auto]. }
  destruct (isin_Sdiv OK _ _ _ 1 _ K W1 V1 I) as [N T]. set (q := 1 / (off + t)) in *.
  assert (G : forall X x, isin X x -> isin (iSadd s1 (imul (isubS X o) v)) (1 + (x - off) * q)).
  { intros X x HX. apply isin_Sadd; auto. apply isin_mul; auto. now apply isin_subS. }
  assert (GQ : forall x, 1 + (x - off) * q = (x + t) * q) by (intros x; unfold q; field; auto).
  destruct (isin_div OK _ _ _ _ _ K0 (isin_mul OK _ _ _ _ (isin_mul OK _ _ _ _ HZ (G _ _ HA)) (G _ _ HB)) (G _ _ HC)) as [N1 R1].
  destruct (isin_div OK _ _ _ _ _ H R1 (G _ _ HD)) as [N2 R2]. rewrite !GQ in *.
  assert (Q0 : q <> 0) by (intros E; rewrite E in N1; apply N1; ring).
  assert (N1' : C + t <> 0) by (intros E; rewrite E in N1; apply N1; ring). assert (N2' : D + t <> 0) by (intros E; rewrite E in N2; apply N2; ring).
  split; auto. split; auto. replace ((A + t) * (B + t) / (C + t) / (D + t) * Z) with (Z * ((A + t) * q) * ((B + t) * q) / ((C + t) * q) / ((D + t) * q)); auto. field. auto.
Qed.

Lemma hg_loop_encl a b c z Z : isin Z z -> forall f result ta tb tc td tr Q n,
  hg_loop S f Z result ta tb tc td tr = Ok Q ->
  isin ta (a + INR n) -> isin tb (b + INR n) -> isin tc (c + INR n) -> isin td (1 + INR n) ->
  isin tr (hterm a b c z n) -> isin result (sum_n (hterm a b c z) n) -> (forall k, (k < n)%nat -> c + INR k <> 0) ->
  (forall k, c + INR k <> 0) /\ exists s : R, is_series (hterm a b c z) s /\ isin Q s.
Proof.
  intros HZ. induction f as [|f IH]; intros result ta tb tc td tr Q n H HA HB HC HD HT HR NC; [discriminate|].
  cbn [hg_loop] in H. inv H. inv H. cbv zeta in H.
  destruct (isin_div OK _ _ _ _ _ K (isin_mul OK _ _ _ _ (isin_mul OK _ _ _ _ HT HA) HB) HC) as [N1 R1].
  destruct (isin_div OK _ _ _ _ _ K0 R1 HD) as [N2 R2].
  pose proof (isin_mul OK _ _ _ _ R2 HZ) as R3.
  assert (T1 : isin (imul v0 Z) (hterm a b c z (Datatypes.S n))).
  { rewrite hterm_S by auto. eapply eq_rect; [exact R3|]. unfold Rdiv. ring. }
  assert (NC' : forall k, (k < Datatypes.S n)%nat -> c + INR k <> 0).
  { intros k Hk. destruct (Nat.eq_dec k n) as [-> |]; auto. apply NC. lia. }
  assert (NX : hg_loop S f Z (iadd result (imul v0 Z)) (iaddS ta s1) (iaddS tb s1) (iaddS tc s1) (iaddS td s1) (imul v0 Z) = Ok Q ->
    (forall k, c + INR k <> 0) /\ exists s : R, is_series (hterm a b c z) s /\ isin Q s).
  { intros HN. apply (IH _ _ _ _ _ _ _ (Datatypes.S n) HN); rewrite ?S_INR, <- ?Rplus_assoc; auto; try (now apply isin_addS).
    rewrite sum_Sn. unfold plus; simpl. apply isin_add; auto. }
  destruct (slt s0 (hg_offset ta tb tc td)) eqn:C0; [|auto].
  inv H. destruct (slt (mag v1) s1) eqn:C1; [|auto]. inv H.
  destruct (slt (width (imul (imul v0 Z) v2)) (nmul (mag result) seps)) eqn:C2; [|auto]. ret H. clear NX IH.
  assert (WO : swf (hg_offset ta tb tc td)).
  { destruct HA as (? & _), HB as (? & _), HC as (? & _), HD as (? & _). unfold hg_offset. auto using smin_wf. }
  assert (EO : exists off, sval (hg_offset ta tb tc td) = XR off /\ 0 < off).
  { apply (ok_lt _ OK) in C0; auto. rewrite V0 in C0.
    destruct (sval (hg_offset ta tb tc td)) as [o| | |] eqn:E; simpl in C0; try tauto; [eauto|].
    exfalso. revert E. unfold hg_offset, smin.
    assert (NI : forall X x, isin X x -> sval (lo X) <> Xp) by (intros X x (_ & _ & L & _) E; rewrite E in L; exact L).
    destruct (slt (lo td) _); [exact (NI _ _ HD)|]. destruct (slt (lo tc) _); [exact (NI _ _ HC)|]. destruct (slt (lo tb) _); [exact (NI _ _ HB)|exact (NI _ _ HA)]. }
  destruct EO as (off & EO & PO).
  pose proof (hg_ratio_encl _ _ _ _ _ _ _ _ _ _ _ _ _ K1 WO EO PO HA HB HC HD HZ) as RT.
  set (q := fun k => (a + INR (Datatypes.S n + k)) * (b + INR (Datatypes.S n + k)) / (c + INR (Datatypes.S n + k)) / (1 + INR (Datatypes.S n + k)) * z).
  assert (EI : forall x k, x + INR (Datatypes.S n + k) = x + INR n + (1 + INR k)) by (intros x k; rewrite plus_INR, S_INR; ring).
  assert (QI : forall k, c + INR (Datatypes.S n + k) <> 0 /\ isin v1 (q k)).
  { intros k. pose proof (pos_INR k). destruct (RT (1 + INR k) ltac:(lra)) as (M1 & _ & M2). unfold q. rewrite !EI. auto. }
  assert (NA : forall k, c + INR k <> 0).
  { intros k. destruct (Nat.lt_ge_cases k (Datatypes.S n)) as [L|L]; auto.
    replace k with (Datatypes.S n + (k - Datatypes.S n))%nat by lia. apply QI. }
  split; auto.
  destruct (geoseries_encl v1 v2 q (mag_unit v1 C1) (fun k => proj2 (QI k)) K2) as (s & S1 & S2).
  exists (sum_n (hterm a b c z) n + hterm a b c z (Datatypes.S n) * s). split.
  - apply (is_series_decr_n _ (Datatypes.S n)); [lia|]. simpl pred.
    assert (E0 : forall x y : R, plus (x + y) (opp x) = y) by (intros x y; unfold plus, opp; simpl; lra). rewrite E0.
    apply is_series_ext with (fun k => Hierarchy.scal (hterm a b c z (Datatypes.S n)) (rprod q k)).
    + intros k. symmetry. apply hterm_ratio with (q := q); auto.
    + now apply (is_series_scal (hterm a b c z (Datatypes.S n)) (rprod q) s).
  - apply isin_add; auto. apply isin_mul; auto.
Qed.
Theorem hypergeom_encl f A B C Z Q a b c z : hypergeom S f A B C Z = Ok Q -> isin A a -> isin B b -> isin C c -> isin Z z ->
  (forall k, c + INR k <> 0) /\ exists s : R, is_series (hterm a b c z) s /\ isin Q s.
Proof.
  intros H HA HB HC HZ. unfold hypergeom in H.
  assert (I1 : isin (ipt s1) 1) by now apply isin_pt.
  apply (hg_loop_encl a b c z Z HZ f _ _ _ _ _ _ Q O H); simpl INR; rewrite ?Rplus_0_r; auto.
  - unfold hterm; simpl. replace (1 * 1 / (1 * 1) * 1) with 1 by field. auto.
  - rewrite sum_O. unfold hterm; simpl. replace (1 * 1 / (1 * 1) * 1) with 1 by field. auto.
  - intros k K. lia.
Qed.

(* kkt *)
Variable P : elemp S.
Hypothesis LE : exp_laws S P.
Hypothesis LL : log_laws S P.
Lemma isin_ends2 (X : iv S) x : isin X x ->
  (exists l, sval (lo X) = XR l /\ l <= x) \/ sval (lo X) = Xm.
Proof. intros (_ & _ & L & _). destruct (sval (lo X)); simpl in L; try tauto; eauto. Qed.
Lemma powI_pos f (x : S) v n Q : (0 <= n <= 3)%Z -> swf x -> sval x = XR v -> 0 < v -> ipowI S P f (ipt x) (ipt (sint S n)) = Ok Q -> isin Q (v ^ Z.to_nat n).
Proof.
  intros Hn W E Hv H. destruct (sint_ok OK n) as [W2 E2]; try lia.
  pose proof (ipowI_encl OK P LE LL f _ _ v (IZR n) Q H (isin_pt _ _ W E) (isin_pt _ _ W2 E2) Hv) as K.
  replace (v ^ Z.to_nat n) with (Rpower v (IZR n)); auto. rewrite <- Rpower_pow by auto. f_equal. rewrite INR_IZR_INZ, Z2Nat.id; auto; lia.
Qed.
(* pow(interval(inf), 3.) has the upper end inf *)
Lemma powI_inf f (x : S) n Q : (1 <= n <= 3)%Z -> swf x -> sval x = Xp -> ipowI S P f (ipt x) (ipt (sint S n)) = Ok Q ->
  forall y, ub (sval (hi Q)) y /\ swf (hi Q).
Proof.
  intros Hn W E H y. destruct (sint_ok OK n) as [W2 E2]; try lia. destruct (ok_pinf _ OK) as [Wp Vp].
  unfold ipowI in H. inv H.
  assert (KL : forall t, maxv S <= t -> isin v t).
  { intros t Ht. unfold ilog in K. destruct (slt (lo (ipt x)) s0); [discriminate|]. cbn [lo hi ipt] in K.
    unfold log_point in K.
    assert (SP : seqb x spinf = true) by (apply (ok_eq _ OK); auto; rewrite E, Vp; simpl; auto). rewrite SP in K.
    destruct (isqrt (ipt (sint S 2))) as [q|]; [|discriminate]. cbn [bind] in K. ret K.
    destruct (ok_max _ OK) as (Wm & m & Em & _). unfold maxv in Ht. rewrite Em in Ht.
    split; [auto|]. split; [auto|]. cbn [lo hi]. rewrite Em, Vp. simpl. auto. }
  set (t := Rmax (maxv S) (Rabs y)).
  assert (T : isin v t) by (apply KL; apply Rmax_l).
  pose proof (iexp_encl OK P LE f _ _ _ H (isin_mul OK _ _ _ _ (isin_pt _ _ W2 E2) T)) as (_ & A2 & _ & A4).
  split; auto. eapply ub_le; [exact A4|]. pose proof (Rmax_r (maxv S) (Rabs y)). fold t in H0. pose proof (Rle_abs y). pose proof (Rabs_pos y).
  assert (1 <= IZR n) by (apply IZR_le; lia).
  assert (t <= IZR n * t) by nra. pose proof (exp_ineq1_le (IZR n * t)). lra.
Qed.

Lemma pos_lo (X : iv S) x (k : res S) l : isin X x -> (if sle (lo X) s0 then Ok s0 else k) = Ok l ->
  l = s0 \/ exists v, sval (lo X) = XR v /\ 0 < v <= x /\ k = Ok l.
Proof.
  intros (WL & WU & L & U) H. destruct (sle (lo X) s0) eqn:C. { left. now injection H. }
  apply (sle_false OK) in C; auto; try (rewrite ?V0; discriminate); [|destruct (sval (lo X)); simpl in L; congruence || tauto].
  rewrite V0 in C. destruct (sval (lo X)) as [v| | |]; simpl in L, C; try tauto. right. exists v. auto.
Qed.
Lemma pos_hi (X : iv S) x (k : res S) u : isin X x -> (if sle (hi X) s0 then Ok s0 else k) = Ok u ->
  (u = s0 /\ x <= 0) \/ (exists v, sval (hi X) = XR v /\ 0 < v /\ x <= v /\ k = Ok u) \/ (sval (hi X) = Xp /\ k = Ok u).
Proof.
  intros (WL & WU & L & U) H. destruct (sle (hi X) s0) eqn:C.
  - left. apply (ok_le _ OK) in C; auto. rewrite V0 in C. split; [now injection H|]. destruct (sval (hi X)); simpl in *; try tauto; lra.
  - right. apply (sle_false OK) in C; auto; try (rewrite ?V0; discriminate); [|destruct (sval (hi X)); simpl in U; congruence || tauto].
    rewrite V0 in C. destruct (sval (hi X)) as [v| | |]; simpl in U, C; try tauto. left. exists v. auto.
Qed.
Lemma neg_lo (X : iv S) x (k : res S) l : isin X x -> (if sle s0 (lo X) then Ok s0 else k) = Ok l ->
  (l = s0 /\ 0 <= x) \/ (exists v, sval (lo X) = XR v /\ v < 0 /\ v <= x /\ k = Ok l) \/ (sval (lo X) = Xm /\ k = Ok l).
Proof.
  intros (WL & WU & L & U) H. destruct (sle s0 (lo X)) eqn:C.
  - left. apply (ok_le _ OK) in C; auto. rewrite V0 in C. split; [now injection H|]. destruct (sval (lo X)); simpl in *; try tauto; lra.
  - right. apply (sle_false OK) in C; auto; try (rewrite ?V0; discriminate); [|destruct (sval (lo X)); simpl in L; congruence || tauto].
    rewrite V0 in C. destruct (sval (lo X)) as [v| | |]; simpl in L, C; try tauto. left. exists v. auto.
Qed.
Lemma neg_hi (X : iv S) x (k : res S) u : isin X x -> (if sle s0 (hi X) then Ok s0 else k) = Ok u ->
  u = s0 \/ exists v, sval (hi X) = XR v /\ x <= v < 0 /\ k = Ok u.
Proof.
  intros (WL & WU & L & U) H. destruct (sle s0 (hi X)) eqn:C. { left. now injection H. }
  apply (sle_false OK) in C; auto; try (rewrite ?V0; discriminate); [|destruct (sval (hi X)); simpl in U; congruence || tauto].
  rewrite V0 in C. destruct (sval (hi X)) as [v| | |]; simpl in U, C; try tauto. right. exists v. auto.
Qed.
Lemma pw_le a b n : 0 <= a -> a <= b -> a ^ n <= b ^ n. Proof. intros. apply pow_incr. lra. Qed.
Lemma mx_le a b : a <= b -> Rmax a 0 <= Rmax b 0. Proof. intros. apply Rle_max_compat_r; auto. Qed.
Lemma mx0 a : 0 <= Rmax a 0. Proof. apply Rmax_r. Qed.
Lemma mxp a : 0 < a -> Rmax a 0 = a. Proof. intros. apply Rmax_left. lra. Qed.
Lemma mxn a : a <= 0 -> Rmax a 0 = 0. Proof. intros. apply Rmax_right. lra. Qed.

Lemma alpha_plus_encl f X Q x : alpha_plus S P f X = Ok Q -> isin X x -> isin Q (Rmax x 0 ^ 3).
Proof.
  intros H HX. pose proof HX as (WL & WU & _ & _). unfold alpha_plus in H. inv H. inv H. ret H.
  assert (A : swf v /\ lb (sval v) (Rmax x 0 ^ 3)).
  { destruct (pos_lo _ _ _ _ HX K) as [-> |(w & E & Hw & H)].
    - split; auto. rewrite V0. simpl. apply (pow_le _ 3), mx0.
    - inv H. ret H. destruct (powI_pos f _ w 3 _ ltac:(lia) WL E ltac:(lra) K1) as (B1 & _ & B3 & _). split; auto.
      eapply lb_le; [exact B3|]. rewrite mxp by lra. apply pw_le; lra. }
  assert (B : swf v0 /\ ub (sval v0) (Rmax x 0 ^ 3)).
  { destruct (pos_hi _ _ _ _ HX K0) as [[-> Hx]|[(w & E & Hw & Hx & H)|[E H]]].
    - split; auto. rewrite V0, mxn by auto. simpl. lra.
    - inv H. ret H. destruct (powI_pos f _ w 3 _ ltac:(lia) WU E ltac:(lra) K1) as (_ & B2 & _ & B4). split; auto.
      eapply ub_le; [exact B4|]. apply pw_le; [apply mx0|]. apply Rmax_lub; lra.
    - inv H. ret H. destruct (powI_inf f _ 3 _ ltac:(lia) WU E K1 (Rmax x 0 ^ 3)). auto. }
  destruct A, B. split; auto.
Qed.
Lemma alpha_plus_d_encl f X Q x : alpha_plus_d S P f X = Ok Q -> isin X x -> isin Q (3 * Rmax x 0 ^ 2).
Proof.
  intros H HX. pose proof HX as (WL & WU & _ & _). unfold alpha_plus_d in H. inv H. inv H. ret H. destruct (sint_ok OK 3) as [W3 V3]; try lia.
  pose proof (mx0 x) as M0.
  assert (A : swf v /\ lb (sval v) (3 * Rmax x 0 ^ 2)).
  { destruct (pos_lo _ _ _ _ HX K) as [-> |(w & E & Hw & H)].
    - split; auto. rewrite V0. simpl. nra.
    - inv H. injection H as H. pose proof (isin_Smul OK _ _ _ _ W3 V3 (powI_pos f _ w 2 _ ltac:(lia) WL E ltac:(lra) K1)) as (B1 & _ & B3 & _).
      rewrite H in *. split; auto. eapply lb_le; [exact B3|]. rewrite mxp by lra. apply Rmult_le_compat_l; [lra|]. apply pw_le; lra. }
  assert (B : swf v0 /\ ub (sval v0) (3 * Rmax x 0 ^ 2)).
  { destruct (pos_hi _ _ _ _ HX K0) as [[-> Hx]|[(w & E & Hw & Hx & H)|[E H]]].
    - split; auto. rewrite V0, mxn by auto. simpl. lra.
    - inv H. injection H as H. pose proof (isin_Smul OK _ _ _ _ W3 V3 (powI_pos f _ w 2 _ ltac:(lia) WU E ltac:(lra) K1)) as (_ & B2 & _ & B4).
      rewrite H in *. split; auto. eapply ub_le; [exact B4|]. apply Rmult_le_compat_l; [lra|]. apply pw_le; [apply mx0|]. apply Rmax_lub; lra.
    - inv H. injection H as H. pose proof (powI_inf f _ 2 _ ltac:(lia) WU E K1) as I.
      assert (HP : forall y, isin (mkiv s0 (hi v1)) (Rabs y)).
      { intros y. destruct (I (Rabs y)). split; [auto|]. split; [auto|]. cbn [lo hi]. rewrite V0. split; auto. apply Rabs_pos. }
      assert (HS : hi (iSmul (sint S 3) v1) = hi (iSmul (sint S 3) (mkiv s0 (hi v1)))).
      { unfold iSmul. destruct (slt s0 (sint S 3)) eqn:C; auto. exfalso. assert (slt s0 (sint S 3) = true); [|congruence].
        apply (ok_lt _ OK); auto. rewrite V0, V3. simpl. lra. }
      pose proof (isin_Smul OK _ _ _ _ W3 V3 (HP (Rmax x 0 ^ 2))) as (_ & B2 & _ & B4). rewrite <- HS, H in *. split; auto.
      rewrite Rabs_pos_eq in B4 by (apply pow_le, mx0). auto. }
  destruct A, B. split; auto.
Qed.
(* the integer power of a point *)
Lemma pow_pt (x : S) v n Q : swf x -> sval x = XR v -> (0 < n)%Z -> ipow (ipt x) n = Ok Q -> isin Q (v ^ Z.to_nat n).
Proof.
  intros W E N H. destruct (ipow_encl OK _ _ _ v H (isin_pt _ _ W E)) as [_ K].
  rewrite <- (Z2Nat.id n) in K by lia. rewrite <- pow_powerRZ in K. auto.
Qed.
Lemma hull_same (A : iv S) : lo (hull A A) = lo A /\ hi (hull A A) = hi A.
Proof. unfold hull; simpl. destruct (slt (lo A) (lo A)), (slt (hi A) (hi A)); auto. Qed.
Lemma pow_minf (x : S) n Q : swf x -> sval x = Xm -> (0 < n)%Z -> ipow (ipt x) n = Ok Q ->
  swf (lo Q) /\ swf (hi Q) /\ (if Z.even n then sval (hi Q) = Xp else sval (lo Q) = Xm) /\ (Z.even n = true -> sval (lo Q) <> Xn).
Proof.
  intros W E N H. unfold ipow in H. destruct (Z.eqb_spec n 0); [lia|]. destruct (Z.eqb_spec n (-2147483648)); [lia|]. cbv zeta in H.
  rewrite Z.abs_eq in H by lia. destruct (Z.ltb_spec n 0); [lia|].
  assert (IN : iin s0 (ipt x) = false).
  { unfold iin; simpl. assert (sle s0 x = false) as ->; [|apply andb_false_r]. apply not_true_is_false. intros C. apply (ok_le _ OK) in C; auto. rewrite E, V0 in C. exact C. }
  rewrite IN, andb_false_r in H. ret H. cbn [lo hi ipt].
  pose proof (pow_point_inf OK false x n W E N) as K. destruct (hull_same (pow_point x n)) as [-> ->].
  destruct (Z.even n); destruct K as (K1 & K2 & K3 & K4); (split; [auto|]); (split; [auto|]).
  - split; auto. intros _. destruct (sval (lo (pow_point x n))); simpl in K3; congruence || tauto.
  - split; [auto|congruence].
Qed.
Lemma alpha_minus_encl X Q x : alpha_minus S X = Ok Q -> isin X x -> isin Q (Rmax (- x) 0 ^ 3).
Proof.
  intros H HX. pose proof HX as (WL & WU & _ & _). unfold alpha_minus in H. inv H. inv H. ret H. pose proof (mx0 (- x)) as M0.
  assert (NG : forall (t : iv S) y, isin t y -> isin (ineg t) (- y)) by (intros; now apply isin_neg).
  assert (A : swf v0 /\ lb (sval v0) (Rmax (- x) 0 ^ 3)).
  { destruct (neg_hi _ _ _ _ HX K0) as [-> |(w & E & Hw & H)].
    - split; auto. rewrite V0. simpl. apply (pow_le _ 3), mx0.
    - inv H. injection H as H. destruct (NG _ _ (pow_pt _ w 3 _ WU E ltac:(lia) K1)) as (B1 & _ & B3 & _). change (sneg (hi v1)) with (lo (ineg v1)) in H. rewrite H in *. split; auto.
      eapply lb_le; [exact B3|]. rewrite mxp by lra. change (Z.to_nat 3) with 3%nat. replace (- w ^ 3) with ((- w) ^ 3) by ring. apply pw_le; lra. }
  assert (B : swf v /\ ub (sval v) (Rmax (- x) 0 ^ 3)).
  { destruct (neg_lo _ _ _ _ HX K) as [[-> Hx]|[(w & E & Hw & Hx & H)|[E H]]].
    - split; auto. rewrite V0, mxn by lra. simpl. lra.
    - inv H. injection H as H. destruct (NG _ _ (pow_pt _ w 3 _ WL E ltac:(lia) K1)) as (_ & B2 & _ & B4). change (sneg (lo v1)) with (hi (ineg v1)) in H. rewrite H in *. split; auto.
      eapply ub_le; [exact B4|]. change (Z.to_nat 3) with 3%nat. replace (- w ^ 3) with ((- w) ^ 3) by ring. apply pw_le; [apply mx0|]. apply Rmax_lub; lra.
    - inv H. injection H as H. destruct (pow_minf _ 3 _ WL E ltac:(lia) K1) as (B1 & B2 & B3 & _). simpl in B3. rewrite <- H. split; [now apply sneg_wf|].
      rewrite (sneg_v OK), B3 by auto. simpl. auto. }
  destruct A, B. split; auto.
Qed.
Lemma alpha_minus_d_encl X Q x : alpha_minus_d S X = Ok Q -> isin X x -> isin Q (-3 * Rmax (- x) 0 ^ 2).
Proof.
  intros H HX. pose proof HX as (WL & WU & _ & _). unfold alpha_minus_d in H. inv H. inv H. ret H. destruct (sint_ok OK (-3)) as [W3 V3]; try lia.
  pose proof (mx0 (- x)) as M0.
  assert (A : swf v /\ lb (sval v) (-3 * Rmax (- x) 0 ^ 2)).
  { destruct (neg_lo _ _ _ _ HX K) as [[-> Hx]|[(w & E & Hw & Hx & H)|[E H]]].
    - split; auto. rewrite V0, mxn by lra. simpl. lra.
    - inv H. injection H as H. pose proof (isin_Smul OK _ _ _ _ W3 V3 (pow_pt _ w 2 _ WL E ltac:(lia) K1)) as (B1 & _ & B3 & _).
      rewrite H in *. split; auto. eapply lb_le; [exact B3|]. change (Z.to_nat 2) with 2%nat. replace (w ^ 2) with ((- w) ^ 2) by ring.
      assert (Rmax (- x) 0 ^ 2 <= (- w) ^ 2) by (apply pw_le; [auto|apply Rmax_lub; lra]). lra.
    - inv H. injection H as H. destruct (pow_minf _ 2 _ WL E ltac:(lia) K1) as (B1 & B2 & B3 & _). simpl in B3.
      assert (HP : isin (mkiv s0 (hi v1)) (Rmax (- x) 0 ^ 2)).
      { split; [auto|]. split; [auto|]. cbn [lo hi]. rewrite V0, B3. split; [|exact Logic.I]. simpl. nra. }
      assert (HS : lo (iSmul (sint S (-3)) v1) = lo (iSmul (sint S (-3)) (mkiv s0 (hi v1)))).
      { unfold iSmul. destruct (slt s0 (sint S (-3))) eqn:C.
        - exfalso. apply (ok_lt _ OK) in C; auto. rewrite V0, V3 in C. simpl in C. lra.
        - destruct (slt (sint S (-3)) s0); auto. }
      pose proof (isin_Smul OK _ _ _ _ W3 V3 HP) as (C1 & _ & C3 & _). rewrite <- HS, H in *. auto. }
  assert (B : swf v0 /\ ub (sval v0) (-3 * Rmax (- x) 0 ^ 2)).
  { destruct (neg_hi _ _ _ _ HX K0) as [-> |(w & E & Hw & H)].
    - split; auto. rewrite V0. simpl. nra.
    - inv H. injection H as H. pose proof (isin_Smul OK _ _ _ _ W3 V3 (pow_pt _ w 2 _ WU E ltac:(lia) K1)) as (_ & B2 & _ & B4).
      rewrite H in *. split; auto. eapply ub_le; [exact B4|]. change (Z.to_nat 2) with 2%nat. rewrite mxp by lra.
      assert ((- w) ^ 2 <= (- x) ^ 2) by (apply pw_le; lra). replace ((- w) ^ 2) with (w ^ 2) in * by ring. lra. }
  destruct A, B. split; auto.
Qed.
End SeriesProofs.
