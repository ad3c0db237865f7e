(* When the interval operations throw, and closure of valid intervals. *)
From Coq Require Import Reals Lra Lia Psatz ZArith Bool.
From Flocq Require Import Core.
From Verif Require Import Ext Scalar IntervalModel IntervalSpec IntervalProofs IntervalEncl IntervalSets IntervalDivPow.
Open Scope R_scope.

Section More.
Context {S : scal} (OK : scal_ok S).
Implicit Types X Y : iv S.
Implicit Types x y : R.
Implicit Types a b : S.

Lemma valid_parts X : ivalid X -> swf (lo X) /\ swf (hi X) /\ is_lo (sval (lo X)) /\ is_hi (sval (hi X)) /\
  xle (sval (lo X)) (sval (hi X)) /\ sval (lo X) <> Xn /\ sval (hi X) <> Xn.
Proof. intros (A & B & C & D & E). repeat split; auto using is_lo_nn, is_hi_nn. Qed.

Lemma zero_cases Y : ivalid Y ->
  (slt s0 (lo Y) = false /\ slt (hi Y) s0 = false) <-> isin Y 0.
Proof.
  intros V. destruct (valid_parts Y V) as (W1 & W2 & L & H & E & N1 & N2).
  split.
  - intros [A B]. apply (lt0_false OK) in A; auto. apply (gt0_false OK) in B; auto.
    split; [auto|split; [auto|split]].
    + destruct (sval (lo Y)); simpl in *; tauto || lra.
    + destruct (sval (hi Y)); simpl in *; tauto || lra.
  - intros (_ & _ & A & B). split.
    + destruct (slt s0 (lo Y)) eqn:F; auto. apply (lt0_true OK) in F; auto.
      destruct (sval (lo Y)); simpl in *; tauto || lra.
    + destruct (slt (hi Y) s0) eqn:F; auto. apply (gt0_true OK) in F; auto.
      destruct (sval (hi Y)); simpl in *; tauto || lra.
Qed.

Lemma idiv_throws X Y : ivalid Y -> (idiv X Y = Err EDomain <-> isin Y 0).
Proof.
  intros V. rewrite <- zero_cases by auto. unfold idiv.
  destruct (slt s0 (lo Y)), (slt (hi Y) s0); split; try discriminate; try tauto; intros []; discriminate.
Qed.
Lemma idiv_total X Y : ivalid Y -> ~ isin Y 0 -> exists Q, idiv X Y = Ok Q.
Proof.
  intros V N. unfold idiv.
  destruct (slt s0 (lo Y)) eqn:A; [eauto|]. destruct (slt (hi Y) s0) eqn:B; [eauto|].
  exfalso. apply N, zero_cases; auto.
Qed.
Lemma iSdiv_throws a Y : ivalid Y -> (iSdiv a Y = Err EDomain <-> isin Y 0).
Proof.
  intros V. rewrite <- zero_cases by auto. unfold iSdiv.
  destruct (slt s0 (lo Y)), (slt (hi Y) s0); simpl; split; try discriminate; try tauto; intros []; discriminate.
Qed.
Lemma iSdiv_total a Y : ivalid Y -> ~ isin Y 0 -> exists Q, iSdiv a Y = Ok Q.
Proof.
  intros V N. unfold iSdiv.
  destruct (slt s0 (lo Y)) eqn:A; simpl; [eauto|]. destruct (slt (hi Y) s0) eqn:B; [eauto|].
  exfalso. apply N, zero_cases; auto.
Qed.
Lemma idivS_throws X b y : swf b -> sval b = XR y -> (idivS X b = Err EDomain <-> y = 0).
Proof.
  intros W E. unfold idivS.
  destruct (slt s0 b) eqn:A.
  - apply (lt0_true OK) in A; auto. rewrite E in A. simpl in A. split; [discriminate|lra].
  - destruct (slt b s0) eqn:B.
    + apply (gt0_true OK) in B; auto. rewrite E in B. simpl in B. split; [discriminate|lra].
    + apply (lt0_false OK) in A; auto; [|congruence]. apply (gt0_false OK) in B; auto; [|congruence].
      rewrite E in *. simpl in *. split; auto. intros; lra.
Qed.
Lemma idivS_total X b y : swf b -> sval b = XR y -> y <> 0 -> exists Q, idivS X b = Ok Q.
Proof.
  intros W E N. pose proof (idivS_throws X b y W E) as T. unfold idivS in *.
  destruct (slt s0 b); [eauto|]. destruct (slt b s0); [eauto|]. exfalso; apply N, T; auto.
Qed.

Lemma isqrt_throws X : ivalid X -> (isqrt X = Err EDomain <-> exists x, isin X x /\ x < 0).
Proof.
  intros V. destruct (valid_parts X V) as (W1 & W2 & L & H & E & N1 & N2). unfold isqrt.
  destruct (slt (lo X) s0) eqn:A.
  - split; auto. intros _. apply (gt0_true OK) in A; auto.
    assert (exists r, lb (sval (lo X)) r /\ r < 0) as [r [Hr Hr']].
    { destruct (sval (lo X)); simpl in *; try tauto.
      - exists r; split; auto; lra.
      - exists (-1); split; auto; lra. }
    destruct (valid_lo_pt X r V Hr) as [x [Hx Hx']]. exists x; split; auto; lra.
  - split; [discriminate|]. intros [x [Hx Hx']]. apply (gt0_false OK) in A; auto.
    destruct Hx as (_ & _ & B & _). destruct (sval (lo X)); simpl in *; tauto || lra.
Qed.
Lemma isqrt_total X : ivalid X -> (forall x, isin X x -> 0 <= x) -> exists Q, isqrt X = Ok Q.
Proof.
  intros V H. pose proof (proj1 (isqrt_throws X V)) as T. unfold isqrt in *.
  destruct (slt (lo X) s0); [|eauto]. destruct (T eq_refl) as [x [A B]]. apply H in A. lra.
Qed.

(* Extended division throws exactly for the zero divisor. *)
Lemma isin_only0 Y : ivalid Y -> (forall y, isin Y y -> y = 0) -> sval (lo Y) = XR 0 /\ sval (hi Y) = XR 0.
Proof.
  intros V A. destruct (valid_parts Y V) as (W1 & W2 & L & H & E & N1 & N2).
  destruct (sval (lo Y)) as [p| | |] eqn:E1; simpl in L; try tauto.
  - pose proof (A _ (valid_lo_att Y p V E1)). subst.
    destruct (sval (hi Y)) as [q| | |] eqn:E2; simpl in H; try tauto.
    + pose proof (A _ (valid_hi_att Y q V E2)). subst. auto.
    + assert (isin Y 1) as F by (repeat split; auto; rewrite ?E1, ?E2; simpl; auto; lra).
      apply A in F. lra.
  - destruct (valid_isin Y V) as [r Hr]. 
    assert (isin Y (Rmin r (-1))) as F.
    { destruct Hr as (_ & _ & _ & U). repeat split; auto.
      - rewrite E1. simpl; auto.
      - eapply ub_le; eauto. apply Rmin_l. }
    apply A in F. pose proof (Rmin_r r (-1)). lra.
Qed.
Lemma division_part1_throws X Y : ivalid X -> ivalid Y ->
  (division_part1 X Y = Err EDomain <-> forall y, isin Y y -> y = 0).
Proof.
  intros VX V. split.
  - intros T y Hy. destruct (Req_dec y 0); auto. exfalso.
    destruct (division_part1_total OK X Y VX V) as [r Hr]; [eauto|]. congruence.
  - intros A. destruct (isin_only0 Y V A) as [E1 E2].
    destruct (valid_parts Y V) as (W1 & W2 & L & H & E & N1 & N2).
    assert (forall a, swf a -> sval a = XR 0 -> slt s0 a = false /\ slt a s0 = false /\ seqb a s0 = true) as K.
    { intros a W Ea. repeat split.
      - destruct (slt s0 a) eqn:F; auto. apply (lt0_true OK) in F; auto. rewrite Ea in F. simpl in F; lra.
      - destruct (slt a s0) eqn:F; auto. apply (gt0_true OK) in F; auto. rewrite Ea in F. simpl in F; lra.
      - apply (ok_eq _ OK); auto using (wf0 OK). rewrite Ea, (val0 OK). simpl; auto. }
    destruct (K (lo Y)) as (K1 & K2 & K3); auto. destruct (K (hi Y)) as (K4 & K5 & K6); auto.
    unfold division_part1, seq0. rewrite K1, K5, K3, K6. reflexivity.
Qed.

Lemma tri b : swf b -> sval b <> Xn ->
  (slt b s0 = true /\ seq0 b = false /\ slt s0 b = false /\ xlt (sval b) (XR 0)) \/
  (slt b s0 = false /\ seq0 b = true /\ slt s0 b = false /\ sval b = XR 0) \/
  (slt b s0 = false /\ seq0 b = false /\ slt s0 b = true /\ xlt (XR 0) (sval b)).
Proof.
  intros W N.
  assert (P0 : slt b s0 = true <-> xlt (sval b) (XR 0)).
  { rewrite (ok_lt _ OK), (val0 OK); auto using (wf0 OK). tauto. }
  assert (P1 : slt s0 b = true <-> xlt (XR 0) (sval b)).
  { rewrite (ok_lt _ OK), (val0 OK); auto using (wf0 OK). tauto. }
  assert (P2 : seq0 b = true <-> xeq (sval b) (XR 0)).
  { unfold seq0. rewrite (ok_eq _ OK), (val0 OK); auto using (wf0 OK). tauto. }
  destruct (slt b s0), (slt s0 b), (seq0 b); destruct (sval b) as [r| | |]; simpl in *;
  try (destruct (Rtotal_order r 0) as [?|[?|?]]); intuition (try congruence; try lra);
  exfalso; intuition (try discriminate; try lra).
Qed.

(* parted: exactly when zero is in the inside of Y and X does not contain zero *)
Lemma division_parted X Y R1 parted : ivalid X -> ivalid Y -> division_part1 X Y = Ok (R1, parted) ->
  (parted = true <-> (exists y, isin Y y /\ y < 0) /\ (exists y, isin Y y /\ 0 < y) /\ ~ isin X 0).
Proof.
  intros VX VY. destruct (valid_parts Y VY) as (W1 & W2 & L & H & E & N1 & N2).
  destruct (valid_parts X VX) as (U1 & U2 & L' & H' & E' & M1 & M2).
  assert (NL : (exists y, isin Y y /\ y < 0) <-> xlt (sval (lo Y)) (XR 0)).
  { split.
    - intros [y [(_ & _ & A & _) B]]. destruct (sval (lo Y)); simpl in *; tauto || lra.
    - intros A. assert (exists r, lb (sval (lo Y)) r /\ r < 0) as [r [Hr Hr']].
      { destruct (sval (lo Y)); simpl in *; try tauto.
        - exists r; split; auto; lra.
        - exists (-1); split; auto; lra. }
      destruct (valid_lo_pt Y r VY Hr) as [x [Hx Hx']]. exists x; split; auto; lra. }
  assert (PH : (exists y, isin Y y /\ 0 < y) <-> xlt (XR 0) (sval (hi Y))).
  { split.
    - intros [y [(_ & _ & _ & A) B]]. destruct (sval (hi Y)); simpl in *; tauto || lra.
    - intros A. assert (exists r, ub (sval (hi Y)) r /\ 0 < r) as [r [Hr Hr']].
      { destruct (sval (hi Y)); simpl in *; try tauto.
        - exists r; split; auto; lra.
        - exists 1; split; auto; lra. }
      destruct (valid_hi_pt Y r VY Hr) as [x [Hx Hx']]. exists x; split; auto; lra. }
  assert (X0 : isin X 0 <-> xle (sval (lo X)) (XR 0) /\ xle (XR 0) (sval (hi X))).
  { unfold isin. split.
    - intros (_ & _ & A & B). destruct (sval (lo X)), (sval (hi X)); simpl in *; tauto.
    - intros (A & B). split; [auto|split; [auto|]]; destruct (sval (lo X)), (sval (hi X)); simpl in *; tauto. }
  rewrite NL, PH, X0. clear NL PH X0. unfold division_part1, idiv.
  destruct (tri (lo Y) W1 N1) as [(T1 & T2 & T3 & T4)|[(T1 & T2 & T3 & T4)|(T1 & T2 & T3 & T4)]];
  destruct (tri (hi Y) W2 N2) as [(R2 & R3 & R4 & R5)|[(R2 & R3 & R4 & R5)|(R2 & R3 & R4 & R5)]];
  rewrite T1, T2, T3, R2, R3, R4; simpl; intros D; try discriminate D;
  try (injection D as _ <-; split; [discriminate|]; intros (A & B & _);
       destruct (sval (lo Y)), (sval (hi Y)); simpl in *; try discriminate; try tauto;
       try (injection T4 as T4); try (injection R5 as R5); lra).
  destruct (tri (lo X) U1 M1) as [(A1 & A2 & A3 & A4)|[(A1 & A2 & A3 & A4)|(A1 & A2 & A3 & A4)]];
  destruct (tri (hi X) U2 M2) as [(B2 & B3 & B4 & B5)|[(B2 & B3 & B4 & B5)|(B2 & B3 & B4 & B5)]];
  rewrite ?A2, ?A3, ?B2, ?B3 in D; simpl in D; injection D as _ <-; clear - T4 R5 A4 B5 E';
  (split; [intros F; first [discriminate F|split; [auto|split; [auto|intros [C1 C2]]]]
          |intros (_ & _ & C); first [reflexivity|exfalso; apply C]]);
  destruct (sval (lo X)), (sval (hi X)); simpl in *; try discriminate; try tauto;
  try (injection A4 as A4); try (injection B5 as B5); try (split; auto); lra.
Qed.

(* ---- closure ---- *)
Lemma valid_add X Y : ivalid X -> ivalid Y -> ivalid (iadd X Y).
Proof. intros VX VY. destruct (valid_isin X VX) as [x Hx], (valid_isin Y VY) as [y Hy]. eapply isin_valid, (isin_add OK); eauto. Qed.
Lemma valid_sub X Y : ivalid X -> ivalid Y -> ivalid (isub X Y).
Proof. intros VX VY. destruct (valid_isin X VX) as [x Hx], (valid_isin Y VY) as [y Hy]. eapply isin_valid, (isin_sub OK); eauto. Qed.
Lemma valid_mul X Y : ivalid X -> ivalid Y -> ivalid (imul X Y).
Proof. intros VX VY. destruct (valid_isin X VX) as [x Hx], (valid_isin Y VY) as [y Hy]. eapply isin_valid, (isin_mul OK); eauto. Qed.
Lemma valid_neg X : ivalid X -> ivalid (ineg X).
Proof. intros VX. destruct (valid_isin X VX) as [x Hx]. eapply isin_valid, (isin_neg OK); eauto. Qed.
Lemma valid_div X Y Q : ivalid X -> ivalid Y -> idiv X Y = Ok Q -> ivalid Q.
Proof.
  intros VX VY D. destruct (valid_isin X VX) as [x Hx], (valid_isin Y VY) as [y Hy].
  destruct (isin_div OK X Y Q x y D Hx Hy) as [_ I]. eapply isin_valid; eauto.
Qed.
Lemma valid_sqrt X Q : ivalid X -> isqrt X = Ok Q -> ivalid Q.
Proof.
  intros VX D. destruct (valid_isin X VX) as [x Hx].
  destruct (isin_sqrt OK X Q x D Hx) as [_ I]. eapply isin_valid; eauto.
Qed.
Lemma valid_pow X n Q : ivalid X -> ipow X n = Ok Q -> ivalid Q.
Proof.
  intros VX D. destruct (valid_isin X VX) as [x Hx].
  destruct (ipow_encl OK X n Q x D Hx) as [_ I]. eapply isin_valid; eauto.
Qed.
Lemma valid_hull X Y : ivalid X -> ivalid Y -> ivalid (hull X Y).
Proof. intros VX VY. destruct (valid_isin X VX) as [x Hx]. eapply isin_valid, (isin_hull_l OK); eauto. Qed.
Lemma valid_abs X : ivalid X -> ivalid (iabs X).
Proof.
  intros VX. destruct (valid_isin X VX) as [x Hx]. apply (isin_valid _ (Rabs x)), (isin_abs OK); eauto.
Qed.
Lemma valid_max X Y : ivalid X -> ivalid Y -> ivalid (imax X Y).
Proof.
  intros VX VY. destruct (valid_isin X VX) as [x Hx], (valid_isin Y VY) as [y Hy].
  apply (isin_valid _ (Rmax x y)), (isin_max OK); eauto.
Qed.
Lemma valid_min X Y : ivalid X -> ivalid Y -> ivalid (imin X Y).
Proof.
  intros VX VY. destruct (valid_isin X VX) as [x Hx], (valid_isin Y VY) as [y Hy].
  apply (isin_valid _ (Rmin x y)), (isin_min OK); eauto.
Qed.
Lemma valid_scalar X b y : ivalid X -> swf b -> sval b = XR y ->
  ivalid (iaddS X b) /\ ivalid (iSadd b X) /\ ivalid (isubS X b) /\ ivalid (iSsub b X) /\
  ivalid (imulS X b) /\ ivalid (iSmul b X) /\
  (forall Q, idivS X b = Ok Q -> ivalid Q) /\ (forall Q, iSdiv b X = Ok Q -> ivalid Q) /\
  ivalid (hullIS X b) /\ ivalid (hullSI b X).
Proof.
  intros VX W E. destruct (valid_isin X VX) as [x Hx].
  split; [eapply isin_valid, (isin_addS OK); eauto|].
  split; [eapply isin_valid, (isin_Sadd OK); eauto|].
  split; [eapply isin_valid, (isin_subS OK); eauto|].
  split; [eapply isin_valid, (isin_Ssub OK); eauto|].
  split; [eapply isin_valid, (isin_mulS OK); eauto|].
  split; [eapply isin_valid, (isin_Smul OK); eauto|].
  split; [intros Q D; destruct (isin_divS OK X b Q x y D) as [_ I]; auto; eapply isin_valid; eauto|].
  split; [intros Q D; destruct (isin_Sdiv OK b X Q y x D) as [_ I]; auto; eapply isin_valid; eauto|].
  rewrite hullIS_eq, hullSI_eq. split; apply valid_hull; auto; eapply valid_pt; eauto.
Qed.
Lemma valid_divpart X Y R1 p : ivalid X -> ivalid Y -> division_part1 X Y = Ok (R1, p) -> p = false -> ivalid R1.
Proof.
  intros VX VY D P. destruct (valid_isin X VX) as [x Hx].
  assert (exists y, isin Y y /\ y <> 0) as [y [Hy Ny]].
  { destruct (valid_isin Y VY) as [y Hy]. destruct (Req_dec y 0) as [->|]; [|eauto].
    apply Classical_Pred_Type.not_all_not_ex. intros A.
    assert (division_part1 X Y = Err EDomain) as F; [|congruence].
    apply division_part1_throws; auto. intros z Hz. apply Classical_Prop.NNPP. intros Nz.
    apply (A z); auto. }
  destruct (division_part_encl OK X Y R1 p x y D Hx Hy Ny) as [I|[I _]]; [|congruence].
  eapply isin_valid; eauto.
Qed.

(* integer powers *)
Lemma ipow_throws X n x : (-2147483648 < n < 0)%Z -> isin X 0 -> isin X x -> ipow X n = Err EDomain.
Proof.
  intros Hn H0 _. destruct (ipow X n) as [Q|e] eqn:E.
  - destruct (ipow_encl OK X n Q 0 E H0) as [A _]. exfalso; apply A; lia || auto.
  - unfold ipow in E. destruct (Z.eqb_spec n 0); [lia|]. destruct (Z.eqb_spec n (-2147483648)); [lia|].
    destruct (Z.ltb_spec n 0); [|lia]. unfold iSdiv in E.
    destruct (_ || _); [discriminate|auto].
Qed.
Lemma ipow_total_pos X n : (0 <= n)%Z -> exists Q, ipow X n = Ok Q.
Proof.
  intros. unfold ipow. destruct (Z.eqb_spec n 0); [eauto|]. destruct (Z.eqb_spec n (-2147483648)); [lia|].
  destruct (Z.ltb_spec n 0); [lia|]. eauto.
Qed.

(* intersect: lower > upper exactly when the operands are disjoint *)
Lemma intersect_empty X Y : ivalid X -> ivalid Y ->
  (slt (hi (intersect X Y)) (lo (intersect X Y)) = true <-> forall r, ~ (isin X r /\ isin Y r)).
Proof.
  intros VX VY. pose proof (overlap_spec OK X Y VX VY) as P.
  change (overlap X Y) with (sle (lo (intersect X Y)) (hi (intersect X Y))) in P.
  assert (swf (lo (intersect X Y)) /\ sval (lo (intersect X Y)) <> Xn /\
          swf (hi (intersect X Y)) /\ sval (hi (intersect X Y)) <> Xn) as (W1 & N1 & W2 & N2).
  { destruct (valid_parts X VX) as (? & ? & ? & ? & ? & ? & ?), (valid_parts Y VY) as (? & ? & ? & ? & ? & ? & ?).
    unfold intersect; simpl. destruct (slt (lo X) (lo Y)), (slt (hi Y) (hi X)); auto. }
  set (a := lo (intersect X Y)) in *. set (b := hi (intersect X Y)) in *.
  split.
  - intros T r Hr. apply (slt_true OK) in T; auto. assert (sle a b = true) as F by (apply P; eauto).
    apply (sle_true OK) in F; auto. revert F T. clear. destruct (sval a), (sval b); simpl; tauto || lra.
  - intros A. assert (sle a b = false) as F.
    { destruct (sle a b); auto. destruct (proj1 P eq_refl) as [r Hr]. exfalso; eapply A; eauto. }
    apply (sle_false OK) in F; auto. apply (ok_lt _ OK); auto.
Qed.
End More.
