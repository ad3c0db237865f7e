(* Comparisons, set predicates, hull/intersect, mag/mig/abs/max/min, extended division and
   integer powers, generic in the scalar type. *)
From Coq Require Import Reals Lra Lia Psatz ZArith Bool.
From Flocq Require Import Core.
From Verif Require Import Ext Scalar IntervalModel IntervalSpec IntervalProofs IntervalEncl.
Open Scope R_scope.

Section Sets.
Context {S : scal} (OK : scal_ok S).
Implicit Types X Y : iv S.
Implicit Types x y : R.
Implicit Types a b : S.
Let W0 := wf0 OK.
Let V0 := val0 OK.

(* lower/upper end as sets of reals, without the representation invariant *)
Lemma slt_iff a b : swf a -> swf b -> slt a b = true <-> xlt (sval a) (sval b).
Proof. apply (ok_lt _ OK). Qed.
Lemma sle_iff a b : swf a -> swf b -> sle a b = true <-> xle (sval a) (sval b).
Proof. apply (ok_le _ OK). Qed.

Ltac ds := match goal with |- context [if slt ?a ?b then _ else _] => destruct (slt a b) end.
Ltac ends X := destruct (sval (lo X)) eqn:?, (sval (hi X)) eqn:?.

(* every valid interval has points, arbitrarily close to / beyond any bound its ends allow *)
Lemma valid_lo_pt X r : ivalid X -> lb (sval (lo X)) r -> exists x, isin X x /\ x <= r.
Proof.
  intros (W1&W2&A&B&C) L. unfold isin.
  destruct (sval (lo X)) as [p| | |], (sval (hi X)) as [q| | |]; simpl in *; try tauto.
  - exists p. repeat split; auto; lra.
  - exists p. repeat split; auto; lra.
  - exists (Rmin q r). repeat split; auto. apply Rmin_l. apply Rmin_r.
  - exists r. repeat split; auto. lra.
Qed.
Lemma valid_hi_pt X r : ivalid X -> ub (sval (hi X)) r -> exists x, isin X x /\ r <= x.
Proof.
  intros (W1&W2&A&B&C) L. unfold isin.
  destruct (sval (lo X)) as [p| | |], (sval (hi X)) as [q| | |]; simpl in *; try tauto.
  - exists q. repeat split; auto; lra.
  - exists (Rmax p r). repeat split; auto. apply Rmax_l. apply Rmax_r.
  - exists q. repeat split; auto; lra.
  - exists r. repeat split; auto. lra.
Qed.
(* attained finite ends *)
Lemma valid_lo_att X p : ivalid X -> sval (lo X) = XR p -> isin X p.
Proof.
  intros (W1&W2&A&B&C) L. unfold isin. rewrite L in *.
  destruct (sval (hi X)); simpl in *; repeat split; auto; lra.
Qed.
Lemma valid_hi_att X p : ivalid X -> sval (hi X) = XR p -> isin X p.
Proof.
  intros (W1&W2&A&B&C) L. unfold isin. rewrite L in *.
  destruct (sval (lo X)); simpl in *; repeat split; auto; lra.
Qed.

Lemma ilt_spec X Y : ivalid X -> ivalid Y ->
  (ilt X Y = true <-> forall x y, isin X x -> isin Y y -> x < y).
Proof.
  intros VX VY. pose proof VX as (W1&W2&A&B&C). pose proof VY as (W1'&W2'&A'&B'&C').
  unfold ilt. rewrite slt_iff by auto. split.
  - intros L x y (_&_&_&H1) (_&_&H2&_).
    destruct (sval (hi X)), (sval (lo Y)); simpl in *; try tauto; lra.
  - intros H. destruct (valid_isin _ VX) as [x0 Hx0]. destruct (valid_isin _ VY) as [y0 Hy0].
    destruct (sval (hi X)) as [p| | |] eqn:EX; simpl in B; try tauto.
    + destruct (sval (lo Y)) as [q| | |] eqn:EY; simpl in *; try tauto.
      * apply H. apply valid_hi_att; auto. apply valid_lo_att; auto.
      * destruct (valid_lo_pt Y (p)) as (y & Hy & Le); auto. rewrite EY; simpl; auto.
        specialize (H p y (valid_hi_att _ _ VX EX) Hy). lra.
    + destruct (valid_hi_pt X y0) as (x & Hx & Le); auto. rewrite EX; simpl; auto.
      specialize (H _ _ Hx Hy0). lra.
Qed.
Lemma ile_spec X Y : ivalid X -> ivalid Y ->
  (ile X Y = true <-> forall x y, isin X x -> isin Y y -> x <= y).
Proof.
  intros VX VY. pose proof VX as (W1&W2&A&B&C). pose proof VY as (W1'&W2'&A'&B'&C').
  unfold ile. rewrite sle_iff by auto. split.
  - intros L x y (_&_&_&H1) (_&_&H2&_).
    destruct (sval (hi X)), (sval (lo Y)); simpl in *; try tauto; lra.
  - intros H. destruct (valid_isin _ VX) as [x0 Hx0]. destruct (valid_isin _ VY) as [y0 Hy0].
    destruct (sval (hi X)) as [p| | |] eqn:EX; simpl in B; try tauto.
    + destruct (sval (lo Y)) as [q| | |] eqn:EY; simpl in *; try tauto.
      * apply H. apply valid_hi_att; auto. apply valid_lo_att; auto.
      * destruct (valid_lo_pt Y (p - 1)) as (y & Hy & Le); auto. rewrite EY; simpl; auto.
        specialize (H p y (valid_hi_att _ _ VX EX) Hy). lra.
    + destruct (valid_hi_pt X (y0 + 1)) as (x & Hx & Le); auto. rewrite EX; simpl; auto.
      specialize (H _ _ Hx Hy0). lra.
Qed.
Lemma igt_spec X Y : ivalid X -> ivalid Y ->
  (igt X Y = true <-> forall x y, isin X x -> isin Y y -> x > y).
Proof. intros VX VY. change (igt X Y) with (ilt Y X). rewrite (ilt_spec Y X) by auto. firstorder. Qed.
Lemma ige_spec X Y : ivalid X -> ivalid Y ->
  (ige X Y = true <-> forall x y, isin X x -> isin Y y -> x >= y).
Proof.
  intros VX VY. change (ige X Y) with (ile Y X). rewrite (ile_spec Y X) by auto.
  split; intros H x y Hx Hy; [apply Rle_ge|apply Rge_le]; auto.
Qed.

Lemma valid_pt a r : swf a -> sval a = XR r -> ivalid (ipt a).
Proof. intros. eapply isin_valid, isin_pt; eauto. Qed.
Lemma isin_ipt_iff a r x : swf a -> sval a = XR r -> isin (ipt a) x <-> x = r.
Proof.
  intros W E. unfold isin, ipt; simpl. rewrite E. simpl. split; intros; [lra|subst].
  repeat split; auto; lra.
Qed.

(* interval against scalar *)
Lemma iltS_spec X b r : ivalid X -> swf b -> sval b = XR r ->
  (iltS X b = true <-> forall x, isin X x -> x < r).
Proof.
  intros VX W E. change (iltS X b) with (ilt X (ipt b)). rewrite ilt_spec; eauto using valid_pt.
  split; intros H; [intros x Hx; apply (H x r Hx); apply (isin_ipt_iff b r); auto|].
  intros x y Hx Hy. apply (isin_ipt_iff b r) in Hy; auto. subst; auto.
Qed.
Lemma ileS_spec X b r : ivalid X -> swf b -> sval b = XR r ->
  (ileS X b = true <-> forall x, isin X x -> x <= r).
Proof.
  intros VX W E. change (ileS X b) with (ile X (ipt b)). rewrite ile_spec; eauto using valid_pt.
  split; intros H; [intros x Hx; apply (H x r Hx); apply (isin_ipt_iff b r); auto|].
  intros x y Hx Hy. apply (isin_ipt_iff b r) in Hy; auto. subst; auto.
Qed.
Lemma igtS_spec X b r : ivalid X -> swf b -> sval b = XR r ->
  (igtS X b = true <-> forall x, isin X x -> x > r).
Proof.
  intros VX W E. change (igtS X b) with (ilt (ipt b) X). rewrite ilt_spec; eauto using valid_pt.
  split; intros H; [intros x Hx; apply (H r x); auto; apply (isin_ipt_iff b r); auto|].
  intros x y Hx Hy. apply (isin_ipt_iff b r) in Hx; auto. subst; apply H; auto.
Qed.
Lemma igeS_spec X b r : ivalid X -> swf b -> sval b = XR r ->
  (igeS X b = true <-> forall x, isin X x -> x >= r).
Proof.
  intros VX W E. change (igeS X b) with (ile (ipt b) X). rewrite ile_spec; eauto using valid_pt.
  split; intros H; [intros x Hx; apply Rle_ge; apply (H r x); auto; apply (isin_ipt_iff b r); auto|].
  intros x y Hx Hy. apply (isin_ipt_iff b r) in Hx; auto. subst; apply Rge_le; apply H; auto.
Qed.

Lemma ieq_spec X Y : ivalid X -> ivalid Y ->
  (ieq X Y = true <-> forall x y, isin X x -> isin Y y -> x = y).
Proof.
  intros VX VY. pose proof VX as (W1&W2&A&B&C). pose proof VY as (W1'&W2'&A'&B'&C').
  unfold ieq. rewrite !andb_true_iff, !(ok_eq _ OK) by auto. split.
  - intros [[H1 H2] H3] x y (_&_&L1&U1) (_&_&L2&U2).
    destruct (sval (lo X)), (sval (hi X)), (sval (lo Y)), (sval (hi Y)); simpl in *; try tauto; lra.
  - intros H.
    destruct (valid_isin _ VX) as [x0 Hx0]. destruct (valid_isin _ VY) as [y0 Hy0].
    assert (UX : forall x, isin X x -> x = y0) by auto.
    assert (UY : forall y, isin Y y -> y = x0) by (intros; symmetry; auto).
    destruct (sval (hi X)) as [p| | |] eqn:EX; simpl in B; try tauto.
    2:{ destruct (valid_hi_pt X (y0 + 1)) as (x & Hx & Le); auto. rewrite EX; simpl; auto.
        specialize (UX _ Hx). lra. }
    destruct (sval (lo X)) as [p'| | |] eqn:EX'; simpl in A; try tauto.
    2:{ destruct (valid_lo_pt X (y0 - 1)) as (x & Hx & Le); auto. rewrite EX'; simpl; auto.
        specialize (UX _ Hx). lra. }
    destruct (sval (hi Y)) as [q| | |] eqn:EY; simpl in B'; try tauto.
    2:{ destruct (valid_hi_pt Y (x0 + 1)) as (x & Hx & Le); auto. rewrite EY; simpl; auto.
        specialize (UY _ Hx). lra. }
    destruct (sval (lo Y)) as [q'| | |] eqn:EY'; simpl in A'; try tauto.
    2:{ destruct (valid_lo_pt Y (x0 - 1)) as (x & Hx & Le); auto. rewrite EY'; simpl; auto.
        specialize (UY _ Hx). lra. }
    pose proof (UX _ (valid_hi_att _ _ VX EX)). pose proof (UX _ (valid_lo_att _ _ VX EX')).
    pose proof (UY _ (valid_hi_att _ _ VY EY)). pose proof (UY _ (valid_lo_att _ _ VY EY')).
    pose proof (UX _ Hx0). simpl. lra.
Qed.

Lemma isin_intersect X Y r : ivalid X -> ivalid Y ->
  (isin (intersect X Y) r <-> isin X r /\ isin Y r).
Proof.
  intros (W1&W2&A&B&C) (W1'&W2'&A'&B'&C'). unfold isin, intersect; simpl.
  destruct (slt (lo X) (lo Y)) eqn:E1; [apply (slt_true OK) in E1|apply (slt_false OK) in E1];
    auto using is_lo_nn;
  (destruct (slt (hi Y) (hi X)) eqn:E2; [apply (slt_true OK) in E2|apply (slt_false OK) in E2]);
    auto using is_hi_nn;
  (split; [intros (_&_&L&U)|intros ((_&_&L1&U1)&(_&_&L2&U2))]; repeat split; auto);
  first [ eapply lb_xle; [|eassumption]; auto using xlt_xle
        | eapply ub_xle; [|eassumption]; auto using xlt_xle ].
Qed.

Lemma overlap_spec X Y : ivalid X -> ivalid Y ->
  (overlap X Y = true <-> exists r, isin X r /\ isin Y r).
Proof.
  intros VX VY. pose proof VX as (W1&W2&A&B&C). pose proof VY as (W1'&W2'&A'&B'&C').
  transitivity (ivalid (intersect X Y)).
  - unfold overlap, ivalid, intersect; simpl. rewrite sle_iff by (ds; auto).
    split; [|tauto]. intros H.
    split; [ds; auto|split; [ds; auto|split; [ds; auto|split; [ds; auto|auto]]]].
  - split.
    + intros V. destruct (valid_isin _ V) as [r H]. exists r. apply isin_intersect in H; auto.
    + intros [r H]. apply isin_valid with r. apply isin_intersect; auto.
Qed.

Lemma ineqb_spec X Y : ivalid X -> ivalid Y ->
  (ineqb X Y = true <-> forall x y, isin X x -> isin Y y -> x <> y).
Proof.
  intros VX VY. unfold ineqb. rewrite negb_true_iff. split.
  - intros H x y Hx Hy ->. assert (overlap X Y = true); [|congruence].
    apply overlap_spec; eauto.
  - intros H. destruct (overlap X Y) eqn:E; auto. apply overlap_spec in E; auto.
    destruct E as (r & H1 & H2). exfalso. apply (H r r); auto.
Qed.

Lemma iin_spec a r X : ivalid X -> swf a -> sval a = XR r -> (iin a X = true <-> isin X r).
Proof.
  intros (W1&W2&A&B&C) W E. unfold iin, isin. rewrite andb_true_iff, !sle_iff, E by auto.
  destruct (sval (lo X)), (sval (hi X)); simpl in *; tauto.
Qed.
Lemma zero_in_spec X : ivalid X -> (zero_in X = true <-> isin X 0).
Proof. intros V. apply (iin_spec s0); auto. Qed.

Lemma isubset_spec X Y : ivalid X -> ivalid Y ->
  (isubset X Y = true <-> forall r, isin X r -> isin Y r).
Proof.
  intros VX VY. pose proof VX as (W1&W2&A&B&C). pose proof VY as (W1'&W2'&A'&B'&C').
  unfold isubset. rewrite andb_true_iff, !sle_iff by auto. split.
  - intros [H1 H2] r (?&?&?&?). repeat split; auto; [eapply lb_xle|eapply ub_xle]; eauto.
  - intros H. split.
    + destruct (sval (lo Y)) as [q| | |] eqn:EY; simpl in A'; try tauto.
      * destruct (sval (lo X)) as [p| | |] eqn:EX; simpl in A; try tauto.
        -- destruct (H p (valid_lo_att _ _ VX EX)) as (_&_&L&_). rewrite EY in L. exact L.
        -- destruct (valid_lo_pt X (q - 1)) as (x & Hx & Le); auto. rewrite EX; simpl; auto.
           destruct (H _ Hx) as (_&_&L&_). rewrite EY in L. simpl in L; lra.
      * destruct (sval (lo X)); simpl in *; tauto.
    + destruct (sval (hi Y)) as [q| | |] eqn:EY; simpl in B'; try tauto.
      * destruct (sval (hi X)) as [p| | |] eqn:EX; simpl in B; try tauto.
        -- destruct (H p (valid_hi_att _ _ VX EX)) as (_&_&_&L). rewrite EY in L. exact L.
        -- destruct (valid_hi_pt X (q + 1)) as (x & Hx & Le); auto. rewrite EX; simpl; auto.
           destruct (H _ Hx) as (_&_&_&L). rewrite EY in L. simpl in L; lra.
      * destruct (sval (hi X)); simpl in *; tauto.
Qed.

Lemma iproper_spec X Y : ivalid X -> ivalid Y ->
  (iproper X Y = true <->
   (forall r, isin X r -> isin Y r) /\ (exists r, isin Y r /\ ~ isin X r)).
Proof.
  intros VX VY. pose proof VX as (W1&W2&A&B&C). pose proof VY as (W1'&W2'&A'&B'&C').
  unfold iproper. rewrite andb_true_iff, orb_true_iff, isubset_spec, !slt_iff by auto. split.
  - intros [H D]. split; auto. destruct D as [D|D].
    + destruct (sval (lo Y)) as [q| | |] eqn:EY; simpl in A'; try tauto.
      * exists q. split. { apply valid_lo_att; auto. }
        intros (_&_&L&_). destruct (sval (lo X)); simpl in *; try tauto; lra.
      * destruct (sval (lo X)) as [p| | |] eqn:EX; simpl in D; try tauto.
        destruct (valid_lo_pt Y (p - 1)) as (x & Hx & Le); auto. rewrite EY; simpl; auto.
        exists x. split; auto. intros (_&_&L&_). rewrite EX in L. simpl in L; lra.
    + destruct (sval (hi Y)) as [q| | |] eqn:EY; simpl in B'; try tauto.
      * exists q. split. { apply valid_hi_att; auto. }
        intros (_&_&_&L). destruct (sval (hi X)); simpl in *; try tauto; lra.
      * destruct (sval (hi X)) as [p| | |] eqn:EX; simpl in D; try tauto.
        destruct (valid_hi_pt Y (p + 1)) as (x & Hx & Le); auto. rewrite EY; simpl; auto.
        exists x. split; auto. intros (_&_&_&L). rewrite EX in L. simpl in L; lra.
  - intros [H (r & Hy & Hx)]. split; auto.
    destruct Hy as (_&_&L&U). unfold isin in Hx.
    destruct (sval (lo X)), (sval (hi X)), (sval (lo Y)), (sval (hi Y)); simpl in *; try tauto;
    try (destruct (Rlt_le_dec r r0); destruct (Rlt_le_dec r1 r)); try lra; try tauto;
    try (destruct (Rlt_le_dec r r0)); try lra; try tauto;
    try (destruct (Rlt_le_dec r0 r)); try lra; try tauto.
Qed.

Lemma isin_hull X Y r : ivalid X -> ivalid Y ->
  (isin (hull X Y) r <->
   exists p q, (isin X p \/ isin Y p) /\ (isin X q \/ isin Y q) /\ p <= r <= q).
Proof.
  intros VX VY. pose proof VX as (W1&W2&A&B&C). pose proof VY as (W1'&W2'&A'&B'&C').
  unfold hull. split.
  - intros (_&_&L&U); simpl in L, U.
    assert (exists p, (isin X p \/ isin Y p) /\ p <= r) as (p & Hp & Lp).
    { destruct (slt (lo Y) (lo X)); [destruct (valid_lo_pt Y r) as (p&?&?)|destruct (valid_lo_pt X r) as (p&?&?)]; eauto. }
    assert (exists q, (isin X q \/ isin Y q) /\ r <= q) as (q & Hq & Uq).
    { destruct (slt (hi X) (hi Y)); [destruct (valid_hi_pt Y r) as (q&?&?)|destruct (valid_hi_pt X r) as (q&?&?)]; eauto. }
    exists p, q. auto.
  - intros (p & q & Hp & Hq & Le1 & Le2). unfold isin; simpl. repeat split.
    + ds; auto.
    + ds; auto.
    + apply lb_le with p; auto. apply (pick_min OK); auto using is_lo_nn.
      destruct Hp as [(_&_&?&_)|(_&_&?&_)]; auto.
    + apply ub_le with q; auto. apply (pick_max OK); auto using is_hi_nn.
      destruct Hq as [(_&_&_&?)|(_&_&_&?)]; auto.
Qed.
Lemma isin_hull_l X Y r : isin X r -> ivalid Y -> isin (hull X Y) r.
Proof. intros. apply isin_hull; eauto using isin_valid. exists r, r. repeat split; auto; lra. Qed.
Lemma isin_hull_r X Y r : ivalid X -> isin Y r -> isin (hull X Y) r.
Proof. intros. apply isin_hull; eauto using isin_valid. exists r, r. repeat split; auto; lra. Qed.
Lemma isin_hull_mid X Y p q r : isin X p -> isin Y q -> p <= r <= q \/ q <= r <= p -> isin (hull X Y) r.
Proof.
  intros HX HY H. apply isin_hull; eauto using isin_valid.
  destruct H; [exists p, q|exists q, p]; repeat split; auto; lra.
Qed.
Lemma hullIS_eq X b : hullIS X b = hull X (ipt b). Proof. reflexivity. Qed.
Lemma hullSI_eq b X : hullSI b X = hull (ipt b) X. Proof. reflexivity. Qed.
Lemma isin_hullSS a b p q r : swf a -> swf b -> sval a = XR p -> sval b = XR q ->
  (isin (hullSS a b) r <-> Rmin p q <= r <= Rmax p q).
Proof.
  intros Wa Wb Ea Eb. unfold hullSS, isin.
  destruct (slt a b) eqn:E; [apply (slt_true OK) in E|apply (slt_false OK) in E]; auto; try congruence;
  rewrite Ea, Eb in E; simpl in *; rewrite Ea, Eb; simpl.
  - rewrite Rmin_left, Rmax_right by lra. tauto.
  - rewrite Rmin_right, Rmax_left by lra. tauto.
Qed.

(* abs, max, min: the exact ranges *)
Ltac pickc := match goal with |- context [if slt ?a ?b then _ else _] =>
  let E := fresh "E" in destruct (slt a b) eqn:E;
  [apply (slt_true OK) in E|apply (slt_false OK) in E] end.

Lemma isin_max X Y r : ivalid X -> ivalid Y ->
  (isin (imax X Y) r <-> exists x y, isin X x /\ isin Y y /\ r = Rmax x y).
Proof.
  intros VX VY. pose proof VX as (W1&W2&A&B&C). pose proof VY as (W1'&W2'&A'&B'&C').
  assert (NL : lb (sval (lo (imax X Y))) r <-> lb (sval (lo X)) r /\ lb (sval (lo Y)) r).
  { unfold imax; simpl. pickc; auto using is_lo_nn;
    destruct (sval (lo X)), (sval (lo Y)); simpl in *; try tauto; lra. }
  assert (NU : ub (sval (hi (imax X Y))) r <-> ub (sval (hi X)) r \/ ub (sval (hi Y)) r).
  { unfold imax; simpl. pickc; auto using is_hi_nn;
    destruct (sval (hi X)), (sval (hi Y)); simpl in *; try tauto; lra. }
  unfold isin at 1. rewrite NL, NU. split.
  - intros (_&_&[L1 L2]&[U|U]).
    + destruct (valid_lo_pt Y r) as (y & Hy & Le); auto.
      exists r, y. repeat split; auto; try apply Hy. rewrite Rmax_left; auto.
    + destruct (valid_lo_pt X r) as (x & Hx & Le); auto.
      exists x, r. repeat split; auto; try apply Hx. rewrite Rmax_right; auto.
  - intros (x & y & (_&_&L1&U1) & (_&_&L2&U2) & ->). repeat split.
    + simpl; ds; auto.
    + simpl; ds; auto.
    + eapply lb_le; eauto. apply Rmax_l.
    + eapply lb_le; eauto. apply Rmax_r.
    + unfold Rmax. destruct Rle_dec; auto.
Qed.
Lemma isin_min X Y r : ivalid X -> ivalid Y ->
  (isin (imin X Y) r <-> exists x y, isin X x /\ isin Y y /\ r = Rmin x y).
Proof.
  intros VX VY. pose proof VX as (W1&W2&A&B&C). pose proof VY as (W1'&W2'&A'&B'&C').
  assert (NL : lb (sval (lo (imin X Y))) r <-> lb (sval (lo X)) r \/ lb (sval (lo Y)) r).
  { unfold imin; simpl. pickc; auto using is_lo_nn;
    destruct (sval (lo X)), (sval (lo Y)); simpl in *; try tauto; lra. }
  assert (NU : ub (sval (hi (imin X Y))) r <-> ub (sval (hi X)) r /\ ub (sval (hi Y)) r).
  { unfold imin; simpl. pickc; auto using is_hi_nn;
    destruct (sval (hi X)), (sval (hi Y)); simpl in *; try tauto; lra. }
  unfold isin at 1. rewrite NL, NU. split.
  - intros (_&_&[L|L]&[U1 U2]).
    + destruct (valid_hi_pt Y r) as (y & Hy & Le); auto.
      exists r, y. repeat split; auto; try apply Hy. rewrite Rmin_left; auto.
    + destruct (valid_hi_pt X r) as (x & Hx & Le); auto.
      exists x, r. repeat split; auto; try apply Hx. rewrite Rmin_right; auto.
  - intros (x & y & (_&_&L1&U1) & (_&_&L2&U2) & ->). repeat split.
    + simpl; ds; auto.
    + simpl; ds; auto.
    + unfold Rmin. destruct Rle_dec; auto.
    + eapply ub_le; eauto. apply Rmin_l.
    + eapply ub_le; eauto. apply Rmin_r.
Qed.

Lemma isin_neg_iff X r : ivalid X -> (isin (ineg X) r <-> isin X (- r)).
Proof.
  intros (W1&W2&A&B&C). unfold isin, ineg; simpl.
  destruct (ok_neg _ OK (lo X)) as [W ->]; auto. destruct (ok_neg _ OK (hi X)) as [W' ->]; auto.
  rewrite lb_opp, ub_opp. tauto.
Qed.

Lemma isin_abs X r : ivalid X -> (isin (iabs X) r <-> exists x, isin X x /\ r = Rabs x).
Proof.
  intros VX. pose proof VX as (W1&W2&A&B&C).
  destruct (ok_neg _ OK (lo X)) as [Wn En]; auto.
  unfold iabs. destruct (sle s0 (lo X)) eqn:E.
  { apply (le0_true OK) in E; auto. split.
    - intros H. exists r. split; auto. destruct H as (_&_&L&_). symmetry; apply Rabs_pos_eq.
      destruct (sval (lo X)); simpl in *; try tauto; lra.
    - intros (x & H & ->). rewrite Rabs_pos_eq; auto. destruct H as (_&_&L&_).
      destruct (sval (lo X)); simpl in *; try tauto; lra. }
  apply (le0_false OK) in E; auto using is_lo_nn. destruct (sle (hi X) s0) eqn:F.
  { apply (ge0_true OK) in F; auto. rewrite isin_neg_iff by auto. split.
    - intros H. exists (- r). split; auto. destruct H as (_&_&_&U).
      rewrite Rabs_left1; [ring|]. destruct (sval (hi X)); simpl in *; try tauto; lra.
    - intros (x & H & ->). rewrite Rabs_left1; [rewrite Ropp_involutive; auto|].
      destruct H as (_&_&_&U). destruct (sval (hi X)); simpl in *; try tauto; lra. }
  apply (ge0_false OK) in F; auto using is_hi_nn.
  assert (NU : ub (sval (if slt (sneg (lo X)) (hi X) then hi X else sneg (lo X))) r <->
               ub (sval (hi X)) r \/ lb (sval (lo X)) (- r)).
  { pickc; auto using is_hi_nn. 1,2: rewrite En in E0. 1,2: rewrite ?En.
    1,2: destruct (sval (lo X)), (sval (hi X)); simpl in *; try tauto; lra.
    rewrite En. intros K. destruct (sval (lo X)); simpl in *; tauto || discriminate. }
  unfold isin at 1. cbn [lo hi]. rewrite NU, V0. simpl lb. split.
  - intros (_&_&L&[U|U]).
    + exists r. rewrite Rabs_pos_eq by auto. repeat split; auto.
      destruct (sval (lo X)); simpl in *; try tauto; lra.
    + exists (- r). rewrite Rabs_left1 by lra. repeat split; auto; try ring.
      destruct (sval (hi X)); simpl in *; try tauto; lra.
  - intros (x & (_&_&L&U) & ->). repeat split; auto using Rabs_pos.
    + ds; auto.
    + unfold Rabs. destruct Rcase_abs; auto. rewrite Ropp_involutive; auto.
Qed.

(* mag is the supremum of |x| over X, mig the infimum *)
Lemma mag_ub X x : isin X x -> swf (mag X) /\ ub (sval (mag X)) (Rabs x).
Proof.
  intros H. pose proof (isin_valid _ _ H) as (W1&W2&A&B&C). destruct H as (_&_&L&U).
  destruct (ok_neg _ OK (lo X)) as [Wn En]; auto.
  unfold mag. destruct (sle s0 (lo X)) eqn:E.
  { apply (le0_true OK) in E; auto. split; auto. rewrite Rabs_pos_eq; auto.
    destruct (sval (lo X)); simpl in *; try tauto; lra. }
  apply (le0_false OK) in E; auto using is_lo_nn. destruct (sle (hi X) s0) eqn:F.
  { apply (ge0_true OK) in F; auto. split; auto. rewrite En.
    rewrite Rabs_left1. apply lb_neg; auto.
    destruct (sval (hi X)); simpl in *; try tauto; lra. }
  apply (ge0_false OK) in F; auto using is_hi_nn. split. { ds; auto. }
  apply (pick_max OK); auto using is_hi_nn.
  - rewrite En. intros K. destruct (sval (lo X)); simpl in *; tauto || discriminate.
  - rewrite En. unfold Rabs. destruct Rcase_abs; auto. left. apply lb_neg; auto.
Qed.
Lemma mag_lub X r : ivalid X -> (forall x, isin X x -> Rabs x <= r) -> xle (sval (mag X)) (XR r).
Proof.
  intros VX H. pose proof VX as (W1&W2&A&B&C).
  destruct (ok_neg _ OK (lo X)) as [Wn En]; auto.
  assert (HH : xle (sval (hi X)) (XR r)).
  { destruct (sval (hi X)) as [p| | |] eqn:E; simpl in *; try tauto.
    - pose proof (H _ (valid_hi_att _ _ VX E)). pose proof (Rle_abs p). lra.
    - destruct (valid_hi_pt X (r + 1)) as (x & Hx & Le); auto. rewrite E; simpl; auto.
      pose proof (H _ Hx). pose proof (Rle_abs x). lra. }
  assert (HL : xle (xneg (sval (lo X))) (XR r)).
  { destruct (sval (lo X)) as [p| | |] eqn:E; simpl in *; try tauto.
    - pose proof (H _ (valid_lo_att _ _ VX E)). pose proof (Rle_abs (- p)). rewrite Rabs_Ropp in *. lra.
    - destruct (valid_lo_pt X (- r - 1)) as (x & Hx & Le); auto. rewrite E; simpl; auto.
      pose proof (H _ Hx). pose proof (Rle_abs (-x)). rewrite Rabs_Ropp in *. lra. }
  unfold mag. repeat (match goal with |- context [if ?c then _ else _] => destruct c end; auto);
  rewrite En; auto.
Qed.
Lemma mig_lb X x : isin X x -> swf (mig X) /\ lb (sval (mig X)) (Rabs x).
Proof.
  intros H. pose proof (isin_valid _ _ H) as V. pose proof V as (W1&W2&A&B&C).
  destruct H as (_&_&L&U).
  destruct (ok_neg _ OK (hi X)) as [Wn En]; auto.
  unfold mig. destruct (zero_in X) eqn:Z.
  { split; auto. rewrite V0. simpl. apply Rabs_pos. }
  destruct (slt s0 (lo X)) eqn:E.
  { apply (lt0_true OK) in E; auto. split; auto. rewrite Rabs_pos_eq; auto.
    destruct (sval (lo X)); simpl in *; try tauto; lra. }
  apply (lt0_false OK) in E; auto using is_lo_nn.
  unfold zero_in in Z. apply andb_false_iff in Z.
  assert (xlt (sval (hi X)) (XR 0)).
  { destruct Z as [Z|Z].
    - apply (sle_false OK) in Z; auto using is_lo_nn. rewrite V0 in Z. destruct (sval (lo X)); simpl in *; tauto || lra.
      rewrite V0; discriminate.
    - apply (sle_false OK) in Z; auto using is_hi_nn. rewrite V0 in Z; auto. rewrite V0; discriminate. }
  split; auto. rewrite En, Rabs_left1. apply ub_neg; auto.
  destruct (sval (hi X)); simpl in *; try tauto; lra.
Qed.
Lemma mig_glb X r : ivalid X -> (forall x, isin X x -> r <= Rabs x) -> xle (XR r) (sval (mig X)).
Proof.
  intros VX H. pose proof VX as (W1&W2&A&B&C).
  destruct (ok_neg _ OK (hi X)) as [Wn En]; auto.
  unfold mig. destruct (zero_in X) eqn:Z.
  { apply zero_in_spec in Z; auto. apply H in Z. rewrite Rabs_R0 in Z. rewrite V0; auto. }
  destruct (slt s0 (lo X)) eqn:E.
  { apply (lt0_true OK) in E; auto. destruct (sval (lo X)) as [p| | |] eqn:EX; simpl in *; try tauto.
    pose proof (H _ (valid_lo_att _ _ VX EX)) as K. rewrite Rabs_pos_eq in K; lra. }
  apply (lt0_false OK) in E; auto using is_lo_nn.
  unfold zero_in in Z. apply andb_false_iff in Z.
  assert (xlt (sval (hi X)) (XR 0)).
  { destruct Z as [Z|Z].
    - apply (sle_false OK) in Z; auto using is_lo_nn. rewrite V0 in Z. destruct (sval (lo X)); simpl in *; tauto || lra.
      rewrite V0; discriminate.
    - apply (sle_false OK) in Z; auto using is_hi_nn. rewrite V0 in Z; auto. rewrite V0; discriminate. }
  rewrite En. destruct (sval (hi X)) as [p| | |] eqn:EX; simpl in *; try tauto.
  pose proof (H _ (valid_hi_att _ _ VX EX)) as K. rewrite Rabs_left1 in K; lra.
Qed.

(* width, rad and midrad bound the true quantities from above *)
Lemma width_ub X p q : isin X p -> isin X q -> swf (width X) /\ ub (sval (width X)) (q - p).
Proof.
  intros (A1&A2&A3&A4) (B1&B2&B3&B4). unfold width.
  destruct (ok_subu _ OK (hi X) (lo X)) as [W U]; auto. split; auto.
  eapply xup_ub'; eauto. unfold xsub. destruct (sval (lo X)), (sval (hi X)); xcase.
Qed.
Lemma shalf_ok : swf (@shalf S) /\ sval (@shalf S) = XR (/ 2).
Proof.
  destruct (ok_dy _ OK 1 (-1)) as [W E]; try lia. split; auto. unfold shalf. rewrite E.
  f_equal. simpl. unfold Z.pow_pos; simpl. lra.
Qed.
Lemma rad_ub X p q : isin X p -> isin X q -> ub (sval (rad X)) ((q - p) / 2).
Proof.
  intros A B. destruct (width_ub _ _ _ A B) as [W U]. unfold rad.
  destruct shalf_ok as [Wh Eh]. apply (mulu_ub OK); auto. rewrite Eh.
  unfold width in U. destruct (sval (subu (hi X) (lo X))); simpl in *; try tauto.
  - lra.
  - rewrite xsgn_inf_pos by lra. simpl; auto.
Qed.
Lemma midrad_ok X m : ivalid X -> sval (fst (midrad X)) = XR m -> swf (fst (midrad X)) ->
  swf (snd (midrad X)) /\
  forall x, isin X x -> ub (sval (snd (midrad X))) (Rabs (x - m)).
Proof.
  intros VX E W. pose proof VX as (W1&W2&A&B&C). unfold midrad in *. cbn [fst snd] in *.
  destruct (ok_subu _ OK (hi X) (mid X)) as [Wu U]; auto.
  destruct (ok_subu _ OK (mid X) (lo X)) as [Wd D]; auto.
  split. { ds; auto. }
  intros x (_&_&Lx&Ux).
  assert (U' : ub (sval (subu (hi X) (mid X))) (x - m)).
  { eapply xup_ub'; eauto. rewrite E. unfold xsub. destruct (sval (hi X)); xcase. }
  assert (D' : ub (sval (subu (mid X) (lo X))) (m - x)).
  { eapply xup_ub'; eauto. rewrite E. unfold xsub. destruct (sval (lo X)); xcase. }
  apply (pick_max OK); auto.
  - eapply is_hi_nn, ub_is_hi; eauto.
  - eapply is_hi_nn, ub_is_hi; eauto.
  - unfold Rabs. destruct Rcase_abs; auto. right. replace (- (x - m)) with (m - x) by ring. auto.
Qed.
End Sets.
