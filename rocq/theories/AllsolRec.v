(* kv/allsol.hpp: recovery_inflation and mid_infinity for interval<double> (any back end). *)
From Coq Require Import Reals Lra Lia Psatz ZArith Bool.
From Flocq Require Import Core BinarySingleNaN.
From Verif Require Import Fp64 RDoubleHw.
From Verif Require Import Ext Scalar IntervalModel IntervalSpec IntervalProofs IntervalEncl IntervalSets IntervalMore IntervalMid Backends VecModel VecProofs AllsolModel.
Open Scope R_scope.

Notation N := (rnd mode_NE).
Notation F := (generic_format radix2 FX).
Lemma N_near y z : F z -> Rabs (N y - y) <= Rabs (z - y).
Proof. intros H. pose proof (round_N_pt radix2 FX (fun x => negb (Z.even x)) y) as [_ NP]. exact (NP z H). Qed.
Lemma N_opp y : N (- y) = - N y.
Proof. unfold rnd. simpl round_mode. apply round_NE_opp. Qed.
Lemma N_le y z : F z -> y <= z -> N y <= z.
Proof. intros H L. unfold rnd. apply round_le_generic; auto with typeclass_instances. Qed.
Lemma N_ge y z : F z -> z <= y -> z <= N y.
Proof. intros H L. unfold rnd. apply round_ge_generic; auto with typeclass_instances. Qed.
Lemma N_fmt y : F (N y).
Proof. unfold rnd. apply generic_format_round; auto with typeclass_instances. Qed.

(* the upper end computed at 171-172 stays inside *)
Lemma rec_lo a b m t : F a -> F b -> F m -> F t -> a <= m -> 0 <= t -> 5 * t <= b - a -> N (m - t) < a ->
  N (N (m + t) + N (a - N (m - t))) <= b.
Proof.
  intros Fa Fb Fm Ft Am T0 T5 L.
  assert (M1 : m - t < a). { apply Rnot_le_lt. intros H. apply (N_ge _ a Fa) in H. lra. }
  pose proof (N_near (m + t) m Fm) as H1. pose proof (N_near (m - t) a Fa) as H2.
  rewrite (Rabs_left1 (m - (m + t))) in H1 by lra. rewrite (Rabs_pos_eq (a - (m - t))) in H2 by lra.
  apply Rabs_le_inv in H1. apply Rabs_le_inv in H2.
  assert (H3 : N (a - N (m - t)) <= 2 * t). { apply N_le; [apply F_twice; auto|lra]. }
  apply N_le; auto. lra.
Qed.
Lemma rec_hi a b m t : F a -> F b -> F m -> F t -> m <= b -> 0 <= t -> 5 * t <= b - a -> b < N (m + t) ->
  a <= N (N (m - t) - N (N (m + t) - b)).
Proof.
  intros Fa Fb Fm Ft Bm T0 T5 L.
  assert (K : N (N (- m + t) + N (- b - N (- m - t))) <= - a).
  { apply rec_lo; auto using generic_format_opp; try lra. replace (- m - t) with (- (m + t)) by ring. rewrite N_opp. lra. }
  replace (- m + t) with (- (m - t)) in K by ring. replace (- m - t) with (- (m + t)) in K by ring. rewrite !N_opp in K.
  replace (- b - - N (m + t)) with (N (m + t) - b) in K by ring.
  replace (- N (m - t) + N (N (m + t) - b)) with (- (N (m - t) - N (N (m + t) - b))) in K by ring. rewrite N_opp in K. lra.
Qed.

Definition eta : R := bpow radix2 (-1074).
Lemma eta_pos : 0 < eta. Proof. apply bpow_gt_0. Qed.
Lemma UP_bound x : 0 <= x -> rnd mode_UP x <= x + eta + x * / 1024.
Proof.
  intros H. pose proof eta_pos as E0. destruct (Req_dec x 0) as [-> |NZ]; [rewrite rnd_0; lra|].
  pose proof (error_lt_ulp radix2 FX (round_mode mode_UP) x NZ) as EL. fold (rnd mode_UP x) in EL. apply Rabs_lt_inv in EL.
  destruct (Rlt_or_le (Rabs x) (bpow radix2 (-1074 + 53))) as [L|L].
  - unfold FX in EL. rewrite (ulp_FLT_small radix2 (-1074) 53 x L) in EL. fold eta in EL. lra.
  - assert (U : ulp radix2 FX x <= Rabs x * bpow radix2 (1 - 53)).
    { unfold FX. apply ulp_FLT_le. eapply Rle_trans; [|exact L]. apply bpow_le. lia. }
    rewrite Rabs_pos_eq in U by auto.
    assert (B : bpow radix2 (1 - 53) <= / 1024). { change (/ 1024) with (bpow radix2 (-10)). apply bpow_le. lia. }
    assert (x * bpow radix2 (1 - 53) <= x * / 1024) by (apply Rmult_le_compat_l; auto). lra.
Qed.
Definition c01 : R := IZR 7205759403792794 * bpow radix2 (-56).
Lemma c01_b : 0.0999 <= c01 <= 0.1001.
Proof. unfold c01. simpl. lra. Qed.
Lemma rec_t a b : F a -> F b -> a <= b -> forall w r, w = rnd mode_UP (b - a) -> r = rnd mode_UP (w * / 2) ->
  0 <= N (r * c01) /\ 5 * N (r * c01) <= b - a.
Proof.
  intros Fa Fb AB w r Ew Er. pose proof c01_b as [C1 C2]. pose proof eta_pos as E0.
  assert (W0 : 0 <= w). { rewrite Ew, <- (rnd_0 mode_UP). unfold rnd. apply round_le; auto with typeclass_instances. lra. }
  assert (R0 : 0 <= r). { rewrite Er, <- (rnd_0 mode_UP). unfold rnd. apply round_le; auto with typeclass_instances. lra. }
  assert (P : 0 <= r * c01) by (apply Rmult_le_pos; lra).
  assert (T0 : 0 <= N (r * c01)) by (apply N_ge; [apply generic_format_0|auto]).
  split; auto. destruct (Req_dec (N (r * c01)) 0) as [-> |NZ]; [lra|].
  assert (T1 : eta <= N (r * c01)).
  { pose proof (N_fmt (r * c01)) as FT. set (t := N (r * c01)) in *. assert (0 < t) by lra.
    destruct (Rle_lt_dec eta t) as [|L]; auto. exfalso.
    assert (Q : ulp radix2 FX 0 <= t).
    { rewrite <- (succ_0 radix2 FX). apply succ_le_lt; auto with typeclass_instances. apply generic_format_0. }
    unfold FX in Q. rewrite (ulp_FLT_small radix2 (-1074) 53 0) in Q; [fold eta in Q; lra|]. rewrite Rabs_R0. apply bpow_gt_0. }
  pose proof (N_near (r * c01) 0 (generic_format_0 _ _)) as T2. rewrite (Rabs_left1 (0 - _)) in T2 by lra. apply Rabs_le_inv in T2.
  pose proof (UP_bound (b - a) ltac:(lra)) as B1. rewrite <- Ew in B1. pose proof (UP_bound (w * / 2) ltac:(lra)) as B2. rewrite <- Er in B2.
  assert (T3 : N (r * c01) <= 0.2002 * r) by nra.
  set (t := N (r * c01)) in *. set (g := b - a) in *. lra.
Qed.

Lemma rxN e : rx mode_NE e = XR (N e) \/ rx mode_NE e = Xp /\ 0 < e \/ rx mode_NE e = Xm /\ e < 0.
Proof.
  unfold rx. destruct (Rlt_bool _ _) eqn:E; auto. right.
  assert (NZ : e <> 0). { intros ->. rewrite rnd_0, Rabs_R0, Rlt_bool_true in E; [discriminate|apply bpow_gt_0]. }
  simpl. destruct (Rlt_bool_spec e 0); simpl; [right|left]; split; auto; lra.
Qed.
Section Rec.
Variables au ad su sd mu md du dd : b64 -> b64 -> b64. Variables qu qd : b64 -> b64.
Hypothesis ID : ideal64 au ad su sd mu md du dd qu qd.
Notation S := (mk64 au ad su sd mu md du dd qu qd).
Notation OK := (mk64_ok _ _ _ _ _ _ _ _ _ _ ID).
Lemma na_v (x y : S) : sval (nadd x y) = xr mode_NE (xadd (sval x) (sval y)). Proof. apply Bplus_v. Qed.
Lemma ns_v (x y : S) : sval (nsub x y) = xr mode_NE (xsub (sval x) (sval y)). Proof. apply Bminus_v. Qed.
Lemma nm_v (x y : S) : sval (nmul x y) = xr mode_NE (xmul (sval x) (sval y)). Proof. apply Bmult_v. Qed.
Lemma slt_v (x y : S) : slt x y = true <-> xlt (sval x) (sval y). Proof. apply Bltb_v. Qed.
Lemma p1_v : sval (@p1 S) = XR c01.
Proof. change (v64 (bdy 7205759403792794 (-56)) = XR c01). rewrite bdy_v by lia. reflexivity. Qed.
Lemma sv_fmt (x : S) r : sval x = XR r -> F r /\ Rabs r <= maxR.
Proof. intros E. destruct (v64_XR _ _ E) as [_ H]. rewrite <- H. split; [apply fmt_B2R|apply B2R_le_max]. Qed.
Lemma rad_v (X : iv S) : sval (rad X) = xr mode_UP (xmul (xr mode_UP (xsub (sval (hi X)) (sval (lo X)))) (XR (/ 2))).
Proof.
  unfold rad. cbv [mk64 subu mulu shalf sdy sval].
  rewrite (id_mu _ _ _ _ _ _ _ _ _ _ ID), (id_su _ _ _ _ _ _ _ _ _ _ ID), half_v. reflexivity.
Qed.
Lemma rx_UP_pos e : 0 <= e -> (rx mode_UP e = XR (rnd mode_UP e) /\ 0 <= rnd mode_UP e) \/ rx mode_UP e = Xp.
Proof.
  intros H. assert (P : 0 <= rnd mode_UP e). { rewrite <- (rnd_0 mode_UP). unfold rnd. apply round_le; auto with typeclass_instances. }
  unfold rx. destruct (Rlt_bool _ _) eqn:E; auto. right. simpl. rewrite Rlt_bool_false by auto. reflexivity.
Qed.
(* the half-width used for inflation *)
Lemma tmp2_v (j : iv S) a b : sval (lo j) = XR a -> sval (hi j) = XR b -> a <= b ->
  sval (nmul (rad j) p1) = Xp \/ exists t, sval (nmul (rad j) p1) = XR t /\ F t /\ 0 <= t /\ 5 * t <= b - a.
Proof.
  intros Ea Eb AB. destruct (sv_fmt _ _ Ea) as [Fa _]. destruct (sv_fmt _ _ Eb) as [Fb _]. rewrite nm_v, rad_v, p1_v, Ea, Eb. simpl xsub. simpl xadd. cbn [xr].
  pose proof c01_b as CB.
  destruct (rx_UP_pos (b + - a)) as [[E1 W0]|E1]; [lra| |]; rewrite E1; cbn [xmul].
  2:{ left. rewrite xsgn_inf_pos by lra. cbn [xr xmul]. rewrite xsgn_inf_pos by lra. reflexivity. }
  cbn [xr]. destruct (rx_UP_pos (rnd mode_UP (b + - a) * / 2)) as [[E2 R0]|E2]; [lra| |]; rewrite E2; cbn [xmul xr].
  2:{ left. rewrite xsgn_inf_pos by lra. reflexivity. }
  destruct (rec_t a b Fa Fb AB _ _ eq_refl eq_refl) as [T0 T5].
  replace (b + - a) with (b - a) in * by ring.
  destruct (rxN (rnd mode_UP (rnd mode_UP (b - a) * / 2) * c01)) as [E|[[E _]|[_ L]]]; rewrite E || idtac; auto.
  - right. eexists. split; [reflexivity|]. split; [apply N_fmt|auto].
  - exfalso. assert (0 <= rnd mode_UP (rnd mode_UP (b - a) * / 2) * c01) by (apply Rmult_le_pos; lra). lra.
Qed.
Lemma hull_fin (X Y : iv S) : ivalid X -> ivalid Y -> ifinite (hull X Y) -> ifinite Y /\ ifinite X.
Proof.
  intros VX VY [L H]. pose proof VX as (_&_&A&B&C). pose proof VY as (_&_&A'&B'&C'). unfold hull in *. simpl lo in L. simpl hi in H.
  assert (G : forall x y : S, is_fin (sval (if slt y x then y else x)) -> sval x <> Xn -> sval y <> Xn -> sval x <> Xp -> sval y <> Xp -> is_fin (sval x) /\ is_fin (sval y)).
  { intros x y Q N1 N2 N3 N4. destruct (slt y x) eqn:E.
    - apply (slt_true OK) in E; auto; try exact Logic.I. destruct (sval x), (sval y); simpl in *; try contradiction; try congruence; auto.
    - apply (slt_false OK) in E; auto; try exact Logic.I. destruct (sval x), (sval y); simpl in *; try contradiction; try congruence; auto. }
  assert (G' : forall x y : S, is_fin (sval (if slt x y then y else x)) -> sval x <> Xn -> sval y <> Xn -> sval x <> Xm -> sval y <> Xm -> is_fin (sval x) /\ is_fin (sval y)).
  { intros x y Q N1 N2 N3 N4. destruct (slt x y) eqn:E.
    - apply (slt_true OK) in E; auto; try exact Logic.I. destruct (sval x), (sval y); simpl in *; try contradiction; try congruence; auto.
    - apply (slt_false OK) in E; auto; try exact Logic.I. destruct (sval x), (sval y); simpl in *; try contradiction; try congruence; auto. }
  destruct (G (lo X) (lo Y)) as [G1 G2]; auto; try (intros K; rewrite K in *; contradiction).
  destruct (G' (hi X) (hi Y)) as [G3 G4]; auto; try (intros K; rewrite K in *; contradiction).
  split; split; auto.
Qed.
Lemma val_mk (l h : S) : is_lo (sval l) -> is_hi (sval h) -> xle (sval l) (sval h) -> ivalid (mkiv l h).
Proof. intros. repeat split; auto. Qed.
Definition isub_ (X Y : iv S) := forall r, isin X r -> isin Y r.
Lemma fin_sub (X Y : iv S) a b l h : sval (lo Y) = XR a -> sval (hi Y) = XR b -> sval (lo X) = XR l -> sval (hi X) = XR h -> a <= l -> h <= b -> isub_ X Y.
Proof.
  intros A B C D H1 H2 r (_ & _ & L & U). rewrite C in L. rewrite D in U. simpl in L, U.
  split; [exact Logic.I|split; [exact Logic.I|]]. rewrite A, B. simpl. lra.
Qed.
Lemma hull_sub (X Y J : iv S) : ivalid X -> ivalid Y -> isub_ X J -> isub_ Y J -> isub_ (hull X Y) J.
Proof.
  intros VX VY SX SY r H. apply (isin_hull OK) in H; auto. destruct H as (p & q & Hp & Hq & L).
  assert (isin J p) by (destruct Hp; auto). assert (isin J q) by (destruct Hq; auto).
  destruct H as (W1 & W2 & L1 & U1), H0 as (_ & _ & L2 & U2). split; auto. split; auto. split.
  - destruct (sval (lo J)); simpl in *; auto; lra.
  - destruct (sval (hi J)); simpl in *; auto; lra.
Qed.
Lemma sub_le (X J : iv S) a b p q : ivalid X -> isub_ X J -> sval (lo J) = XR a -> sval (hi J) = XR b -> sval (lo X) = XR p -> sval (hi X) = XR q -> a <= p /\ q <= b.
Proof.
  intros V SX A B C D. pose proof V as (_&_&_&_&LE). rewrite C, D in LE. simpl in LE.
  assert (I1 : isin X p) by (split; [exact Logic.I|split; [exact Logic.I|]]; rewrite C, D; simpl; lra).
  assert (I2 : isin X q) by (split; [exact Logic.I|split; [exact Logic.I|]]; rewrite C, D; simpl; lra).
  apply SX in I1, I2. destruct I1 as (_&_&L&_), I2 as (_&_&_&U). rewrite A in L. rewrite B in U. simpl in *. auto.
Qed.
(* kv/allsol.hpp 160-182 *)
Lemma rec1_ (X J : iv S) : ivalid X -> ifinite X -> ivalid J -> ifinite J -> isub_ X J ->
  ivalid (recover1 X J) /\ isub_ X (recover1 X J) /\ (ifinite (recover1 X J) -> isub_ (recover1 X J) J).
Proof.
  intros VX FX' VJ FJ SX. unfold recover1.
  destruct (slt (width X) (nmul p1 (width J))). 2:{ split; auto. split; auto. intros r; auto. }
  pose proof FJ as [Fa Fb]. destruct (sval (lo J)) as [a| | |] eqn:Ea; try (elim Fa; fail). destruct (sval (hi J)) as [b| | |] eqn:Eb; try (elim Fb; fail).
  assert (AB : a <= b). { destruct VJ as (_&_&_&_&LE). rewrite Ea, Eb in LE. exact LE. }
  destruct (mid_in _ _ _ _ _ _ _ _ _ _ X VX FX') as (m & Em & HM).
  assert (MJ : a <= m <= b). { apply SX in HM. destruct HM as (_&_&L&U). rewrite Ea in L. rewrite Eb in U. simpl in *. lra. }
  destruct (sv_fmt _ _ Ea) as [FFa _]. destruct (sv_fmt _ _ Eb) as [FFb _]. destruct (sv_fmt _ _ Em) as [FFm _].
  assert (GO : forall Y, ivalid Y -> (ifinite Y -> isub_ Y J) -> ivalid (hull X Y) /\ isub_ X (hull X Y) /\ (ifinite (hull X Y) -> isub_ (hull X Y) J)).
  { intros Y VY SY. split; [apply (valid_hull OK); auto|]. split; [intros r Hr; apply (isin_hull_l OK); auto|].
    intros FH. apply hull_fin in FH as [FY _]; auto. apply hull_sub; auto. }
  cbv zeta. set (T2 := nmul (rad J) p1). 
  destruct (tmp2_v J a b Ea Eb AB) as [Et|(t & Et & Ft & T0 & T5)]; fold T2 in Et.
  - (* the half-width overflowed *)
    assert (El : sval (nsub (mid X) T2) = Xm) by (rewrite ns_v, Em, Et; reflexivity).
    assert (Eu : sval (nadd (mid X) T2) = Xp) by (rewrite na_v, Em, Et; reflexivity).
    assert (LT : slt (nsub (mid X) T2) (lo J) = true).
    { apply slt_v. rewrite El, Ea. exact Logic.I. }
    rewrite LT. apply GO.
    + apply val_mk; rewrite ?Ea; try exact Logic.I; rewrite na_v, ns_v, Ea, El, Eu; exact Logic.I.
    + intros [_ H]. cbn [hi] in H. rewrite na_v, ns_v, Ea, El, Eu in H. elim H.
  - assert (El : sval (nsub (mid X) T2) = rx mode_NE (m - t)) by (rewrite ns_v, Em, Et; reflexivity).
    assert (Eu : sval (nadd (mid X) T2) = rx mode_NE (m + t)) by (rewrite na_v, Em, Et; reflexivity).
    set (l := nsub (mid X) T2) in *. set (u := nadd (mid X) T2) in *.
    assert (NL : N (m - t) <= m) by (apply N_le; auto; lra). assert (NU : m <= N (m + t)) by (apply N_ge; auto; lra).
    assert (CL : sval l = XR (N (m - t)) \/ sval l = Xm).
    { rewrite El. destruct (rxN (m - t)) as [E|[[E P]|[E _]]]; auto. exfalso.
      assert (rx mode_NE (m - t) = XR (N (m - t))); [|congruence]. apply rx_in. apply Rabs_le.
      destruct (sv_fmt _ _ Em) as [_ MM]. apply Rabs_le_inv in MM. pose proof (N_ge (m - t) 0 (generic_format_0 _ _) ltac:(lra)). lra. }
    assert (CU : sval u = XR (N (m + t)) \/ sval u = Xp).
    { rewrite Eu. destruct (rxN (m + t)) as [E|[[E P]|[E P]]]; auto. exfalso.
      assert (rx mode_NE (m + t) = XR (N (m + t))); [|congruence]. apply rx_in. apply Rabs_le.
      destruct (sv_fmt _ _ Em) as [_ MM]. apply Rabs_le_inv in MM. pose proof (N_le (m + t) 0 (generic_format_0 _ _) ltac:(lra)). lra. }
    clear El Eu.
    destruct (slt l (lo J)) eqn:LT.
    + assert (Hd : sval (nsub (lo J) l) = Xp \/ exists d, sval (nsub (lo J) l) = XR d /\ 0 <= d /\ sval l = XR (N (m - t)) /\ N (m - t) < a /\ d = N (a - N (m - t))).
      { rewrite ns_v, Ea. destruct CL as [E|E]; rewrite E; [|left; reflexivity]. simpl xsub. simpl xadd. cbn [xr].
        apply (slt_true OK) in LT; try exact Logic.I; rewrite ?E, ?Ea; try discriminate. rewrite E, Ea in LT. simpl in LT.
        replace (a + - N (m - t)) with (a - N (m - t)) by ring.
        destruct (rxN (a - N (m - t))) as [Q|[[Q _]|[Q P]]]; rewrite Q; auto.
        - right. eexists. split; [reflexivity|]. split; [apply N_ge; [apply generic_format_0|lra]|auto].
        - lra. }
      assert (Hu : sval (nadd u (nsub (lo J) l)) = Xp \/ exists r, sval (nadd u (nsub (lo J) l)) = XR r /\ a <= r <= b).
      { rewrite na_v. destruct Hd as [E|(d & E & D0 & E' & LT' & Ed)]; rewrite E; destruct CU as [G|G]; rewrite G; try (left; reflexivity).
        simpl xadd. cbn [xr]. assert (GE : a <= N (N (m + t) + d)) by (apply N_ge; auto; lra).
        destruct (rxN (N (m + t) + d)) as [Q|[[Q _]|[Q P]]]; rewrite Q; auto.
        - right. eexists. split; [reflexivity|]. split; auto. subst d. apply rec_lo; auto; lra.
        - exfalso. assert (rx mode_NE (N (m + t) + d) = XR (N (N (m + t) + d))); [|congruence]. apply rx_in. apply Rabs_le.
          destruct (sv_fmt _ _ Ea) as [_ MM]. apply Rabs_le_inv in MM. pose proof (N_le (N (m + t) + d) 0 (generic_format_0 _ _) ltac:(lra)). lra. }
      apply GO.
      * apply val_mk; rewrite ?Ea; try exact Logic.I; destruct Hu as [E|(r & E & H)]; rewrite E; try exact Logic.I. simpl. lra.
      * intros [_ H]. cbn [hi] in H. destruct Hu as [E|(r & E & H')]; [rewrite E in H; elim H|].
        apply (fin_sub (mkiv (lo J) (nadd u (nsub (lo J) l))) J a b a r Ea Eb Ea E); lra.
    + destruct (slt (hi J) u) eqn:LU.
      * assert (Hd : sval (nsub u (hi J)) = Xp \/ exists d, sval (nsub u (hi J)) = XR d /\ 0 <= d /\ sval u = XR (N (m + t)) /\ b < N (m + t) /\ d = N (N (m + t) - b)).
        { rewrite ns_v, Eb. destruct CU as [E|E]; rewrite E; [|left; reflexivity]. simpl xsub. simpl xadd. cbn [xr].
          apply (slt_true OK) in LU; try exact Logic.I; rewrite ?E, ?Eb; try discriminate. rewrite E, Eb in LU. simpl in LU.
          replace (N (m + t) + - b) with (N (m + t) - b) by ring.
          destruct (rxN (N (m + t) - b)) as [Q|[[Q _]|[Q P]]]; rewrite Q; auto.
          - right. eexists. split; [reflexivity|]. split; [apply N_ge; [apply generic_format_0|lra]|auto].
          - lra. }
        assert (Hl : sval (nsub l (nsub u (hi J))) = Xm \/ exists r, sval (nsub l (nsub u (hi J))) = XR r /\ a <= r <= b).
        { rewrite ns_v. destruct Hd as [E|(d & E & D0 & E' & LT' & Ed)]; rewrite E; destruct CL as [G|G]; rewrite G; try (left; reflexivity).
          simpl xsub. simpl xadd. cbn [xr]. replace (N (m - t) + - d) with (N (m - t) - d) by ring.
          assert (GE : N (N (m - t) - d) <= b) by (apply N_le; auto; lra).
          destruct (rxN (N (m - t) - d)) as [Q|[[Q P]|[Q P]]]; rewrite Q; auto.
          - right. eexists. split; [reflexivity|]. split; auto. subst d. apply rec_hi; auto; lra.
          - exfalso. assert (rx mode_NE (N (m - t) - d) = XR (N (N (m - t) - d))); [|congruence]. apply rx_in. apply Rabs_le.
            destruct (sv_fmt _ _ Eb) as [_ MM]. apply Rabs_le_inv in MM. pose proof (N_ge (N (m - t) - d) 0 (generic_format_0 _ _) ltac:(lra)). lra. }
        apply GO.
        -- apply val_mk; rewrite ?Eb; try exact Logic.I; destruct Hl as [E|(r & E & H)]; rewrite E; try exact Logic.I. simpl. lra.
        -- intros [H _]. cbn [lo] in H. destruct Hl as [E|(r & E & H')]; [rewrite E in H; elim H|].
           apply (fin_sub (mkiv (nsub l (nsub u (hi J))) (hi J)) J a b r b Ea Eb E Eb); lra.
      * apply (slt_false OK) in LT; try exact Logic.I; [|destruct CL as [E|E]; rewrite E; discriminate|rewrite Ea; discriminate].
        apply (slt_false OK) in LU; try exact Logic.I; [|rewrite Eb; discriminate|destruct CU as [E|E]; rewrite E; discriminate].
        rewrite Ea in LT. rewrite Eb in LU.
        destruct CL as [E|E]; rewrite E in LT; simpl in LT; [|contradiction]. destruct CU as [G|G]; rewrite G in LU; simpl in LU; [|contradiction].
        apply GO.
        -- apply val_mk; rewrite ?E, ?G; try exact Logic.I. simpl. lra.
        -- intros _. apply (fin_sub _ _ a b (N (m - t)) (N (m + t))); auto.
Qed.
(* 189-204 *)
Lemma rec2_ (X J : iv S) : ivalid X -> ivalid J -> ifinite J -> ivalid (recover21 X J) /\ isub_ X (recover21 X J).
Proof.
  intros VX VJ FJ. unfold recover21.
  destruct (slt (width X) (nmul p1 (width J))) eqn:LT. 2:{ split; auto. intros r; auto. }
  assert (FX' : ifinite X).
  { pose proof VX as (_&_&L&H&_). assert (W : sval (width X) = xr mode_UP (xsub (sval (hi X)) (sval (lo X)))) by apply (id_su _ _ _ _ _ _ _ _ _ _ ID).
    assert (NP : sval (width X) <> Xp).
    { intros E. apply slt_v in LT. rewrite E in LT. elim LT. }
    rewrite W in NP. unfold ifinite. destruct (sval (lo X)), (sval (hi X)); try contradiction; simpl; auto; exfalso; apply NP; reflexivity. }
  pose proof FJ as [Fa Fb]. destruct (sval (lo J)) as [a| | |] eqn:Ea; try (elim Fa; fail). destruct (sval (hi J)) as [b| | |] eqn:Eb; try (elim Fb; fail).
  assert (AB : a <= b). { destruct VJ as (_&_&_&_&LE). rewrite Ea, Eb in LE. exact LE. }
  destruct (mid_in _ _ _ _ _ _ _ _ _ _ X VX FX') as (m & Em & HM). destruct (sv_fmt _ _ Em) as [FFm MM]. apply Rabs_le_inv in MM.
  cbv zeta. set (T2 := nmul (rad J) p1).
  enough (ivalid (mkiv (nsub (mid X) T2) (nadd (mid X) T2))). { split; [apply (valid_hull OK); auto|]. intros r Hr. apply (isin_hull_l OK); auto. }
  destruct (tmp2_v J a b Ea Eb AB) as [Et|(t & Et & Ft & T0 & T5)]; fold T2 in Et.
  - apply val_mk; rewrite ?ns_v, ?na_v, Em, Et; exact Logic.I.
  - assert (El : sval (nsub (mid X) T2) = rx mode_NE (m - t)) by (rewrite ns_v, Em, Et; reflexivity).
    assert (Eu : sval (nadd (mid X) T2) = rx mode_NE (m + t)) by (rewrite na_v, Em, Et; reflexivity).
    assert (NL : N (m - t) <= m) by (apply N_le; auto; lra). assert (NU : m <= N (m + t)) by (apply N_ge; auto; lra).
    assert (CL : sval (nsub (mid X) T2) = XR (N (m - t)) \/ sval (nsub (mid X) T2) = Xm).
    { rewrite El. destruct (rxN (m - t)) as [E|[[E P]|[E _]]]; auto. exfalso.
      assert (rx mode_NE (m - t) = XR (N (m - t))); [|congruence]. apply rx_in. apply Rabs_le.
      pose proof (N_ge (m - t) 0 (generic_format_0 _ _) ltac:(lra)). lra. }
    assert (CU : sval (nadd (mid X) T2) = XR (N (m + t)) \/ sval (nadd (mid X) T2) = Xp).
    { rewrite Eu. destruct (rxN (m + t)) as [E|[[E P]|[E P]]]; auto. exfalso.
      assert (rx mode_NE (m + t) = XR (N (m + t))); [|congruence]. apply rx_in. apply Rabs_le.
      pose proof (N_le (m + t) 0 (generic_format_0 _ _) ltac:(lra)). lra. }
    destruct CL as [E|E], CU as [G|G]; apply val_mk; rewrite ?E, ?G; try exact Logic.I. simpl. lra.
Qed.
(* 271-302 *)
Lemma bmid_comm l h : v64 (bmid l h) = v64 (bmid h l).
Proof.
  assert (CM : forall x y : b64, v64 (Bplus mode_NE x y) = v64 (Bplus mode_NE y x)).
  { intros. rewrite !Bplus_v. f_equal. destruct (v64 x), (v64 y); simpl; auto. f_equal. ring. }
  unfold bmid. rewrite (andb_comm (Bltb b1 (Babs h))). destruct (_ && _); [apply CM|]. rewrite !Bmult_v, CM. reflexivity.
Qed.
Lemma smax_v : sval (@smax S) = XR maxR. Proof. apply bmax_v. Qed.
Lemma midi_ (X : iv S) : ivalid X -> exists m, sval (mid_infinity X) = XR m /\ isin X m.
Proof.
  intros V. pose proof V as (_&_&L&H&LE). unfold mid_infinity.
  assert (QP : seqb (hi X) spinf = true <-> sval (hi X) = Xp).
  { change (Beqb (hi X) (B754_infinity false) = true <-> v64 (hi X) = Xp). rewrite Beqb_v. change (v64 (B754_infinity false : b64)) with Xp. destruct (v64 (hi X)); simpl; split; intros; try contradiction; try discriminate; auto. }
  assert (QM : seqb (lo X) sninf = true <-> sval (lo X) = Xm).
  { change (Beqb (lo X) (B754_infinity true) = true <-> v64 (lo X) = Xm). rewrite Beqb_v. change (v64 (B754_infinity true : b64)) with Xm. destruct (v64 (lo X)); simpl; split; intros; try contradiction; try discriminate; auto. }
  destruct (sval (hi X)) as [b| | |] eqn:Eb; try contradiction; destruct (sval (lo X)) as [a| | |] eqn:Ea; try contradiction.
  - destruct (seqb (hi X) spinf); [destruct QP as [K _]; discriminate K; auto|]. destruct (seqb (lo X) sninf); [destruct QM as [K _]; discriminate K; auto|].
    apply mid_in; auto. split; [rewrite Ea|rewrite Eb]; exact Logic.I.
  - destruct (seqb (hi X) spinf); [destruct QP as [K _]; discriminate K; auto|]. rewrite (proj2 QM) by auto.
    destruct (sv_fmt _ _ Eb) as [_ MM]. apply Rabs_le_inv in MM.
    assert (NM : sval (sneg (@smax S)) = XR (- maxR)). { change (v64 (Bopp (bmax : b64)) = XR (- maxR)). rewrite Bopp_v, bmax_v. reflexivity. }
    destruct (mid_in _ _ _ _ _ _ _ _ _ _ (mkiv (sneg smax) (hi X) : iv S)) as (m & Em & HM).
    + apply val_mk; rewrite ?NM, ?Eb; try exact Logic.I. simpl. lra.
    + split; cbn [lo hi]; [rewrite NM|rewrite Eb]; exact Logic.I.
    + exists m. split; auto. destruct HM as (_&_&_&U). split; [exact Logic.I|split; [exact Logic.I|]]. rewrite Ea. split; [exact Logic.I|exact U].
  - rewrite (proj2 QP) by auto. destruct (seqb (lo X) sninf); [destruct QM as [K _]; discriminate K; auto|].
    destruct (sv_fmt _ _ Ea) as [_ MM]. apply Rabs_le_inv in MM. pose proof smax_v as SM.
    destruct (mid_in _ _ _ _ _ _ _ _ _ _ (mkiv (lo X) smax : iv S)) as (m & Em & HM).
    + apply val_mk; rewrite ?SM, ?Ea; try exact Logic.I. simpl. lra.
    + split; cbn [lo hi]; [rewrite Ea|rewrite SM]; exact Logic.I.
    + exists m. split. * rewrite mid_eq in Em |- * . refine (eq_trans (bmid_comm _ _) Em).
      * destruct HM as (_&_&U&_). split; [exact Logic.I|split; [exact Logic.I|]]. rewrite Eb. split; [exact U|exact Logic.I].
  - rewrite (proj2 QP), (proj2 QM) by auto. exists 0. split; [change (v64 (bdy 0 0 : b64) = XR 0); rewrite bdy_v by lia; f_equal; simpl; lra|].
    split; [exact Logic.I|split; [exact Logic.I|]]. rewrite Ea, Eb. split; exact Logic.I.
Qed.
End Rec.

Lemma rec1_ok b (X J : iv (bscal b)) : ivalid X -> ifinite X -> ivalid J -> ifinite J -> (forall r, isin X r -> isin J r) ->
  ivalid (recover1 X J) /\ (forall r, isin X r -> isin (recover1 X J) r) /\ (ifinite (recover1 X J) -> forall r, isin (recover1 X J) r -> isin J r).
Proof. destruct (bscal_ideal b) as (au & ad & su & sd & mu & md & du & dd & qu & qd & I1 & E). revert X J. rewrite E. intros X J. apply rec1_, I1. Qed.
Lemma rec2_ok b (X J : iv (bscal b)) : ivalid X -> ivalid J -> ifinite J -> ivalid (recover21 X J) /\ (forall r, isin X r -> isin (recover21 X J) r).
Proof. destruct (bscal_ideal b) as (au & ad & su & sd & mu & md & du & dd & qu & qd & I1 & E). revert X J. rewrite E. intros X J. apply rec2_, I1. Qed.
Lemma midi_ok b (X : iv (bscal b)) : ivalid X -> exists m, sval (mid_infinity X) = XR m /\ isin X m.
Proof. destruct (bscal_ideal b) as (au & ad & su & sd & mu & md & du & dd & qu & qd & I1 & E). revert X. rewrite E. intros X. apply midi_. Qed.
