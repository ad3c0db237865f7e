(* Extended division (division_part1/2) and integer powers. *)
From Coq Require Import Reals Lra Lia Psatz ZArith Bool.
From Flocq Require Import Core.
From Verif Require Import Ext Scalar IntervalModel IntervalSpec IntervalProofs IntervalEncl IntervalSets.
Open Scope R_scope.

Section DivPow.
Context {S : scal} (OK : scal_ok S).
Implicit Types X Y : iv S.
Implicit Types x y : R.
Implicit Types a b : S.
Let W0 := wf0 OK.
Let V0 := val0 OK.
Let W1 := wf1 OK.
Let V1 := val1 OK.

Lemma isin_whole r : isin (@iwhole S) r.
Proof.
  unfold isin, iwhole; simpl. destruct (ok_ninf _ OK) as [? ->]. destruct (ok_pinf _ OK) as [? ->].
  simpl; auto.
Qed.
Lemma isin_le_ub b r : swf b -> ub (sval b) r -> isin (mkiv sninf b) r.
Proof.
  intros W U. unfold isin; simpl. destruct (ok_ninf _ OK) as [? ->]. simpl; auto.
Qed.
Lemma isin_ge_lb b r : swf b -> lb (sval b) r -> isin (mkiv b spinf) r.
Proof.
  intros W U. unfold isin; simpl. destruct (ok_pinf _ OK) as [? ->]. simpl; auto.
Qed.

Ltac nn := first [ assumption | (eapply is_lo_nn; eapply lb_is_lo; eassumption)
  | (eapply is_hi_nn; eapply ub_is_hi; eassumption) ].
Ltac bconv E :=
  match type of E with
  | sle s0 ?a = true => apply (le0_true OK) in E; [|assumption]
  | sle s0 ?a = false => apply (le0_false OK) in E; [|assumption|nn]
  | sle ?a s0 = true => apply (ge0_true OK) in E; [|assumption]
  | sle ?a s0 = false => apply (ge0_false OK) in E; [|assumption|nn]
  | slt s0 ?a = true => apply (lt0_true OK) in E; [|assumption]
  | slt s0 ?a = false => apply (lt0_false OK) in E; [|assumption|nn]
  | slt ?a s0 = true => apply (gt0_true OK) in E; [|assumption]
  | slt ?a s0 = false => apply (gt0_false OK) in E; [|assumption|nn]
  | seqb ?a s0 = true => apply (eq0_true OK) in E; [|assumption]
  | seqb ?a s0 = false => apply (eq0_false OK) in E; [|assumption]
  end.
Ltac one := match goal with
  | |- context [slt ?a ?b] => let E := fresh "E" in destruct (slt a b) eqn:E; bconv E
  | |- context [sle ?a ?b] => let E := fresh "E" in destruct (sle a b) eqn:E; bconv E
  | |- context [seqb ?a ?b] => let E := fresh "E" in destruct (seqb a b) eqn:E; bconv E
  end.

Lemma div_pos_le (p q a b : R) : 0 <= a -> a <= p -> 0 < q -> q <= b -> a / b <= p / q.
Proof. intros. apply div_le_pp; lra. Qed.

(* quotient bounds used by extended division *)
Lemma q1 (a b : ext) x y : lb a x -> lb b y -> xle (XR 0) a -> xlt b (XR 0) -> y < 0 -> ub (xdiv a b) (x / y).
Proof.
  intros L1 L2 A B N. replace (x / y) with (- (x / - y)) by (rewrite quo_opp; ring).
  destruct a as [a| | |], b as [b| | |]; simpl in *; try tauto; try lra.
  - pose proof (div_pos_le x (- y) a (- b)). rewrite quo_opp in H. lra.
  - pose proof (quo_nn x (- y)). lra.
Qed.
Lemma q2 (a b : ext) x y : ub a x -> lb b y -> xle a (XR 0) -> xlt b (XR 0) -> y < 0 -> lb (xdiv a b) (x / y).
Proof.
  intros L1 L2 A B N. replace (x / y) with ((- x) / (- y)) by (rewrite quo_opp; unfold Rdiv; ring).
  destruct a as [a| | |], b as [b| | |]; simpl in *; try tauto; try lra.
  - pose proof (div_pos_le (- x) (- y) (-a) (- b)). replace (a / b) with ((- a) / (- b)) by (rewrite quo_opp; unfold Rdiv; ring). lra.
  - pose proof (quo_nn (- x) (- y)). lra.
Qed.
Lemma q3 (a b : ext) x y : lb a x -> ub b y -> xle (XR 0) a -> xlt (XR 0) b -> 0 < y -> lb (xdiv a b) (x / y).
Proof.
  intros L1 L2 A B N.
  destruct a as [a| | |], b as [b| | |]; simpl in *; try tauto; try lra.
  - pose proof (div_pos_le x y a b). lra.
  - pose proof (quo_nn x y). lra.
Qed.
Lemma q4 (a b : ext) x y : ub a x -> ub b y -> xle a (XR 0) -> xlt (XR 0) b -> 0 < y -> ub (xdiv a b) (x / y).
Proof.
  intros L1 L2 A B N. replace (x / y) with (- ((- x) / y)) by (unfold Rdiv; ring).
  destruct a as [a| | |], b as [b| | |]; simpl in *; try tauto; try lra.
  - pose proof (div_pos_le (- x) y (-a) b). replace (a / b) with (- ((- a) / b)) by (unfold Rdiv; ring). lra.
  - pose proof (quo_nn (- x) y). lra.
Qed.

Theorem division_part_encl X Y R1 parted x y :
  division_part1 X Y = Ok (R1, parted) -> isin X x -> isin Y y -> y <> 0 ->
  isin R1 (x / y) \/
  (parted = true /\ exists R2, division_part2 X Y = Ok R2 /\ isin R2 (x / y)).
Proof.
  intros H HX HY N. revert H. pose proof HX as (A1&A2&A3&A4). pose proof HY as (B1&B2&B3&B4).
  unfold division_part1, division_part2, seq0.
  destruct (slt s0 (lo Y) || slt (hi Y) s0) eqn:D.
  { intros H. destruct (idiv X Y) as [r|] eqn:E; simpl in H; [|discriminate].
    injection H as <- <-. left. eapply (isin_div OK); eauto. }
  apply orb_false_iff in D. destruct D as [D1 D2]. bconv D1. bconv D2.
  destruct (seqb (lo Y) s0 && seqb (hi Y) s0) eqn:Z; [discriminate|].
  assert (X0 : seqb (lo X) s0 && seqb (hi X) s0 = true -> x / y = 0).
  { intros E. apply andb_true_iff in E. destruct E as [E1 E2]. bconv E1. bconv E2.
    rewrite E1 in A3. rewrite E2 in A4. simpl in *. replace x with 0 by lra. unfold Rdiv; ring. }
  destruct (slt (lo Y) s0 && seqb (hi Y) s0) eqn:C1.
  { apply andb_true_iff in C1. destruct C1 as [C1 C2]. bconv C1. bconv C2.
    assert (Y1 : y < 0) by (rewrite C2 in B4; simpl in B4; lra).
    pose proof (xlt_nz _ C1).
    intros H0; injection H0 as <- <-. left.
    destruct (seqb (lo X) s0 && seqb (hi X) s0) eqn:E0. { rewrite X0 by auto. apply (isin_i0 OK). }
    destruct (sle s0 (lo X)) eqn:E; bconv E.
    { apply isin_le_ub; [apply (divu_wf OK); auto|]. apply (divu_ub OK); auto. apply q1; auto. }
    destruct (sle (hi X) s0) eqn:E'; bconv E'; [|apply isin_whole].
    apply isin_ge_lb; [apply (divd_wf OK); auto|]. apply (divd_lb OK); auto. apply q2; auto. }
  destruct (seqb (lo Y) s0 && slt s0 (hi Y)) eqn:C2.
  { apply andb_true_iff in C2. destruct C2 as [C2 C3]. bconv C2. bconv C3.
    assert (Y1 : 0 < y) by (rewrite C2 in B3; simpl in B3; lra).
    pose proof (xlt_nz' _ C3).
    intros H0; injection H0 as <- <-. left.
    destruct (seqb (lo X) s0 && seqb (hi X) s0) eqn:E0. { rewrite X0 by auto. apply (isin_i0 OK). }
    destruct (sle s0 (lo X)) eqn:E; bconv E.
    { apply isin_ge_lb; [apply (divd_wf OK); auto|]. apply (divd_lb OK); auto. apply q3; auto. }
    destruct (sle (hi X) s0) eqn:E'; bconv E'; [|apply isin_whole].
    apply isin_le_ub; [apply (divu_wf OK); auto|]. apply (divu_ub OK); auto. apply q4; auto. }
  assert (Yl : xlt (sval (lo Y)) (XR 0)).
  { destruct (slt (lo Y) s0) eqn:E; [bconv E; auto|]. bconv E.
    destruct (seqb (lo Y) s0) eqn:E1; bconv E1.
    - simpl in *. destruct (slt s0 (hi Y)) eqn:E2; [discriminate|]. bconv E2.
      destruct (seqb (hi Y) s0) eqn:E3; [discriminate|]. bconv E3.
      rewrite E1 in *. destruct (sval (hi Y)); simpl in *; try tauto. exfalso; apply E3; f_equal; lra.
    - destruct (sval (lo Y)); simpl in *; try tauto. exfalso; apply E1; f_equal; lra. }
  assert (Yh : xlt (XR 0) (sval (hi Y))).
  { destruct (slt s0 (hi Y)) eqn:E; [bconv E; auto|]. bconv E.
    destruct (seqb (hi Y) s0) eqn:E1; bconv E1.
    - assert (slt (lo Y) s0 = true) as L.
      { apply (ok_lt _ OK); auto. rewrite V0; auto. }
      rewrite L in C1. discriminate.
    - destruct (sval (hi Y)); simpl in *; try tauto. exfalso; apply E1; f_equal; lra. }
  pose proof (xlt_nz _ Yl). pose proof (xlt_nz' _ Yh).
  destruct (seqb (lo X) s0 && seqb (hi X) s0) eqn:E0.
  { intros H1; injection H1 as <- <-. left. rewrite X0 by auto. apply (isin_i0 OK). }
  destruct (slt s0 (lo X)) eqn:E; bconv E.
  { intros H1; injection H1 as <- <-. apply xlt_xle in E. destruct (Rlt_dec y 0).
    - left. apply isin_le_ub; [apply (divu_wf OK); auto|]. apply (divu_ub OK); auto. apply q1; auto.
    - right. split; auto. eexists; split; eauto.
      apply isin_ge_lb; [apply (divd_wf OK); auto|]. apply (divd_lb OK); auto. apply q3; auto. lra. }
  destruct (slt (hi X) s0) eqn:E'; bconv E'.
  2:{ intros H1; injection H1 as <- <-. left. apply isin_whole. }
  intros H1; injection H1 as <- <-. apply xlt_xle in E'. destruct (Rlt_dec y 0).
  - right. split; auto. eexists; split; eauto.
    apply isin_ge_lb; [apply (divd_wf OK); auto|]. apply (divd_lb OK); auto. apply q2; auto.
  - left. apply isin_le_ub; [apply (divu_wf OK); auto|]. apply (divu_ub OK); auto. apply q4; auto. lra.
Qed.

(* it fails only for the divisor [0,0] *)
Theorem division_part1_total X Y : ivalid X -> ivalid Y ->
  (exists y, isin Y y /\ y <> 0) -> exists r, division_part1 X Y = Ok r.
Proof.
  intros _ VY (y & HY & N). pose proof HY as (B1&B2&B3&B4). unfold division_part1, seq0.
  destruct (slt s0 (lo Y)) eqn:D1; [|destruct (slt (hi Y) s0) eqn:D2]; simpl.
  - unfold idiv. rewrite D1. simpl. eauto.
  - unfold idiv. rewrite D1, D2. simpl. eauto.
  - destruct (seqb (lo Y) s0 && seqb (hi Y) s0) eqn:Z.
    + apply andb_true_iff in Z. destruct Z as [Z1 Z2]. bconv Z1. bconv Z2.
      rewrite Z1, Z2 in *. simpl in *. lra.
    + repeat match goal with |- context [if ?c then _ else _] => destruct c end; eauto.
Qed.

(* ---- integer powers ---- *)
(* both ends are the infinity of sign s *)
Definition isinf (s : bool) X :=
  swf (lo X) /\ swf (hi X) /\ sval (lo X) = (if s then Xp else Xm) /\ sval (hi X) = (if s then Xp else Xm).

Lemma muld_inf a b e : swf a -> swf b -> xmul (sval a) (sval b) = e -> e = Xp \/ e = Xm -> sval (muld a b) = e.
Proof.
  intros Wa Wb E K. destruct (ok_muld _ OK a b) as [W D]; auto. rewrite E in D.
  destruct K; subst e; rewrite H in *; exact D.
Qed.
Lemma mulu_inf a b e : swf a -> swf b -> xmul (sval a) (sval b) = e -> e = Xp \/ e = Xm -> sval (mulu a b) = e.
Proof.
  intros Wa Wb E K. destruct (ok_mulu _ OK a b) as [W D]; auto. rewrite E in D.
  destruct K; subst e; rewrite H in *; exact D.
Qed.

Lemma le0_b a : swf a -> xle (XR 0) (sval a) -> sle s0 a = true.
Proof. intros. apply (ok_le _ OK); auto. rewrite V0; auto. Qed.
Lemma le0_nb a : swf a -> xlt (sval a) (XR 0) -> sle s0 a = false.
Proof.
  intros. destruct (sle s0 a) eqn:E; auto. apply (le0_true OK) in E; auto.
  exfalso; eapply xle_not_xlt; eauto.
Qed.
Lemma ge0_b a : swf a -> xle (sval a) (XR 0) -> sle a s0 = true.
Proof. intros. apply (ok_le _ OK); auto. rewrite V0; auto. Qed.
Lemma ge0_nb a : swf a -> xlt (XR 0) (sval a) -> sle a s0 = false.
Proof.
  intros. destruct (sle a s0) eqn:E; auto. apply (ge0_true OK) in E; auto.
  exfalso; eapply xle_not_xlt; eauto.
Qed.
Lemma eq0_nb a : swf a -> sval a <> XR 0 -> seqb a s0 = false.
Proof. intros W H. destruct (seqb a s0) eqn:E; auto. apply (eq0_true OK) in E; auto. tauto. Qed.

Lemma imul_inf s t X Y : isinf s X -> isinf t Y -> isinf (Bool.eqb s t) (imul X Y).
Proof.
  intros (A1&A2&A3&A4) (B1&B2&B3&B4). unfold imul.
  destruct s, t; simpl in *;
  repeat first [rewrite (le0_b (lo X)) by (auto; rewrite A3; simpl; auto)
    | rewrite (le0_nb (lo X)) by (auto; rewrite A3; simpl; auto)
    | rewrite (ge0_b (hi X)) by (auto; rewrite A4; simpl; auto)
    | rewrite (eq0_nb (hi X)) by (auto; rewrite A4; discriminate)
    | rewrite (le0_b (lo Y)) by (auto; rewrite B3; simpl; auto)
    | rewrite (le0_nb (lo Y)) by (auto; rewrite B3; simpl; auto)
    | rewrite (ge0_b (hi Y)) by (auto; rewrite B4; simpl; auto)
    | rewrite (eq0_nb (hi Y)) by (auto; rewrite B4; discriminate) ];
  unfold isinf; simpl; repeat split;
  try (apply (muld_wf OK); auto); try (apply (mulu_wf OK); auto);
  try (apply muld_inf; auto; rewrite ?A3, ?A4, ?B3, ?B4; reflexivity);
  try (apply mulu_inf; auto; rewrite ?A3, ?A4, ?B3, ?B4; reflexivity).
Qed.
Lemma imul_1_inf t Y : isinf t Y -> isinf t (imul (ipt s1) Y).
Proof.
  intros (B1&B2&B3&B4). unfold imul; simpl.
  rewrite (le0_b s1) by (auto; rewrite V1; simpl; lra).
  rewrite (eq0_nb s1) by (auto; rewrite V1; intros K; injection K; lra).
  assert (P1 : xsgn_inf 1 true = Xp) by (rewrite xsgn_inf_pos by lra; auto).
  assert (P2 : xsgn_inf 1 false = Xm) by (rewrite xsgn_inf_pos by lra; auto).
  destruct t; simpl in *.
  - rewrite (le0_b (lo Y)) by (auto; rewrite B3; simpl; auto).
    rewrite (eq0_nb (hi Y)) by (auto; rewrite B4; discriminate).
    unfold isinf; simpl; repeat split; try (apply (muld_wf OK); auto); try (apply (mulu_wf OK); auto).
    + apply muld_inf; auto. rewrite V1, B3; auto.
    + apply mulu_inf; auto. rewrite V1, B4; auto.
  - rewrite (le0_nb (lo Y)) by (auto; rewrite B3; simpl; auto).
    rewrite (ge0_b (hi Y)) by (auto; rewrite B4; simpl; auto).
    unfold isinf; simpl; repeat split; try (apply (muld_wf OK); auto); try (apply (mulu_wf OK); auto).
    + apply muld_inf; auto. rewrite V1, B3; auto.
    + apply mulu_inf; auto. rewrite V1, B4; auto.
Qed.

Lemma pow_loop_isin p : forall (RR XP : iv S) r xp, isin RR r -> isin XP xp ->
  isin (pow_loop RR XP p) (r * xp ^ Pos.to_nat p).
Proof.
  induction p; intros RR XP r xp H1 H2; simpl pow_loop.
  - rewrite Pos2Nat.inj_xI. replace (r * xp ^ Datatypes.S (2 * Pos.to_nat p)) with ((r * xp) * (xp * xp) ^ Pos.to_nat p).
    + apply IHp; apply (isin_mul OK); auto.
    + rewrite <- tech_pow_Rmult, pow_mult. replace (xp ^ 2) with (xp * xp) by ring. ring.
  - rewrite Pos2Nat.inj_xO, pow_mult. replace (xp ^ 2) with (xp * xp) by ring.
    apply IHp; auto. apply (isin_mul OK); auto.
  - simpl. rewrite Rmult_1_r. apply (isin_mul OK); auto.
Qed.
Lemma pow_point_isin a x n : swf a -> sval a = XR x -> (0 <= n)%Z ->
  isin (pow_point a n) (x ^ Z.to_nat n).
Proof.
  intros W E N. destruct n; simpl; try lia.
  - apply (isin_pt); auto.
  - replace (x ^ Pos.to_nat p) with (1 * x ^ Pos.to_nat p) by ring.
    apply pow_loop_isin; apply (isin_pt); auto.
Qed.

Lemma pow_loop_inf p : forall s t (RR XP : iv S), isinf s RR -> isinf t XP ->
  isinf (match p with xO _ => s | _ => Bool.eqb s t end) (pow_loop RR XP p).
Proof.
  induction p; intros s t RR XP H1 H2; simpl.
  - pose proof (IHp _ _ _ _ (imul_inf _ _ _ _ H1 H2) (imul_inf _ _ _ _ H2 H2)) as K.
    destruct p, s, t; auto.
  - pose proof (IHp _ _ _ _ H1 (imul_inf _ _ _ _ H2 H2)) as K. destruct p, s, t; auto.
  - apply imul_inf; auto.
Qed.
Lemma pow_loop_inf1 p : forall t (XP : iv S), isinf t XP ->
  isinf (match p with xO _ => true | _ => t end) (pow_loop (ipt s1) XP p).
Proof.
  induction p; intros t XP H; simpl.
  - pose proof (pow_loop_inf p _ _ _ _ (imul_1_inf _ _ H) (imul_inf _ _ _ _ H H)) as K.
    destruct p, t; auto.
  - pose proof (IHp _ _ (imul_inf _ _ _ _ H H)) as K. destruct p, t; auto.
  - apply imul_1_inf; auto.
Qed.
Lemma pow_point_inf (t : bool) a n : swf a -> sval a = (if t then Xp else Xm) -> (0 < n)%Z ->
  isinf (if Z.even n then true else t) (pow_point a n).
Proof.
  intros W E N. destruct n; try lia. unfold pow_point.
  replace (if Z.even (Z.pos p) then true else t) with (match p with xO _ => true | _ => t end) by (destruct p; auto).
  apply pow_loop_inf1. unfold isinf; simpl; auto.
Qed.

(* the lower/upper ends of the hull of two intervals that may be [inf,inf] *)
Lemma hull_gen X Y r : swf (lo X) -> swf (hi X) -> swf (lo Y) -> swf (hi Y) ->
  sval (lo X) <> Xn -> sval (hi X) <> Xn -> sval (lo Y) <> Xn -> sval (hi Y) <> Xn ->
  lb (sval (lo X)) r \/ lb (sval (lo Y)) r -> ub (sval (hi X)) r \/ ub (sval (hi Y)) r ->
  isin (hull X Y) r.
Proof.
  intros. unfold isin, hull; cbn [lo hi]. repeat split.
  - destruct (slt (lo Y) (lo X)); auto.
  - destruct (slt (hi X) (hi Y)); auto.
  - apply (pick_min OK); auto.
  - apply (pick_max OK); auto.
Qed.
Lemma isin_nn X r : isin X r -> sval (lo X) <> Xn /\ sval (hi X) <> Xn.
Proof. intros (_&_&L&U). split; [eapply is_lo_nn, lb_is_lo|eapply is_hi_nn, ub_is_hi]; eauto. Qed.
Lemma isinf_nn s X : isinf s X -> sval (lo X) <> Xn /\ sval (hi X) <> Xn.
Proof. intros (_&_&L&U). rewrite L, U. destruct s; split; discriminate. Qed.

Lemma pow_odd_le x y n : Nat.odd n = true -> x <= y -> x ^ n <= y ^ n.
Proof.
  intros O L. apply Nat.odd_spec in O. destruct O as [k ->].
  destruct (Rle_dec 0 x).
  - apply pow_incr; lra.
  - destruct (Rle_dec 0 y).
    + apply Rle_trans with 0.
      * rewrite pow_add, pow_mult, pow_1. assert (0 <= (x ^ 2) ^ k) by (apply pow_le, pow2_ge_0). nra.
      * apply pow_le; auto.
    + replace x with (- - x) by ring. replace y with (- - y) by ring.
      assert (forall z, (- z) ^ (2 * k + 1) = - z ^ (2 * k + 1)) as E.
      { intros z. rewrite !pow_add, !pow_mult, !pow_1. replace ((- z) ^ 2) with (z ^ 2) by ring. ring. }
      rewrite !(E (- _)). apply Ropp_le_contravar. apply pow_incr; lra.
Qed.
Lemma pow_even_abs x n : Nat.even n = true -> x ^ n = Rabs x ^ n.
Proof.
  intros O. apply Nat.even_spec in O. destruct O as [k ->]. rewrite !pow_mult. f_equal.
  rewrite <- (Rsqr_pow2 (Rabs x)), <- Rsqr_abs. symmetry; apply Rsqr_pow2.
Qed.
Lemma Zeven_nat n : (0 <= n)%Z -> Nat.even (Z.to_nat n) = Z.even n.
Proof.
  intros H. rewrite <- (Z2Nat.id n H) at 2. generalize (Z.to_nat n); clear.
  intros n. induction n using (well_founded_induction lt_wf).
  destruct n as [|[|n]]; auto. rewrite !Nat2Z.inj_succ.
  replace (Z.succ (Z.succ (Z.of_nat n))) with (Z.of_nat n + 2 * 1)%Z by lia.
  rewrite Z.even_add_mul_2. simpl Nat.even. apply H; lia.
Qed.

Lemma ipow_pos X x n r :
  isin X x -> (0 < n)%Z ->
  r = (if Z.even n && iin s0 X then hullSI s0 (pow_point (mag X) n)
       else hull (pow_point (lo X) n) (pow_point (hi X) n)) ->
  isin r (x ^ Z.to_nat n).
Proof.
  intros HX N ->. pose proof (isin_valid _ _ HX) as V. pose proof HX as (A1&A2&A3&A4).
  assert (Zn : (0 <= n)%Z) by lia. pose proof (Zeven_nat n Zn) as EE.
  destruct (Z.even n && iin s0 X) eqn:B.
  { apply andb_true_iff in B. destruct B as [Ev In]. rewrite Ev in EE.
    destruct (mag_ub OK X x HX) as [Wm Um].
    assert (P0 : 0 <= x ^ Z.to_nat n) by (rewrite pow_even_abs by auto; apply pow_le, Rabs_pos).
    rewrite hullSI_eq.
    assert (Kpt : isin (ipt (@s0 S)) 0) by (apply isin_pt; auto).
    destruct (sval (mag X)) as [m| | |] eqn:Em; simpl in Um; try tauto.
    - pose proof (pow_point_isin _ _ n Wm Em Zn) as K. apply (isin_hull_mid OK) with 0 (m ^ Z.to_nat n); auto.
      left. split; auto. rewrite (pow_even_abs x) by auto. apply pow_incr. split; [apply Rabs_pos|auto].
    - pose proof (pow_point_inf true _ n Wm Em N) as K. rewrite Ev in K. simpl in K.
      destruct (isinf_nn _ _ K) as [K1 K2]. destruct (isin_nn _ _ Kpt) as [K3 K4].
      destruct K as (?&?&KL&KU). apply hull_gen; auto.
      + left. simpl. rewrite V0. simpl. auto.
      + right. rewrite KU. simpl; auto. }
  assert (PL : (exists l, sval (lo X) = XR l /\ l <= x /\ isin (pow_point (lo X) n) (l ^ Z.to_nat n)) \/
               isinf (Z.even n) (pow_point (lo X) n) /\ sval (lo X) = Xm).
  { destruct (sval (lo X)) as [l| | |] eqn:E; simpl in A3; try tauto.
    - left. exists l. split; [auto|split; [auto|apply (pow_point_isin _ l); auto]].
    - right. pose proof (pow_point_inf false _ n A1 E N). destruct (Z.even n); auto. }
  assert (PH : (exists h, sval (hi X) = XR h /\ x <= h /\ isin (pow_point (hi X) n) (h ^ Z.to_nat n)) \/
               isinf true (pow_point (hi X) n) /\ sval (hi X) = Xp).
  { destruct (sval (hi X)) as [l| | |] eqn:E; simpl in A4; try tauto.
    - left. exists l. split; [auto|split; [auto|apply (pow_point_isin _ l); auto]].
    - right. pose proof (pow_point_inf true _ n A2 E N). destruct (Z.even n); auto. }
  assert (WL : swf (lo (pow_point (lo X) n)) /\ swf (hi (pow_point (lo X) n)) /\
     sval (lo (pow_point (lo X) n)) <> Xn /\ sval (hi (pow_point (lo X) n)) <> Xn).
  { destruct PL as [(l & _ & _ & K)|[K _]].
    - destruct (isin_nn _ _ K). destruct K as (?&?&_). auto.
    - destruct (isinf_nn _ _ K). destruct K as (?&?&_). auto. }
  assert (WH : swf (lo (pow_point (hi X) n)) /\ swf (hi (pow_point (hi X) n)) /\
     sval (lo (pow_point (hi X) n)) <> Xn /\ sval (hi (pow_point (hi X) n)) <> Xn).
  { destruct PH as [(l & _ & _ & K)|[K _]].
    - destruct (isin_nn _ _ K). destruct K as (?&?&_). auto.
    - destruct (isinf_nn _ _ K). destruct K as (?&?&_). auto. }
  destruct WL as (?&?&?&?). destruct WH as (?&?&?&?).
  apply hull_gen; auto.
  - (* lower *)
    destruct (Z.even n) eqn:Ev.
    + simpl in B. assert (NZ : ~ isin X 0) by (rewrite <- (iin_spec OK s0); auto; congruence).
      destruct (Rlt_le_dec 0 x) as [P|P].
      * (* all of X is positive *)
        left. destruct PL as [(l & El & Ll & _&_&L&_)|[_ El]].
        -- eapply lb_le; eauto. apply pow_incr. split; auto.
           destruct (Rle_dec 0 l); auto. exfalso. apply NZ. repeat split; auto.
           ++ rewrite El; simpl; lra.
           ++ eapply ub_le; eauto. lra.
        -- exfalso. apply NZ. repeat split; auto. rewrite El; simpl; auto. eapply ub_le; eauto; lra.
      * right. destruct PH as [(h & Eh & Lh & _&_&L&_)|[_ Eh]].
        -- eapply lb_le; eauto. rewrite (pow_even_abs h), (pow_even_abs x) by auto.
           assert (h < 0).
           { destruct (Rlt_dec h 0); auto. exfalso. apply NZ. repeat split; auto.
             - eapply lb_le; eauto.
             - rewrite Eh; simpl; lra. }
           apply pow_incr. split; [apply Rabs_pos|]. rewrite !Rabs_left1; lra.
        -- exfalso. apply NZ. repeat split; auto. eapply lb_le; eauto. rewrite Eh; simpl; auto.
    + left. assert (O : Nat.odd (Z.to_nat n) = true) by (rewrite <- Nat.negb_even, EE; auto).
      destruct PL as [(l & El & Ll & _&_&L&_)|[(_&_&L&_) _]].
      * eapply lb_le; eauto. apply pow_odd_le; auto.
      * rewrite L; simpl; auto.
  - (* upper *)
    destruct (Z.even n) eqn:Ev.
    + simpl in B. assert (NZ : ~ isin X 0) by (rewrite <- (iin_spec OK s0); auto; congruence).
      destruct (Rlt_le_dec 0 x) as [P|P].
      * right. destruct PH as [(l & El & Ll & _&_&_&U)|[(_&_&_&U) _]].
        -- eapply ub_le; eauto. apply pow_incr; lra.
        -- rewrite U; simpl; auto.
      * left. destruct PL as [(l & El & Ll & _&_&_&U)|[(_&_&_&U) _]].
        -- eapply ub_le; eauto. rewrite (pow_even_abs l), (pow_even_abs x) by auto.
           apply pow_incr. split; [apply Rabs_pos|]. rewrite !Rabs_left1; lra.
        -- rewrite U; simpl; auto.
    + right. assert (O : Nat.odd (Z.to_nat n) = true) by (rewrite <- Nat.negb_even, EE; auto).
      destruct PH as [(l & El & Ll & _&_&_&U)|[(_&_&_&U) _]].
      * eapply ub_le; eauto. apply pow_odd_le; auto.
      * rewrite U; simpl; auto.
Qed.

Theorem ipow_encl X n Q x : ipow X n = Ok Q -> isin X x ->
  ((n < 0)%Z -> x <> 0) /\ isin Q (powerRZ x n).
Proof.
  intros H HX. revert H. unfold ipow.
  destruct (Z.eqb_spec n 0) as [->|N0].
  { intros H; injection H as <-. split; [lia|]. simpl. apply isin_pt; auto. }
  destruct (Z.eqb_spec n (-2147483648)); [discriminate|].
  assert (P : (0 < Z.abs n)%Z) by lia.
  pose proof (ipow_pos X x _ _ HX P eq_refl) as K. cbv zeta.
  destruct (Z.ltb_spec n 0) as [L|L].
  - intros H. pose proof (isin_Sdiv OK s1 _ Q 1 _ H W1 V1 K) as [N1 N2].
    split.
    + intros _ ->. apply N1. apply pow_i. lia.
    + replace (powerRZ x n) with (1 / x ^ Z.to_nat (Z.abs n)); auto.
      destruct n; try lia. simpl. unfold Rdiv; ring.
  - intros H; injection H as <-. split; [lia|].
    replace (powerRZ x n) with (x ^ Z.to_nat (Z.abs n)); auto.
    destruct n; try lia. simpl. auto.
Qed.
End DivPow.
