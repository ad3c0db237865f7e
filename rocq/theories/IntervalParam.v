(* Two scalar types whose operations agree through a relation give intervals that agree through it:
   used to compare the double back ends. *)
From Coq Require Import Reals Lra Lia ZArith Bool.
From Flocq Require Import Core BinarySingleNaN.
From Verif Require Import Ext Scalar IntervalModel IntervalSpec IntervalProofs IntervalEncl IntervalSets IntervalDivPow IntervalMore Fp64 RDoubleHw.
Open Scope R_scope.

Section Param.
Variables A B : scal.
Variable R : A -> B -> Prop.

Record srel : Prop := mksrel {
  r_0 : R s0 s0; r_1 : R s1 s1; r_dy : forall m e, R (sdy m e) (sdy m e);
  r_pinf : R spinf spinf; r_ninf : R sninf sninf;
  r_lt : forall x x' y y', R x x' -> R y y' -> slt x y = slt x' y';
  r_le : forall x x' y y', R x x' -> R y y' -> sle x y = sle x' y';
  r_eqb : forall x x' y y', R x x' -> R y y' -> seqb x y = seqb x' y';
  r_neg : forall x x', R x x' -> R (sneg x) (sneg x');
  r_abs : forall x x', R x x' -> R (sabs x) (sabs x');
  r_nadd : forall x x' y y', R x x' -> R y y' -> R (nadd x y) (nadd x' y');
  r_nmul : forall x x' y y', R x x' -> R y y' -> R (nmul x y) (nmul x' y');
  r_floor : forall x x', R x x' -> R (sfloor x) (sfloor x');
  r_ceil : forall x x', R x x' -> R (sceil x) (sceil x');
  r_addu : forall x x' y y', R x x' -> R y y' -> R (addu x y) (addu x' y');
  r_addd : forall x x' y y', R x x' -> R y y' -> R (addd x y) (addd x' y');
  r_subu : forall x x' y y', R x x' -> R y y' -> R (subu x y) (subu x' y');
  r_subd : forall x x' y y', R x x' -> R y y' -> R (subd x y) (subd x' y');
  r_mulu : forall x x' y y', R x x' -> R y y' -> R (mulu x y) (mulu x' y');
  r_muld : forall x x' y y', R x x' -> R y y' -> R (muld x y) (muld x' y');
  r_divu : forall x x' y y', R x x' -> R y y' -> seqb y s0 = false -> R (divu x y) (divu x' y');
  r_divd : forall x x' y y', R x x' -> R y y' -> seqb y s0 = false -> R (divd x y) (divd x' y');
  r_sqru : forall x x', R x x' -> R (sqru x) (sqru x');
  r_sqrd : forall x x', R x x' -> R (sqrd x) (sqrd x')
}.
Variable P : srel.
Variable OK : scal_ok A.

Definition RI (X : iv A) (X' : iv B) := R (lo X) (lo X') /\ R (hi X) (hi X').
Definition Rres {T T' : Type} (Q : T -> T' -> Prop) (x : res T) (x' : res T') : Prop :=
  match x, x' with Ok a, Ok b => Q a b | Err e, Err e' => e = e' | _, _ => False end.

Lemma rif {T T' : Type} (Q : T -> T' -> Prop) (c c' : bool) a a' b b' : c = c' -> (c = true -> Q a a') -> (c = false -> Q b b') ->
  Q (if c then a else b) (if c' then a' else b').
Proof. intros <- H1 H2. destruct c; auto. Qed.
Lemma rres_ok {T T' : Type} (Q : T -> T' -> Prop) a a' : Q a a' -> Rres Q (Ok a) (Ok a').
Proof. auto. Qed.
Lemma rres_err {T T' : Type} (Q : T -> T' -> Prop) e : Rres Q (Err e) (Err e).
Proof. reflexivity. Qed.
Lemma eq_and (a a' b b' : bool) : a = a' -> b = b' -> a && b = a' && b'.
Proof. congruence. Qed.
Lemma eq_or (a a' b b' : bool) : a = a' -> b = b' -> a || b = a' || b'.
Proof. congruence. Qed.

Ltac base := first
  [ assumption | apply (r_0 P) | apply (r_1 P) | apply (r_dy P) | apply (r_pinf P) | apply (r_ninf P)
  | apply (r_neg P); base | apply (r_abs P); base | apply (r_nadd P); base | apply (r_nmul P); base
  | apply (r_floor P); base | apply (r_ceil P); base
  | apply (r_addu P); base | apply (r_addd P); base | apply (r_subu P); base | apply (r_subd P); base
  | apply (r_mulu P); base | apply (r_muld P); base | apply (r_sqru P); base | apply (r_sqrd P); base ].
Ltac cmp := first
  [ apply eq_and; cmp | apply eq_or; cmp | apply (r_lt P); base | apply (r_le P); base | apply (r_eqb P); base | apply f_equal; cmp ].
Ltac go := repeat first
  [ base
  | apply (rif RI); [cmp|intro|intro] | apply (rif R); [cmp|intro|intro] | apply (rif (Rres RI)); [cmp|intro|intro]
  | match goal with |- RI _ _ => split; cbn [lo hi] | |- Rres _ (Err _) _ => apply rres_err | |- Rres _ (Ok _) _ => apply (rres_ok RI) end | cmp ].

Ltac dest := repeat match goal with H : RI _ _ |- _ => destruct H end.

Lemma p_ipt x x' : R x x' -> RI (ipt x) (ipt x').
Proof. split; auto. Qed.
Lemma p_i0 : RI i0 i0.
Proof. split; apply (r_0 P). Qed.
Lemma p_whole : RI iwhole iwhole.
Proof. split; cbn [lo hi iwhole]; base. Qed.
Lemma p_add X X' Y Y' : RI X X' -> RI Y Y' -> RI (iadd X Y) (iadd X' Y').
Proof. intros; dest. unfold iadd. go. Qed.
Lemma p_sub X X' Y Y' : RI X X' -> RI Y Y' -> RI (isub X Y) (isub X' Y').
Proof. intros; dest. unfold isub. go. Qed.
Lemma p_neg X X' : RI X X' -> RI (ineg X) (ineg X').
Proof. intros; dest. unfold ineg. go. Qed.
Lemma p_addS X X' y y' : RI X X' -> R y y' -> RI (iaddS X y) (iaddS X' y').
Proof. intros; dest. unfold iaddS. go. Qed.
Lemma p_Sadd X X' y y' : RI X X' -> R y y' -> RI (iSadd y X) (iSadd y' X').
Proof. intros; dest. unfold iSadd. go. Qed.
Lemma p_subS X X' y y' : RI X X' -> R y y' -> RI (isubS X y) (isubS X' y').
Proof. intros; dest. unfold isubS. go. Qed.
Lemma p_Ssub X X' y y' : RI X X' -> R y y' -> RI (iSsub y X) (iSsub y' X').
Proof. intros; dest. unfold iSsub. go. Qed.
Lemma p_mul X X' Y Y' : RI X X' -> RI Y Y' -> RI (imul X Y) (imul X' Y').
Proof. intros; dest. unfold imul, i0. cbv zeta. go. Qed.
Lemma p_mulS X X' y y' : RI X X' -> R y y' -> RI (imulS X y) (imulS X' y').
Proof. intros; dest. unfold imulS, i0. go. Qed.
Lemma p_Smul X X' y y' : RI X X' -> R y y' -> RI (iSmul y X) (iSmul y' X').
Proof. intros; dest. unfold iSmul, i0. go. Qed.

(* a positive (negative) number is not zero *)
Lemma nz_pos (y : A) : swf y -> slt s0 y = true -> seqb y s0 = false.
Proof.
  intros W L. apply not_true_iff_false. intros E. apply (eq0_true OK) in E; auto. apply (lt0_true OK) in L; auto.
  rewrite E in L. simpl in L. lra.
Qed.
Lemma nz_neg (y : A) : swf y -> slt y s0 = true -> seqb y s0 = false.
Proof.
  intros W L. apply not_true_iff_false. intros E. apply (eq0_true OK) in E; auto. apply (gt0_true OK) in L; auto.
  rewrite E in L. simpl in L. lra.
Qed.
Lemma nz_all (Y : iv A) : ivalid Y -> (slt s0 (lo Y) = true \/ slt (hi Y) s0 = true) -> seqb (lo Y) s0 = false /\ seqb (hi Y) s0 = false.
Proof.
  intros V [L|L]; destruct V as (W1 & W2 & V1 & V2 & V3); split; auto using nz_pos, nz_neg.
  - apply nz_pos; auto. apply (ok_lt _ OK); auto; [apply (ok_s0 _ OK)|]. apply (lt0_true OK) in L; auto.
    rewrite (val0 OK). destruct (sval (lo Y)), (sval (hi Y)); simpl in *; try tauto; lra.
  - apply nz_neg; auto. apply (ok_lt _ OK); auto; [apply (ok_s0 _ OK)|]. apply (gt0_true OK) in L; auto.
    rewrite (val0 OK). destruct (sval (lo Y)), (sval (hi Y)); simpl in *; try tauto; lra.
Qed.
Ltac dv := split; cbn [lo hi]; first [apply (r_divd P); auto; fail | apply (r_divu P); auto; fail | base].
Lemma p_div X X' Y Y' : ivalid Y -> RI X X' -> RI Y Y' -> Rres RI (idiv X Y) (idiv X' Y').
Proof.
  intros V ? ?; dest. pose proof (nz_all Y V) as N. unfold idiv.
  apply (rif (Rres RI)); [cmp|intros L|intros _; apply (rif (Rres RI)); [cmp|intros L|intros _; reflexivity]];
  (destruct N as [N1 N2]; [auto|]); apply rres_ok;
  (apply (rif RI); [cmp|intros _; dv|intros _; apply (rif RI); [cmp|intros _; dv|intros _; dv]]).
Qed.
Lemma p_divS X X' (y : A) y' : swf y -> RI X X' -> R y y' -> Rres RI (idivS X y) (idivS X' y').
Proof.
  intros W ? ?; dest. unfold idivS.
  apply (rif (Rres RI)); [cmp|intros L|intros _; apply (rif (Rres RI)); [cmp|intros L|intros _; reflexivity]]; apply rres_ok.
  - pose proof (nz_pos y W L). dv.
  - pose proof (nz_neg y W L). dv.
Qed.
Lemma p_Sdiv X X' y y' : ivalid X -> RI X X' -> R y y' -> Rres RI (iSdiv y X) (iSdiv y' X').
Proof.
  intros V ? ?; dest. pose proof (nz_all X V) as N. unfold iSdiv.
  apply (rif (Rres RI)); [cmp|intros L|intros _; reflexivity]. apply orb_true_iff in L. destruct (N L) as [N1 N2].
  apply rres_ok. apply (rif RI); [cmp|intros _; dv|intros _; dv].
Qed.
Lemma p_sqrt X X' : RI X X' -> Rres RI (isqrt X) (isqrt X').
Proof. intros; dest. unfold isqrt. go. Qed.
Lemma p_hullSS x x' y y' : R x x' -> R y y' -> RI (hullSS x y) (hullSS x' y').
Proof. intros. unfold hullSS. go. Qed.
Lemma p_hull X X' Y Y' : RI X X' -> RI Y Y' -> RI (hull X Y) (hull X' Y').
Proof. intros; dest. unfold hull. go. Qed.
Lemma p_hullIS X X' y y' : RI X X' -> R y y' -> RI (hullIS X y) (hullIS X' y').
Proof. intros; dest. unfold hullIS. go. Qed.
Lemma p_hullSI X X' y y' : RI X X' -> R y y' -> RI (hullSI y X) (hullSI y' X').
Proof. intros; dest. unfold hullSI. go. Qed.
Lemma p_width X X' : RI X X' -> R (width X) (width X').
Proof. intros; dest. unfold width. base. Qed.
Lemma p_rad X X' : RI X X' -> R (rad X) (rad X').
Proof. intros; dest. unfold rad, shalf. base. Qed.
Lemma p_mid X X' : RI X X' -> R (mid X) (mid X').
Proof. intros; dest. unfold mid, shalf. go. Qed.
Lemma p_midrad X X' : RI X X' -> R (fst (midrad X)) (fst (midrad X')) /\ R (snd (midrad X)) (snd (midrad X')).
Proof.
  intros H. pose proof (p_mid _ _ H). dest. unfold midrad. cbv zeta. cbn [fst snd]. split; auto.
  apply (rif R); [cmp|intro; base|intro; base].
Qed.
Lemma p_mag X X' : RI X X' -> R (mag X) (mag X').
Proof. intros; dest. unfold mag. cbv zeta. go. Qed.
Lemma p_zero_in X X' : RI X X' -> zero_in X = zero_in X'.
Proof. intros; dest. unfold zero_in. go. Qed.
Lemma p_mig X X' : RI X X' -> R (mig X) (mig X').
Proof. intros H. pose proof (p_zero_in _ _ H). dest. unfold mig. apply (rif R); [auto|intro; base|intro]. go. Qed.
Lemma p_abs X X' : RI X X' -> RI (iabs X) (iabs X').
Proof. intros; dest. unfold iabs, ineg. cbv zeta. go. Qed.
Lemma p_max X X' Y Y' : RI X X' -> RI Y Y' -> RI (imax X Y) (imax X' Y').
Proof. intros; dest. unfold imax. go. Qed.
Lemma p_min X X' Y Y' : RI X X' -> RI Y Y' -> RI (imin X Y) (imin X' Y').
Proof. intros; dest. unfold imin. go. Qed.
Lemma p_floor X X' : RI X X' -> RI (ifloor X) (ifloor X').
Proof. intros; dest. unfold ifloor. go. Qed.
Lemma p_ceil X X' : RI X X' -> RI (iceil X) (iceil X').
Proof. intros; dest. unfold iceil. go. Qed.
Lemma p_intersect X X' Y Y' : RI X X' -> RI Y Y' -> RI (intersect X Y) (intersect X' Y').
Proof. intros; dest. unfold intersect. go. Qed.
Lemma p_in X X' y y' : RI X X' -> R y y' -> iin y X = iin y' X'.
Proof. intros; dest. unfold iin. go. Qed.
Lemma p_subset X X' Y Y' : RI X X' -> RI Y Y' -> isubset X Y = isubset X' Y'.
Proof. intros; dest. unfold isubset. go. Qed.
Lemma p_proper X X' Y Y' : RI X X' -> RI Y Y' -> iproper X Y = iproper X' Y'.
Proof. intros; dest. unfold iproper, isubset. go. Qed.
Lemma p_overlap X X' Y Y' : RI X X' -> RI Y Y' -> overlap X Y = overlap X' Y'.
Proof.
  intros; dest. unfold overlap. apply (r_le P); go.
Qed.
Lemma p_cmp X X' Y Y' : RI X X' -> RI Y Y' ->
  ilt X Y = ilt X' Y' /\ ile X Y = ile X' Y' /\ igt X Y = igt X' Y' /\ ige X Y = ige X' Y' /\ ieq X Y = ieq X' Y' /\ ineqb X Y = ineqb X' Y'.
Proof.
  intros H1 H2. unfold ineqb. rewrite (p_overlap _ _ _ _ H1 H2). dest. unfold ilt, ile, igt, ige, ieq.
  repeat apply conj; try cmp. reflexivity.
Qed.

(* in the remaining branch of division_part both ends of the divisor are non-zero *)
Lemma nz_mixed (Y : iv A) : ivalid Y -> slt s0 (lo Y) || slt (hi Y) s0 = false -> seqb (lo Y) s0 && seqb (hi Y) s0 = false ->
  slt (lo Y) s0 && seqb (hi Y) s0 = false -> seqb (lo Y) s0 && slt s0 (hi Y) = false ->
  seqb (lo Y) s0 = false /\ seqb (hi Y) s0 = false.
Proof.
  intros (W1 & W2 & V1 & V2 & V3) L1 L2 L3 L4. apply orb_false_iff in L1 as [La Lb].
  destruct (seqb (lo Y) s0) eqn:E1.
  - exfalso. simpl in L2, L4. apply (eq0_true OK) in E1; auto. apply (eq0_false OK) in L2; auto.
    apply (lt0_false OK) in L4; auto; [|destruct (sval (hi Y)); simpl in *; congruence || tauto].
    rewrite E1 in V3. destruct (sval (hi Y)); simpl in *; try tauto. apply L2. f_equal. lra.
  - split; auto. rewrite andb_false_l in L2. destruct (seqb (hi Y) s0) eqn:E2; auto. exfalso.
    rewrite andb_true_r in L3. apply (eq0_true OK) in E2; auto. apply (eq0_false OK) in E1; auto.
    apply (gt0_false OK) in L3; auto; [|destruct (sval (lo Y)); simpl in *; congruence || tauto].
    rewrite E2 in V3. destruct (sval (lo Y)); simpl in *; try tauto. apply E1. f_equal. lra.
Qed.
Lemma p_part1 X X' Y Y' : ivalid Y -> RI X X' -> RI Y Y' ->
  Rres (fun p q => RI (fst p) (fst q) /\ snd p = snd q) (division_part1 X Y) (division_part1 X' Y').
Proof.
  intros V HX HY. pose proof (p_div _ _ _ _ V HX HY) as D. pose proof V as V'. destruct V as (W1 & W2 & _).
  set (Q := fun p q => RI (fst p) (fst q) /\ snd p = snd q). dest.
  unfold division_part1, seq0, i0, iwhole.
  apply (rif (Rres Q)); [cmp| |intros L1].
  { intros _. destruct (idiv X Y), (idiv X' Y'); simpl in *; try tauto. split; auto. }
  apply (rif (Rres Q)); [cmp|intros _; reflexivity|intros L2].
  apply (rif (Rres Q)); [cmp|intros L|intros L3].
  { apply andb_true_iff in L as [L _]. pose proof (nz_neg _ W1 L). apply (rres_ok Q). split; [cbn [fst]|reflexivity].
    apply (rif RI); [cmp|intro; dv|intros _]. apply (rif RI); [cmp|intro; dv|intros _]. apply (rif RI); [cmp|intro; dv|intros _; dv]. }
  apply (rif (Rres Q)); [cmp|intros L|intros L4].
  { apply andb_true_iff in L as [_ L]. pose proof (nz_pos _ W2 L). apply (rres_ok Q). split; [cbn [fst]|reflexivity].
    apply (rif RI); [cmp|intro; dv|intros _]. apply (rif RI); [cmp|intro; dv|intros _]. apply (rif RI); [cmp|intro; dv|intros _; dv]. }
  destruct (nz_mixed Y) as [N1 N2]; auto.
  apply (rres_ok Q). unfold Q.
  apply (rif Q); [cmp|intro; split; [dv|reflexivity]|intros _].
  apply (rif Q); [cmp|intro; split; [dv|reflexivity]|intros _].
  apply (rif Q); [cmp|intro; split; [dv|reflexivity]|intros _]. split; [dv|reflexivity].
Qed.
Lemma p_part2 X X' Y Y' : ivalid Y -> RI X X' -> RI Y Y' -> Rres RI (division_part2 X Y) (division_part2 X' Y').
Proof.
  intros V HX HY. pose proof (p_div _ _ _ _ V HX HY) as D. pose proof V as V'. destruct V as (W1 & W2 & _). dest.
  unfold division_part2, seq0, i0, iwhole.
  apply (rif (Rres RI)); [cmp|auto|intros L1].
  apply (rif (Rres RI)); [cmp|intros _; reflexivity|intros L2].
  apply (rif (Rres RI)); [cmp|intros L|intros L3].
  { apply andb_true_iff in L as [L _]. pose proof (nz_neg _ W1 L). apply (rres_ok RI).
    apply (rif RI); [cmp|intro; dv|intros _]. apply (rif RI); [cmp|intro; dv|intros _]. apply (rif RI); [cmp|intro; dv|intros _; dv]. }
  apply (rif (Rres RI)); [cmp|intros L|intros L4].
  { apply andb_true_iff in L as [_ L]. pose proof (nz_pos _ W2 L). apply (rres_ok RI).
    apply (rif RI); [cmp|intro; dv|intros _]. apply (rif RI); [cmp|intro; dv|intros _]. apply (rif RI); [cmp|intro; dv|intros _; dv]. }
  destruct (nz_mixed Y) as [N1 N2]; auto. apply (rres_ok RI).
  apply (rif RI); [cmp|intro; dv|intros _]. apply (rif RI); [cmp|intro; dv|intros _]. apply (rif RI); [cmp|intro; dv|intros _; dv].
Qed.

Lemma p_pow_loop n : forall r r' x x', RI r r' -> RI x x' -> RI (pow_loop r x n) (pow_loop r' x' n).
Proof. induction n; simpl; intros; auto using p_mul. Qed.
Lemma p_pow_point x x' n : R x x' -> RI (pow_point x n) (pow_point x' n).
Proof.
  intros. unfold pow_point. destruct n; try (apply p_ipt; apply (r_1 P)).
  apply p_pow_loop; apply p_ipt; auto. apply (r_1 P).
Qed.
Lemma p_pow X X' n : ivalid X -> RI X X' -> Rres RI (ipow X n) (ipow X' n).
Proof.
  intros V H. unfold ipow. destruct (Z.eqb n 0) eqn:E0; [apply (rres_ok RI), p_ipt, (r_1 P)|].
  destruct (Z.eqb n (-2147483648)) eqn:En; [reflexivity|]. cbv zeta. rewrite (p_in X X' s0 s0) by (auto using (r_0 P)).
  set (a := Z.abs n).
  set (r := if Z.even a && iin s0 X' then hullSI s0 (pow_point (mag X) a) else hull (pow_point (lo X) a) (pow_point (hi X) a)).
  set (r' := if Z.even a && iin s0 X' then _ else _).
  assert (HR : RI r r').
  { unfold r, r'. destruct (Z.even a && iin s0 X').
    - apply p_hullSI; [apply p_pow_point, p_mag; auto|apply (r_0 P)].
    - destruct H. apply p_hull; apply p_pow_point; auto. }
  destruct (Z.ltb n 0); [|apply (rres_ok RI); auto].
  destruct (valid_isin X V) as [x Hx].
  assert (Vr : ivalid r).
  { eapply isin_valid. apply (ipow_pos OK X x a r Hx).
    - unfold a. apply Z.eqb_neq in E0. lia.
    - unfold r. rewrite (p_in X X' s0 s0) by (auto using (r_0 P)). reflexivity. }
  apply p_Sdiv; auto. apply (r_1 P).
Qed.
End Param.

(* equality of values for the double back ends *)
Definition vrel (x y : b64) : Prop := v64 x = v64 y.
Lemma vrel_cases x y : vrel x y -> x = y \/ (exists s t, x = B754_zero s /\ y = B754_zero t).
Proof.
  unfold vrel. intros H.
  destruct (is_finite x) eqn:Fx.
  - assert (Fy : is_finite y = true). { rewrite (v64_fin x Fx) in H. symmetry in H. apply v64_XR in H. tauto. }
    rewrite (v64_fin x Fx), (v64_fin y Fy) in H. injection H as H.
    destruct (is_finite_strict x) eqn:Sx.
    + left. assert (Sy : is_finite_strict y = true).
      { destruct y; simpl in *; auto; try discriminate. exfalso.
        destruct x; simpl in *; try discriminate. unfold F2R in H. simpl in H.
        pose proof (bpow_gt_0 radix2 e). destruct s0; simpl in H; [assert (IZR (Z.neg m) < 0) by (apply IZR_lt; lia)|assert (0 < IZR (Z.pos m)) by (apply IZR_lt; lia)]; nra. }
      apply B2R_inj; auto.
    + destruct x as [sx| | |]; try discriminate. destruct y as [sy| | |sy m e Hy]; simpl in *; try discriminate.
      * right. eauto.
      * exfalso. unfold F2R in H. simpl in H.
        pose proof (bpow_gt_0 radix2 e). destruct sy; simpl in H; [assert (IZR (Z.neg m) < 0) by (apply IZR_lt; lia)|assert (0 < IZR (Z.pos m)) by (apply IZR_lt; lia)]; nra.
  - left. destruct x as [|[]| |]; simpl in *; try discriminate;
    destruct y as [|[]| |]; simpl in *; congruence || auto.
Qed.
Section V.
Variables au ad su sd mu md du dd : b64 -> b64 -> b64. Variables qu qd : b64 -> b64.
Variables au' ad' su' sd' mu' md' du' dd' : b64 -> b64 -> b64. Variables qu' qd' : b64 -> b64.
Hypothesis I1 : ideal64 au ad su sd mu md du dd qu qd.
Hypothesis I2 : ideal64 au' ad' su' sd' mu' md' du' dd' qu' qd'.
Lemma srel64 : srel (mk64 au ad su sd mu md du dd qu qd) (mk64 au' ad' su' sd' mu' md' du' dd' qu' qd') vrel.
Proof.
  constructor; cbv [mk64 sT s0 s1 sdy spinf sninf slt sle seqb sneg sabs nadd nmul sfloor sceil addu addd subu subd mulu muld divu divd sqru sqrd]; try reflexivity; intros.
  - apply eq_true_iff_eq. rewrite !Bltb_v, H, H0. tauto.
  - apply eq_true_iff_eq. rewrite !Bleb_v, H, H0. tauto.
  - apply eq_true_iff_eq. rewrite !Beqb_v, H, H0. tauto.
  - unfold vrel. rewrite !Bopp_v, H. auto.
  - unfold vrel. rewrite !Babs_v, H. auto.
  - unfold vrel. rewrite !Bplus_v, H, H0. auto.
  - unfold vrel. rewrite !Bmult_v, H, H0. auto.
  - destruct (vrel_cases _ _ H) as [->|(s & t & -> & ->)]; reflexivity.
  - destruct (vrel_cases _ _ H) as [->|(s & t & -> & ->)]; reflexivity.
  - unfold vrel. rewrite (id_au _ _ _ _ _ _ _ _ _ _ I1), (id_au _ _ _ _ _ _ _ _ _ _ I2), H, H0. auto.
  - unfold vrel. rewrite (id_ad _ _ _ _ _ _ _ _ _ _ I1), (id_ad _ _ _ _ _ _ _ _ _ _ I2), H, H0. auto.
  - unfold vrel. rewrite (id_su _ _ _ _ _ _ _ _ _ _ I1), (id_su _ _ _ _ _ _ _ _ _ _ I2), H, H0. auto.
  - unfold vrel. rewrite (id_sd _ _ _ _ _ _ _ _ _ _ I1), (id_sd _ _ _ _ _ _ _ _ _ _ I2), H, H0. auto.
  - unfold vrel. rewrite (id_mu _ _ _ _ _ _ _ _ _ _ I1), (id_mu _ _ _ _ _ _ _ _ _ _ I2), H, H0. auto.
  - unfold vrel. rewrite (id_md _ _ _ _ _ _ _ _ _ _ I1), (id_md _ _ _ _ _ _ _ _ _ _ I2), H, H0. auto.
  - assert (v64 y <> XR 0). { intros E. apply not_true_iff_false in H1. apply H1, Beqb_v. rewrite E. simpl. auto. }
    unfold vrel. rewrite (id_du _ _ _ _ _ _ _ _ _ _ I1), (id_du _ _ _ _ _ _ _ _ _ _ I2), H, H0; auto. rewrite <- H0; auto.
  - assert (v64 y <> XR 0). { intros E. apply not_true_iff_false in H1. apply H1, Beqb_v. rewrite E. simpl. auto. }
    unfold vrel. rewrite (id_dd _ _ _ _ _ _ _ _ _ _ I1), (id_dd _ _ _ _ _ _ _ _ _ _ I2), H, H0; auto. rewrite <- H0; auto.
  - unfold vrel. rewrite (id_qu _ _ _ _ _ _ _ _ _ _ I1), (id_qu _ _ _ _ _ _ _ _ _ _ I2), H. auto.
  - unfold vrel. rewrite (id_qd _ _ _ _ _ _ _ _ _ _ I1), (id_qd _ _ _ _ _ _ _ _ _ _ I2), H. auto.
Qed.
End V.
