(* exp, expm1, sinh, cosh, tanh enclose. *)
From Coq Require Import Reals Lra Lia Psatz ZArith Bool.
From Flocq Require Import Core.
From Verif Require Import Ext Scalar IntervalModel IntervalSpec IntervalProofs IntervalEncl IntervalSets IntervalDivPow IntervalMore ElemModel RealFun RealConst RealInv ElemGen.
Open Scope R_scope.

(* what exp and its relatives need of T beyond scal_ok: constants enclose, and the argument
   splitting and the halving in ipower are exact *)
Definition maxv (S : scal) : R := match sval (@smax S) with XR r => r | _ => 0 end.
(* w stands for the endpoint e: its value, or any real beyond max() for an infinite endpoint *)
Definition rep (S : scal) (e : ext) (w : R) : Prop :=
  match e with XR v => w = v | Xp => maxv S <= w | Xm => w <= - maxv S | Xn => False end.
Record exp_laws (S : scal) (P : elemp S) : Prop := mkexp_laws {
  xl_e : isin (c_e P) (exp 1);
  xl_split : forall (x : S) v, swf x -> sval x = XR v -> exists k f,
    swf (fst (exp_split S x)) /\ swf (snd (exp_split S x)) /\
    sval (fst (exp_split S x)) = XR (IZR k) /\ sval (snd (exp_split S x)) = XR f /\ v = IZR k + f /\ Rabs f <= / 2;
  xl_half : forall (x : S) n, swf x -> sval x = XR (IZR n) ->
    swf (nmul x shalf) /\ sval (nmul x shalf) = XR (IZR n / 2);
  xl_floor : forall (x : S) v, swf x -> sval x = XR v -> swf (sfloor x) /\ sval (sfloor x) = XR (IZR (Zfloor v));
  xl_twice : forall (x : S) w, swf x -> rep S (sval x) w -> swf (nmul (sint S 2) x) /\ rep S (sval (nmul (sint S 2) x)) (2 * w);
  xl_mtwice : forall (x : S) w, swf x -> rep S (sval x) w -> swf (nmul (sint S (-2)) x) /\ rep S (sval (nmul (sint S (-2)) x)) (- 2 * w);
  xl_dmin : forall d, sval (@sdmin S) = XR d -> exp (- maxv S) <= d
}.

Section ElemExp.
Context {S : scal} (OK : scal_ok S) (P : elemp S) (L : exp_laws S P).
Implicit Types X Q : iv S.

Ltac inv H := let a := fresh "T" in let E := fresh "E" in apply bind_ok in H as (a & E & H).

Lemma ipower_loop_ok f : forall (i : S) n RR XP r b Q, swf i -> sval i = XR (IZR n) -> (0 <= n)%Z ->
  isin RR r -> isin XP b -> ipower_loop S f i RR XP = Ok Q -> isin Q (r * b ^ Z.to_nat n).
Proof.
  induction f as [|f IH]; intros i n RR XP r b Q W E N HR HX H; simpl in H;
  (destruct (seqb i s0) eqn:C; [apply (ok_eq _ OK) in C; auto; [|apply s0_wf; auto]; rewrite E, (s0_v OK) in C; simpl in C;
    apply eq_IZR in C; subst n; injection H as <-; simpl; rewrite Rmult_1_r; auto|]); [discriminate|].
  destruct (xl_half _ _ L i n W E) as [W1 E1].
  destruct (xl_floor _ _ L _ _ W1 E1) as [W2 E2].
  assert (EF : Zfloor (IZR n / 2) = (n / 2)%Z).
  { apply Zfloor_imp. pose proof (Z.div_mod n 2 ltac:(lia)). pose proof (Z.mod_pos_bound n 2 ltac:(lia)).
    assert (IZR n = 2 * IZR (n / 2) + IZR (n mod 2)) by (rewrite <- mult_IZR, <- plus_IZR; f_equal; lia).
    assert (0 <= IZR (n mod 2) <= 1) by (split; apply IZR_le; lia). rewrite plus_IZR. lra. }
  rewrite EF in E2.
  pose proof (Z.div_mod n 2 ltac:(lia)) as DM. pose proof (Z.mod_pos_bound n 2 ltac:(lia)) as MB.
  assert (D0 : (0 <= n / 2)%Z) by (apply Z.div_pos; lia).
  destruct (seqb (sfloor (nmul i shalf)) (nmul i shalf)) eqn:C2; simpl in H.
  - apply (ok_eq _ OK) in C2; auto. rewrite E1, E2 in C2. simpl in C2.
    assert (EE : n = (2 * (n / 2))%Z). { apply eq_IZR. rewrite mult_IZR. lra. }
    rewrite EE in E1. rewrite mult_IZR in E1. replace (2 * IZR (n / 2) / 2) with (IZR (n / 2)) in E1 by field.
    pose proof (IH _ _ _ _ _ _ _ W1 E1 D0 HR (isin_mul OK _ _ _ _ HX HX) H) as K.
    rewrite EE, Z2Nat.inj_mul by lia. rewrite pow_mult. simpl (b ^ Z.to_nat 2). rewrite Rmult_1_r. auto.
  - assert (NE : IZR (n / 2) <> IZR n / 2).
    { intros K. assert (seqb (sfloor (nmul i shalf)) (nmul i shalf) = true); [|congruence].
      apply (ok_eq _ OK); auto. rewrite E1, E2. simpl. auto. }
    assert (EE : n = (2 * (n / 2) + 1)%Z).
    { assert (C3 : (n mod 2 = 0 \/ n mod 2 = 1)%Z) by lia. destruct C3; [|lia]. elim NE.
      assert (n = 2 * (n / 2))%Z by lia. rewrite H1 at 2. rewrite mult_IZR. field. }
    pose proof (IH _ _ _ _ _ _ _ W2 E2 D0 (isin_mul OK _ _ _ _ HR HX) (isin_mul OK _ _ _ _ HX HX) H) as K.
    rewrite EE, Z2Nat.inj_add, Z2Nat.inj_mul by lia. rewrite pow_add, pow_mult. simpl (b ^ Z.to_nat 2). rewrite Rmult_1_r.
    simpl (b ^ Z.to_nat 1). rewrite Rmult_1_r. replace (r * ((b * b) ^ Z.to_nat (n / 2) * b)) with (r * b * (b * b) ^ Z.to_nat (n / 2)) by ring. auto.
Qed.
Lemma ipower_ok f (i : S) n X b Q : swf i -> sval i = XR (IZR n) -> (0 <= n)%Z -> isin X b ->
  ipower S f X i = Ok Q -> isin Q (b ^ Z.to_nat n).
Proof.
  intros W E N HX H. unfold ipower in H.
  assert (seqb i i = true) as C by (apply (ok_eq _ OK); auto; rewrite E; simpl; auto). rewrite C in H. simpl in H.
  rewrite <- (Rmult_1_l (b ^ _)). eapply ipower_loop_ok; eauto. apply isin_1; auto.
Qed.

Lemma exp_half : exp (/ 2) = sqrt (exp 1).
Proof.
  symmetry. apply sqrt_lem_1. left; apply exp_pos. left; apply exp_pos. rewrite <- exp_plus. f_equal. lra.
Qed.
Lemma exp_rem_ok Q t : exp_rem S P = Ok Q -> Rabs t <= / 2 -> isin Q (exp t).
Proof.
  intros H Ht. unfold exp_rem in H. inv H. inv H. inv H. injection H as <-.
  pose proof (xl_e _ _ L) as He.
  destruct (isin_sqrt OK _ _ _ E He) as [_ H1]. rewrite <- exp_half in H1.
  destruct (isin_sqrt OK _ _ _ E1 He) as [_ H3]. rewrite <- exp_half in H3.
  destruct (isin_Sdiv OK _ _ _ 1 _ E0 (s1_wf OK) (s1_v OK) H1) as [_ H2].
  apply Rabs_bnd in Ht. eapply isin_mk; eauto.
  replace (1 / exp (/ 2)) with (exp (- / 2)) by (rewrite exp_Ropp; field; apply Rgt_not_eq, exp_pos).
  split; apply exp_mono; lra.
Qed.

Lemma exp_point_ok f (x : S) v Q : swf x -> sval x = XR v -> exp_point S P f x = Ok Q -> isin Q (exp v).
Proof.
  intros W E H. unfold exp_point in H.
  assert (C1 : seqb x spinf = false).
  { apply not_true_is_false. intros C. apply (ok_eq _ OK) in C; auto; [|apply (ok_pinf _ OK)]. destruct (ok_pinf _ OK) as [_ Z]. rewrite Z, E in C. auto. }
  assert (C2 : seqb x sninf = false).
  { apply not_true_is_false. intros C. apply (ok_eq _ OK) in C; auto; [|apply (ok_ninf _ OK)]. destruct (ok_ninf _ OK) as [_ Z]. rewrite Z, E in C. auto. }
  rewrite C1, C2 in H. inv H. rename E0 into HR.
  destruct (xl_split _ _ L x v W E) as (k & g & W1 & W2 & E1 & E2 & EV & HG).
  destruct (exp_split S x) as [xi xf]. simpl in *.
  inv H. rename E0 into HL.
  assert (HT : isin T0 (exp g)).
  { rewrite <- (Rminus_0_r (exp g)).
    eapply (exp_loop_ok OK f xf g T 0 0); eauto.
    - intros t Ht. eapply exp_rem_ok; eauto. pose proof (btw_abs _ _ Ht). lra.
    - change (isin (ipt (@s1 S)) (0 + exp_term g 0 - 0)). rewrite exp_term_0. replace (0 + 1 - 0) with 1 by ring. apply isin_1; auto.
    - rewrite exp_term_0. apply isin_1; auto. }
  assert (EP : forall n, exp 1 ^ n = exp (INR n)).
  { induction n; [simpl; rewrite exp_0; auto|]. rewrite S_INR, exp_plus, <- IHn. simpl. ring. }
  destruct (sle s0 xi) eqn:C.
  - inv H. injection H as <-. apply (ok_le _ OK) in C; auto; [|apply s0_wf; auto]. rewrite (s0_v OK), E1 in C. simpl in C.
    apply le_IZR in C. pose proof (ipower_ok _ _ _ _ _ _ W1 E1 C (xl_e _ _ L) E0) as HP.
    rewrite EP, INR_IZR_INZ, Z2Nat.id in HP by auto. rewrite EV, Rplus_comm, exp_plus. apply isin_mul; auto.
  - inv H. assert (KN : (0 <= - k)%Z).
    { apply (sle_false OK) in C; auto; try apply s0_wf; auto. rewrite (s0_v OK), E1 in C. simpl in C. apply lt_IZR in C. lia.
      rewrite (s0_v OK); discriminate. congruence. }
    assert (E3 : sval (sneg xi) = XR (IZR (- k))). { rewrite (sneg_v OK), E1 by auto. simpl. rewrite opp_IZR. auto. }
    pose proof (ipower_ok _ _ _ _ _ _ (sneg_wf OK _ W1) E3 KN (xl_e _ _ L) E0) as HP.
    rewrite EP, INR_IZR_INZ, Z2Nat.id in HP by auto.
    destruct (isin_div OK _ _ _ _ _ H HT HP) as [_ HD].
    rewrite EV. replace (exp (IZR k + g)) with (exp g / exp (IZR (- k))); auto.
    rewrite opp_IZR, exp_Ropp, exp_plus. field. apply Rgt_not_eq, exp_pos.
Qed.


Lemma maxv_v : sval (@smax S) = XR (maxv S) /\ 0 < maxv S.
Proof. unfold maxv. destruct (ok_max _ OK) as [W (r & E & H)]. rewrite E. auto. Qed.
Lemma rep_neg (x : S) w : swf x -> rep S (sval x) w -> rep S (sval (sneg x)) (- w).
Proof. intros W H. rewrite (sneg_v OK) by auto. destruct (sval x); simpl in *; lra. Qed.
(* also at the infinite endpoints *)
Lemma exp_point_rep f (x : S) w Q : swf x -> rep S (sval x) w -> exp_point S P f x = Ok Q -> isin Q (exp w).
Proof.
  intros W R H. destruct (sval x) eqn:E; simpl in R; try tauto.
  - subst. eapply exp_point_ok; eauto.
  - unfold exp_point in H. destruct (ok_pinf _ OK) as [WI EI].
    assert (C1 : seqb x spinf = true) by (apply (ok_eq _ OK); auto; rewrite E, EI; simpl; auto).
    rewrite C1 in H. injection H as <-. destruct maxv_v as [EM _]. apply isin_ends; simpl; auto; try apply (ok_max _ OK).
    + rewrite EM. simpl. pose proof (exp_ge_x w). lra.
    + rewrite EI. simpl. auto.
  - unfold exp_point in H. destruct (ok_pinf _ OK) as [WI EI]. destruct (ok_ninf _ OK) as [WJ EJ].
    assert (C1 : seqb x spinf = false).
    { apply not_true_is_false. intros C. apply (ok_eq _ OK) in C; auto. rewrite EI, E in C. auto. }
    assert (C2 : seqb x sninf = true) by (apply (ok_eq _ OK); auto; rewrite E, EJ; simpl; auto).
    rewrite C1, C2 in H. injection H as <-. destruct (ok_dmin _ OK) as [WD (d & ED & HD)].
    apply isin_ends; simpl; auto; try apply (ok_s0 _ OK).
    + rewrite (s0_v OK). simpl. left; apply exp_pos.
    + rewrite ED. simpl. eapply Rle_trans; [|apply (xl_dmin _ _ L _ ED)]. apply exp_mono. auto.
Qed.

(* functions evaluated at the two endpoints *)
Lemma by_ends_mono p g X x Q :
  (forall a b, a <= b -> g a <= g b) ->
  (forall e w Q, swf e -> rep S (sval e) w -> p e = Ok Q -> isin Q (g w)) ->
  by_ends S p X = Ok Q -> isin X x -> isin Q (g x).
Proof.
  intros M HP H (W1 & W2 & A & B). unfold by_ends in H. inv H. inv H. injection H as <-.
  assert (exists a, rep S (sval (lo X)) a /\ a <= x) as (a & Ha & La).
  { destruct (sval (lo X)) as [v| | |]; simpl in A; try tauto.
    - exists v. simpl. auto. - exists (Rmin x (- maxv S)). simpl. split; [apply Rmin_r|apply Rmin_l]. }
  assert (exists b, rep S (sval (hi X)) b /\ x <= b) as (b & Hb & Lb).
  { destruct (sval (hi X)) as [v| | |]; simpl in B; try tauto.
    - exists v. simpl. auto. - exists (Rmax x (maxv S)). simpl. split; [apply Rmax_r|apply Rmax_l]. }
  pose proof (HP _ _ _ W1 Ha E). pose proof (HP _ _ _ W2 Hb E0).
  eapply isin_mk; eauto.
Qed.
Lemma iexp_encl f X x Q : iexp S P f X = Ok Q -> isin X x -> isin Q (exp x).
Proof. apply by_ends_mono. apply exp_mono. intros. eapply exp_point_rep; eauto. Qed.

Lemma half_test (x : S) : swf x -> sle (sneg shalf) x && sle x shalf = true ->
  exists v, sval x = XR v /\ Rabs v <= / 2.
Proof.
  intros W H. apply andb_true_iff in H as [H1 H2].
  apply (ok_le _ OK) in H1; auto; [|apply sneg_wf; auto; apply shalf_wf; auto].
  apply (ok_le _ OK) in H2; auto; [|apply shalf_wf; auto].
  rewrite (sneg_v OK), (shalf_v OK) in * by (apply shalf_wf; auto). simpl in *.
  destruct (sval x); simpl in *; try tauto. exists r. split; auto. apply Rabs_le. lra.
Qed.
Lemma expm1_point_rep f (x : S) w Q : swf x -> rep S (sval x) w -> expm1_point S P f x = Ok Q -> isin Q (exp w - 1).
Proof.
  intros W R H. unfold expm1_point in H. destruct (sle (sneg shalf) x && sle x shalf) eqn:C.
  - destruct (half_test _ W C) as (v & E & HV). rewrite E in R. simpl in R. subst w.
    unfold expm1_origin in H. inv H.
    eapply (exp_loop_ok OK f x v T 0 1); eauto.
    + intros t Ht. eapply exp_rem_ok; eauto. pose proof (btw_abs _ _ Ht). lra.
    + change (isin (ipt (@s0 S)) (0 + exp_term v 0 - 1)). rewrite exp_term_0. replace (0 + 1 - 1) with 0 by ring. apply isin_0; auto.
    + rewrite exp_term_0. apply isin_1; auto.
  - inv H. injection H as <-. pose proof (exp_point_rep _ _ _ _ W R E).
    apply (isin_subS OK); auto. apply s1_wf; auto. apply s1_v; auto.
Qed.
Lemma iexpm1_encl f X x Q : iexpm1 S P f X = Ok Q -> isin X x -> isin Q (exp x - 1).
Proof.
  apply (by_ends_mono _ (fun x => exp x - 1)). intros; pose proof (exp_mono a b); lra.
  intros. eapply expm1_point_rep; eauto.
Qed.

(* sinh *)
Lemma coshh_ok Q : coshh S P = Ok Q -> isin Q (cosh (/ 2)).
Proof.
  intros H. unfold coshh in H. inv H. inv H. injection H as <-.
  pose proof (xl_e _ _ L) as He. destruct (isin_sqrt OK _ _ _ E He) as [_ H1]. rewrite <- exp_half in H1.
  destruct (isin_Sdiv OK _ _ _ 1 _ E0 (s1_wf OK) (s1_v OK) H1) as [_ H2].
  replace (cosh (/ 2)) with ((exp (/ 2) + 1 / exp (/ 2)) * / 2).
  - apply (isin_mulS OK); try apply shalf_wf; try apply shalf_v; auto. apply isin_add; auto.
  - unfold cosh. rewrite exp_Ropp. field. apply Rgt_not_eq, exp_pos.
Qed.
Lemma sinh_origin_ok f (x : S) v Q : swf x -> sval x = XR v -> Rabs v <= / 2 -> sinh_origin S P f x = Ok Q -> isin Q (sinh v).
Proof.
  intros W E HV H. unfold sinh_origin in H. inv H. pose proof (coshh_ok _ E0) as (A1&A2&A3&A4).
  eapply (sinh_loop_ok OK f x v _ 0); eauto.
  - intros d Hd. apply Rabs_bnd in Hd. apply isin_ends; simpl; auto using sneg_wf.
    + rewrite (sneg_v OK) by auto. destruct (sval (hi T)); simpl in *; auto; try tauto; lra.
    + eapply ub_le; eauto. lra.
  - change (isin (ipt (@s0 S)) (0 + 0 * exp_term v 0)). replace (0 + 0 * exp_term v 0) with 0 by ring. apply isin_0; auto.
  - rewrite exp_term_0. apply isin_1; auto.
Qed.
Lemma isin_half X x : isin X x -> isin (imulS X shalf) (x * / 2).
Proof. intros. apply (isin_mulS OK); auto. apply shalf_wf; auto. apply shalf_v; auto. Qed.
Lemma isin_inv X x Q : iSdiv s1 X = Ok Q -> isin X x -> isin Q (1 / x).
Proof. intros. eapply isin_Sdiv; eauto. apply s1_wf; auto. apply s1_v; auto. Qed.
Lemma sinh_point_rep f (x : S) w Q : swf x -> rep S (sval x) w -> sinh_point S P f x = Ok Q -> isin Q (sinh w).
Proof.
  intros W R H. unfold sinh_point in H. destruct (sle (sneg shalf) x && sle x shalf) eqn:C.
  - destruct (half_test _ W C) as (v & E & HV). rewrite E in R. simpl in R. subst w. eapply sinh_origin_ok; eauto.
  - destruct (slt s0 x).
    + inv H. inv H. injection H as <-. pose proof (exp_point_rep _ _ _ _ W R E).
      pose proof (isin_inv _ _ _ E0 H).
      replace (sinh w) with ((exp w - 1 / exp w) * / 2) by (unfold sinh; rewrite exp_Ropp; field; apply Rgt_not_eq, exp_pos).
      apply isin_half, isin_sub; auto.
    + inv H. inv H. injection H as <-. pose proof (exp_point_rep _ _ _ _ (sneg_wf OK _ W) (rep_neg _ _ W R) E).
      pose proof (isin_inv _ _ _ E0 H).
      replace (sinh w) with ((1 / exp (- w) - exp (- w)) * / 2) by (unfold sinh; rewrite exp_Ropp; field; apply Rgt_not_eq, exp_pos).
      apply isin_half, isin_sub; auto.
Qed.
Lemma isinh_encl f X x Q : isinh S P f X = Ok Q -> isin X x -> isin Q (sinh x).
Proof. apply by_ends_mono. apply sinh_mono. intros. eapply sinh_point_rep; eauto. Qed.
(* cosh *)
Lemma cosh_point_rep f (x : S) w Q : swf x -> rep S (sval x) w -> cosh_point S P f x = Ok Q -> isin Q (cosh w).
Proof.
  intros W R H. unfold cosh_point in H. destruct (sle s0 x).
  - inv H. inv H. injection H as <-. pose proof (exp_point_rep _ _ _ _ W R E).
    pose proof (isin_inv _ _ _ E0 H).
    replace (cosh w) with ((exp w + 1 / exp w) * / 2) by (unfold cosh; rewrite exp_Ropp; field; apply Rgt_not_eq, exp_pos).
    apply isin_half, isin_add; auto.
  - inv H. inv H. injection H as <-. pose proof (exp_point_rep _ _ _ _ (sneg_wf OK _ W) (rep_neg _ _ W R) E).
    pose proof (isin_inv _ _ _ E0 H).
    replace (cosh w) with ((1 / exp (- w) + exp (- w)) * / 2) by (unfold cosh; rewrite exp_Ropp; field; apply Rgt_not_eq, exp_pos).
    apply isin_half, isin_add; auto.
Qed.
Lemma cosh_opp x : cosh (- x) = cosh x.
Proof. unfold cosh. rewrite Ropp_involutive. lra. Qed.
Lemma isin_hullIS X s r p : isin X p -> swf s -> sval s = XR r -> forall z, r <= z <= p \/ p <= z <= r -> isin (hullIS X s) z.
Proof.
  intros H W E z HZ. change (hullIS X s) with (hull X (ipt s)).
  eapply (isin_hull_mid OK _ _ p r); eauto. apply isin_pt; auto. tauto.
Qed.
Lemma icosh_encl f X x Q : icosh S P f X = Ok Q -> isin X x -> isin Q (cosh x).
Proof.
  intros H HX. pose proof HX as (W1 & W2 & A & B). unfold icosh in H. inv H. inv H. injection H as <-.
  assert (exists a, rep S (sval (lo X)) a /\ a <= x) as (a & Ha & La).
  { destruct (sval (lo X)) as [v| | |]; simpl in A; try tauto.
    - exists v. simpl. auto. - exists (Rmin x (- maxv S)). simpl. split; [apply Rmin_r|apply Rmin_l]. }
  assert (exists b, rep S (sval (hi X)) b /\ x <= b) as (b & Hb & Lb).
  { destruct (sval (hi X)) as [v| | |]; simpl in B; try tauto.
    - exists v. simpl. auto. - exists (Rmax x (maxv S)). simpl. split; [apply Rmax_r|apply Rmax_l]. }
  pose proof (cosh_point_rep _ _ _ _ W1 Ha E) as HA. pose proof (cosh_point_rep _ _ _ _ W2 Hb E0) as HB.
  pose proof (isin_valid _ _ HA) as VA. pose proof (isin_valid _ _ HB) as VB.
  assert (UP : cosh x <= cosh a \/ cosh x <= cosh b).
  { destruct (Rle_or_lt 0 x); [right; apply cosh_mono; lra|left]. rewrite <- (cosh_opp x), <- (cosh_opp a). apply cosh_mono; lra. }
  unfold ext_if. destruct (zero_in X) eqn:Z.
  - pose proof (cosh_pos x). destruct UP as [U|U].
    + eapply (isin_hullIS _ _ 1 (cosh a)); try apply s1_wf; try apply s1_v; auto. apply isin_hull_l; auto.
    + eapply (isin_hullIS _ _ 1 (cosh b)); try apply s1_wf; try apply s1_v; auto. apply isin_hull_r; auto.
  - assert (N : ~ (a <= 0 /\ 0 <= b)).
    { intros [N1 N2]. assert (zero_in X = true); [|congruence]. apply (zero_in_spec OK); [eapply isin_valid; eauto|]. apply isin_ends; auto.
      - destruct (sval (lo X)) as [v| | |]; simpl in *; auto; lra.
      - destruct (sval (hi X)) as [v| | |]; simpl in *; auto; lra. }
    eapply (isin_hull_mid OK); eauto. destruct (Rle_or_lt a 0).
    + right. rewrite <- (cosh_opp x), <- (cosh_opp a), <- (cosh_opp b). split; apply cosh_mono; lra.
    + left. split; apply cosh_mono; lra.
Qed.
(* tanh *)
Lemma tanh_point_rep f (x : S) w Q : swf x -> rep S (sval x) w -> tanh_point S P f x = Ok Q -> isin Q (tanh w).
Proof.
  intros W R H. unfold tanh_point in H.
  assert (W2 : swf (sint S 2) /\ sval (sint S 2) = XR 2) by (apply (sint_ok OK); lia). destruct W2 as [W2 E2].
  destruct (slt shalf x) eqn:C1; [|destruct (slt x (sneg shalf)) eqn:C2].
  - inv H. inv H. injection H as <-. destruct (xl_twice _ _ L x w W R) as [W3 R3].
    pose proof (exp_point_rep _ _ _ _ W3 R3 E) as K.
    rewrite tanh_exp. apply (isin_Ssub OK); try apply s1_wf; try apply s1_v; auto.
    eapply (isin_Sdiv OK); eauto. apply (isin_Sadd OK); try apply s1_wf; try apply s1_v; auto.
  - inv H. inv H. injection H as <-. destruct (xl_mtwice _ _ L x w W R) as [W3 R3].
    pose proof (exp_point_rep _ _ _ _ W3 R3 E) as K.
    rewrite tanh_exp_neg. apply (isin_subS OK); try apply s1_wf; try apply s1_v; auto.
    eapply (isin_Sdiv OK); eauto. apply (isin_Sadd OK); try apply s1_wf; try apply s1_v; auto.
  - inv H. inv H. 
    assert (exists v, sval x = XR v /\ Rabs v <= / 2) as (v & EV & HV).
    { pose proof (sneg_v OK _ (shalf_wf OK)) as E3. rewrite (shalf_v OK) in E3. simpl in E3.
      assert (sval x <> Xn) by (destruct (sval x); simpl in R; congruence || tauto).
      apply (slt_false OK) in C1; try apply shalf_wf; auto; [|rewrite (shalf_v OK); discriminate].
      apply (slt_false OK) in C2; try apply sneg_wf; try apply shalf_wf; auto; [|rewrite E3; discriminate].
      rewrite E3, (shalf_v OK) in *. destruct (sval x); simpl in *; try tauto. exists r. split; auto. apply Rabs_le. lra. }
    pose proof R as R'. rewrite EV in R'. simpl in R'. subst w.
    pose proof (sinh_origin_ok _ _ _ _ W EV HV E). pose proof (cosh_point_rep _ _ _ _ W R E0).
    eapply (isin_div OK); eauto.
Qed.
Lemma itanh_encl f X x Q : itanh S P f X = Ok Q -> isin X x -> isin Q (tanh x).
Proof. apply by_ends_mono. apply tanh_mono. intros. eapply tanh_point_rep; eauto. Qed.
End ElemExp.
