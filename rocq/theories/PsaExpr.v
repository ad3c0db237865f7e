(* Power series arithmetic: inverse functions in mode 1, expressions, integration, change of order. *)
From Coq Require Import Reals ZArith Bool List Lra Lia Psatz Arith.
From Coquelicot Require Import Coquelicot.
From Verif Require Import Ext RealFun RealConst ADModel ADReal ADProofs PsaModel PsaReal PsaProofs.
Import ListNotations.
Open Scope R_scope.

(* subexpressions whose value is a series of size 1: no variable, or only variables bound to series of size 1 (vc) *)
Fixpoint pfreev (vc : nat -> bool) (e : aexpr) : bool :=
  match e with
  | XVar i => vc i | XCst _ _ => true
  | XAdd a b | XSub a b | XMul a b | XDiv a b | XPow a b => pfreev vc a && pfreev vc b
  | XPowZ a n => (n =? 0)%Z || pfreev vc a
  | XSc _ _ _ a | XNeg a | XFun _ a => pfreev vc a
  end.
Notation pfree := (pfreev (fun _ => false)).
Lemma pfreev_const vc n e : pfreev vc e = true -> awf n e -> forall x y, (forall i, (i < n)%nat -> vc i = true -> x i = y i) -> rval e x = rval e y.
Proof.
  induction e; simpl; intros H W x y HE; auto;
  try (apply andb_true_iff in H as [H1 H2]; destruct W as [W1 W2]; now rewrite (IHe1 H1 W1 x y HE), (IHe2 H2 W2 x y HE));
  try (destruct W as [W1 W2]); try (now rewrite (IHe H W2 x y HE)); try (now rewrite (IHe H W x y HE)).
  apply orb_true_iff in H as [H|H]; [apply Z.eqb_eq in H; subst; reflexivity|now rewrite (IHe H W1 x y HE)].
Qed.
Lemma pfree_const e : pfree e = true -> forall x y, rval e x = rval e y.
Proof.
  induction e; simpl; intros H x y; auto; try discriminate;
  try (apply andb_true_iff in H as [H1 H2]; now rewrite (IHe1 H1 x y), (IHe2 H2 x y));
  try (now rewrite (IHe H x y)).
  apply orb_true_iff in H as [H|H]; [apply Z.eqb_eq in H; subst; reflexivity|now rewrite (IHe H x y)].
Qed.
(* the logarithm (or real power) of such a subexpression is taken of a positive number; x0 gives the values of the variables of vc *)
Fixpoint plogv (vc : nat -> bool) (x0 : nat -> R) (e : aexpr) : Prop :=
  match e with
  | XVar _ | XCst _ _ => True
  | XAdd a b | XSub a b | XMul a b | XDiv a b => plogv vc x0 a /\ plogv vc x0 b
  | XPow a b => plogv vc x0 a /\ plogv vc x0 b /\ (pfreev vc a = true -> 0 < rval a x0)
  | XSc _ _ _ a | XNeg a | XPowZ a _ => plogv vc x0 a
  | XFun f a => plogv vc x0 a /\ (f = Alog -> pfreev vc a = true -> 0 < rval a x0)
  end.
Notation plog := (plogv (fun _ => false) (fun _ => 0)).
(* no inverse trigonometric or inverse hyperbolic function *)
Fixpoint noarc (e : aexpr) : bool :=
  match e with
  | XVar _ | XCst _ _ => true
  | XAdd a b | XSub a b | XMul a b | XDiv a b | XPow a b => noarc a && noarc b
  | XSc _ _ _ a | XNeg a | XPowZ a _ => noarc a
  | XFun f a => negb (is_arc f) && noarc a
  end.

Section Len.
Variable B : base.
Variables (m : Z) (D : B) (s : nat).
Hypothesis S2 : (2 <= s)%nat.
Definition ln1 (X : list B) (b : bool) : Prop := length X = if b then 1%nat else s.
Lemma head_len (g : B -> B) X Y : head g X = Ok Y -> length Y = length X.
Proof. destruct X; [discriminate|]. simpl. intros H. apply oki in H. now subst Y. Qed.
Lemma zipM_len (g : B -> B -> res B) X Y U : zipM g X Y = Ok U -> length U = length X /\ length U = length Y.
Proof. intros H. apply zipM_ok in H as (L & L' & _). lia. Qed.
Lemma add_len X Y U b c : ps_add X Y = Ok U -> ln1 X b -> ln1 Y c -> ln1 U (b && c).
Proof.
  unfold ln1. intros E HX HY. unfold ps_add in E. destruct X as [|x [|x' X]]; try discriminate; destruct Y as [|y [|y' Y]]; try discriminate;
  try (apply head_len in E; rewrite E); try (apply zipM_len in E as [E E']; rewrite E); destruct b, c; simpl in *; auto; lia.
Qed.
Lemma sub_len X Y U b c : ps_sub X Y = Ok U -> ln1 X b -> ln1 Y c -> ln1 U (b && c).
Proof.
  unfold ln1. intros E HX HY. unfold ps_sub in E. destruct X as [|x [|x' X]]; try discriminate; destruct Y as [|y [|y' Y]]; try discriminate;
  try (apply head_len in E; rewrite E); rewrite ?map_length; try (apply zipM_len in E as [E E']; rewrite E); destruct b, c; simpl in *; rewrite ?map_length; auto; lia.
Qed.
Lemma Tmul_len (a : B) X : length (ps_Tmul a X) = length X. Proof. apply map_length. Qed.
Lemma mulT_len (a : B) X : length (ps_mulT X a) = length X. Proof. apply map_length. Qed.
Lemma mul_len X Y U b c : ps_mul m D X Y = Ok U -> ln1 X b -> ln1 Y c -> ln1 U (b && c).
Proof.
  unfold ln1. intros E HX HY. unfold ps_mul in E. destruct X as [|x [|x' X]]; try discriminate; destruct Y as [|y [|y' Y]]; try discriminate.
  - apply oki in E. subst U. rewrite Tmul_len. destruct b, c; simpl in *; auto; lia.
  - apply oki in E. subst U. rewrite Tmul_len. destruct b, c; simpl in *; auto; lia.
  - apply oki in E. subst U. rewrite mulT_len. destruct b, c; simpl in *; auto; lia.
  - destruct b, c; simpl andb; try (simpl in *; lia). destruct (_ <=? _)%nat; [|discriminate].
    destruct (m =? 2)%Z; apply oki in E; subst U; rewrite app_length, map_length, seq_length; simpl in *; lia.
Qed.
Lemma tay_len {St} (stp : nat -> bool -> St -> res (B * St)) n g b cnt i hn r st out : tay stp m D n g cnt i hn r st = Ok out -> ln1 g b ->
  forall ch cr, (ch = true \/ ch = b) -> (cr = true \/ cr = b) -> ln1 hn ch -> ln1 r cr -> ln1 out (cr && match cnt with O => true | _ => b end).
Proof.
  intros H HG. revert i hn r st H. induction cnt; simpl; intros i hn r st H ch cr Hc Hr LH LR.
  - apply oki in H. subst out. now rewrite andb_true_r.
  - apply bind_ok in H as (hn' & Eh & H). apply bind_ok in H as (q & Eq & H). apply bind_ok in H as (r' & Er & H).
    pose proof (mul_len _ _ _ _ _ Eh LH HG) as LH'.
    assert (LT : ln1 (ps_Tmul (fst q) hn') (ch && b)) by (unfold ln1; rewrite Tmul_len; auto).
    pose proof (add_len _ _ _ _ _ Er LR LT) as LR'.
    apply IHcnt with (ch := (ch && b)) (cr := (cr && (ch && b))) in H; auto.
    + replace (cr && b) with (cr && (ch && b) && match cnt with 0%nat => true | S _ => b end); auto. destruct Hc, Hr, b, cnt; subst; auto.
    + destruct Hc; subst; destruct b; auto.
    + destruct Hc, Hr; subst; destruct b; auto.
Qed.
Lemma ps_tay_len {St} (stp : nat -> bool -> St -> res (B * St)) X g r0 st out b : ps_tay stp m D X g r0 st = Ok out -> ln1 X b -> ln1 g b -> ln1 out b.
Proof.
  intros H LX LG. unfold ps_tay in H. apply bind_ok in H as (r & Hr & H). apply oki in H. subst out. unfold ln1. rewrite mulT_len.
  apply tay_len with (b := b) (ch := true) (cr := true) in Hr; auto; try reflexivity.
  unfold ln1 in *. rewrite Hr. destruct b; simpl; auto.
  - destruct (length X - 1)%nat; auto.
  - destruct (length X - 1)%nat eqn:E; [lia|auto].
Qed.
Lemma h_len (X : list B) : length (ps_h X) = length X. Proof. now destruct X. Qed.
Lemma h_ln1 X b : ln1 X b -> ln1 (ps_h X) b. Proof. unfold ln1. now rewrite h_len. Qed.
Lemma divT_ln1 X a Y b : ps_divT X a = Ok Y -> ln1 X b -> ln1 Y b.
Proof. intros E. apply mapM_ok in E as [L _]. unfold ln1. now rewrite L. Qed.
Lemma inv_len X Y b : ps_inv m D X = Ok Y -> ln1 X b -> ln1 Y b.
Proof.
  intros E LX. destruct X as [|a X]; [discriminate|]. unfold ps_inv in E.
  apply bind_ok in E as (ia & Eia & E). apply bind_ok in E as (x2 & Ex2 & E). apply bind_ok in E as (g & Eg & E).
  eapply ps_tay_len; eauto. eapply divT_ln1; eauto.
Qed.
Lemma Tdiv_len a X Y b : ps_Tdiv m D a X = Ok Y -> ln1 X b -> ln1 Y b.
Proof. intros E LX. unfold ps_Tdiv in E. apply bind_ok in E as (i & Ei & E). apply oki in E. subst Y. unfold ln1. rewrite Tmul_len. now apply (inv_len X). Qed.
Lemma div_len X Y U b c : ps_div m D X Y = Ok U -> ln1 X b -> ln1 Y c -> ln1 U (b && c).
Proof. intros E LX LY. unfold ps_div in E. apply bind_ok in E as (i & Ei & E). eapply mul_len; eauto. eapply inv_len; eauto. Qed.
Lemma log_len X Y b : ps_log m D X = Ok Y -> ln1 X b -> ln1 Y b.
Proof. intros E LX. destruct X as [|a X]; [discriminate|]. unfold ps_log in E. apply bind_ok in E as (l & El & E). eapply ps_tay_len; eauto. Qed.
Lemma exp_len X Y b : ps_exp m D X = Ok Y -> ln1 X b -> ln1 Y b.
Proof. intros E LX. destruct X as [|a X]; [discriminate|]. unfold ps_exp in E. apply bind_ok in E as (l & El & E). eapply ps_tay_len; eauto. Qed.
Lemma sqrt_len X Y b : ps_sqrt m D X = Ok Y -> ln1 X b -> ln1 Y b.
Proof.
  intros E LX. destruct X as [|a X]; [discriminate|]. unfold ps_sqrt in E.
  apply bind_ok in E as (sa & Esa & E). apply bind_ok in E as (xn & Exn & E). apply bind_ok in E as (x2 & Ex2 & E). eapply ps_tay_len; eauto.
Qed.
Lemma fun_len g X Y b : ps_fun g m D X = Ok Y -> ln1 X b -> ln1 Y b.
Proof.
  intros E LX.
  assert (AR : ps_arc g m D X = Ok Y -> ln1 Y b).
  { intros E'. destruct X as [|a X]; [discriminate|]. unfold ps_arc in E'. apply bind_ok in E' as (u & _ & E'). apply bind_ok in E' as (v & _ & E').
    apply bind_ok in E' as (d & _ & E'). apply bind_ok in E' as (ii & _ & E'). apply bind_ok in E' as (T & _ & E'). eapply ps_tay_len; eauto. }
  assert (SI : forall Z, ps_sin m D X = Ok Z -> ln1 Z b). { intros Z E'. destruct X as [|a X]; [discriminate|]. unfold ps_sin in E'. apply bind_ok in E' as (u & _ & E'). apply bind_ok in E' as (v & _ & E'). eapply ps_tay_len; eauto. }
  assert (CO : forall Z, ps_cos m D X = Ok Z -> ln1 Z b). { intros Z E'. destruct X as [|a X]; [discriminate|]. unfold ps_cos in E'. apply bind_ok in E' as (u & _ & E'). apply bind_ok in E' as (v & _ & E'). eapply ps_tay_len; eauto. }
  assert (SH : forall Z, ps_sinh m D X = Ok Z -> ln1 Z b). { intros Z E'. destruct X as [|a X]; [discriminate|]. unfold ps_sinh in E'. apply bind_ok in E' as (u & _ & E'). apply bind_ok in E' as (v & _ & E'). eapply ps_tay_len; eauto. }
  assert (CH : forall Z, ps_cosh m D X = Ok Z -> ln1 Z b). { intros Z E'. destruct X as [|a X]; [discriminate|]. unfold ps_cosh in E'. apply bind_ok in E' as (u & _ & E'). apply bind_ok in E' as (v & _ & E'). eapply ps_tay_len; eauto. }
  destruct g; cbn [ps_fun] in E; auto.
  - eapply exp_len; eauto.
  - eapply log_len; eauto.
  - eapply sqrt_len; eauto.
  - apply bind_ok in E as (u & Eu & E). apply bind_ok in E as (v & Ev & E). rewrite <- (andb_diag b). eapply div_len; eauto.
  - apply bind_ok in E as (u & Eu & E). apply bind_ok in E as (v & Ev & E). rewrite <- (andb_diag b). eapply div_len; eauto.
Qed.
Lemma powloop_len p r xp Y b c : ps_pow_loop m D p r xp = Ok Y -> ln1 r c -> ln1 xp b -> ln1 Y (c && b).
Proof.
  revert r xp c. induction p; cbn [ps_pow_loop]; intros r xp c E LR LX.
  - apply bind_ok in E as (r' & Er & E). apply bind_ok in E as (x2 & Ex & E). replace (c && b) with ((c && b) && b) by (destruct b, c; auto).
    eapply IHp; [exact E| |]; [eapply mul_len; eauto|rewrite <- (andb_diag b); eapply mul_len; eauto].
  - apply bind_ok in E as (x2 & Ex & E). eapply IHp; [exact E|auto|rewrite <- (andb_diag b); eapply mul_len; eauto].
  - eapply mul_len; eauto.
Qed.
Lemma powi_len X n Y b : ps_powi m D X n = Ok Y -> ln1 X b -> ln1 Y ((n =? 0)%Z || b).
Proof.
  intros E LX. unfold ps_powi in E. destruct n as [|p|p]; cbn [Z.eqb orb].
  - apply oki in E. now subst Y.
  - apply (powloop_len p [t1] X Y b true E); auto. reflexivity.
  - apply bind_ok in E as (r & Er & E). eapply Tdiv_len; eauto. apply (powloop_len p [t1] X r b true Er); auto. reflexivity.
Qed.
Lemma sc_len o c e X Y b : ps_sc o c e m D X = Ok Y -> ln1 X b -> ln1 Y b.
Proof.
  unfold ln1. intros E LX. destruct o; cbn [ps_sc] in E.
  1-4: apply head_len in E; rewrite E, ?map_length; auto.
  1,2: apply oki in E; subst Y; rewrite ?mulT_len, ?Tmul_len; auto.
  - eapply divT_ln1; eauto.
  - eapply Tdiv_len; eauto.
Qed.
Lemma pseval_lenv vc env n e r : (forall i, (i < n)%nat -> ln1 (env i) (vc i)) -> awf n e -> pseval m D env e = Ok r -> ln1 r (pfreev vc e).
Proof.
  intros HE. revert r. induction e; intros r W E; cbn [pseval] in E; cbn [awf] in W.
  - apply oki in E. subst r. apply HE, W.
  - apply oki in E. now subst r.
  - apply bind_ok in E as (x & Ex & E). apply bind_ok in E as (y & Ey & E). destruct W. eapply add_len; eauto.
  - apply bind_ok in E as (x & Ex & E). apply bind_ok in E as (y & Ey & E). destruct W. eapply sub_len; eauto.
  - apply bind_ok in E as (x & Ex & E). apply bind_ok in E as (y & Ey & E). destruct W. eapply mul_len; eauto.
  - apply bind_ok in E as (x & Ex & E). apply bind_ok in E as (y & Ey & E). destruct W. eapply div_len; eauto.
  - apply bind_ok in E as (x & Ex & E). destruct W. eapply sc_len; eauto.
  - apply bind_ok in E as (x & Ex & E). apply oki in E. subst r. unfold ln1, ps_neg. rewrite map_length. now apply IHe.
  - apply bind_ok in E as (x & Ex & E). destruct W. eapply powi_len; eauto.
  - apply bind_ok in E as (x & Ex & E). apply bind_ok in E as (y & Ey & E). destruct W. unfold ps_pow in E.
    apply bind_ok in E as (l & El & E). apply bind_ok in E as (p & Ep & E). cbn [pfreev]. rewrite andb_comm. eapply exp_len; eauto. eapply mul_len; eauto. eapply log_len; eauto.
  - apply bind_ok in E as (x & Ex & E). eapply fun_len; eauto.
Qed.
End Len.

Section Expr.
Variable B : base.
Variable rel : B -> R -> Prop.
Hypothesis OK : base_ok B rel.
Notation Rep := (Rep B rel).
Notation coef := (coef B rel).

(* ---- inverse functions, mode 1 ---- *)
Lemma open_fdiff f c : is_arc f = true -> fdiff f c -> locally c (fdiff f).
Proof.
  intros A H.
  assert (BD : -1 < c < 1 -> locally c (fun x => -1 < x < 1)).
  { intros Hc. assert (P : 0 < Rmin (c + 1) (1 - c)) by (apply Rmin_glb_lt; lra). exists (mkposreal _ P). intros y Hy. change (Rabs (y - c) < Rmin (c + 1) (1 - c)) in Hy.
    pose proof (Rmin_l (c + 1) (1 - c)). pose proof (Rmin_r (c + 1) (1 - c)). apply Rabs_def2 in Hy. lra. }
  destruct f; try discriminate; simpl in *; auto using locally_True.
  assert (P : 0 < c - 1) by lra. exists (mkposreal _ P). intros y Hy. change (Rabs (y - c) < c - 1) in Hy. apply Rabs_def2 in Hy. simpl. lra.
Qed.
Lemma der_fdiff f c : is_arc f = true -> fclo f c -> der_dom f c -> fdiff f c.
Proof. intros A H1 H2. destruct f; try discriminate; simpl in *; auto; try split; nra. Qed.
Lemma integ_ok i d J c : (Z.of_nat (length d) + i <= 2 ^ 53)%Z -> (0 < i)%Z -> integ i d = Ok J -> coef d c ->
  length J = length d /\ coef J (fun j => c j / IZR (i + Z.of_nat j)).
Proof.
  revert i J c. induction d as [|x d IH]; intros i J c Hl Hi E HC; cbn [integ] in E.
  - apply oki in E. subst J. split; auto. intros j Hj. simpl in Hj; lia.
  - apply bind_ok in E as (q & Eq & E). apply bind_ok in E as (r & Er & E). apply oki in E. subst J. apply coef_cons in HC as [H0 HC]. cbn [length] in Hl.
    destruct (IH (i + 1)%Z r (fun j => c (S j)) ltac:(lia) ltac:(lia) Er HC) as [L C'].
    split; [simpl; lia|]. apply coef_cons. split.
    + assert (Li : lit i 0) by (apply lit_int; lia). destruct (bk_divS _ _ OK _ _ _ _ _ Li Eq H0) as [_ R]. rewrite dy_int in R. simpl Z.of_nat. now rewrite Z.add_0_r.
    + intros j Hj. specialize (C' j Hj). simpl in C'. replace (i + Z.of_nat (S j))%Z with (i + 1 + Z.of_nat j)%Z by lia. exact C'.
Qed.
Lemma integrate_ok d J c : (Z.of_nat (length d) < 2 ^ 53)%Z -> ps_integrate d = Ok J -> coef d c -> length J = S (length d) /\ coef J (icoef 0 c).
Proof.
  intros Hl E HC. unfold ps_integrate in E. apply bind_ok in E as (r & Er & E). apply oki in E. subst J.
  destruct (integ_ok 1 d r c ltac:(lia) ltac:(lia) Er HC) as [L C']. split; [simpl; lia|]. apply coef_cons. split; [apply (rel0 B rel OK)|].
  intros j Hj. specialize (C' j Hj). simpl in C'. cbn [icoef]. replace (INR (S j)) with (IZR (1 + Z.of_nat j)); auto.
  rewrite INR_IZR_INZ. f_equal. lia.
Qed.
Lemma at_repeat (X : list B) n i : at_ (X ++ repeat t0 n) i = at_ X i.
Proof.
  unfold at_. destruct (Nat.lt_ge_cases i (length X)); [now rewrite app_nth1|]. rewrite app_nth2, (nth_overflow X) by auto.
  destruct (Nat.lt_ge_cases (i - length X) n); [now rewrite nth_repeat|]. apply nth_overflow. now rewrite repeat_length.
Qed.
Lemma Rep_arc g D s X Y f : (1 <= s)%nat -> (Z.of_nat s <= 2 ^ 52)%Z -> is_arc g = true -> ps_arc g 1 D X = Ok Y -> Rep None s X f ->
  Ev None (fun t => fdiff g (f t)) /\ Rep None s Y (fun t => frl g (f t)).
Proof.
  intros S1 S2 A E HX. assert (MD : mdok B rel None 1 D) by reflexivity.
  destruct (Rep_split B rel OK None 1 D s S1 MD X f HX) as [c0 HD]. pose proof (proj1 HD) as Ra. pose proof (proj1 HX) as LX.
  destruct X as [|a X]; [discriminate|]. change (at_ (a :: X) 0) with a in Ra. unfold ps_arc in E. cbn [Z.eqb] in E.
  set (X1 := a :: X) in *. clearbody X1.
  apply bind_ok in E as (t & Et & E). apply bind_ok in E as (v & Ev & E). apply bind_ok in E as (d & Ed & E). apply bind_ok in E as (J & EJ & E).
  apply bind_ok in E as (T & ET & E).
  assert (LX2 : (2 <= length X1)%nat /\ length X1 = s).
  { unfold ps_setorder in Et. destruct (Z.ltb_spec (Z.of_nat (length X1) - 2) 0); [discriminate|]. lia. }
  destruct LX2 as [LX2 LXs].
  (* the series c0 + u *)
  assert (HT : Rep None (s - 1) t (fun u => c0 + u)).
  { unfold ps_setorder in Et. destruct (Z.ltb_spec (Z.of_nat (length X1) - 2) 0); [discriminate|]. change (1 =? 1)%Z with true in Et. cbn iota in Et.
    replace (Z.to_nat (Z.of_nat (length X1) - 2)) with (s - 2)%nat in Et by lia. cbn [length] in Et.
    destruct (Nat.leb_spec 2 (s - 2 + 1)).
    - apply oki in Et. assert (LT : length t = (s - 1)%nat) by (rewrite Et, app_length, repeat_length; simpl; lia).
      split; [now right|]. exists (fun i => match i with 0%nat => c0 | 1%nat => 1 | _ => 0 end). split; [|split].
      + intros i Hi. rewrite Et, at_repeat. destruct i as [|[|i]]; simpl; auto; [apply (rel1 B rel OK)|]. unfold at_. simpl. destruct i; apply (rel0 B rel OK).
      + intros i Hi. destruct i as [|[|i]]; auto; lia.
      + simpl. rewrite jet_bigO. apply (bigO_ext _ (fun _ => 0) _ 1); [lra| |apply bigO_zero]. intros u _. rewrite (pe_more _ 2); [unfold pe; simpl; ring| |lia].
        intros [|[|i]] Hi; auto; lia.
    - assert (s - 2 = 0)%nat by lia. rewrite H1 in Et. cbn [firstn app] in Et. apply oki in Et. unfold at_ in Et. cbn [nth] in Et. subst t.
      replace (s - 1)%nat with 1%nat by lia. split; [now left|]. exists (delta c0). split; [|split].
      + apply coef_cons. split; auto. intros i Hi. simpl in Hi; lia.
      + intros [|i] Hi; simpl in *; auto; lia.
      + simpl. rewrite jet_bigO. apply (bigO_ext 1 (fun u => u ^ 1) _ 1); [lra|intros u _; rewrite pe_delta by lia; ring|]. apply bigO_pow_id. }
  destruct (Rep_der B rel OK None 1 D (s - 1) ltac:(lia) ltac:(lia) MD g t d _ A Ed HT) as [DD Hd].
  assert (DF : fdiff g c0).
  { destruct DD as (e & He & DD). specialize (DD 0). rewrite Rabs_R0, Rplus_0_r in DD. apply der_fdiff; auto. exact (bk_dom _ _ OK _ _ _ _ Ev Ra). }
  pose proof (open_fdiff g c0 A DF) as LO.
  split. { apply (domok_Ev B rel None D s (fdiff g) X1 f c0 HD). split; [discriminate|auto]. }
  destruct Hd as [Ld (dc & Cd & Zd & Jd)]. simpl in Jd.
  assert (Ln : (Z.of_nat (length d) < 2 ^ 53)%Z) by (destruct Ld as [-> | ->]; lia).
  destruct (integrate_ok d J dc Ln EJ Cd) as [LJ CJ].
  assert (Rv : rel v (frl g c0)) by (apply (bk_fun _ _ OK _ _ _ _ Ev Ra); now apply fdiff_dom).
  assert (CT : length T = length J /\ coef T (icoef (frl g c0) dc)).
  { unfold ps_addT in ET. destruct J as [|j0 J]; [discriminate|]. simpl in ET. apply oki in ET. subst T. split; auto. apply coef_cons in CJ as [C0 CJ].
    apply coef_cons. split; auto. simpl in C0 |- * . rewrite <- (Rplus_0_l (frl g c0)). now apply (bk_add _ _ OK). }
  destruct CT as [LT CT].
  assert (HN : exists e, 0 < e /\ forall u, Rabs u < e -> derivable_pt_lim (fun u => frl g (c0 + u)) u (fder g (c0 + u))).
  { destruct LO as [e He]. exists e. split; [apply cond_pos|]. intros u Hu.
    assert (FD : fdiff g (c0 + u)). { apply He. change (Rabs (c0 + u - c0) < e). now replace (c0 + u - c0) with u by ring. }
    pose proof (fun_deriv g _ FD) as DV. apply is_derive_Reals. evar_last. { apply (is_derive_comp (frl g) (fun u => c0 + u)); [apply is_derive_Reals, DV|]. auto_derive; auto. }
    unfold Hierarchy.scal; simpl. unfold mult; simpl. ring. }
  pose proof (jet_int (s - 1) _ _ dc Jd HN) as JT. replace (S (s - 1)) with s in JT by lia. rewrite Rplus_0_r in JT.
  assert (HH : Rep None s (ps_h X1) (fun t => f t - c0)) by apply HD.
  eapply (Rep_near B rel None s Y). 2:{
    eapply (ps_tay_rep B rel OK None 1 D s S1 S2 MD unit (step_tab T) (length X1) (ps_h X1) (fun t => f t - c0) (icoef (frl g c0) dc) 0 (fun _ _ => True) HH); [|exact E|auto|lia| |exact I].
    - intros i last st q Hi El _ Es. unfold step_tab in Es. destruct (Nat.ltb_spec i (length T)); [|discriminate]. apply oki in Es. subst q.
      cbn [Z.eqb andb] in El. subst last. split; auto. apply CT. auto.
    - apply CT. lia. }
  simpl. pose proof (proj2 (proj2 (proj2 HD)) eq_refl) as [B1 Bs].
  pose proof (jet_comp s s (frl g) _ c0 f JT B1 ltac:(rewrite LXs in Bs; exact Bs)) as BC. revert BC. apply (bigO_ext _ _ _ 1); [lra|].
  intros u _. f_equal. rewrite LXs. unfold pe. apply rsum_ext. intros j _. unfold kk. reflexivity.
Qed.

(* ---- expressions ---- *)
Lemma pseval_diffv vc x0 k m D s n env x e r : (2 <= s)%nat -> (Z.of_nat s <= 2 ^ 52)%Z -> mdok B rel k m D -> (k = None \/ noarc e = true) ->
  awf n e -> plogv vc x0 e -> (forall i, (i < n)%nat -> length (env i) = (if vc i then 1%nat else s) /\ Rep k s (env i) (fun t => x t i)) -> (forall i t, (i < n)%nat -> vc i = true -> x t i = x0 i) -> pseval m D env e = Ok r ->
  Ev k (fun t => adiff e (x t)) /\ Rep k s r (fun t => rval e (x t)).
Proof.
  intros S1 S2 MD HA W HL HE HX. assert (S1' : (1 <= s)%nat) by lia. assert (HEL : forall i, (i < n)%nat -> ln1 B s (env i) (vc i)) by (intros; now apply HE).
  revert r W HL HA. induction e; intros r W HL HA E; cbn [pseval] in E; cbn [awf] in W; cbn [plogv] in HL; cbn [noarc] in HA; cbn [adiff rval].
  - apply oki in E. subst r. split; [now apply Ev_all|]. now apply HE.
  - apply oki in E. subst r. split; [now apply Ev_all|]. apply Rep_cst; auto. now apply (bk_cst _ _ OK).
  - apply bind_ok in E as (u & Eu & E). apply bind_ok in E as (v & Ev' & E). destruct W as [W1 W2], HL as [H1 H2].
    destruct (IHe1 u) as [D1 R1]; auto. { destruct HA as [HA|HA]; auto. apply andb_prop in HA as []; auto. }
    destruct (IHe2 v) as [D2 R2]; auto. { destruct HA as [HA|HA]; auto. apply andb_prop in HA as []; auto. }
    split; [now apply Ev_and|]. now apply (Rep_add B rel OK k s S1' S2 _ _ _ _ _ E).
  - apply bind_ok in E as (u & Eu & E). apply bind_ok in E as (v & Ev' & E). destruct W as [W1 W2], HL as [H1 H2].
    destruct (IHe1 u) as [D1 R1]; auto. { destruct HA as [HA|HA]; auto. apply andb_prop in HA as []; auto. }
    destruct (IHe2 v) as [D2 R2]; auto. { destruct HA as [HA|HA]; auto. apply andb_prop in HA as []; auto. }
    split; [now apply Ev_and|]. now apply (Rep_sub B rel OK k s S1' S2 _ _ _ _ _ E).
  - apply bind_ok in E as (u & Eu & E). apply bind_ok in E as (v & Ev' & E). destruct W as [W1 W2], HL as [H1 H2].
    destruct (IHe1 u) as [D1 R1]; auto. { destruct HA as [HA|HA]; auto. apply andb_prop in HA as []; auto. }
    destruct (IHe2 v) as [D2 R2]; auto. { destruct HA as [HA|HA]; auto. apply andb_prop in HA as []; auto. }
    split; [now apply Ev_and|]. now apply (Rep_mul B rel OK k m D s S1' S2 MD _ _ _ _ _ E).
  - apply bind_ok in E as (u & Eu & E). apply bind_ok in E as (v & Ev' & E). destruct W as [W1 W2], HL as [H1 H2].
    destruct (IHe1 u) as [D1 R1]; auto. { destruct HA as [HA|HA]; auto. apply andb_prop in HA as []; auto. }
    destruct (IHe2 v) as [D2 R2]; auto. { destruct HA as [HA|HA]; auto. apply andb_prop in HA as []; auto. }
    destruct (Rep_div B rel OK k m D s S1' S2 MD _ _ _ _ _ E R1 R2) as [N R]. split; [now repeat apply Ev_and|auto].
  - apply bind_ok in E as (u & Eu & E). destruct W as [W1 W2]. destruct (IHe u) as [D1 R1]; auto.
    destruct (Rep_sc B rel OK k m D s S1' S2 MD _ _ _ _ _ _ E W1 R1) as [N R]. split; [now apply Ev_and|auto].
  - apply bind_ok in E as (u & Eu & E). apply oki in E. subst r. destruct (IHe u) as [D1 R1]; auto. split; auto. now apply Rep_neg.
  - apply bind_ok in E as (u & Eu & E). destruct W as [W1 W2]. destruct (IHe u) as [D1 R1]; auto.
    destruct (Rep_powi B rel OK k m D s S1' S2 MD _ _ _ _ E R1) as [N R]. split; auto. apply Ev_and; auto.
    destruct (Z.ltb_spec n0 0); [specialize (N H); revert N; apply Ev_imp; auto|apply Ev_all; intros; lia].
  - apply bind_ok in E as (u & Eu & E). apply bind_ok in E as (v & Ev' & E). destruct W as [W1 W2], HL as (H1 & H2 & H3).
    destruct (IHe1 u) as [D1 R1]; auto. { destruct HA as [HA|HA]; auto. apply andb_prop in HA as []; auto. }
    destruct (IHe2 v) as [D2 R2]; auto. { destruct HA as [HA|HA]; auto. apply andb_prop in HA as []; auto. }
    destruct (Rep_pow B rel OK k m D s S1' S2 MD _ _ _ _ _ E R1 R2) as [N R].
    { intros L t. pose proof (pseval_lenv B m D s S1 vc env n e1 u HEL W1 Eu) as LU. unfold ln1 in LU. destruct (pfreev vc e1) eqn:PF; [|lia].
      rewrite (pfreev_const vc n e1 PF W1 _ x0); auto. }
    split; [now repeat apply Ev_and|auto].
  - apply bind_ok in E as (u & Eu & E). destruct HL as (H1 & H3). destruct (IHe u) as [D1 R1]; auto.
    { destruct HA as [HA|HA]; auto. apply andb_prop in HA as []; auto. }
    destruct (is_arc f) eqn:EA.
    + assert (KN : k = None). { destruct HA as [|HA]; auto. discriminate. } subst k. unfold mdok in MD. subst m.
      assert (E' : ps_arc f 1 D u = Ok r) by (destruct f; try discriminate; exact E).
      destruct (Rep_arc f D s u r _ S1' S2 EA E' R1) as [N R]. split; auto. now apply Ev_and.
    + destruct (Rep_fun_diff B rel OK k m D s S1' S2 MD f u r _ EA E R1) as [N R].
      { intros Ef L t. pose proof (pseval_lenv B m D s S1 vc env n e u HEL W Eu) as LU. unfold ln1 in LU. destruct (pfreev vc e) eqn:PF; [|lia].
        rewrite (pfreev_const vc n e PF W _ x0); auto. }
      split; auto. now apply Ev_and.
Qed.
Theorem pseval_okv vc x0 k m D s n env x e r : (2 <= s)%nat -> (Z.of_nat s <= 2 ^ 52)%Z -> mdok B rel k m D -> (k = None \/ noarc e = true) ->
  awf n e -> plogv vc x0 e -> (forall i, (i < n)%nat -> length (env i) = (if vc i then 1%nat else s) /\ Rep k s (env i) (fun t => x t i)) -> (forall i t, (i < n)%nat -> vc i = true -> x t i = x0 i) ->
  pseval m D env e = Ok r -> Ev k (fun t => adom e (x t)) /\ Rep k s r (fun t => rval e (x t)).
Proof.
  intros S1 S2 MD HA W HL HE HX E. destruct (pseval_diffv vc x0 k m D s n env x e r S1 S2 MD HA W HL HE HX E) as [DD RR]. split; auto.
  revert DD. apply Ev_imp. intros t. apply adiff_dom.
Qed.
Lemma pseval_diff k m D s n env x e r : (2 <= s)%nat -> (Z.of_nat s <= 2 ^ 52)%Z -> mdok B rel k m D -> (k = None \/ noarc e = true) ->
  awf n e -> plog e -> (forall i, (i < n)%nat -> length (env i) = s /\ Rep k s (env i) (fun t => x t i)) -> pseval m D env e = Ok r ->
  Ev k (fun t => adiff e (x t)) /\ Rep k s r (fun t => rval e (x t)).
Proof. intros S1 S2 MD HA W HL HE. apply (pseval_diffv (fun _ => false) (fun _ => 0) k m D s n env x e r S1 S2 MD HA W HL HE). intros i t _ C. discriminate C. Qed.
Theorem pseval_ok k m D s n env x e r : (2 <= s)%nat -> (Z.of_nat s <= 2 ^ 52)%Z -> mdok B rel k m D -> (k = None \/ noarc e = true) ->
  awf n e -> plog e -> (forall i, (i < n)%nat -> length (env i) = s /\ Rep k s (env i) (fun t => x t i)) -> pseval m D env e = Ok r ->
  Ev k (fun t => adom e (x t)) /\ Rep k s r (fun t => rval e (x t)).
Proof.
  intros S1 S2 MD HA W HL HE E. destruct (pseval_diff k m D s n env x e r S1 S2 MD HA W HL HE E) as [DD RR]. split; auto.
  revert DD. apply Ev_imp. intros t. apply adiff_dom.
Qed.
End Expr.
