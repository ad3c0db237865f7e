(* The functions integrated by doubleintegral and doubleintegral_triangle. *)
From Coq Require Import Reals ZArith Bool List Lra Lia Psatz Arith.
From Coquelicot Require Import Coquelicot.
From Verif Require Import Ext RealFun ADModel ADReal ADProofs PsaModel PsaReal PsaProofs PsaExpr PsaInt PsaUse PsaUseProofs DblModel DblBase DblInt DblProofs.
Import ListNotations.
Open Scope R_scope.

Section DblF.
Variable B : base.
Variable rel : B -> R -> Prop.
Hypothesis OK : base_ok B rel.
Hypothesis CVX : rel_itv B rel.
Variable symd : B -> B.
Hypothesis SYM : forall X r u, rel X r -> - r <= u <= r -> rel (symd X) u.
Variable e : aexpr.
Hypothesis W : awf 2 e.
Hypothesis P : plog e.
Hypothesis NA : noarc e = true.
Definition Fe (x y : R) : R := rval e (env2 x y).
Definition De (x y : R) : Prop := adom e (env2 x y).
Lemma Fe_cont x y : De x y -> cont2 Fe x y.
Proof.
  intros H. unfold cont2, Fe. apply (rval_continuous_gen 2 e (fun p : R * R => env2 (fst p) (snd p))); auto.
  intros [|[|i]] Hi; [apply continuous_fst|apply continuous_snd|lia].
Qed.
Variable ord : nat.
Hypothesis O1 : (1 <= ord)%nat.
Hypothesis O2 : (Z.of_nat (S ord) <= 2 ^ 52)%Z.
Notation s := (S ord).
Notation rl D u := (rel2 B rel D s u).
Section Pt.
Variables (R1 R2 C1 C2 : B) (r1 r2 c1 c2 u t : R).
Hypothesis H1 : rel R1 r1.
Hypothesis H2 : rel R2 r2.
Hypothesis HC1 : rel C1 c1.
Hypothesis HC2 : rel C2 c2.
Hypothesis Hu : - r2 <= u <= r2.
Hypothesis Ht : - r1 <= t <= r1.
Notation D2 := (symd R2).
Notation D1 := [symd R1].
Notation PB := (Pbase B D2).
Notation rp := (rl D2 u).
Notation RP := (Rep PB rp (Some (t, false)) s).
Lemma BK : base_ok PB rp.
Proof. apply (PBK B rel OK CVX symd SYM ord O1 O2 R2 r2); auto. lra. Qed.
Lemma BI : rel_itv PB rp.
Proof. apply rel2_itv; try assumption; lia. Qed.
Lemma DD v : - r1 <= v <= r1 -> rp D1 v.
Proof. intros Hv. apply Rep_cst; try lia. apply (SYM R1 r1); auto. Qed.
Lemma MD : mdok PB rp (Some (t, false)) 2 D1.
Proof. simpl. split; auto. split; [now apply DD|]. split; [apply DD; lra|]. exact (itv_cvx _ _ BI). Qed.
Lemma x1_rep : length (dbl_x1 C1 ord) = s /\ RP (dbl_x1 C1 ord) (fun t => c1 + t).
Proof.
  assert (L : length (dbl_x1 C1 ord) = s) by (unfold dbl_x1; simpl; rewrite repeat_length; lia). split; [exact L|]. split; [right; exact L|].
  exists (idc c1). split; [|split].
  - unfold dbl_x1. apply coef_cons. split; [apply (rl_cst B rel OK); auto|]. apply coef_cons. split; [apply (rl_cst B rel OK); auto; apply (rel1 B rel OK)|].
    intros i _. cbn [idc]. apply (at_rep_zero B rel OK); auto.
  - intros i Hi. assert (L' : (s <= i)%nat) by (rewrite <- L; exact Hi). destruct i as [|[|i]]; [lia|lia|reflexivity].
  - split; [|discriminate]. cbn [fst]. symmetry. apply pe_idc. lia.
Qed.
Lemma x2_rep : length (dbl_x2 C2 ord) = s /\ RP (dbl_x2 C2 ord) (fun _ => c2 + u).
Proof.
  assert (L : length (dbl_x2 C2 ord) = s) by (unfold dbl_x2; simpl; rewrite repeat_length; lia). split; [exact L|]. split; [right; exact L|].
  exists (delta (c2 + u)). split; [|split].
  - unfold dbl_x2. apply coef_cons. split; [cbn [delta]; apply (rl_id B rel OK); auto|]. intros i _. cbn [delta]. apply (at_rep_zero B rel OK); auto.
  - intros i Hi. assert (L' : (s <= i)%nat) by (rewrite <- L; exact Hi). destruct i as [|i]; [lia|reflexivity].
  - split; [|discriminate]. cbn [fst]. rewrite pe_delta by lia. reflexivity.
Qed.
Lemma expr_point X Y f g r : length X = s /\ RP X f -> length Y = s /\ RP Y g -> psafun2 B e D1 D2 X Y = Ok r ->
  De (f t) (g t) /\ RP r (fun t => Fe (f t) (g t)).
Proof.
  intros HX HY E. unfold psafun2 in E.
  destruct (pseval_ok PB rp BK (Some (t, false)) 2 D1 s 2 (fun i => match i with O => X | _ => Y end) (fun t => env2 (f t) (g t)) e r) as [DM RY]; auto; try lia.
  - exact MD.
  - intros [|[|i]] Hi; [exact HX|exact HY|lia].
  - split; [exact (proj1 DM)|exact RY].
Qed.
Lemma rep_point Y g : RP Y g -> (length Y <= s)%nat /\ exists c, PsaProofs.coef PB rp Y c /\ g t = pe c (length Y) t.
Proof.
  intros [L (c & Cc & Z & QQ & _)]. assert (LL : (length Y <= s)%nat) by (destruct L as [L|L]; (eapply Nat.le_trans; [apply Nat.eq_le_incl; exact L|lia])).
  split; [exact LL|]. exists c. split; [exact Cc|]. cbn [fst] in QQ. rewrite QQ. apply pe_more; [exact Z|exact LL].
Qed.
Lemma aff_rep a b c A Bc C X : rel A a -> rel Bc b -> rel C c -> tri_aff D2 A Bc C (dbl_x1 C1 ord) (dbl_x2 C2 ord) = Ok X ->
  length X = s /\ RP X (fun t => a + b * (c1 + t) + c * (c2 + u)).
Proof.
  intros HA HB HC E. unfold tri_aff in E. apply bind_ok in E as (p & Ep & E).
  destruct x1_rep as [L1 X1]. destruct x2_rep as [L2 X2].
  assert (K : forall k Q, rel Q k -> rp [Q] k) by (intros k Q HQ; apply Rep_cst; try lia; exact HQ).
  pose proof (Rep_Tmul PB rp BK _ s ltac:(lia) [Bc] b _ _ (K b Bc HB) X1) as RB. pose proof (Rep_Tmul PB rp BK _ s ltac:(lia) [C] c _ _ (K c C HC) X2) as RC.
  pose proof (head_len PB _ _ _ Ep) as LP.
  assert (LP' : length p = s). { transitivity (length (ps_Tmul (B:=PB) [Bc] (dbl_x1 C1 ord))); [exact LP|]. transitivity (length (dbl_x1 C1 ord)); [apply (Tmul_len PB)|exact L1]. }
  assert (RPP : RP p (fun t => b * (c1 + t) + a)).
  { refine (Rep_head PB rp _ s _ _ _ _ _ _ _ Ep _ RB); [lia|lia|]. intros Z z HZ. cbv beta.
    assert (LZ : (1 <= length Z)%nat) by (destruct HZ as [[L|L] _]; (eapply Nat.le_trans; [|apply Nat.eq_le_incl; symmetry; exact L]); lia).
    destruct (head_tot B s ltac:(lia) (fun w => badd w A) Z LZ) as [U EU]. unfold ps_addT. rewrite EU. cbn [tot].
    refine (Rep_head B rel _ s _ _ _ a _ _ (fun _ => z) EU _ HZ); [lia|lia|]. intros. now apply (bk_add _ _ OK). }
  split.
  - pose proof (add_len PB s ltac:(lia) p _ X false false E) as LX. unfold ln1 in LX. cbn [andb] in LX. apply LX; [exact LP'|]. transitivity (length (dbl_x2 C2 ord)); [apply (Tmul_len PB)|exact L2].
  - apply (Rep_eq PB rp _ s _ (fun t => (b * (c1 + t) + a) + c * (c2 + u))); [intros; ring|]. refine (Rep_add PB rp BK _ s _ _ _ _ _ _ _ E RPP RC); lia.
Qed.
End Pt.
Lemma fe_point : fpoint B rel symd ord (psafun2 B e) Fe De.
Proof.
  intros R1 R2 C1 C2 r1 r2 c1 c2 u t Y H1 H2 HC1 HC2 Hu Ht E.
  destruct (expr_point R1 R2 r1 r2 u t H1 H2 Hu Ht (dbl_x1 C1 ord) (dbl_x2 C2 ord) (fun t => c1 + t) (fun _ => c2 + u) Y) as [DM RY]; [now apply x1_rep|now apply x2_rep|exact E|].
  split; [exact DM|]. now apply rep_point in RY.
Qed.
Section TriF.
Variable babs : B -> B.
Hypothesis ABS : forall X x, rel X x -> rel (babs X) (Rabs x).
Variables (X1 Y1 X2 Y2 X3 Y3 : B) (x1 y1 x2 y2 x3 y3 : R).
Hypothesis HX1 : rel X1 x1.
Hypothesis HY1 : rel Y1 y1.
Hypothesis HX2 : rel X2 x2.
Hypothesis HY2 : rel Y2 y2.
Hypothesis HX3 : rel X3 x3.
Hypothesis HY3 : rel Y3 y3.
Definition jac : R := Rabs ((x2 - x1) * (y3 - y1) - (x3 - x1) * (y2 - y1)).
Definition tx (p q : R) : R := x1 + (x2 - x1) * p + (x3 - x1) * q.
Definition ty (p q : R) : R := y1 + (y2 - y1) * p + (y3 - y1) * q.
Definition Ft (p q : R) : R := Fe (tx p q) (ty p q) * jac.
Definition Dt (p q : R) : Prop := De (tx p q) (ty p q).
Lemma aff_cont a b c p q : cont2 (fun p q => a + b * p + c * q) p q.
Proof.
  unfold cont2. apply (continuous_plus (fun z : R * R => a + b * fst z) (fun z => c * snd z)).
  - apply (continuous_plus (fun _ : R * R => a) (fun z => b * fst z)); [apply continuous_const|]. apply (continuous_mult (fun _ : R * R => b) fst); [apply continuous_const|apply continuous_fst].
  - apply (continuous_mult (fun _ : R * R => c) snd); [apply continuous_const|apply continuous_snd].
Qed.
Lemma Ft_cont p q : Dt p q -> cont2 Ft p q.
Proof.
  intros H. unfold cont2, Ft. apply (continuous_mult (fun z : R * R => Fe (tx (fst z) (snd z)) (ty (fst z) (snd z))) (fun _ => jac)); [|apply continuous_const].
  apply (cont2_comp Fe (fun z => tx (fst z) (snd z)) (fun z => ty (fst z) (snd z))); [apply aff_cont|apply aff_cont|now apply Fe_cont].
Qed.
Lemma ft_point : fpoint B rel symd ord (tri_fn babs e X1 Y1 X2 Y2 X3 Y3) Ft Dt.
Proof.
  intros R1 R2 C1 C2 r1 r2 c1 c2 u t Y H1 H2 HC1 HC2 Hu Ht E. unfold tri_fn in E. cbv zeta in E.
  apply bind_ok in E as (X & EX & E). apply bind_ok in E as (Z & EZ & E). apply bind_ok in E as (r & Er & E). apply oki in E.
  assert (D21 : rel (bsub X2 X1) (x2 - x1)) by (now apply (bk_sub _ _ OK)). assert (D31 : rel (bsub X3 X1) (x3 - x1)) by (now apply (bk_sub _ _ OK)).
  assert (E21 : rel (bsub Y2 Y1) (y2 - y1)) by (now apply (bk_sub _ _ OK)). assert (E31 : rel (bsub Y3 Y1) (y3 - y1)) by (now apply (bk_sub _ _ OK)).
  destruct (expr_point R1 R2 r1 r2 u t H1 H2 Hu Ht X Z (fun t => tx (c1 + t) (c2 + u)) (fun t => ty (c1 + t) (c2 + u)) r) as [DM RY]; [| |exact Er|].
  - apply (aff_rep R2 C1 C2 r2 c1 c2 u t H2 HC1 HC2 Hu x1 (x2 - x1) (x3 - x1) X1 (bsub X2 X1) (bsub X3 X1) X); auto.
  - apply (aff_rep R2 C1 C2 r2 c1 c2 u t H2 HC1 HC2 Hu y1 (y2 - y1) (y3 - y1) Y1 (bsub Y2 Y1) (bsub Y3 Y1) Z); auto.
  - split; [exact DM|]. assert (RT : rl (symd R2) u [babs (bsub (bmul (bsub X2 X1) (bsub Y3 Y1)) (bmul (bsub X3 X1) (bsub Y2 Y1)))] jac).
    { apply Rep_cst; try lia. apply ABS. apply (bk_sub _ _ OK); now apply (bk_mul _ _ OK). }
    pose proof (Rep_mulT (Pbase B (symd R2)) (rl (symd R2) u) (BK R2 r2 u H2 Hu) _ s ltac:(lia) _ _ r _ RT RY) as RM.
    subst Y. now apply rep_point in RM.
Qed.
End TriF.
End DblF.
