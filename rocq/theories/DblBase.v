(* psa<T> in mode 2 as the element type of another psa: at a point u of the domain, a series stands for its value at u. *)
From Coq Require Import Reals ZArith Bool List Lra Lia Psatz Arith.
From Coquelicot Require Import Coquelicot.
From Verif Require Import Ext RealFun ADModel ADReal ADProofs PsaModel PsaReal PsaProofs PsaExpr PsaInt PsaUse PsaUseProofs DblModel.
Import ListNotations.
Open Scope R_scope.

(* ---- closed intervals ---- *)
Lemma itv_zero (a : R) : itv (fun z => z = a).
Proof.
  split; [|split].
  - intros x y z -> -> H. unfold mix in H. lra.
  - left. exists a. split; auto. intros x ->. lra.
  - left. exists a. split; auto. intros x ->. lra.
Qed.
Lemma itv_ext (C C' : R -> Prop) : (forall z, C z <-> C' z) -> itv C -> itv C'.
Proof.
  intros E (A & L & U). split; [|split].
  - intros a b z Ha Hb Hz. apply E. apply (A a b); auto; now apply E.
  - destruct L as [(l & Hl & H)|L]; [left; exists l|right].
    + split; [now apply E|]. intros x Hx. apply H. now apply E.
    + intros M. destruct (L M) as (x & Hx & H). exists x. split; auto. now apply E.
  - clear L; destruct U as [(l & Hl & H)|L]; [left; exists l|right].
    + split; [now apply E|]. intros x Hx. apply H. now apply E.
    + intros M. destruct (L M) as (x & Hx & H). exists x. split; auto. now apply E.
Qed.
Lemma itv_scal (C : R -> Prop) x0 q : C x0 -> itv C -> itv (fun z => exists x, C x /\ z = q * x).
Proof.
  intros H0. assert (POS : forall (C : R -> Prop) (x0 q : R), C x0 -> 0 < q -> itv C -> itv (fun z => exists x, C x /\ z = q * x)).
  { clear. intros C x0 q H0 Q I. destruct I as (A & L & U). split; [|split].
    - intros a b z (x & Hx & ->) (y & Hy & ->) Hz. exists (z / q). split; [|field; lra]. apply (A x y); auto. unfold mix in *.
      assert (E : z = q * (z / q)) by (field; lra). rewrite E in Hz. destruct Hz as [[P P']|[P P']]; [left|right]; split; apply Rmult_le_reg_l with q; auto.
    - destruct L as [(l & Hl & H)|L]; [left; exists (q * l)|right].
      + split; [eauto|]. intros z (x & Hx & ->). apply Rmult_le_compat_l; [lra|auto].
      + intros M. destruct (L (M / q)) as (x & Hx & H). exists (q * x). split; [eauto|]. replace M with (q * (M / q)) by (field; lra). apply Rmult_le_compat_l; [lra|auto].
    - clear L; destruct U as [(l & Hl & H)|L]; [left; exists (q * l)|right].
      + split; [eauto|]. intros z (x & Hx & ->). apply Rmult_le_compat_l; [lra|auto].
      + intros M. destruct (L (M / q)) as (x & Hx & H). exists (q * x). split; [eauto|]. replace M with (q * (M / q)) by (field; lra). apply Rmult_le_compat_l; [lra|auto]. }
  intros I. destruct (Rtotal_order q 0) as [Q|[Q|Q]].
  - apply (itv_ext (fun z => exists x, C (- x) /\ z = - q * x)).
    + intros z. split; intros (x & Hx & ->); exists (- x); split; auto; try ring. now rewrite Ropp_involutive.
    + apply (POS (fun x => C (- x)) (- x0)); [now rewrite Ropp_involutive|lra|]. now apply itv_opp.
  - subst q. apply (itv_ext (fun z => z = 0)); [|apply itv_zero]. intros z. split; [intros ->; exists x0; split; auto; ring|]. intros (x & _ & ->). ring.
  - now apply (POS C x0).
Qed.
Lemma itv_sum (C C' : R -> Prop) x0 y0 : C x0 -> C' y0 -> itv C -> itv C' -> itv (fun z => exists x y, C x /\ C' y /\ z = x + y).
Proof.
  intros H0 H0' (A & L & U) (A' & L' & U'). split; [|split].
  - assert (K : forall z x y x' y', C x -> C' y -> C x' -> C' y' -> x + y <= z <= x' + y' -> exists p q, C p /\ C' q /\ z = p + q).
    { intros z x y x' y' Hx Hy Hx' Hy' Hz.
      destruct (Req_EM_T (x + y) (x' + y')) as [E|N]. { exists x, y. repeat split; auto. lra. }
      set (la := (z - (x + y)) / (x' + y' - (x + y))). assert (P : 0 < x' + y' - (x + y)) by lra.
      assert (LA : 0 <= la <= 1). { unfold la. split; [apply Rdiv_le_0_compat; lra|]. apply Rmult_le_reg_r with (x' + y' - (x + y)); auto. unfold Rdiv. rewrite Rmult_assoc, Rinv_l by lra. lra. }
      exists (x + la * (x' - x)), (y + la * (y' - y)). split; [|split].
      - apply (A x x'); auto. unfold mix. destruct (Rle_dec x x'); [left|right]; nra.
      - apply (A' y y'); auto. unfold mix. destruct (Rle_dec y y'); [left|right]; nra.
      - replace (x + la * (x' - x) + (y + la * (y' - y))) with ((x + y) + la * (x' + y' - (x + y))) by ring. unfold la. field. lra. }
    intros a b z (x & y & Hx & Hy & ->) (x' & y' & Hx' & Hy' & ->) [Hz|Hz]; [apply (K z x y x' y')|apply (K z x' y' x y)]; auto.
  - destruct L as [(l & Hl & H)|L].
    + destruct L' as [(l' & Hl' & H')|L'].
      * left. exists (l + l'). split; [eauto|]. intros z (x & y & Hx & Hy & ->). specialize (H x Hx). specialize (H' y Hy). lra.
      * right. intros M. destruct (L' (M - x0)) as (y & Hy & Ly). exists (x0 + y). split; [eauto|lra].
    + right. intros M. destruct (L (M - y0)) as (y & Hy & Ly). exists (y + y0). split; [eauto|lra].
  - destruct U as [(l & Hl & H)|U].
    + destruct U' as [(l' & Hl' & H')|U'].
      * left. exists (l + l'). split; [eauto|]. intros z (x & y & Hx & Hy & ->). specialize (H x Hx). specialize (H' y Hy). lra.
      * right. intros M. destruct (U' (M - x0)) as (y & Hy & Ly). exists (x0 + y). split; [eauto|lra].
    + right. intros M. destruct (U (M - y0)) as (y & Hy & Ly). exists (y + y0). split; [eauto|lra].
Qed.

Section PB.
Variable B : base.
Variable rel : B -> R -> Prop.
Hypothesis OK : base_ok B rel.
Hypothesis CVX : rel_itv B rel.
Notation Rep := (Rep B rel).
Notation coef := (coef B rel).
(* values at u of the selections of the coefficients *)
Lemma itv_pe (X : list B) (u : R) c0 : coef X c0 -> itv (fun z => exists c, coef X c /\ z = pe c (length X) u).
Proof.
  revert c0. induction X as [|a X IH]; intros c0 H.
  - apply (itv_ext (fun z => z = 0)); [|apply itv_zero]. intros z. split.
    + intros ->. exists (fun _ => 0). split; [intros i Hi; simpl in Hi; lia|reflexivity].
    + intros (c & _ & ->). reflexivity.
  - pose proof H as HH. apply coef_cons in H as [Ha HX].
    apply (itv_ext (fun z => exists x y, rel a x /\ (exists w, (exists c, coef X c /\ w = pe c (length X) u) /\ y = u * w) /\ z = x + y)).
    + intros z. cbn [length]. split.
      * intros (x & y & Hx & (w & (c & Hc & ->) & ->) & ->). exists (fun i => match i with O => x | S i => c i end). split.
        -- apply coef_cons. split; auto.
        -- rewrite pe_S. reflexivity.
      * intros (c & Hc & ->). apply coef_cons in Hc as [Hx Hc]. exists (c O), (u * pe (fun i => c (S i)) (length X) u). split; auto. split; [|apply pe_S].
        eexists. split; [exists (fun i => c (S i)); split; [exact Hc|reflexivity]|reflexivity].
    + apply (itv_sum _ _ (c0 O) (u * pe (fun i => c0 (S i)) (length X) u)); auto.
      * eexists. split; [eexists; split; [exact HX|reflexivity]|reflexivity].
      * now apply (CVX a (c0 O)).
      * apply (itv_scal _ (pe (fun i => c0 (S i)) (length X) u)); [eauto|]. eapply IH. exact HX.
Qed.

Variables (D : B) (s : nat) (u : R).
Hypothesis S1 : (1 <= s)%nat.
Hypothesis S2 : (Z.of_nat s <= 2 ^ 52)%Z.
Hypothesis HDu : rel D u.
Hypothesis HD0 : rel D 0.
(* X stands for x at u *)
Definition rel2 (X : Pbase B D) (x : R) : Prop := Rep (Some (u, false)) s X (fun _ => x).
Lemma md2 : mdok B rel (Some (u, false)) 2 D.
Proof. simpl. split; auto. split; auto. split; auto. exact (itv_cvx B rel CVX). Qed.
Lemma rel2_val X x : rel2 X x <-> (length X = 1%nat \/ length X = s) /\ exists c, coef X c /\ x = pe c (length X) u.
Proof.
  split.
  - intros [L (c & C & Z & Q & _)]. split; auto. exists c. split; auto. cbn [fst] in Q. rewrite Q. apply pe_more; auto. lia.
  - intros [L (c & C & E)]. split; auto. exists (fun i => if (i <? length X)%nat then c i else 0). split; [|split].
    + intros i Hi. destruct (Nat.ltb_spec i (length X)); [now apply C|lia].
    + intros i Hi. destruct (Nat.ltb_spec i (length X)); [lia|auto].
    + split; [|discriminate]. cbn [fst]. rewrite E. rewrite (pe_more (fun i => if (i <? length X)%nat then c i else 0) (length X) s).
      2:{ intros i Hi. destruct (Nat.ltb_spec i (length X)); [lia|auto]. } 2:{ lia. }
      apply pe_ext. intros i Hi. destruct (Nat.ltb_spec i (length X)); [auto|lia].
Qed.
Lemma rel2_itv : rel_itv (Pbase B D) rel2.
Proof.
  intros X x H. apply rel2_val in H as [L (c & C & E)]. apply (itv_ext (fun z => exists c, coef X c /\ z = pe c (length X) u)).
  - intros z. rewrite rel2_val. split; [intros H; split; auto|intros [_ H]; auto].
  - now apply (itv_pe X u c).
Qed.
Lemma head_tot (g : B -> B) (X : list B) : (1 <= length X)%nat -> exists Y, head g X = Ok Y.
Proof. destruct X; simpl; [lia|eauto]. Qed.
Lemma zip_tot (g : B -> B -> B) (X Y : list B) : length X = length Y -> exists U, zipM (B:=B) (fun x y => Ok (g x y)) X Y = Ok U.
Proof.
  revert Y. induction X as [|x X IH]; intros [|y Y] H; try discriminate; [exists []; reflexivity|]. injection H as H. destruct (IH Y H) as [U E].
  exists (g x y :: U). cbn [zipM bind]. now rewrite E.
Qed.
Definition lens (X : list B) : Prop := length X = 1%nat \/ length X = s.
Lemma add_tot X Y : lens X -> lens Y -> exists U, ps_add X Y = Ok U.
Proof.
  unfold lens. intros HX HY. destruct X as [|x [|x' X]]; [simpl in HX; lia| |]; (destruct Y as [|y [|y' Y]]; [simpl in HY; lia| |]); cbn [ps_add]; try (apply head_tot; simpl; lia).
  apply (zip_tot badd). simpl in *. lia.
Qed.
Lemma sub_tot X Y : lens X -> lens Y -> exists U, ps_sub X Y = Ok U.
Proof.
  unfold lens. intros HX HY. destruct X as [|x [|x' X]]; [simpl in HX; lia| |]; (destruct Y as [|y [|y' Y]]; [simpl in HY; lia| |]); cbn [ps_sub]; try (apply head_tot; rewrite ?map_length; simpl; lia).
  apply (zip_tot bsub). simpl in *. lia.
Qed.
Lemma mul_tot X Y : lens X -> lens Y -> exists U, ps_mul 2 D X Y = Ok U.
Proof.
  unfold lens. intros HX HY. destruct X as [|x [|x' X]]; [simpl in HX; lia| |]; (destruct Y as [|y [|y' Y]]; [simpl in HY; lia| |]); cbn [ps_mul]; eauto.
  destruct (Nat.leb_spec (length (x :: x' :: X)) (length (y :: y' :: Y))); [|simpl in *; lia]. rewrite Z.eqb_refl. eexists. reflexivity.
Qed.
Lemma rel2_eq X x y : rel2 X x -> x = y -> rel2 X y. Proof. now intros H <-. Qed.
Lemma sc_rel o m e X x Y : lit m e -> ps_sc o m e 2 D X = Ok Y -> rel2 X x -> (match o with SOdiv => dy m e <> 0 | SOdivr => x <> 0 | _ => True end) /\ rel2 Y (scv o m e x).
Proof.
  intros L E H. destruct (Rep_sc B rel OK (Some (u, false)) 2 D s S1 S2 md2 o m e X Y (fun _ => x) E L H) as [[N _] R]. split; auto.
Qed.
Lemma sc_tot o m e X : (match o with SOdiv | SOdivr => False | _ => True end) -> lens X -> exists Y, ps_sc o m e 2 D X = Ok Y.
Proof.
  intros NO L. assert (1 <= length X)%nat by (unfold lens in L; lia). destruct o; cbn [ps_sc]; try contradiction; eauto; apply head_tot; rewrite ?map_length; auto.
Qed.
Lemma sc_rel_tot o m e X x : lit m e -> (match o with SOdiv | SOdivr => False | _ => True end) -> rel2 X x -> rel2 (tot (ps_sc o m e 2 D X)) (scv o m e x).
Proof. intros L NO H. destruct (sc_tot o m e X NO (proj1 H)) as [Y E]. rewrite E. cbn [tot]. now apply (sc_rel o m e X x Y). Qed.
Theorem Pbase_ok : base_ok (Pbase B D) rel2.
Proof.
  split; cbn [Pbase bT bcst badd bsub bmul bneg bdiv baddS bSadd bsubS bSsub bmulS bSmul bdivS bSdiv bpowi bfun].
  - intros m e L. apply Rep_cst; auto. now apply (bk_cst _ _ OK).
  - intros X Y x y HX HY. destruct (add_tot X Y (proj1 HX) (proj1 HY)) as [U E]. rewrite E. exact (Rep_add B rel OK _ s S1 S2 X Y U _ _ E HX HY).
  - intros X Y x y HX HY. destruct (sub_tot X Y (proj1 HX) (proj1 HY)) as [U E]. rewrite E. exact (Rep_sub B rel OK _ s S1 S2 X Y U _ _ E HX HY).
  - intros X Y x y HX HY. destruct (mul_tot X Y (proj1 HX) (proj1 HY)) as [U E]. rewrite E. exact (Rep_mul B rel OK _ 2 D s S1 S2 md2 X Y U _ _ E HX HY).
  - intros X x HX. exact (Rep_neg B rel OK _ s S1 X _ HX).
  - intros X Y q x y E HX HY. destruct (Rep_div B rel OK _ 2 D s S1 S2 md2 X Y q _ _ E HX HY) as [[N _] R]. split; auto.
  - intros X x m e L HX. exact (sc_rel_tot SOadd m e X x L Logic.I HX).
  - intros X x m e L HX. exact (sc_rel_tot SOaddr m e X x L Logic.I HX).
  - intros X x m e L HX. exact (sc_rel_tot SOsub m e X x L Logic.I HX).
  - intros X x m e L HX. exact (sc_rel_tot SOsubr m e X x L Logic.I HX).
  - intros X x m e L HX. exact (sc_rel_tot SOmul m e X x L Logic.I HX).
  - intros X x m e L HX. exact (sc_rel_tot SOmulr m e X x L Logic.I HX).
  - intros X x m e q L E HX. exact (sc_rel SOdiv m e X x q L E HX).
  - intros X x m e q L E HX. exact (sc_rel SOdivr m e X x q L E HX).
  - intros X n q x E HX. destruct (Rep_powi B rel OK _ 2 D s S1 S2 md2 X n q _ E HX) as [N R]. split; auto. intros Hn. exact (proj1 (N Hn)).
  - intros f X q x E HX HF. destruct (is_arc f) eqn:EA; [destruct f; discriminate|]. assert (E' : ps_fun f 2 D X = Ok q) by (destruct f; try discriminate; exact E).
    refine (proj2 (Rep_fun B rel OK _ 2 D s S1 S2 md2 f X q _ EA E' HX _)). intros -> _ _. exact HF.
  - intros f X q x E HX. destruct (is_arc f) eqn:EA; [destruct f; discriminate|]. assert (E' : ps_fun f 2 D X = Ok q) by (destruct f; try discriminate; exact E).
    destruct (Nat.eq_dec (length X) 1) as [L1|L1].
    + destruct f; try discriminate; try exact Logic.I.
      * destruct X as [|a X]; [discriminate|]. cbn [ps_fun ps_log] in E'. apply bind_ok in E' as (l & El & _). apply rel2_val in HX as [_ (c & C & EX)].
        destruct X as [|a' X]; [|discriminate]. pose proof (bk_dom _ _ OK _ _ _ _ El (C O ltac:(simpl; lia))) as DC. simpl in *. unfold pe in EX. simpl in EX. lra.
      * destruct (Rep_sqrt B rel OK _ 2 D s S1 S2 md2 X q _ E' HX) as [[P _] _]. simpl. lra.
    + assert (FD : fdom f x). { refine (proj1 (proj1 (Rep_fun B rel OK _ 2 D s S1 S2 md2 f X q _ EA E' HX _))). intros _ L. contradiction. }
      destruct f; simpl in *; try lra; auto.
Qed.
End PB.
