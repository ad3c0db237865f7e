(* When the autodif evaluation of an expression succeeds at x, the expression stays defined along every differentiable
   curve through x for a short while. *)
From Coq Require Import Reals Lra Lia Psatz ZArith Bool List Arith.
From Coquelicot Require Import Coquelicot.
From Flocq Require Import Core.
From Verif Require Import Ext LinAlg RealFun RealInv ElemLog ADModel ADReal ADProofs.
Import List ListNotations.
Open Scope R_scope.

Definition near (P : R -> Prop) : Prop := exists d, 0 < d /\ forall t, Rabs t < d -> P t.
Lemma near_and P Q : near P -> near Q -> near (fun t => P t /\ Q t).
Proof.
  intros (d & D & HP) (e & E & HQ). exists (Rmin d e). split; [apply Rmin_glb_lt; auto|]. intros t Ht.
  split; [apply HP|apply HQ]; eapply Rlt_le_trans; eauto; [apply Rmin_l|apply Rmin_r].
Qed.
Lemma near_imp (P Q : R -> Prop) : (forall t, P t -> Q t) -> near P -> near Q.
Proof. intros H (d & D & HP). exists d. auto. Qed.
Lemma near_all (P : R -> Prop) : (forall t, P t) -> near P.
Proof. intros H. exists 1. split; [lra|auto]. Qed.
Definition tends (g : R -> R) (a : R) : Prop := forall e, 0 < e -> near (fun t => Rabs (g t - a) < e).
Lemma tends_deriv g l : derivable_pt_lim g 0 l -> tends g (g 0).
Proof.
  intros H e He. assert (CT : continuity_pt g 0) by (apply derivable_continuous_pt; exists l; exact H).
  destruct (CT e He) as (d & D & Hd). exists d. split; auto. intros t Ht. destruct (Req_dec t 0) as [->|N].
  - rewrite Rminus_diag_eq, Rabs_R0; auto.
  - apply Hd. split; [split; [exact Logic.I|auto]|]. simpl. unfold R_dist. rewrite Rminus_0_r. auto.
Qed.
Lemma tends_const a : tends (fun _ => a) a.
Proof. intros e He. apply near_all. intros _. rewrite Rminus_diag_eq, Rabs_R0; auto. Qed.
Lemma tends_gt g a b : tends g a -> b < a -> near (fun t => b < g t).
Proof. intros H L. apply (near_imp (fun t => Rabs (g t - a) < a - b)); [|apply H; lra]. intros t Ht. apply Rabs_lt_between in Ht. lra. Qed.
Lemma tends_lt g a b : tends g a -> a < b -> near (fun t => g t < b).
Proof. intros H L. apply (near_imp (fun t => Rabs (g t - a) < b - a)); [|apply H; lra]. intros t Ht. apply Rabs_lt_between in Ht. lra. Qed.
Lemma tends_ne g a b : tends g a -> a <> b -> near (fun t => g t <> b).
Proof.
  intros H L. destruct (Rlt_le_dec a b).
  - apply (near_imp (fun t => g t < b)); [|apply tends_lt with a; auto]. intros t ?. lra.
  - apply (near_imp (fun t => b < g t)); [|apply tends_gt with a; auto; lra]. intros t ?. lra.
Qed.
Lemma tends_cos g a : tends g a -> tends (fun t => cos (g t)) (cos a).
Proof.
  intros H e He. destruct (continuity_cos a e He) as (d & D & Hd).
  apply (near_imp (fun t => Rabs (g t - a) < d)); [|apply H; auto]. intros t Ht. destruct (Req_dec (g t) a) as [E|N].
  - rewrite E, Rminus_diag_eq, Rabs_R0; auto.
  - apply Hd. split; [split; [exact Logic.I|auto]|]. exact Ht.
Qed.
(* the set where a function is differentiable is open *)
Lemma fdiff_near f g a : tends g a -> fdiff f a -> near (fun t => fdom f (g t)).
Proof.
  intros T D. destruct f; cbn [fdiff fdom] in *; try (apply near_all; auto; fail).
  - apply tends_gt with a; auto.
  - apply (near_imp (fun t => 0 < g t)); [intros; lra|]. apply tends_gt with a; auto.
  - apply (tends_ne (fun t => cos (g t)) (cos a)); auto. apply tends_cos; auto.
  - apply (near_imp (fun t => -1 < g t /\ g t < 1)); [intros; lra|]. apply near_and; [apply tends_gt with a|apply tends_lt with a]; auto; lra.
  - apply (near_imp (fun t => -1 < g t /\ g t < 1)); [intros; lra|]. apply near_and; [apply tends_gt with a|apply tends_lt with a]; auto; lra.
  - apply (near_imp (fun t => 1 < g t)); [intros; lra|]. apply tends_gt with a; auto.
  - apply near_and; [apply tends_gt with a|apply tends_lt with a]; auto; lra.
Qed.

Section Open.
Variables (B : base) (rel : B -> R -> Prop) (OK : base_ok B rel).
Notation adinv := (adinv B rel).

Lemma inv_tends n g x a c v : adinv n g x a -> curve_at n c x v -> tends (fun t => g (c t)) (g x).
Proof using.
  intros [_ [[_ K]|(_ & _ & G & _ & GR)]] CU.
  - intros e He. apply near_all. intros t. rewrite (K (c t) x), Rminus_diag_eq, Rabs_R0; auto.
  - pose proof (tends_deriv _ _ (GR c v CU)) as T. cbv beta in T. destruct CU as [E _]. rewrite E in T. exact T.
Qed.
Lemma fun_open n g x a f r c v : ad_fun f a = Ok r -> adinv n g x a -> fdom f (g x) -> curve_at n c x v ->
  near (fun t => fdom f (g (c t))).
Proof using OK.
  intros H IA DM CU. pose proof (inv_tends n g x a c v IA CU) as T.
  assert (CST : adv a = [] -> near (fun t => fdom f (g (c t)))).
  { intros E. destruct IA as [_ [[_ K]|(NE & _)]]; [|contradiction]. apply near_all. intros t. rewrite (K (c t) x). auto. }
  assert (NE : adv a = [] \/ adv a <> []) by (destruct (adv a); [left; auto|right; discriminate]). destruct NE as [E|NE]; auto. clear CST.
  apply (fdiff_near f _ _ T). pose proof (proj1 IA) as RA. unfold ad_fun in H. cbv zeta in H. apply bind_ok in H as (w & Hw & H).
  assert (L1 : lit 1 0) by (apply lit_int; lia). assert (Lm1 : lit (-1) 0) by (apply lit_int; lia). assert (L2 : lit 2 0) by (apply lit_int; lia).
  assert (XX : rel (bmul (av a) (av a)) (g x * g x)) by (apply (bk_mul _ _ OK); auto).
  pose proof (bk_fun _ _ OK _ _ _ _ Hw RA DM) as V.
  destruct f; cbn [fdom fdiff] in *; auto; unfold ad_scale in H.
  - apply bind_ok in H as (d & Hd & _). apply mapM_ok in Hd as [_ Z].
    destruct IA as [_ [[EA _]|(_ & L & G & HG & _)]]; [contradiction|].
    assert (P : (0 < length (adv a))%nat) by (destruct (adv a); [contradiction|simpl; lia]).
    specialize (Z 0%nat P). specialize (HG 0%nat ltac:(lia)).
    assert (V2 : rel (bSmul 2 0 w) (2 * sqrt (g x))) by (rewrite <- (dy_int 2); apply (bk_Smul _ _ OK); auto).
    destruct (bk_div _ _ OK _ _ _ _ _ Z HG V2) as [NZ _]. destruct DM as [|E]; auto. exfalso. apply NZ. rewrite <- E, sqrt_0. ring.
  - apply bind_ok in H as (s & Hs & H). apply bind_ok in H as (q & Hq & H).
    assert (X1 : rel (bSsub 1 0 (bmul (av a) (av a))) (1 - g x * g x)) by (rewrite <- (dy_int 1); apply (bk_Ssub _ _ OK); auto).
    pose proof (bk_dom _ _ OK _ _ _ _ Hs X1) as P. pose proof (bk_fun _ _ OK _ _ _ _ Hs X1 P) as SS. cbn in SS.
    destruct (bk_Sdiv _ _ OK _ _ _ _ _ L1 Hq SS) as [NZ _]. destruct P as [P|P]; [|exfalso; apply NZ; rewrite <- P; apply sqrt_0]. nra.
  - apply bind_ok in H as (s & Hs & H). apply bind_ok in H as (q & Hq & H).
    assert (X1 : rel (bSsub 1 0 (bmul (av a) (av a))) (1 - g x * g x)) by (rewrite <- (dy_int 1); apply (bk_Ssub _ _ OK); auto).
    pose proof (bk_dom _ _ OK _ _ _ _ Hs X1) as P. pose proof (bk_fun _ _ OK _ _ _ _ Hs X1 P) as SS. cbn in SS.
    destruct (bk_Sdiv _ _ OK _ _ _ _ _ Lm1 Hq SS) as [NZ _]. destruct P as [P|P]; [|exfalso; apply NZ; rewrite <- P; apply sqrt_0]. nra.
  - apply bind_ok in H as (s & Hs & H). apply bind_ok in H as (q & Hq & H).
    assert (X1 : rel (bsubS (bmul (av a) (av a)) 1 0) (g x * g x - 1)) by (rewrite <- (dy_int 1); apply (bk_subS _ _ OK); auto).
    pose proof (bk_dom _ _ OK _ _ _ _ Hs X1) as P. pose proof (bk_fun _ _ OK _ _ _ _ Hs X1 P) as SS. cbn in SS.
    destruct (bk_Sdiv _ _ OK _ _ _ _ _ L1 Hq SS) as [NZ _]. destruct P as [P|P]; [|exfalso; apply NZ; rewrite <- P; apply sqrt_0]. nra.
Qed.

Lemma aeval_open n (env : nat -> ad B) x c v e r : (forall i, (i < n)%nat -> adv (env i) <> [] /\ adinv n (fun y => y i) x (env i)) ->
  awf n e -> clog e -> curve_at n c x v -> aeval env e = Ok r -> near (fun t => adom e (c t)).
Proof using OK.
  intros HE W C CU.
  assert (HI : forall i, (i < n)%nat -> adinv n (fun y => y i) x (env i)) by (intros; apply HE; auto).
  assert (AI : forall e a, awf n e -> clog e -> aeval env e = Ok a -> adom e x /\ adinv n (rval e) x a).
  { intros e1 a W1 C1 H1. assert (D : adom e1 x) by (apply (aeval_dom B rel OK n env x e1 a); auto). split; auto.
    apply (aeval_inv B rel OK n env x e1 a); auto. }
  assert (TE : forall e a, awf n e -> clog e -> aeval env e = Ok a -> tends (fun t => rval e (c t)) (rval e x)).
  { intros e1 a W1 C1 H1. destruct (AI _ _ W1 C1 H1) as [_ I1]. apply (inv_tends n (rval e1) x a c v I1 CU). }
  revert r W C. induction e; simpl; intros r W C H; try (apply near_all; auto; fail).
  - apply bind_ok in H as (a & Ha & H). apply bind_ok in H as (b & Hb & H). apply near_and; [apply (IHe1 a)|apply (IHe2 b)]; tauto.
  - apply bind_ok in H as (a & Ha & H). apply bind_ok in H as (b & Hb & H). apply near_and; [apply (IHe1 a)|apply (IHe2 b)]; tauto.
  - apply bind_ok in H as (a & Ha & H). apply bind_ok in H as (b & Hb & H). apply near_and; [apply (IHe1 a)|apply (IHe2 b)]; tauto.
  - apply bind_ok in H as (a & Ha & H). apply bind_ok in H as (b & Hb & H).
    apply near_and; [apply (IHe1 a); tauto|]. apply near_and; [apply (IHe2 b); tauto|].
    apply tends_ne with (rval e2 x); [apply (TE e2 b); tauto|]. unfold ad_div in H. apply bind_ok in H as (w & Hv & _).
    eapply (bk_div _ _ OK); [exact Hv| |]; [apply (AI e1 a)|apply (AI e2 b)]; tauto.
  - apply bind_ok in H as (a & Ha & H). apply near_and; [apply (IHe a); tauto|].
    destruct o; try (apply near_all; auto; fail); simpl in H; apply bind_ok in H as (w & Hv & _).
    + apply near_all. intros _. eapply (bk_divS _ _ OK); [|exact Hv|apply (AI e0 a)]; tauto.
    + apply tends_ne with (rval e0 x); [apply (TE e0 a); tauto|]. eapply (bk_Sdiv _ _ OK); [|exact Hv|apply (AI e0 a)]; tauto.
  - apply bind_ok in H as (a & Ha & H). apply (IHe a); tauto.
  - apply bind_ok in H as (a & Ha & H). apply near_and; [apply (IHe a); tauto|].
    destruct (Z_lt_le_dec n0 0) as [L|L]; [|apply near_all; intros; lia].
    apply (near_imp (fun t => rval e (c t) <> 0)); [auto|]. apply tends_ne with (rval e x); [apply (TE e a); tauto|].
    unfold ad_powz in H. apply bind_ok in H as (w & Hv & _). revert L. eapply (bk_pow _ _ OK); [exact Hv|]. apply (AI e a); tauto.
  - apply bind_ok in H as (a & Ha & H). apply bind_ok in H as (b & Hb & H).
    apply near_and; [apply (IHe1 a); tauto|]. apply near_and; [apply (IHe2 b); tauto|].
    assert (D : adom (XPow e1 e2) x). { apply (AI (XPow e1 e2) r); simpl; auto. rewrite Ha. simpl. rewrite Hb. exact H. }
    simpl in D. apply tends_gt with (rval e1 x); [apply (TE e1 a); tauto|tauto].
  - apply bind_ok in H as (a & Ha & H). apply near_and; [apply (IHe a); tauto|].
    assert (D : adom (XFun f e) x). { apply (AI (XFun f e) r); simpl; auto. rewrite Ha. exact H. }
    simpl in D. apply (fun_open n (rval e) x a f r c v); auto; [apply (AI e a)|]; tauto.
Qed.
End Open.
