(* pow(affine, affine) and split. *)
From Coq Require Import Reals Lra Lia Psatz ZArith Bool List Arith.
From Verif Require Import Ext Scalar IntervalModel IntervalSpec IntervalProofs IntervalEncl RealFun ElemModel ElemGen ElemExp ElemLog ElemTrig
  AffModel AffSpec AffProofs AffFun AffRed AffLang AffProg.
Import ListNotations.
Open Scope R_scope.

Section More.
Context {S : scal} (OK : scal_ok S) (AL : aff_laws S) (P : elemp S) (LE : exp_laws S P) (LL : log_laws S P) (LT : trig_laws S P).
Variables (nexp nlog : S -> S) (fuel : nat).
Notation form := (form S).
Lemma alog_over m (x : form) r : alog P nlog fuel m x = Ok r -> fst r = (1 + m)%nat /\ over (fst r) (snd r).
Proof.
  unfold alog. destruct (sle _ _); [discriminate|]. intros H. apply bind_ok in H as (? & _ & H). apply bind_ok in H as (? & _ & H).
  apply bind_ok in H as (? & _ & H). apply bind_ok in H as (? & _ & H). eapply linfin_over; eauto.
Qed.
Lemma apowA_ok m (x y : form) r e u v : apowA P nexp nlog fuel m x y = Ok r -> over m x -> over m y -> assignment e -> frep e x u -> frep e y v -> frange x ->
  (forall l q, alog P nlog fuel m x = Ok l -> amul (fst l) y (snd l) = Ok q -> ffin (snd q) /\ frange (snd q)) -> ffin (snd r) ->
  0 < u /\ newsym m e r (exp (v * ln u)).
Proof using All.
  intros H OX OY AS RX RY FX HQ F. unfold apowA in H. apply bind_ok in H as (l & E1 & H). apply bind_ok in H as (q & E2 & H).
  destruct (HQ l q E1 E2) as [FQ RQ]. destruct (alog_over _ _ _ E1) as [M1 O1]. destruct (amul_over _ _ _ _ E2) as [M2 O2].
  assert (OY1 : over (fst l) y) by (unfold over in *; lia).
  destruct (amul_fin OK AL _ _ _ _ E2 OY1 O1 FQ) as [_ FL].
  destruct (afun_ok OK AL P LE LL LT nexp nlog fuel (fun _ => 0) Flog m x l e u E1 OX AS RX FX FL) as [PU (_ & _ & e1 & X1 & R1)]. cbn [rfdom rfn] in *.
  split; [exact PU|].
  destruct (amul_ok OK AL _ _ _ _ _ _ _ E2 OY1 O1 (proj1 X1) (frep_extends _ _ _ _ _ OY X1 RY) R1 FQ) as (_ & _ & e2 & X2 & R2).
  destruct (afun_ok OK AL P LE LL LT nexp nlog fuel (fun _ => 0) Fexp (fst q) (snd q) r e2 _ H O2 (proj1 X2) R2 RQ F) as [_ (M3 & O3 & e3 & X3 & R3)]. cbn [rfn] in R3.
  split; [lia|]. split; [exact O3|]. exists e3. split; [|exact R3].
  exact (extends_trans m (fst l) _ _ _ ltac:(lia) X1 (extends_trans (fst l) (fst q) _ _ _ ltac:(lia) X2 X3)).
Qed.
Lemma lsum_app e (a b : list S) : forall k, lsum e k (a ++ b) = lsum e k a + lsum e (k + length a) b.
Proof.
  induction a as [|c a IH]; intros k; cbn [app lsum length]; [rewrite Nat.add_0_r; lra|]. rewrite IH. replace (1 + k + length a)%nat with (k + Datatypes.S (length a))%nat by lia. lra.
Qed.
Lemma lsum_zeros e n k : lsum e k (repeat (@s0 S) n) = 0.
Proof. revert k. induction n as [|n IH]; intros k; cbn [repeat lsum]; [reflexivity|]. rewrite IH. destruct (s0_f OK) as [_ ->]. lra. Qed.
Lemma fin_zeros n : Forall fin (repeat (@s0 S) n).
Proof. apply Forall_forall. intros x Hx. apply repeat_spec in Hx. subst x. apply (s0_f OK). Qed.
Lemma lsum_agree e e' (l : list S) : forall k, (forall i, (k <= i < k + length l)%nat -> e' i = e i) -> lsum e' k l = lsum e k l.
Proof.
  induction l as [|c l IH]; intros k H; cbn [lsum length] in *; [reflexivity|]. rewrite (H k) by lia. rewrite IH; [reflexivity|]. intros i Hi. apply H. lia.
Qed.
(* every value of the form is the sum of a value of each part; the first part is a number that does not depend on the symbols
   after n and the second does not depend on the symbols up to n *)
Lemma asplit_ok n (x y z : form) e u : asplit n x = Ok (y, z) -> frep e x u ->
  exists v w, u = v + w /\ (forall e' t, (forall k, (k <= n)%nat -> e' k = e k) -> (frep e' y t <-> t = v)) /\
    (forall e', (forall k, (n < k)%nat -> e' k = e k) -> frep e' z w).
Proof using OK.
  intros H [(F0 & FS & FE) B]. unfold asplit in H. destruct (Nat.ltb_spec (length (fs x)) n) as [L|L]; [discriminate|]. injection H as <- <-.
  destruct (s0_f OK) as [Z0 V0]. set (a := rv (f0 x) + lsum e 1 (firstn n (fs x))).
  assert (LF : length (firstn n (fs x)) = n) by (rewrite firstn_length; lia).
  assert (FF : Forall fin (firstn n (fs x)) /\ Forall fin (skipn n (fs x))) by (rewrite <- Forall_app, firstn_skipn; exact FS). destruct FF as [FA FB].
  exists a, (u - a). split; [lra|]. split.
  - intros e' t A.
    assert (Q : lsum e' 1 (firstn n (fs x)) = lsum e 1 (firstn n (fs x))) by (apply lsum_agree; intros i Hi; apply A; rewrite LF in Hi; lia).
    split.
    + intros [_ Bv]. cbn [f0 fs fe] in Bv. rewrite lsum_app, lsum_zeros, V0, Rplus_0_r, Q in Bv. fold a in Bv. pose proof (Rabs_pos (t - a)).
      assert (Q' : Rabs (t - a) = 0) by lra. destruct (Req_dec (t - a) 0) as [Q0|Q0]; [lra|]. apply Rabs_no_R0 in Q0. contradiction.
    + intros ->. split; [repeat split; cbn [f0 fs fe]; auto; apply Forall_app; split; auto; apply fin_zeros|]. cbn [f0 fs fe].
      rewrite lsum_app, lsum_zeros, V0, Q. unfold a. rewrite Rplus_0_r, Rminus_eq_0, Rabs_R0. lra.
  - intros e' A. split; [repeat split; cbn [f0 fs fe]; auto; apply Forall_app; split; auto; apply fin_zeros|]. cbn [f0 fs fe].
    rewrite lsum_app, lsum_zeros, V0, repeat_length. rewrite <- (firstn_skipn n (fs x)), lsum_app, LF in B.
    rewrite (lsum_agree e e') by (intros i Hi; apply A; lia).
    replace (u - a - (0 + (0 + lsum e (1 + n) (skipn n (fs x))))) with (u - (rv (f0 x) + (lsum e 1 (firstn n (fs x)) + lsum e (1 + n) (skipn n (fs x))))) by (unfold a; lra). exact B.
Qed.
End More.
