(* Reduction of noise symbols keeps joint enclosure; powers and quotients of affine forms. *)
From Coq Require Import Reals Lra Lia Psatz ZArith Bool List Arith Permutation.
From Flocq Require Import Core.
From Verif Require Import Ext Scalar IntervalModel IntervalSpec IntervalProofs IntervalEncl ElemModel ElemGen AffModel AffSpec AffProofs AffFun.
Import ListNotations.
Open Scope R_scope.

Section Red.
Context {S : scal} (OK : scal_ok S) (AL : aff_laws S).
Notation iv := (iv S). Notation form := (form S).

Definition psum (e : nat -> R) (x : form) (l : list nat) : R := fold_right (fun j s => rv (nthc x j) * e j + s) 0 l.
Lemma psum_app e x l1 l2 : psum e x (l1 ++ l2) = psum e x l1 + psum e x l2.
Proof. induction l1 as [|j l IH]; simpl; [lra|rewrite IH; lra]. Qed.
Lemma psum_perm e x l1 l2 : Permutation l1 l2 -> psum e x l1 = psum e x l2.
Proof. induction 1; simpl; lra. Qed.
Lemma lsum_psum e (x : form) : forall (l1 l : list S), fs x = l1 ++ l -> lsum e (1 + length l1) l = psum e x (seq (1 + length l1) (length l)).
Proof.
  intros l1 l. revert l1. induction l as [|a l IH]; intros l1 H; auto. cbn [lsum length seq psum fold_right].
  specialize (IH (l1 ++ [a])). rewrite app_length in IH. simpl length in IH. replace (1 + (length l1 + 1))%nat with (Datatypes.S (1 + length l1)) in IH by lia.
  change (Datatypes.S (1 + length l1)) with (1 + (1 + length l1))%nat in IH. rewrite IH by (rewrite <- app_assoc; auto).
  assert (N : nthc x (1 + length l1) = a).
  { unfold nthc. rewrite H. replace (1 + length l1 - 1)%nat with (length l1) by lia. rewrite app_nth2, Nat.sub_diag by lia. auto. }
  rewrite N. reflexivity.
Qed.
Lemma psum_zero e (x : form) : forall n k, (length (fs x) < k)%nat -> psum e x (seq k n) = 0.
Proof.
  induction n as [|n IH]; intros k H; simpl; auto. rewrite IH by lia. unfold nthc. rewrite nth_overflow by lia. rewrite (proj2 (s0_f OK)). lra.
Qed.
Lemma lsum_psum_m e (x : form) m : over m x -> lsum e 1 (fs x) = psum e x (seq 1 m).
Proof.
  intros O. unfold over in O. pose proof (lsum_psum e x [] (fs x) eq_refl) as H. change (1 + length (@nil S))%nat with 1%nat in H. rewrite H.
  replace m with (length (fs x) + (m - length (fs x)))%nat at 1 by lia. rewrite seq_app, psum_app, (psum_zero e x _ (1 + length (fs x))) by lia. lra.
Qed.
Lemma lsum_map e e' (x : form) (l : list nat) : forall k, (forall j, (j < length l)%nat -> e' (k + j)%nat = e (nth j l 0%nat)) ->
  lsum e' k (map (nthc x) l) = psum e x l.
Proof.
  induction l as [|a l IH]; intros k H; simpl; auto. rewrite (IH (Datatypes.S k)).
  - specialize (H 0%nat). simpl in H. rewrite Nat.add_0_r in H. rewrite H by lia. auto.
  - intros j Hj. specialize (H (Datatypes.S j)). simpl in H. rewrite <- H by lia. f_equal. lia.
Qed.
Lemma abs_sum e (x : form) (AS : assignment e) (l : list nat) : forall c, fin (fold_left (fun t j => addu t (sabs (nthc x j))) l c) ->
  fin c /\ Rabs (psum e x l) <= rv (fold_left (fun t j => addu t (sabs (nthc x j))) l c) - rv c.
Proof.
  induction l as [|a l IH]; intros c H; simpl in *; [rewrite Rabs_R0; split; [auto|lra]|].
  destruct (IH _ H) as [F B]. destruct (addu_f OK AL _ _ F) as (FC & FA & D). destruct (sabs_f AL _ FA) as [_ EA].
  split; auto. eapply Rle_trans; [apply Rabs_triang|]. rewrite EA in D.
  assert (Rabs (rv (nthc x a) * e a) <= Rabs (rv (nthc x a))) by (apply mul_abs1; [lra|apply AS]). lra.
Qed.
(* values for the new symbols *)
Lemma fresh_list (T D : list R) : Forall2 (fun t d => Rabs d <= t) T D ->
  exists ts : list R, length ts = length T /\ (forall i, -1 <= nth i ts 0 <= 1) /\ forall i, nth i T 0 * nth i ts 0 = nth i D 0.
Proof.
  induction 1 as [|t d T D H _ (ts & L & B & E)].
  - exists []. split; auto. split; intros [|i]; simpl; lra.
  - exists ((if Req_EM_T t 0 then 0 else d / t) :: ts). split; [simpl; lia|].
    assert (K : -1 <= (if Req_EM_T t 0 then 0 else d / t) <= 1 /\ t * (if Req_EM_T t 0 then 0 else d / t) = d).
    { destruct (Req_EM_T t 0) as [Z|Z]; [subst; split; [lra|]; destruct (Req_dec d 0); [lra|pose proof (Rabs_pos_lt d H0); lra]|].
      split; [|field; auto]. assert (0 < t) by (pose proof (Rabs_pos d); lra). apply Rabs_le_inv in H.
      split; [apply Rmult_le_reg_r with t|apply Rmult_le_reg_r with t]; auto; unfold Rdiv; rewrite Rmult_assoc, Rinv_l; lra. }
    split; intros [|i]; simpl; try tauto; auto.
Qed.
Lemma mapi_nth {A B} (f : nat -> A -> B) (l : list A) : forall i k d d', (k < length l)%nat -> nth k (mapi f i l) d = f (i + k)%nat (nth k l d').
Proof.
  induction l as [|a l IH]; intros i [|k] d d' H; simpl in *; try lia; [f_equal; lia|]. rewrite (IH _ _ _ d') by lia. f_equal. lia.
Qed.
Lemma mapi_length {A B} (f : nat -> A -> B) (l : list A) : forall i, length (mapi f i l) = length l.
Proof. induction l; intros; simpl; auto. Qed.
Lemma Forall2_nth' {A B} (R : A -> B -> Prop) (l : list A) (l' : list B) da db : length l = length l' ->
  (forall i, (i < length l)%nat -> R (nth i l da) (nth i l' db)) -> Forall2 R l l'.
Proof.
  revert l'. induction l as [|a l IH]; intros [|b l'] L H; simpl in *; try lia; constructor.
  - apply (H 0%nat); lia.
  - apply IH; [lia|]. intros i Hi. apply (H (Datatypes.S i)); lia.
Qed.
Lemma Forall2_at {A B} (R : A -> B -> Prop) (l : list A) (l' : list B) da db : Forall2 R l l' ->
  length l = length l' /\ forall i, (i < length l)%nat -> R (nth i l da) (nth i l' db).
Proof.
  induction 1 as [|a b l l' H _ [L IH]]; simpl; [split; [auto|lia]|]. split; [lia|]. intros [|i] Hi; auto. apply IH; lia.
Qed.
Lemma Forall_at {A} (P : A -> Prop) (l : list A) d i : Forall P l -> (i < length l)%nat -> P (nth i l d).
Proof. intros H. rewrite Forall_forall in H. intros. apply H, nth_In; auto. Qed.
Lemma Forall_of {A} (P : A -> Prop) (l : list A) d : (forall i, (i < length l)%nat -> P (nth i l d)) -> Forall P l.
Proof.
  induction l as [|a l IH]; intros H; constructor; [apply (H 0%nat); simpl; lia|].
  apply IH. intros i Hi. apply (H (Datatypes.S i)); simpl; lia.
Qed.

Let d0 : form := of_T s0.
(* common argument: K is the part of the form kept (a sum over e), tmp_i the new coefficient *)
Lemma reduce_gen (x : list form) (vs : list R) (tmp : list S) (kept : list R) (lim : nat) (ek e : nat -> R) :
  length vs = length x -> length tmp = length x -> length kept = length x ->
  (forall i, (i < length x)%nat -> Rabs (nth i vs 0 - nth i kept 0) <= rv (nth i tmp s0)) -> assignment ek ->
  exists e', assignment e' /\ (forall k, (k <= lim)%nat -> e' k = ek k) /\
    forall i, (i < length x)%nat -> rv (nth i tmp s0) * e' (lim + 1 + i)%nat = nth i vs 0 - nth i kept 0.
Proof.
  intros L1 L2 L3 H AK. set (D := map (fun i => nth i vs 0 - nth i kept 0) (seq 0 (length x))).
  destruct (fresh_list (map rv tmp) D) as (ts & LT & BT & ET).
  { apply (Forall2_nth' _ _ _ 0 0); [unfold D; rewrite !map_length, seq_length; auto|]. rewrite map_length. intros i Hi.
    rewrite (nth_indep (map rv tmp) 0 (rv (@s0 S))) by (rewrite map_length; lia). rewrite map_nth.
    unfold D. rewrite (nth_indep (map (fun i => nth i vs 0 - nth i kept 0) (seq 0 (length x))) 0 ((fun i => nth i vs 0 - nth i kept 0) 0%nat)) by (rewrite map_length, seq_length; lia).
    rewrite (map_nth (fun i => nth i vs 0 - nth i kept 0)), seq_nth by lia. apply H. lia. }
  exists (fun k => if (k <=? lim)%nat then ek k else nth (k - lim - 1) ts 0).
  split. { intros i. destruct (i <=? lim)%nat; [apply AK|apply BT]. }
  split. { intros k Hk. destruct (Nat.leb_spec k lim); [auto|lia]. }
  intros i Hi. destruct (Nat.leb_spec (lim + 1 + i) lim); [lia|]. replace (lim + 1 + i - lim - 1)%nat with i by lia.
  specialize (ET i). rewrite (nth_indep (map rv tmp) 0 (rv (@s0 S))) in ET by (rewrite map_length; lia). rewrite map_nth in ET.
  rewrite ET. unfold D. rewrite (nth_indep (map (fun i => nth i vs 0 - nth i kept 0) (seq 0 (length x))) 0 ((fun i => nth i vs 0 - nth i kept 0) 0%nat)) by (rewrite map_length, seq_length; lia).
  rewrite (map_nth (fun i => nth i vs 0 - nth i kept 0)), seq_nth by lia. auto.
Qed.

Lemma epsilon_reduce_ok m perm n nl (x : list form) e vs m' y : epsilon_reduce m perm n nl x = (m', y) ->
  Permutation perm (seq 1 m) -> Forall (over m) x -> assignment e -> Forall2 (frep e) x vs -> Forall ffin y ->
  (m' <= m)%nat /\ Forall (over m') y /\ exists e', assignment e' /\ Forall2 (frep e') y vs.
Proof.
  intros H PM OV AS RX FY. unfold epsilon_reduce in H.
  destruct (Nat.leb_spec m (Nat.max n nl)) as [B|B]; [injection H as <- <-; split; [lia|]; split; [auto|]; exists e; auto|].
  destruct (Nat.ltb_spec n (length x)) as [B2|B2]; [injection H as <- <-; split; [lia|]; split; [auto|]; exists e; auto|].
  injection H as <- <-. split; [lia|]. set (s := length x) in *. set (keep := firstn (n - s) perm) in *.
  assert (LP : length perm = m) by (rewrite (Permutation_length PM), seq_length; auto).
  assert (LK : length keep = (n - s)%nat) by (unfold keep; rewrite firstn_length; lia).
  destruct (Forall2_at _ _ _ d0 0 RX) as [LV RN].
  set (tmpf := fun x : form => addu (fold_left (fun t j => addu t (sabs (nthc x j))) (skipn (n - s) perm) s0) (fe x)).
  assert (FN : forall i, (i < s)%nat -> ffin (reduce1 s n m perm i (nth i x d0))).
  { intros i Hi. rewrite Forall_forall in FY. apply FY. change i with (0 + i)%nat at 1. rewrite <- (mapi_nth (reduce1 s n m perm) x 0 i d0 d0 Hi). apply nth_In. rewrite mapi_length. auto. }
  split.
  { apply (Forall_of _ _ d0). rewrite mapi_length. intros i Hi. rewrite (mapi_nth _ _ _ _ _ d0) by auto. unfold over, reduce1. cbn [fs].
    rewrite !app_length, map_length, !repeat_length. fold keep. rewrite LK. cbn [length]. simpl plus. fold s in Hi. lia. }
  destruct (reduce_gen x vs (map tmpf x) (map (fun x => rv (f0 x) + psum e x keep) x) (n - s)
     (fun k => if (k =? 0)%nat then 0 else if (k <=? n - s)%nat then e (nth (k - 1) perm 0%nat) else 0) e) as (e' & A' & E1 & E2); auto.
  - rewrite map_length; auto.
  - rewrite map_length; auto.
  - intros i Hi. rewrite (nth_indep (map (fun x => rv (f0 x) + psum e x keep) x) 0 ((fun x => rv (f0 x) + psum e x keep) d0)) by (rewrite map_length; auto).
    rewrite (map_nth (fun x => rv (f0 x) + psum e x keep)). rewrite (nth_indep (map tmpf x) s0 (tmpf d0)) by (rewrite map_length; auto). rewrite map_nth.
    set (f := nth i x d0). destruct (RN i Hi) as [_ RI]. fold f in RI.
    destruct (FN i Hi) as (_ & FL & _). cbn [reduce1 fs] in FL. apply Forall_app in FL as [_ FL]. apply Forall_app in FL as [_ FL].
    pose proof (Forall_inv FL) as FT. fold f in FT. fold (tmpf f) in FT. destruct (addu_f OK AL _ _ FT) as (F1 & F2 & D1). fold (tmpf f) in D1.
    destruct (abs_sum e f AS _ _ F1) as [_ D2]. rewrite (proj2 (s0_f OK)) in D2.
    rewrite (lsum_psum_m e f m) in RI by (apply Forall_at; auto). rewrite <- (psum_perm _ _ _ _ PM) in RI.
    rewrite <- (firstn_skipn (n - s) perm), psum_app in RI. fold keep in RI.
    assert (Rabs (nth i vs 0 - (rv (f0 f) + psum e f keep)) <= Rabs (psum e f (skipn (n - s) perm)) + rv (fe f)).
    { replace (nth i vs 0 - (rv (f0 f) + psum e f keep)) with (psum e f (skipn (n - s) perm) + (nth i vs 0 - (rv (f0 f) + (psum e f keep + psum e f (skipn (n - s) perm))))) by ring.
      eapply Rle_trans; [apply Rabs_triang|]. lra. }
    lra.
  - intros k. destruct (k =? 0)%nat; [lra|]. destruct (k <=? n - s)%nat; [apply AS|lra].
  - exists e'. split; auto. apply (Forall2_nth' _ _ _ d0 0); [rewrite mapi_length; auto|]. rewrite mapi_length. intros i Hi.
    rewrite (mapi_nth _ _ _ _ _ d0) by auto. simpl plus. split; [apply FN; auto|]. specialize (E2 i Hi).
    set (f := nth i x d0) in *.
    rewrite (nth_indep (map (fun x => rv (f0 x) + psum e x keep) x) 0 ((fun x => rv (f0 x) + psum e x keep) d0)) in E2 by (rewrite map_length; auto).
    rewrite (map_nth (fun x => rv (f0 x) + psum e x keep)) in E2. rewrite (nth_indep (map tmpf x) s0 (tmpf d0)) in E2 by (rewrite map_length; auto). rewrite map_nth in E2.
    fold f in E2. cbn [reduce1 f0 fs fe]. fold keep. fold (tmpf f). rewrite !lsum_app. rewrite map_length, LK.
    rewrite (lsum_map e e' f keep 1).
    + rewrite !(lsum_zeros OK). cbn [app]. rewrite repeat_length. cbn [lsum]. rewrite (proj2 (s0_f OK)).
      replace (i + (n - s + 1))%nat with (n - s + 1 + i)%nat by lia.
      replace (nth i vs 0 - _) with 0 by lra. rewrite Rabs_R0. lra.
    + intros j Hj. rewrite E1 by lia. destruct (Nat.eqb_spec (1 + j) 0); [lia|]. destruct (Nat.leb_spec (1 + j) (n - s)); [|lia].
      replace (1 + j - 1)%nat with j by lia. f_equal. unfold keep. rewrite <- (firstn_skipn (n - s) perm) at 1. apply app_nth1. fold keep. lia.
Qed.

Lemma epsilon_reduce2_ok n (x : list form) e vs m' y : epsilon_reduce2 n x = (m', y) ->
  assignment e -> Forall2 (frep e) x vs -> Forall ffin y ->
  m' = (n + length x)%nat /\ Forall (over m') y /\ exists e', assignment e' /\ (forall k, (k <= n)%nat -> e' k = e k) /\ Forall2 (frep e') y vs.
Proof.
  intros H AS RX FY. unfold epsilon_reduce2 in H. injection H as <- <-. split; auto. set (s := length x) in *.
  destruct (Forall2_at _ _ _ d0 0 RX) as [LV RN].
  set (tmpf := fun x : form => addu (fold_left (fun t a => addu t (sabs a)) (skipn n (fs x)) s0) (fe x)).
  assert (FN : forall i, (i < s)%nat -> ffin (reduce2 n i (nth i x d0))).
  { intros i Hi. rewrite Forall_forall in FY. apply FY. change i with (0 + i)%nat at 1. rewrite <- (mapi_nth (reduce2 n) x 0 i d0 d0 Hi). apply nth_In. rewrite mapi_length. auto. }
  split.
  { apply (Forall_of _ _ d0). rewrite mapi_length. intros i Hi. rewrite (mapi_nth _ _ _ _ _ d0) by auto. unfold over, reduce2. cbn [fs].
    rewrite !app_length, firstn_length, !repeat_length. cbn [length]. simpl plus. fold s in Hi. lia. }
  destruct (reduce_gen x vs (map tmpf x) (map (fun x => rv (f0 x) + lsum e 1 (firstn n (fs x))) x) n e e) as (e' & A' & E1 & E2); auto.
  - rewrite map_length; auto.
  - rewrite map_length; auto.
  - intros i Hi. rewrite (nth_indep (map (fun x => rv (f0 x) + lsum e 1 (firstn n (fs x))) x) 0 ((fun x => rv (f0 x) + lsum e 1 (firstn n (fs x))) d0)) by (rewrite map_length; auto).
    rewrite (map_nth (fun x => rv (f0 x) + lsum e 1 (firstn n (fs x)))). rewrite (nth_indep (map tmpf x) s0 (tmpf d0)) by (rewrite map_length; auto). rewrite map_nth.
    set (f := nth i x d0). destruct (RN i Hi) as [_ RI]. fold f in RI.
    destruct (FN i Hi) as (_ & FL & _). cbn [reduce2 fs] in FL. apply Forall_app in FL as [_ FL]. apply Forall_app in FL as [_ FL]. apply Forall_app in FL as [_ FL].
    pose proof (Forall_inv FL) as FT. fold f in FT. fold (tmpf f) in FT. destruct (addu_f OK AL _ _ FT) as (F1 & F2 & D1). fold (tmpf f) in D1.
    destruct (fold_abs_ok OK AL e AS _ _ (length (firstn n (fs f)) + 1) F1) as [_ D2].
    rewrite (proj2 (s0_f OK)) in D2.
    rewrite <- (firstn_skipn n (fs f)), lsum_app in RI.
    assert (Rabs (nth i vs 0 - (rv (f0 f) + lsum e 1 (firstn n (fs f)))) <= Rabs (lsum e (length (firstn n (fs f)) + 1) (skipn n (fs f))) + rv (fe f)).
    { set (A := lsum e 1 (firstn n (fs f))) in *. set (B := lsum e (length (firstn n (fs f)) + 1) (skipn n (fs f))) in *.
      replace (nth i vs 0 - (rv (f0 f) + A)) with (B + (nth i vs 0 - (rv (f0 f) + (A + B)))) by ring.
      eapply Rle_trans; [apply Rabs_triang|]. lra. }
    lra.
  - exists e'. split; auto. split; auto. apply (Forall2_nth' _ _ _ d0 0); [rewrite mapi_length; auto|]. rewrite mapi_length. intros i Hi.
    rewrite (mapi_nth _ _ _ _ _ d0) by auto. simpl plus. split; [apply FN; auto|]. specialize (E2 i Hi).
    set (f := nth i x d0) in *.
    rewrite (nth_indep (map (fun x => rv (f0 x) + lsum e 1 (firstn n (fs x))) x) 0 ((fun x => rv (f0 x) + lsum e 1 (firstn n (fs x))) d0)) in E2 by (rewrite map_length; auto).
    rewrite (map_nth (fun x => rv (f0 x) + lsum e 1 (firstn n (fs x)))) in E2. rewrite (nth_indep (map tmpf x) s0 (tmpf d0)) in E2 by (rewrite map_length; auto). rewrite map_nth in E2.
    fold f in E2. cbn [reduce2 f0 fs fe]. fold (tmpf f). rewrite !lsum_app, !(lsum_zeros OK), !repeat_length. cbn [lsum].
    rewrite (lsum_ext e e') by (intros k Hk; rewrite firstn_length in Hk; apply E1; lia).
    rewrite firstn_length. rewrite (proj2 (s0_f OK)).
    replace (i + (n - length (fs f) + (Nat.min n (length (fs f)) + 1)))%nat with (n + 1 + i)%nat by lia.
    replace (nth i vs 0 - _) with 0 by lra. rewrite Rabs_R0. lra.
Qed.
End Red.
