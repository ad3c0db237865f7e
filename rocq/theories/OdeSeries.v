(* The series part of kv/ode.hpp: the Taylor coefficients of the mode 1 loop and the Picard step of mode 2, for any base type. *)
From Coq Require Import Reals ZArith Bool List Lra Lia Psatz Arith.
From Coquelicot Require Import Coquelicot.
From Verif Require Import Ext RealFun RealConst ADModel ADReal ADProofs PsaModel PsaReal PsaProofs PsaExpr PsaInt PsaUseProofs OdeLip OdePicard.
Import List ListNotations.
Open Scope R_scope.

(* curves that agree up to O(t^m) have images that agree up to O(t^m) *)
Lemma lip_bigO N g x m (u v : R -> nat -> R) : lip_at N g x -> (forall j, (j < N)%nat -> bigO 1 (fun t => u t j - x j)) ->
  (forall j, (j < N)%nat -> bigO 1 (fun t => v t j - x j)) -> (forall j, (j < N)%nat -> bigO m (fun t => u t j - v t j)) ->
  bigO m (fun t => g (u t) - g (v t)).
Proof.
  intros (d & L & D & L0 & H) HU HV HD.
  destruct (fin_min N (fun j e => forall t, Rabs t < e -> Rabs (u t j - x j) < d /\ Rabs (v t j - x j) < d)) as (e & E & K).
  - intros i a b _ LE K t Ht. apply K. lra.
  - intros i Hi. destruct (bigO_small 1 _ d (le_n _) (HU i Hi) D) as (a & A & KA). destruct (bigO_small 1 _ d (le_n _) (HV i Hi) D) as (b & B & KB).
    exists (Rmin a b). split; [apply Rmin_glb_lt; auto|]. intros t Ht. pose proof (Rmin_l a b). pose proof (Rmin_r a b). split; [apply KA|apply KB]; lra.
  - assert (EX : exists M e', 0 <= M /\ 0 < e' /\ forall j t, (j < N)%nat -> Rabs t < e' -> Rabs (u t j - v t j) <= M * Rabs t ^ m).
    { clear -HD. induction N.
      - exists 0, 1. split; [lra|]. split; [lra|]. intros; lia.
      - destruct IHN as (M & e' & M0 & E' & K). { intros. apply HD. lia. } destruct (bigO_norm _ _ (HD N ltac:(lia))) as (M1 & e1 & M10 & E1 & K1).
        exists (Rmax M M1), (Rmin e' e1). split; [eapply Rle_trans; [exact M0|apply Rmax_l]|]. split; [apply Rmin_glb_lt; lra|]. intros j t Hj Ht.
        pose proof (Rmin_l e' e1). pose proof (Rmin_r e' e1). pose proof (pow_le (Rabs t) m (Rabs_pos t)).
        destruct (Nat.eq_dec j N) as [->|].
        + eapply Rle_trans; [apply K1; lra|]. apply Rmult_le_compat_r; auto. apply Rmax_r.
        + eapply Rle_trans; [apply K; [lia|lra]|]. apply Rmult_le_compat_r; auto. apply Rmax_l. }
    destruct EX as (M & e' & M0 & E' & K'). exists (L * M), (Rmin e e'). split; [apply Rmin_glb_lt; auto|]. intros t Ht. pose proof (Rmin_l e e'). pose proof (Rmin_r e e').
    pose proof (pow_le (Rabs t) m (Rabs_pos t)). rewrite Rmult_assoc. apply H.
    + apply Rmult_le_pos; auto.
    + intros j Hj. apply (K j Hj). lra.
    + intros j Hj. apply (K j Hj). lra.
    + intros j Hj. apply K'; auto. lra.
Qed.

Section OdeS.
Variable B : base.
Variable rel : B -> R -> Prop.
Hypothesis OK : base_ok B rel.
Notation Rep := (Rep B rel).
Notation coef := (coef B rel).

(* coefficients of setorder *)
Lemma setorder_len m D (X : list B) k Y : ps_setorder m D X (Z.of_nat k) = Ok Y -> length Y = S k.
Proof.
  unfold ps_setorder. destruct (Z.ltb_spec (Z.of_nat k) 0); [discriminate|]. rewrite Nat2Z.id. destruct (Nat.leb_spec (length X) (k + 1)); intros E; apply oki in E; subst Y.
  - rewrite app_length, repeat_length. lia.
  - rewrite app_length, firstn_length_le by lia. simpl. lia.
Qed.
Lemma setorder_coef m D (X : list B) k Y c t : ps_setorder m D X (Z.of_nat k) = Ok Y -> coef X c -> (forall i, (length X <= i)%nat -> c i = 0) ->
  (m = 1%Z \/ rel D t) -> coef Y (fun i => if (i <? k)%nat then c i else if (m =? 1)%Z then c k else pe (fun j => c (k + j)%nat) (length X - k) t + (if (length X <=? k)%nat then c k else 0)).
Proof.
  intros E C ZC HD i Hi. rewrite (setorder_len _ _ _ _ _ E) in Hi. unfold ps_setorder in E. destruct (Z.ltb_spec (Z.of_nat k) 0); [discriminate|]. rewrite Nat2Z.id in E.
  destruct (Nat.leb_spec (length X) (k + 1)) as [L|L]; apply oki in E; subst Y.
  - rewrite (at_repeat B). destruct (Nat.ltb_spec i k) as [Lk|Lk].
    + destruct (Nat.ltb_spec i (length X)); [now apply C|]. rewrite ZC by auto. unfold at_. rewrite nth_overflow by auto. apply (rel0 B rel OK).
    + replace i with k by lia. assert (RK : rel (at_ X k) (c k)).
      { destruct (Nat.ltb_spec k (length X)); [now apply C|]. rewrite ZC by auto. unfold at_. rewrite nth_overflow by auto. apply (rel0 B rel OK). }
      destruct (m =? 1)%Z; auto. destruct (Nat.leb_spec (length X) k).
      * replace (length X - k)%nat with 0%nat by lia. unfold pe. simpl. now rewrite Rplus_0_l.
      * replace (length X - k)%nat with 1%nat by lia. unfold pe. simpl. rewrite Nat.add_0_r. now replace (0 + c k * 1 + 0) with (c k) by ring.
  - unfold at_ at 1. destruct (Nat.ltb_spec i k) as [Lk|Lk].
    + rewrite app_nth1 by (rewrite firstn_length_le; lia). assert (N : nth i (firstn k X) t0 = nth i X (t0 (B:=B))).
      { rewrite <- (firstn_skipn k X) at 2. now rewrite app_nth1 by (rewrite firstn_length_le; lia). } rewrite N. apply C. lia.
    + rewrite app_nth2 by (rewrite firstn_length_le; lia). rewrite firstn_length_le by lia. replace (i - k)%nat with 0%nat by lia. cbn [nth].
      destruct (Z.eqb_spec m 1) as [M1|M1]; [apply C; lia|]. destruct HD as [HD|HD]; [easy|]. destruct (Nat.leb_spec (length X) k); [lia|]. rewrite Rplus_0_r.
      replace (length X - k)%nat with (length (skipn k X)) by apply skipn_length. apply (horner_rel B rel OK); auto. intros j Hj. rewrite skipn_length in Hj.
      unfold at_. replace (nth j (skipn k X) t0) with (nth (k + j) X (t0 (B:=B))). { apply C. lia. }
      rewrite <- (firstn_skipn k X) at 1. rewrite app_nth2; rewrite firstn_length_le by lia; [f_equal; lia|lia].
Qed.
Lemma addT_ok (X Y : list B) A a c : ps_addT X A = Ok Y -> rel A a -> coef X c -> length Y = length X /\ coef Y (fun i => match i with O => c O + a | S i => c (S i) end).
Proof.
  intros E HA C. unfold ps_addT in E. destruct X as [|x X]; [discriminate|]. simpl in E. apply oki in E. subst Y. split; auto. apply coef_cons in C as [C0 C].
  apply coef_cons. split; [now apply (bk_add _ _ OK)|exact C].
Qed.
(* integrate, setorder, + init *)
Lemma int_ok m D r k (A : B) a b t J S_ Y : (Z.of_nat (length r) < 2 ^ 53)%Z -> ps_integrate r = Ok J -> ps_setorder m D J (Z.of_nat k) = Ok S_ -> ps_addT S_ A = Ok Y -> rel A a ->
  coef r b -> (forall i, (length r <= i)%nat -> b i = 0) -> (1 <= k)%nat -> (m = 1%Z \/ rel D t) ->
  length Y = S k /\ coef Y (fun i => if (i <? k)%nat then icoef a b i else if (m =? 1)%Z then icoef a b k else
     pe (fun j => icoef a b (k + j)) (S (length r) - k) t + (if (length r <? k)%nat then icoef a b k else 0)).
Proof.
  intros LR EI ES EA HA C ZC K1 HD. destruct (integrate_ok B rel OK r J b LR EI C) as [LJ CJ].
  assert (ZJ : forall i, (length J <= i)%nat -> icoef 0 b i = 0). { intros [|i] Hi; [lia|]. cbn [icoef]. rewrite ZC by lia. unfold Rdiv. ring. }
  pose proof (setorder_coef m D J k S_ _ t ES CJ ZJ HD) as CS. pose proof (setorder_len _ _ _ _ _ ES) as LS.
  destruct (addT_ok _ _ _ _ _ EA HA CS) as [LY CY]. split; [congruence|]. intros i Hi. specialize (CY i Hi). rewrite LJ in CY.
  replace (S (length r) <=? k)%nat with (length r <? k)%nat in CY by reflexivity.
  destruct i as [|i].
  - destruct (Nat.ltb_spec 0 k); [|lia]. cbn [icoef] in *. now rewrite Rplus_0_l in CY.
  - destruct (Nat.ltb_spec (S i) k); [exact CY|]. destruct k as [|k]; [lia|]. exact CY.
Qed.

(* ---- the right-hand side ---- *)
Variables (n : nat) (es : nat -> aexpr).
Hypothesis WF : forall i, (i < n)%nat -> awf (S n) (es i).
Hypothesis NA : forall i, (i < n)%nat -> noarc (es i) = true.
Variables (x0 : nat -> R) (t0_ : R).
Notation F := (fun i => rval (es i)).
Notation p0 := (ev n x0 t0_).
Hypothesis DIF : forall i, (i < n)%nat -> adiff (es i) p0.
Definition pcurve (c : nat -> nat -> R) (k : nat) (t : R) : nat -> R := ev n (fun i => pe (c i) k t) (t0_ + t).
(* coefficients of the derivative *)
Definition dcoef (c : nat -> R) (l : nat) : R := INR (S l) * c (S l).
Lemma dcoef_icoef a c l : dcoef (icoef a c) l = c l.
Proof. unfold dcoef. cbn [icoef]. field. apply not_0_INR. lia. Qed.
Lemma icoef_dcoef c i : icoef (c O) (dcoef c) i = c i.
Proof. destruct i; cbn [icoef]; auto. unfold dcoef. field. apply not_0_INR. lia. Qed.
Lemma time_O : bigO 1 (fun t => t0_ + t - t0_).
Proof. apply (bigO_ext 1 (fun t => t) _ 1); [lra|intros; ring|]. exists 1, 1. split; [lra|]. intros. simpl. lra. Qed.
Lemma curve_O (u : nat -> R -> R) : (forall i, (i < n)%nat -> bigO 1 (fun t => u i t - x0 i)) ->
  forall j, (j < S n)%nat -> bigO 1 (fun t => ev n (fun i => u i t) (t0_ + t) j - p0 j).
Proof. intros H j Hj. unfold ev. destruct (Nat.ltb_spec j n); [now apply H|apply time_O]. Qed.
Lemma cmp_O (u v : nat -> R -> R) m i : (i < n)%nat -> (forall i, (i < n)%nat -> bigO 1 (fun t => u i t - x0 i)) -> (forall i, (i < n)%nat -> bigO 1 (fun t => v i t - x0 i)) ->
  (forall i, (i < n)%nat -> bigO m (fun t => u i t - v i t)) -> bigO m (fun t => F i (ev n (fun j => u j t) (t0_ + t)) - F i (ev n (fun j => v j t) (t0_ + t))).
Proof.
  intros Hi HU HV HD. apply (lip_bigO (S n) (F i) p0 m (fun t => ev n (fun j => u j t) (t0_ + t)) (fun t => ev n (fun j => v j t) (t0_ + t))).
  - apply adiff_lip; auto.
  - now apply curve_O.
  - now apply curve_O.
  - intros j Hj. unfold ev. destruct (Nat.ltb_spec j n); [now apply HD|]. apply (bigO_ext m (fun _ => 0) _ 1); [lra|intros; ring|apply bigO_zero].
Qed.
Lemma pe_O c k : (1 <= k)%nat -> bigO 1 (fun t => pe c k t - c O).
Proof. intros K. apply (jet_dev k); auto. rewrite jet_bigO. apply (bigO_ext k (fun _ => 0) _ 1); [lra|intros; ring|apply bigO_zero]. Qed.

(* the coefficients found by the first j turns *)
Definition tinv (j : nat) (c : nat -> nat -> R) (x : nat -> list B) : Prop :=
  forall i, (i < n)%nat -> length (x i) = S j /\ coef (x i) (c i) /\ c i O = x0 i /\ jet j (fun t => F i (pcurve c (S j) t)) (dcoef (c i)).
Lemma F_bound i c k : (i < n)%nat -> (forall i, (i < n)%nat -> c i O = x0 i) -> (1 <= k)%nat -> bigO 0 (fun t => F i (pcurve c k t)).
Proof.
  intros Hi H0 K. apply (bigO_ext 0 (fun t => (F i (pcurve c k t) - F i p0) + F i p0) _ 1); [lra|intros; ring|]. apply bigO_plus; [|apply bigO_const].
  apply (bigO_weak 1 0); [lia|]. apply (lip_bigO (S n) (F i) p0 1 (fun t => pcurve c k t) (fun _ => p0)).
  - apply adiff_lip; auto.
  - apply curve_O. intros j Hj. rewrite <- (H0 j Hj). now apply pe_O.
  - intros j Hj. apply (bigO_ext 1 (fun _ => 0) _ 1); [lra|intros; ring|apply bigO_zero].
  - apply curve_O. intros j Hj. rewrite <- (H0 j Hj). now apply pe_O.
Qed.
Lemma tinv_0 init : (forall i, (i < n)%nat -> rel (init i) (x0 i)) -> tinv 0 (fun i => delta (x0 i)) (fun i => [init i]).
Proof.
  intros H i Hi. split; auto. split; [|split; auto].
  - intros [|l] Hl; simpl in *; [now apply H|lia].
  - rewrite jet_bigO. apply (bigO_ext 0 (fun t => F i (pcurve (fun i => delta (x0 i)) 1 t)) _ 1); [lra|intros; unfold pe; simpl; ring|]. now apply F_bound.
Qed.
Section Step.
Variable D : B.
(* one turn: y are the series of f, Y those of init + integral *)
Lemma tinv_step j c (x y Y : nat -> list B) J W init : tinv j c x -> (Z.of_nat j < 2 ^ 51)%Z ->
  (forall i, (i < n)%nat -> Rep None (S j) (y i) (fun t => F i (pcurve c (S j) t))) ->
  (forall i, (i < n)%nat -> ps_integrate (y i) = Ok (J i)) -> (forall i, (i < n)%nat -> ps_setorder 1 D (J i) (Z.of_nat (j + 1)) = Ok (W i)) ->
  (forall i, (i < n)%nat -> ps_addT (W i) (init i) = Ok (Y i)) -> (forall i, (i < n)%nat -> rel (init i) (x0 i)) ->
  exists c', tinv (S j) c' Y /\ forall i l, (i < n)%nat -> (l <= j)%nat -> c' i l = c i l.
Proof.
  intros T LJ HY EJ EW EA HI.
  assert (RY : exists b, forall i, (i < n)%nat -> (length (y i) = 1%nat \/ length (y i) = S j) /\ coef (y i) (b i) /\ (forall l, (length (y i) <= l)%nat -> b i l = 0) /\
     jet (S j) (fun t => F i (pcurve c (S j) t)) (b i)).
  { assert (RI : forall i, (i < n)%nat -> exists b, (length (y i) = 1%nat \/ length (y i) = S j) /\ coef (y i) b /\ (forall l, (length (y i) <= l)%nat -> b l = 0) /\ jet (S j) (fun t => F i (pcurve c (S j) t)) b).
    { intros i Hi. destruct (HY i Hi) as [LR (b & CB & ZB & JB)]. exists b. auto. }
    clear -RI. assert (X : forall k, (k <= n)%nat -> exists b, forall i, (i < k)%nat -> (length (y i) = 1%nat \/ length (y i) = S j) /\ coef (y i) (b i) /\ (forall l, (length (y i) <= l)%nat -> b i l = 0) /\ jet (S j) (fun t => F i (pcurve c (S j) t)) (b i)).
    { induction k; intros Hk; [exists (fun _ _ => 0); intros; lia|]. destruct IHk as [b Hb]; [lia|]. destruct (RI k ltac:(lia)) as [bk Hbk].
      exists (fun i => if (i =? k)%nat then bk else b i). intros i Hi. destruct (Nat.eqb_spec i k); [subst; auto|apply Hb; lia]. }
    apply (X n (le_n n)). }
  destruct RY as [b HB]. pose (c' := fun i l => if (l <=? j)%nat then c i l else b i (l - 1)%nat / INR l). exists c'.
  assert (EQ : forall i l, (i < n)%nat -> (l <= j)%nat -> c' i l = c i l). { intros i l _ Hl. unfold c'. destruct (Nat.leb_spec l j); [auto|lia]. }
  split; auto. intros i Hi. destruct (HB i Hi) as (LY & CY & ZY & JY). destruct (T i Hi) as (LX & CX & C0 & JX).
  assert (LOW : forall l, (l < j)%nat -> b i l = dcoef (c i) l). { intros l Hl. apply (jet_unique j (fun t => F i (pcurve c (S j) t))); auto. apply (jet_weak (S j)); auto. }
  assert (IC : forall l, (l <= S j)%nat -> icoef (x0 i) (b i) l = c' i l).
  { intros [|l] Hl; cbn [icoef]; unfold c'; [now rewrite C0|]. destruct (Nat.leb_spec (S l) j) as [L|L].
    - rewrite LOW by lia. unfold dcoef. field. apply not_0_INR. lia.
    - now replace (S l - 1)%nat with l by lia. }
  destruct (int_ok 1 D (y i) (j + 1) (init i) (x0 i) (b i) 0 (J i) (W i) (Y i)) as [LL CC]; auto; try lia.
  split; [lia|]. split; [|split].
  - intros l Hl. specialize (CC l Hl). cbn beta in CC. rewrite LL in Hl. destruct (Nat.ltb_spec l (j + 1)).
    + rewrite IC in CC by lia. exact CC.
    + cbn [Z.eqb] in CC. replace (j + 1)%nat with (S j) in CC by lia. change (Pos.eqb 1 1) with true in CC. cbn iota in CC. rewrite IC in CC by lia. replace (c' i l) with (c' i (S j)) by (f_equal; lia). exact CC.
  - rewrite EQ; auto. lia.
  - assert (J1 : jet (S j) (fun t => F i (pcurve c' (S (S j)) t)) (b i)).
    { apply (jet_near (S j) (fun t => F i (pcurve c (S j) t))); auto. apply (cmp_O (fun k t => pe (c' k) (S (S j)) t) (fun k t => pe (c k) (S j) t)); auto.
      - intros k Hk. destruct (T k Hk) as (_ & _ & C0k & _). rewrite <- C0k, <- (EQ k O Hk ltac:(lia)). apply pe_O. lia.
      - intros k Hk. destruct (T k Hk) as (_ & _ & <- & _). apply pe_O. lia.
      - intros k Hk. apply (bigO_ext (S j) (fun t => c' k (S j) * t ^ S j) _ 1); [lra| |].
        + intros u _. rewrite pe_last. rewrite (pe_ext (c' k) (c k) (S j)); [ring|]. intros l Hl. apply EQ; auto. lia.
        + apply bigO_scal, bigO_pow_id. }
    apply (jet_coef (S j) _ (b i)); auto. intros l Hl. rewrite <- (dcoef_icoef (x0 i) (b i) l). unfold dcoef. rewrite IC by lia. reflexivity.
Qed.
End Step.
End OdeS.
