From Coq Require Import ZArith Reals Lra Lia List Bool Ascii.
From Flocq Require Import Core BinarySingleNaN.
From Verif Require Import Ext Fp64 ConvModel ConvSpec.
Import ListNotations.
Open Scope Z_scope.

(* ---- numbers written in base b ---- *)
Definition dig (b d : Z) : Prop := 0 <= d < b.

(* integer, most significant digit first *)
Fixpoint bval (b : Z) (l : list Z) : Z :=
  match l with
  | [] => 0
  | d :: l' => d * b ^ Z.of_nat (length l') + bval b l'
  end.

Lemma bval_app b l1 l2 : bval b (l1 ++ l2) = bval b l1 * b ^ Z.of_nat (length l2) + bval b l2.
Proof.
  induction l1; simpl; [lia|]. rewrite IHl1, app_length, Nat2Z.inj_add, Z.pow_add_r by lia. ring.
Qed.
Lemma bval_range b l : 0 < b -> Forall (dig b) l -> 0 <= bval b l < b ^ Z.of_nat (length l).
Proof.
  intros B F. induction F; [simpl; lia|]. cbn [bval length].
  rewrite Nat2Z.inj_succ, Z.pow_succ_r by lia. unfold dig in *.
  assert (0 < b ^ Z.of_nat (length l)) by (apply Z.pow_pos_nonneg; lia). nia.
Qed.
Lemma bval_zeros b n : bval b (repeat 0 n) = 0.
Proof. induction n; simpl; auto. Qed.
Lemma dig_zeros b n : 0 < b -> Forall (dig b) (repeat 0 n).
Proof. intros B. induction n; simpl; constructor; auto. unfold dig; lia. Qed.

Lemma trim0_spec l : exists k, l = repeat 0 k ++ trim0 l.
Proof.
  induction l as [|d l [k E]]; [exists O; auto|]. destruct d; [|exists O; auto..].
  exists (S k). simpl. f_equal. exact E.
Qed.
Lemma trim0_head l d t : trim0 l = d :: t -> d <> 0.
Proof. induction l as [|x l]; simpl; [discriminate|]. destruct x; auto; intros [= <- _]; lia. Qed.
Lemma bval_trim0 b l : bval b (trim0 l) = bval b l.
Proof. destruct (trim0_spec l) as [k E]. rewrite E at 2. rewrite bval_app, bval_zeros. lia. Qed.
Lemma Forall_trim0 (P : Z -> Prop) l : Forall P l -> Forall P (trim0 l).
Proof.
  intros F. destruct (trim0_spec l) as [k E]. rewrite E in F. apply Forall_app in F. apply F.
Qed.
Lemma trim0_length l : (length (trim0 l) <= length l)%nat.
Proof. induction l as [|d l]; simpl; [lia|]. destruct d; simpl; lia. Qed.
Lemma rev_repeat (n : nat) : rev (repeat 0 n) = repeat 0 n.
Proof.
  induction n; simpl; auto. rewrite IHn. clear. induction n; simpl; auto. now rewrite IHn.
Qed.
Lemma trimr_spec l : exists k, l = trimr l ++ repeat 0 k.
Proof.
  unfold trimr. destruct (trim0_spec (rev l)) as [k E]. exists k.
  rewrite <- (rev_involutive l) at 1. rewrite E at 1. rewrite rev_app_distr, rev_repeat. auto.
Qed.
Lemma Forall_trimr (P : Z -> Prop) l : Forall P l -> Forall P (trimr l).
Proof.
  intros F. destruct (trimr_spec l) as [k E]. rewrite E in F. apply Forall_app in F. apply F.
Qed.
Lemma trimr_length l : (length (trimr l) <= length l)%nat.
Proof. destruct (trimr_spec l) as [k E]. rewrite E at 2. rewrite app_length. lia. Qed.

(* fraction 0.d1 d2 ... with a tail v *)
Fixpoint fvt (b : Z) (l : list Z) (v : R) : R :=
  match l with
  | [] => v
  | d :: l' => ((IZR d + fvt b l' v) / IZR b)%R
  end.
Definition fv (b : Z) (l : list Z) : R := fvt b l 0%R.

Lemma fvt_app b l1 l2 v : fvt b (l1 ++ l2) v = fvt b l1 (fvt b l2 v).
Proof. induction l1; simpl; auto. now rewrite IHl1. Qed.
Lemma fvt_zeros b n : fvt b (repeat 0 n) 0%R = 0%R.
Proof. induction n; simpl; auto. rewrite IHn. unfold Rdiv. ring. Qed.
Lemma fv_trimr b l : fv b (trimr l) = fv b l.
Proof.
  unfold fv. destruct (trimr_spec l) as [k E]. rewrite E at 2. now rewrite fvt_app, fvt_zeros.
Qed.
Lemma fvt_bval b l v : 0 < b ->
  fvt b l v = ((IZR (bval b l) + v) / IZR (b ^ Z.of_nat (length l)))%R.
Proof.
  intros B. induction l as [|d l]; cbn [fvt bval length].
  - simpl. field.
  - rewrite IHl, Nat2Z.inj_succ, Z.pow_succ_r by lia. rewrite plus_IZR, !mult_IZR.
    assert (0 < b ^ Z.of_nat (length l)) by (apply Z.pow_pos_nonneg; lia).
    field. split; apply not_0_IZR; lia.
Qed.
Lemma fvt_range b l v : 0 < b -> Forall (dig b) l -> (0 <= v < 1 -> 0 <= fvt b l v < 1)%R.
Proof.
  intros B F V. induction F as [|d l D F]; cbn [fvt]; auto.
  assert (0 < IZR b)%R by (apply (IZR_lt 0); lia).
  assert (0 <= IZR d)%R by (apply (IZR_le 0); unfold dig in D; lia).
  assert (IZR d <= IZR b - 1)%R.
  { rewrite <- minus_IZR. apply IZR_le. unfold dig in D; lia. }
  split; [apply Rle_mult_inv_pos; lra|].
  apply (Rmult_lt_reg_r (IZR b)); auto. unfold Rdiv. rewrite Rmult_assoc, Rinv_l by lra. lra.
Qed.
Lemma fvt_pos b l v : 0 < b -> Forall (dig b) l -> (0 <= v)%R -> (0 <= fvt b l v)%R.
Proof.
  intros B F V. rewrite fvt_bval by auto. apply Rle_mult_inv_pos.
  - pose proof (bval_range b l B F). assert (0 <= IZR (bval b l))%R by (apply (IZR_le 0); lia). lra.
  - apply (IZR_lt 0), Z.pow_pos_nonneg; lia.
Qed.

(* ---- the passes ---- *)
Lemma idiv_spec b pm : 0 < b -> 0 < pm -> forall t c q r,
  Forall (dig b) t -> 0 <= c < pm -> idiv_pass b pm c t = (q, r) ->
  c * b ^ Z.of_nat (length t) + bval b t = bval b q * pm + r /\ 0 <= r < pm /\
  Forall (dig b) q /\ length q = length t.
Proof.
  intros B P. induction t as [|d t]; intros c q r F C E; simpl in E.
  - injection E as <- <-. simpl. repeat split; auto; lia.
  - inversion_clear F as [|? ? D F']. destruct (idiv_pass _ _ _ t) as [q' r'] eqn:E'.
    injection E as <- <-.
    pose proof (Z.mod_pos_bound (c * b + d) pm P) as M.
    destruct (IHt _ _ _ F' M E') as (I1 & I2 & I3 & I4).
    pose proof (Z.div_mod (c * b + d) pm ltac:(lia)) as DM. cbn [bval length].
    rewrite I4, Nat2Z.inj_succ, Z.pow_succ_r by lia.
    split; [|split; [auto|split; [|simpl; lia]]].
    + set (Q := (c * b + d) / pm) in *. set (W := (c * b + d) mod pm) in *. nia.
    + constructor; auto. unfold dig in *. split; [apply Z.div_pos; nia|].
      apply Z.div_lt_upper_bound; nia.
Qed.

Lemma fmul_spec b pm : 0 < b -> 0 < pm -> forall t r c,
  Forall (dig b) t -> fmul_pass b pm t = (r, c) ->
  (fv b t * IZR pm = IZR c + fv b r)%R /\ 0 <= c < pm /\ Forall (dig b) r /\
  length r = length t.
Proof.
  intros B P. unfold fv. induction t as [|d t]; intros r c F E; simpl in E.
  - injection E as <- <-. simpl. repeat split; auto; try lia. ring.
  - inversion_clear F as [|? ? D F']. destruct (fmul_pass _ _ t) as [r' c'] eqn:E'.
    injection E as <- <-. destruct (IHt _ _ F' eq_refl) as (I1 & I2 & I3 & I4).
    pose proof (Z.mod_pos_bound (d * pm + c') b B) as M.
    pose proof (Z.div_mod (d * pm + c') b ltac:(lia)) as DM. cbn [fvt length].
    split; [|split; [|split; [constructor; auto|simpl; lia]]].
    + set (Q := (d * pm + c') / b) in *. set (W := (d * pm + c') mod b) in *.
      assert (DR : (IZR d * IZR pm + IZR c' = IZR b * IZR Q + IZR W)%R).
      { rewrite <- !mult_IZR, <- !plus_IZR. now f_equal. }
      assert (IZR b <> 0)%R by (apply not_0_IZR; lia).
      field_simplify_eq; auto. nra.
    + unfold dig in *. split; [apply Z.div_pos; nia|]. apply Z.div_lt_upper_bound; nia.
Qed.

Lemma lowdig_spec b m : 1 < b -> forall c, 0 <= c < b ^ Z.of_nat m ->
  bval b (rev (lowdig b m c)) = c /\ Forall (dig b) (lowdig b m c) /\
  length (lowdig b m c) = m.
Proof.
  intros B. induction m as [|m]; intros c C.
  - simpl in *. repeat split; auto; lia.
  - rewrite Nat2Z.inj_succ, Z.pow_succ_r in C by lia. cbn [lowdig rev length].
    destruct (IHm (c / b)) as (I1 & I2 & I3).
    { split; [apply Z.div_pos; lia|apply Z.div_lt_upper_bound; lia]. }
    rewrite bval_app, I1, I3. cbn [bval length]. simpl (b ^ Z.of_nat 1).
    pose proof (Z.div_mod c b ltac:(lia)). pose proof (Z.mod_pos_bound c b ltac:(lia)).
    split; [change (b ^ Z.of_nat 1) with (b * 1); change (b ^ Z.of_nat 0) with 1; lia|].
    split; auto.
Qed.

Lemma highdig_spec b m : 1 < b -> forall c, 0 <= c < b ^ Z.of_nat m ->
  bval b (highdig b m c) = c /\ Forall (dig b) (highdig b m c) /\
  length (highdig b m c) = m.
Proof.
  intros B. induction m as [|m]; intros c C.
  - simpl in *. repeat split; auto; lia.
  - rewrite Nat2Z.inj_succ, Z.pow_succ_r in C by lia. cbn [highdig bval length].
    assert (P : 0 < b ^ Z.of_nat m) by (apply Z.pow_pos_nonneg; lia).
    destruct (IHm (c mod b ^ Z.of_nat m)) as (I1 & I2 & I3).
    { apply Z.mod_pos_bound; auto. }
    rewrite I1, I3. pose proof (Z.div_mod c (b ^ Z.of_nat m) ltac:(lia)).
    split; [lia|]. split; auto. constructor; auto. unfold dig.
    split; [apply Z.div_pos; lia|apply Z.div_lt_upper_bound; lia].
Qed.

(* ---- integer part ---- *)
Definition mpos (mm : nat -> nat) : Prop := forall n, (1 <= mm n)%nat.

Lemma pow_ge2 ob m : 2 <= ob -> (1 <= m)%nat -> 2 <= ob ^ Z.of_nat m.
Proof.
  intros B M. replace (Z.of_nat m) with (1 + (Z.of_nat m - 1)) by lia.
  rewrite Z.pow_add_r by lia. assert (0 < ob ^ (Z.of_nat m - 1)) by (apply Z.pow_pos_nonneg; lia).
  nia.
Qed.

Lemma conv_int_spec ib ob mm : 0 < ib -> 2 <= ob -> mpos mm -> forall fuel t acc r,
  Forall (dig ib) t -> Forall (dig ob) acc -> conv_int fuel ib ob mm t acc = Ok r ->
  bval ob (rev r) = bval ib t * ob ^ Z.of_nat (length acc) + bval ob (rev acc) /\
  Forall (dig ob) r.
Proof.
  intros B O M. induction fuel as [|fuel]; intros t acc r F FA E.
  - destruct t; simpl in E; [|discriminate]. injection E as <-. simpl. split; auto; lia.
  - destruct t as [|d t]; [simpl in E; injection E as <-; simpl; split; auto; lia|].
    cbn [conv_int] in E. set (T := d :: t) in *. set (m := mm (length T)) in *.
    destruct (idiv_pass ib (ob ^ Z.of_nat m) 0 T) as [q c] eqn:Eq.
    assert (P : 0 < ob ^ Z.of_nat m) by (apply Z.pow_pos_nonneg; lia).
    destruct (idiv_spec ib _ B P T 0 q c F ltac:(lia) Eq) as (I1 & I2 & I3 & I4).
    destruct (lowdig_spec ob m ltac:(lia) c I2) as (L1 & L2 & L3).
    apply IHfuel in E; [|now apply Forall_trim0|now apply Forall_app].
    destruct E as (E1 & E2). split; auto. rewrite E1, rev_app_distr, bval_app, L1, bval_trim0.
    rewrite rev_length, app_length, L3, Nat2Z.inj_add, Z.pow_add_r by lia. nia.
Qed.

(* enough fuel *)
Lemma conv_int_total ib ob mm : 0 < ib -> 2 <= ob -> mpos mm -> forall fuel t acc,
  Forall (dig ib) t -> bval ib t < 2 ^ Z.of_nat fuel -> (fuel <> 0%nat \/ t = []) ->
  exists r, conv_int fuel ib ob mm t acc = Ok r.
Proof.
  intros B O M. induction fuel as [|fuel]; intros t acc F V D.
  - destruct D as [D|D]; [congruence|]. subst. simpl. eauto.
  - destruct t as [|d t]; [simpl; eauto|].
    cbn [conv_int]. set (T := d :: t) in *. set (m := mm (length T)) in *.
    destruct (idiv_pass ib (ob ^ Z.of_nat m) 0 T) as [q c] eqn:Eq.
    assert (P : 2 <= ob ^ Z.of_nat m) by (apply pow_ge2; [auto|apply M]).
    assert (P0 : 0 < ob ^ Z.of_nat m) by lia.
    destruct (idiv_spec ib _ B P0 T 0 q c F ltac:(lia) Eq) as (I1 & I2 & I3 & I4).
    rewrite Nat2Z.inj_succ, Z.pow_succ_r in V by lia.
    assert (Hq : bval ib q < 2 ^ Z.of_nat fuel).
    { pose proof (bval_range ib q B I3).
      assert (2 * bval ib q <= bval ib q * ob ^ Z.of_nat m) by nia. lia. }
    apply IHfuel; [now apply Forall_trim0|now rewrite bval_trim0|].
    destruct fuel; [right|left; lia]. destruct (trim0 q) as [|x l] eqn:Et; auto.
    exfalso. pose proof (trim0_head _ _ _ Et) as H.
    assert (F' : Forall (dig ib) (x :: l)) by (rewrite <- Et; now apply Forall_trim0).
    inversion_clear F' as [|? ? D1 D2]. rewrite <- bval_trim0, Et in Hq. cbn [bval] in Hq.
    pose proof (bval_range ib l B D2). unfold dig in D1.
    assert (0 < ib ^ Z.of_nat (length l)) by (apply Z.pow_pos_nonneg; lia).
    simpl in Hq. nia.
Qed.
