(* Proofs about stringtod *)
From Coq Require Import ZArith Reals Lra Lia List Bool Ascii.
From Flocq Require Import Core BinarySingleNaN.
From Verif Require Import Ext Fp64 ConvModel ConvSpec ConvProofs.
Import ListNotations.
Open Scope Z_scope.

(* ---- the leading bit of the integer part ---- *)
Definition led (t : list Z) : Prop := match t with d :: _ => d <> 0 | [] => False end.

Lemma led_trim0 l : trim0 l <> [] -> led (trim0 l).
Proof. destruct (trim0 l) eqn:E; [congruence|]. intros _. simpl. eapply trim0_head; eauto. Qed.
Lemma led_low b t : 0 < b -> Forall (dig b) t -> led t -> b ^ (Z.of_nat (length t) - 1) <= bval b t.
Proof.
  intros B F L. destruct t as [|d t]; [easy|]. inversion_clear F as [|? ? D F'].
  cbn [bval length]. rewrite Nat2Z.inj_succ. replace (Z.succ _ - 1) with (Z.of_nat (length t)) by lia.
  pose proof (bval_range b t B F'). unfold dig in D. simpl in L.
  assert (0 < b ^ Z.of_nat (length t)) by (apply Z.pow_pos_nonneg; lia). nia.
Qed.
Lemma m_in_pow n : (2 <= n)%nat -> 2 ^ Z.of_nat (m_in n) <= 10 ^ (Z.of_nat n - 1).
Proof.
  intros N. unfold m_in. destruct (Nat.leb_spec 6 n).
  - transitivity (10 ^ 5); [vm_compute; discriminate|]. apply Z.pow_le_mono_r; lia.
  - do 6 (destruct n as [|n]; [try lia; vm_compute; discriminate|]). lia.
Qed.
Lemma m_in_pos : mpos m_in.
Proof. intros n. unfold m_in. repeat destruct (_ <=? _)%nat; lia. Qed.
Lemma m_in_le n : (m_in n <= 16)%nat.
Proof. unfold m_in. repeat destruct (_ <=? _)%nat; lia. Qed.

Lemma bval_trim0_nil b q : bval b q <> 0 -> trim0 q <> [].
Proof. intros H E. apply H. rewrite <- bval_trim0, E. reflexivity. Qed.

Lemma conv_int_top : forall fuel t acc r, Forall (dig 10) t -> led t ->
  conv_int fuel 10 2 m_in t acc = Ok r -> exists l, r = l ++ [1].
Proof.
  induction fuel as [|fuel]; intros t acc r F L E.
  - destruct t; simpl in *; [easy|discriminate].
  - destruct t as [|d t]; [easy|].
    destruct t as [|d' t].
    + cbn [conv_int length] in E. change (m_in 1) with 1%nat in E.
      cbn [idiv_pass lowdig] in E. change (2 ^ Z.of_nat 1) with 2 in E.
      rewrite Z.mul_0_l, Z.add_0_l in E.
      inversion_clear F as [|? ? D _]. unfold dig in D. simpl in L.
      destruct (Z.eq_dec d 1) as [->|N].
      * change (1 / 2) with 0 in E. cbn in E. destruct fuel; injection E as <-; eauto.
      * assert (H : d / 2 <> 0).
        { intros H. apply Z.div_small_iff in H; lia. }
        assert (T : trim0 [d / 2] = [d / 2]) by (simpl; destruct (d / 2); congruence).
        rewrite T in E. apply IHfuel in E; auto. constructor; auto.
        unfold dig. split; [apply Z.div_pos; lia|apply Z.div_lt_upper_bound; lia].
    + cbn [conv_int] in E. set (T := d :: d' :: t) in *. set (m := m_in (length T)) in *.
      destruct (idiv_pass 10 (2 ^ Z.of_nat m) 0 T) as [q c] eqn:Eq.
      assert (P : 0 < 2 ^ Z.of_nat m) by (apply Z.pow_pos_nonneg; lia).
      destruct (idiv_spec 10 _ ltac:(lia) P T 0 q c F ltac:(lia) Eq) as (I1 & I2 & I3 & I4).
      apply IHfuel in E; auto.
      * now apply Forall_trim0.
      * apply led_trim0, (bval_trim0_nil 10). intros H. rewrite H in I1.
        pose proof (led_low 10 T ltac:(lia) F L).
        pose proof (m_in_pow (length T) ltac:(subst T; simpl; lia)). fold m in H1. lia.
Qed.

Lemma conv_int_top0 fuel t r : Forall (dig 10) t ->
  conv_int fuel 10 2 m_in t [] = Ok r -> (length r <= 16)%nat \/ exists l, r = l ++ [1].
Proof.
  intros F E. destruct fuel as [|fuel]; destruct t as [|d t]; simpl in E; try discriminate.
  1, 2: injection E as <-; left; simpl; lia.
  set (T := d :: t) in *. set (m := m_in (S (length t))) in *.
  change (d :: t) with T in E.
  destruct (idiv_pass 10 (2 ^ Z.of_nat m) 0 T) as [q c] eqn:Eq.
  assert (P : 0 < 2 ^ Z.of_nat m) by (apply Z.pow_pos_nonneg; lia).
  destruct (idiv_spec 10 _ ltac:(lia) P T 0 q c F ltac:(lia) Eq) as (I1 & I2 & I3 & I4).
  simpl in Eq. rewrite Eq in E.
  destruct (trim0 q) as [|x l] eqn:Et.
  - left. assert (E' : lowdig 2 m c = r) by (destruct fuel; simpl in E; injection E; auto).
    rewrite <- E'. destruct (lowdig_spec 2 m ltac:(lia) c I2) as (_ & _ & ->). apply m_in_le.
  - right. rewrite <- Et in E. apply conv_int_top in E; auto.
    + now apply Forall_trim0.
    + apply led_trim0. congruence.
Qed.

(* ---- the fraction loop ---- *)
(* E: every bit produced so far *)
Definition finv (flag0 : bool) (rmax0 : Z) (s : fst_) (E : list Z) : Prop :=
  f_min s = - Z.of_nat (length E) /\ Forall (dig 2) E /\
  if flag0 then f_flag s = true /\ f_max s = rmax0 /\ f_out s = E
  else (f_flag s = false /\ f_max s = rmax0 /\ f_out s = [] /\ E = repeat 0 (length E)) \/
       (f_flag s = true /\ exists k l, E = repeat 0 k ++ f_out s /\ f_max s = - (Z.of_nat k + 1) /\
          f_out s = 1 :: l).

Lemma push_inv flag0 rmax0 : forall bs s E, Forall (dig 2) bs -> finv flag0 rmax0 s E ->
  finv flag0 rmax0 (push_bits bs s) (E ++ bs).
Proof.
  induction bs as [|b bs]; intros s E F H; simpl.
  - now rewrite app_nil_r.
  - inversion_clear F as [|? ? D F']. replace (E ++ b :: bs) with ((E ++ [b]) ++ bs) by now rewrite <- app_assoc.
    apply IHbs; auto. destruct H as (H1 & H2 & H3).
    assert (L : f_min s - 1 = - Z.of_nat (length (E ++ [b]))) by (rewrite app_length; simpl; lia).
    assert (G : Forall (dig 2) (E ++ [b])) by (apply Forall_app; auto).
    destruct flag0.
    + destruct H3 as (-> & H4 & H5). split; [exact L|]. split; auto. simpl.
      split; auto. split; auto. now rewrite H5.
    + destruct H3 as [(-> & H4 & H5 & H6)|(-> & k & l & H4 & H5 & H6)].
      * destruct (Z.eqb_spec b 0) as [->|N]; cbn [negb].
        -- split; [exact L|]. split; auto. left. simpl. split; auto. split; auto. split; auto.
           rewrite app_length. simpl. rewrite H6 at 1. rewrite (Nat.add_comm _ 1). simpl.
           clear. induction (length E); simpl; auto. now f_equal.
        -- split; [exact L|]. split; auto. right. simpl. split; auto.
           exists (length E), []. rewrite H5. simpl. assert (b = 1) as -> by (unfold dig in D; lia).
           split; [now rewrite H6 at 1|]. split; [|auto]. rewrite H1. lia.
      * split; [exact L|]. split; auto. right. simpl. split; auto.
        exists k, (l ++ [b]). rewrite H4, <- app_assoc. split; auto. split; auto. now rewrite H6.
Qed.

Lemma highdig_fvt m c v : 0 <= c < 2 ^ Z.of_nat m ->
  fvt 2 (highdig 2 m c) v = ((IZR c + v) / IZR (2 ^ Z.of_nat m))%R.
Proof.
  intros C. rewrite fvt_bval by lia. destruct (highdig_spec 2 m ltac:(lia) c C) as (-> & _ & ->). auto.
Qed.

Lemma frac_in_spec flag0 rmax0 : forall fuel t s E F0 s',
  Forall (dig 10) t -> finv flag0 rmax0 s E -> F0 = fvt 2 E (fv 10 t) ->
  frac_in fuel t s = Ok s' ->
  exists E' rho, finv flag0 rmax0 s' E' /\ F0 = fvt 2 E' rho /\ (0 <= rho < 1)%R /\
    (rho = 0%R \/ (f_flag s' = true /\ 53 <= f_max s' - f_min s')).
Proof.
  induction fuel as [|fuel]; intros t s E F0 s' F I V R.
  - destruct t as [|d t].
    { simpl in R. injection R as <-. exists E, 0%R. unfold fv in V; simpl in V.
      split; auto. split; auto. split; [lra|auto]. }
    cbn [frac_in] in R. destruct (_ && _) eqn:B; [|discriminate].
    injection R as <-. apply andb_prop in B as (B1 & B2). apply Z.leb_le in B2.
    exists E, (fv 10 (d :: t)). split; auto. split; auto.
    split; [apply fvt_range; auto; try lia; lra|]. right. split; auto. lia.
  - destruct t as [|d t].
    { simpl in R. injection R as <-. exists E, 0%R. unfold fv in V; simpl in V.
      split; auto. split; auto. split; [lra|auto]. }
    cbn [frac_in] in R. set (T := d :: t) in *.
    destruct (_ && _) eqn:B.
    + injection R as <-. apply andb_prop in B as (B1 & B2). apply Z.leb_le in B2.
      exists E, (fv 10 T). split; auto. split; auto.
      split; [apply fvt_range; auto; try lia; lra|]. right. split; auto. lia.
    + set (m := if negb (f_flag s) then 16 else Z.min 16 (53 - (f_max s - f_min s))) in *.
      assert (M : 0 <= m).
      { unfold m. destruct (f_flag s); cbn [negb andb] in B |- *; [|lia]. apply Z.leb_gt in B. lia. }
      destruct (fmul_pass 10 (2 ^ m) T) as [r c] eqn:Ef.
      assert (P : 0 < 2 ^ m) by (apply Z.pow_pos_nonneg; lia).
      destruct (fmul_spec 10 (2 ^ m) ltac:(lia) P T r c F Ef) as (I1 & I2 & I3 & I4).
      assert (I2' : 0 <= c < 2 ^ Z.of_nat (Z.to_nat m)) by (rewrite Z2Nat.id; auto).
      apply (IHfuel (trimr r) _ (E ++ highdig 2 (Z.to_nat m) c) F0) in R; auto.
      * now apply Forall_trimr.
      * apply push_inv; auto. apply (highdig_spec 2 (Z.to_nat m) ltac:(lia) c I2').
      * rewrite fvt_app, V. f_equal. rewrite fv_trimr, highdig_fvt by auto.
        rewrite Z2Nat.id by auto. rewrite <- I1. field. apply not_0_IZR. lia.
Qed.

(* enough fuel *)
Lemma push_flag : forall bs s, f_flag s = true ->
  f_flag (push_bits bs s) = true /\ f_max (push_bits bs s) = f_max s /\
  f_min (push_bits bs s) = f_min s - Z.of_nat (length bs).
Proof.
  induction bs as [|b bs]; intros s H; simpl; [split; auto; split; auto; lia|].
  rewrite H. destruct (IHbs (mkf true (f_max s) (f_min s - 1) (f_out s ++ [b])) eq_refl) as (A1 & A2 & A3).
  split; auto. split; auto. rewrite A3. simpl. lia.
Qed.
Lemma push_flag_min : forall bs s, f_min (push_bits bs s) = f_min s - Z.of_nat (length bs).
Proof.
  induction bs as [|b bs]; intros s; simpl; [lia|].
  rewrite IHbs. destruct (f_flag s); [|destruct (negb _)]; simpl; lia.
Qed.
Lemma push_flag_max : forall bs s, f_flag s = false -> f_min s <= f_max s + 1 ->
  f_flag (push_bits bs s) = true -> f_max (push_bits bs s) - f_min (push_bits bs s) >= 0.
Proof.
  induction bs as [|b bs]; intros s H M F; simpl in *; [congruence|].
  rewrite H in *. destruct (negb (b =? 0)).
  - destruct (push_flag bs (mkf true (f_min s - 1) (f_min s - 1) (f_out s ++ [b])) eq_refl) as (_ & A2 & A3).
    rewrite A2, A3. simpl. lia.
  - apply IHbs; auto. simpl. lia.
Qed.
Lemma push_noflag : forall bs s, f_flag (push_bits bs s) = false ->
  f_flag s = false /\ Forall (eq 0) bs.
Proof.
  induction bs as [|b bs]; intros s H; simpl in *; [auto|].
  apply IHbs in H as (H1 & H2). destruct (f_flag s); [simpl in H1; discriminate|].
  destruct (Z.eqb_spec b 0) as [->|]; simpl in H1; [|discriminate]. auto.
Qed.

Lemma frac_in_flag : forall k t s, Forall (dig 10) t -> f_flag s = true ->
  53 - (f_max s - f_min s) <= Z.of_nat k -> exists s', frac_in k t s = Ok s'.
Proof.
  induction k as [|k]; intros t s F H K.
  - destruct t; cbn [frac_in]; [eauto|]. rewrite H. destruct (Z.leb_spec (53 - (f_max s - f_min s)) 0); cbn [andb]; eauto.
    change (Z.of_nat 0) with 0 in K. lia.
  - destruct t as [|d t]; [simpl; eauto|]. cbn [frac_in]. set (T := d :: t) in *. rewrite H.
    destruct (Z.leb_spec (53 - (f_max s - f_min s)) 0); cbn [andb negb]; eauto.
    set (m := Z.min 16 _). destruct (fmul_pass 10 (2 ^ m) T) as [r c] eqn:Ef.
    assert (P : 0 < 2 ^ m) by (apply Z.pow_pos_nonneg; lia).
    destruct (fmul_spec 10 (2 ^ m) ltac:(lia) P T r c F Ef) as (I1 & I2 & I3 & I4).
    assert (I2' : 0 <= c < 2 ^ Z.of_nat (Z.to_nat m)) by (rewrite Z2Nat.id; [auto|lia]).
    destruct (highdig_spec 2 (Z.to_nat m) ltac:(lia) c I2') as (_ & _ & L).
    destruct (push_flag (highdig 2 (Z.to_nat m) c) s H) as (A1 & A2 & A3).
    apply IHk; auto; [now apply Forall_trimr|]. rewrite A2, A3, L. lia.
Qed.

Lemma frac_in_mono : forall k n t s s', frac_in k t s = Ok s' -> frac_in (n + k) t s = Ok s'.
Proof.
  induction k; intros n t s s' E.
  - destruct t; [cbn [frac_in] in E; destruct (n + 0)%nat; exact E|].
    cbn [frac_in] in E. destruct (_ && _) eqn:B; [|discriminate].
    destruct (n + 0)%nat; cbn [frac_in]; rewrite B; auto.
  - destruct t; [cbn [frac_in] in E; destruct (n + S k)%nat; exact E|].
    rewrite <- plus_n_Sm. cbn [frac_in] in *. destruct (_ && _); auto.
    destruct (fmul_pass _ _ _). auto.
Qed.

Lemma bval_0 b l : 0 < b -> Forall (dig b) l -> bval b l = 0 -> l = repeat 0 (length l).
Proof.
  intros B F. induction F as [|d l D F]; cbn [bval length repeat]; auto. intros E.
  pose proof (bval_range b l B F). unfold dig in D.
  assert (0 < b ^ Z.of_nat (length l)) by (apply Z.pow_pos_nonneg; lia).
  assert (d = 0) as -> by nia. f_equal. apply IHF. lia.
Qed.
Lemma trim0_zeros n : trim0 (repeat 0 n) = [].
Proof. induction n; simpl; auto. Qed.
Lemma fv_0 b l : 0 < b -> Forall (dig b) l -> fv b l = 0%R -> trimr l = [].
Proof.
  intros B F E. unfold fv in E. rewrite fvt_bval in E by auto.
  assert (0 < IZR (b ^ Z.of_nat (length l)))%R by (apply (IZR_lt 0), Z.pow_pos_nonneg; lia).
  assert (bval b l = 0).
  { apply eq_IZR. apply (Rmult_eq_reg_r (/ IZR (b ^ Z.of_nat (length l)))); [|apply Rinv_neq_0_compat; lra].
    rewrite Rmult_0_l. unfold Rdiv in E. now rewrite Rplus_0_r in E. }
  apply bval_0 in H0; auto. rewrite H0. unfold trimr. now rewrite rev_repeat, trim0_zeros.
Qed.
Lemma bval_all0 b l : Forall (eq 0) l -> bval b l = 0.
Proof. induction 1; cbn [bval]; auto. subst. lia. Qed.

(* fuel j for the passes that only see zeros *)
Lemma frac_in_total : forall j t s, Forall (dig 10) t -> f_flag s = false -> f_min s <= f_max s + 1 ->
  (bpow radix2 (- Z.of_nat j) <= fv 10 t \/ (1 <= j)%nat /\ fv 10 t = 0)%R ->
  exists s', frac_in (j + 54) t s = Ok s'.
Proof.
  induction j as [|j]; intros t s F H M V.
  - destruct V as [V|(V & _)]; [|lia].
    pose proof (fvt_range 10 t 0%R ltac:(lia) F ltac:(lra)) as Q. unfold fv in V. simpl in V. lra.
  - destruct t as [|d t]; [cbn; eauto|].
    cbn [frac_in Nat.add]. set (T := d :: t) in *. rewrite H. cbn [andb negb].
    destruct (fmul_pass 10 (2 ^ 16) T) as [r c] eqn:Ef.
    destruct (fmul_spec 10 (2 ^ 16) ltac:(lia) ltac:(lia) T r c F Ef) as (I1 & I2 & I3 & I4).
    change (Z.to_nat 16) with 16%nat.
    assert (I2' : 0 <= c < 2 ^ Z.of_nat 16) by exact I2.
    destruct (highdig_spec 2 16 ltac:(lia) c I2') as (HV & _ & L).
    destruct (f_flag (push_bits (highdig 2 16 c) s)) eqn:Fl.
    + assert (G : exists s', frac_in 54 (trimr r) (push_bits (highdig 2 16 c) s) = Ok s').
      { apply frac_in_flag; auto; [now apply Forall_trimr|].
        pose proof (push_flag_max _ _ H M Fl). lia. }
      destruct G as (s' & G). exists s'. apply frac_in_mono. exact G.
    + pose proof (push_noflag _ _ Fl) as (_ & Z0).
      rewrite (bval_all0 2 _ Z0) in HV. rewrite <- HV, Rplus_0_l in I1.
      destruct (Req_dec (fv 10 r) 0) as [R0|R0].
      { rewrite (fv_0 10 r) by (auto; lia). exists (push_bits (highdig 2 16 c) s).
        destruct (j + 54)%nat; reflexivity. }
      apply IHj; auto.
      * now apply Forall_trimr.
      * rewrite push_flag_min. pose proof (push_flag_min (highdig 2 16 c) s).
        assert (f_max (push_bits (highdig 2 16 c) s) = f_max s).
        { clear - Fl H. revert s H Fl. induction (highdig 2 16 c) as [|b bs IH]; intros s H Fl; simpl in *; auto.
          rewrite H in *. destruct (negb (b =? 0)).
          - exfalso. destruct (push_flag bs (mkf true (f_min s - 1) (f_min s - 1) (f_out s ++ [b])) eq_refl) as (X & _).
            congruence.
          - apply IH in Fl; auto. }
        lia.
      * left. rewrite fv_trimr, <- I1. destruct V as [V|(_ & V)].
        -- apply Rle_trans with (bpow radix2 (- Z.of_nat (S j)) * 2)%R.
           ++ replace (- Z.of_nat j) with (- Z.of_nat (S j) + 1) by lia. rewrite bpow_plus. simpl bpow at 2. lra.
           ++ apply Rmult_le_compat; auto; [apply bpow_ge_0|lra|apply IZR_le; lia].
        -- exfalso. apply R0. rewrite <- I1, V. ring.
Qed.
