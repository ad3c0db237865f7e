(* Integrals of functions given pointwise by series with coefficients in closed intervals; uniqueness of expansions; continuity of
   expressions. *)
From Coq Require Import Reals ZArith Bool List Lra Lia Psatz Arith.
From Coquelicot Require Import Coquelicot.
From Verif Require Import Ext RealFun RealConst ADModel ADReal ADProofs PsaModel PsaReal PsaProofs PsaExpr.
Import ListNotations.
Open Scope R_scope.

(* closed interval, bounded or not *)
Definition itv (C : R -> Prop) : Prop :=
  (forall a b z, C a -> C b -> mix a b z -> C z) /\
  ((exists l, C l /\ forall x, C x -> l <= x) \/ (forall M, exists x, C x /\ x <= M)) /\
  ((exists u, C u /\ forall x, C x -> x <= u) \/ (forall M, exists x, C x /\ M <= x)).
Lemma itv_opp C : itv C -> itv (fun x => C (- x)).
Proof.
  intros (A & L & U). split; [|split].
  - intros a b z Ha Hb Hz. apply (A (- a) (- b)); auto. unfold mix in *. lra.
  - destruct U as [(u & Hu & Hx)|U]; [left|right].
    + exists (- u). rewrite Ropp_involutive. split; auto. intros x H. specialize (Hx _ H). lra.
    + intros M. destruct (U (- M)) as (x & Hx & H). exists (- x). rewrite Ropp_involutive. split; auto. lra.
  - destruct L as [(u & Hu & Hx)|L]; [left|right].
    + exists (- u). rewrite Ropp_involutive. split; auto. intros x H. specialize (Hx _ H). lra.
    + intros M. destruct (L (- M)) as (x & Hx & H). exists (- x). rewrite Ropp_involutive. split; auto. lra.
Qed.
Definition isum (c : nat -> R) (n : nat) (t : R) : R := rsum (fun i => c i / INR (S i) * t ^ S i) n.
Lemma isum_pe c n t : isum c n t = pe (icoef 0 c) (S n) t.
Proof. unfold isum, pe. rewrite rsum_first. cbn [icoef]. rewrite Rmult_0_l, Rplus_0_l. reflexivity. Qed.
Lemma isum_RInt c n t : is_RInt (pe c n) 0 t (isum c n t).
Proof.
  replace (isum c n t) with (minus (pe (icoef 0 c) (S n) t) (pe (icoef 0 c) (S n) 0)).
  - apply (is_RInt_derive (pe (icoef 0 c) (S n)) (pe c n)); intros x _; [apply pe_icoef_derive|].
    destruct n. { apply (continuous_ext (fun _ => 0)); [reflexivity|]. apply continuous_const. }
    apply (ex_derive_continuous (pe c (S n))).
    exists (pe (fun i => INR (S i) * c (S i)) n x).
    apply (is_derive_ext (pe (icoef (c O) (fun i => INR (S i) * c (S i))) (S n))).
    + intros u. apply pe_ext. intros [|i] _; auto. cbn [icoef]. field. apply not_0_INR. lia.
    + apply pe_icoef_derive.
  - rewrite isum_pe, pe_0. unfold minus, plus, opp; simpl. ring.
Qed.
Lemma choose_all (C A : nat -> R -> Prop) n : (forall i, (i < n)%nat -> exists x, C i x /\ A i x) -> exists c, forall i, (i < n)%nat -> C i (c i) /\ A i (c i).
Proof.
  induction n; intros H; [exists (fun _ => 0); intros; lia|]. destruct IHn as [c Hc]; [auto|]. destruct (H n) as (x & Hx); [lia|].
  exists (fun i => if (i =? n)%nat then x else c i). intros i Hi. destruct (Nat.eqb_spec i n); [subst; auto|apply Hc; lia].
Qed.
Lemma or_all (A B : nat -> Prop) n : (forall i, (i < n)%nat -> A i \/ B i) -> (forall i, (i < n)%nat -> A i) \/ exists i, (i < n)%nat /\ B i.
Proof.
  induction n; intros H; [left; intros; lia|]. destruct IHn as [L|(i & Hi & Bi)]; [auto| |right; exists i; split; auto].
  destruct (H n) as [An|Bn]; [lia| |right; exists n; auto]. left. intros i Hi. destruct (Nat.eq_dec i n); [subst; auto|apply L; lia].
Qed.
Lemma rsum_le f g n : (forall i, (i < n)%nat -> f i <= g i) -> rsum f n <= rsum g n.
Proof. induction n; intros H; simpl; [lra|]. specialize (IHn (fun i Hi => H i (Nat.lt_lt_succ_r _ _ Hi))). specialize (H n (Nat.lt_succ_diag_r n)). lra. Qed.
Lemma rsum_upd f n i : (i < n)%nat -> forall h, (forall j, j <> i -> h j = f j) -> rsum h n = rsum f n - f i + h i.
Proof.
  revert i. induction n; intros i Hi h H; [lia|]. simpl. destruct (Nat.eq_dec i n) as [->|N].
  - rewrite (rsum_ext h f n) by (intros; apply H; lia). lra.
  - rewrite (IHn i) with (h := h) by (auto; lia). rewrite (H n) by auto. lra.
Qed.
Section IntP.
Variables (C : nat -> R -> Prop) (n : nat) (g : R -> R) (t v : R).
Hypothesis HT : 0 < t.
Hypothesis HC : forall i, (i < n)%nat -> itv (C i).
Hypothesis HG : forall u, 0 <= u <= t -> exists c, (forall i, (i < n)%nat -> C i (c i)) /\ g u = pe c n u.
Hypothesis HI : is_RInt g 0 t v.
Lemma int_low : exists c, (forall i, (i < n)%nat -> C i (c i)) /\ isum c n t <= v.
Proof.
  destruct (or_all (fun i => exists l, C i l /\ forall x, C i x -> l <= x) (fun i => forall M, exists x, C i x /\ x <= M) n) as [A|(i & Hi & U)].
  - intros i Hi. apply (HC i Hi).
  - destruct (choose_all C (fun i l => forall x, C i x -> l <= x) n A) as (c & Hc). exists c. split; [intros; now apply Hc|].
    apply (is_RInt_le (pe c n) g 0 t); [lra|apply isum_RInt|auto|]. intros u Hu. destruct (HG u ltac:(lra)) as (d & Hd & ->).
    unfold pe. apply rsum_le. intros i Hi. apply Rmult_le_compat_r; [apply pow_le; lra|]. apply (proj2 (Hc i Hi)). auto.
  - destruct (HG 0 ltac:(lra)) as (d & Hd & _).
    assert (PI : 0 < t ^ S i / INR (S i)) by (apply Rdiv_lt_0_compat; [apply pow_lt; auto|apply lt_0_INR; lia]).
    destruct (U ((v - (isum d n t - d i / INR (S i) * t ^ S i)) / (t ^ S i / INR (S i)))) as (x & Cx & Lx).
    exists (fun j => if (j =? i)%nat then x else d j). split.
    + intros j Hj. destruct (Nat.eqb_spec j i); [subst; auto|auto].
    + unfold isum in *. rewrite (rsum_upd (fun j => d j / INR (S j) * t ^ S j) n i Hi).
      2:{ intros j Hj. destruct (Nat.eqb_spec j i); [contradiction|auto]. }
      rewrite Nat.eqb_refl. apply Rmult_le_compat_r with (r := t ^ S i / INR (S i)) in Lx; [|lra].
      unfold Rdiv at 2 in Lx. rewrite Rmult_assoc, Rinv_l in Lx by lra. unfold Rdiv in *. rewrite (Rmult_comm (t ^ S i)), <- Rmult_assoc in Lx. lra.
Qed.
End IntP.
Lemma pe_opp c n u : pe (fun i => - c i) n u = - pe c n u.
Proof. unfold pe. rewrite (rsum_ext _ (fun i => -1 * (c i * u ^ i))) by (intros; ring). rewrite rsum_scal. ring. Qed.
Lemma isum_opp c n u : isum (fun i => - c i) n u = - isum c n u.
Proof. unfold isum. rewrite (rsum_ext _ (fun i => -1 * (c i / INR (S i) * u ^ S i))) by (intros; unfold Rdiv; ring). rewrite rsum_scal. ring. Qed.
Lemma int_coef (C : nat -> R -> Prop) n (g : R -> R) (t v : R) : 0 <= t -> (forall i, (i < n)%nat -> itv (C i)) ->
  (forall u, 0 <= u <= t -> exists c, (forall i, (i < n)%nat -> C i (c i)) /\ g u = pe c n u) -> is_RInt g 0 t v ->
  exists c, (forall i, (i < n)%nat -> C i (c i)) /\ v = isum c n t.
Proof.
  intros HT HC HG HI. destruct HT as [HT|HT].
  2:{ subst t. destruct (HG 0 ltac:(lra)) as (c & Hc & _). exists c. split; auto. pose proof (is_RInt_unique _ _ _ _ HI) as U. rewrite RInt_point in U.
    rewrite <- U. unfold isum. rewrite rsum_zero; [reflexivity|]. intros. simpl. ring. }
  destruct (int_low C n g t v HT HC HG HI) as (c1 & H1 & L1).
  destruct (int_low (fun i x => C i (- x)) n (fun u => - g u) t (- v) HT) as (c2 & H2 & L2).
  - intros i Hi. now apply itv_opp, HC.
  - intros u Hu. destruct (HG u Hu) as (c & Hc & E). exists (fun i => - c i). split; [intros; rewrite Ropp_involutive; auto|]. now rewrite pe_opp, E.
  - exact (is_RInt_opp g 0 t v HI).
  - set (c3 := fun i => - c2 i). assert (L3 : v <= isum c3 n t) by (unfold c3; rewrite isum_opp; lra).
    destruct (Req_EM_T (isum c1 n t) (isum c3 n t)) as [E|N]. { exists c1. split; auto. lra. }
    set (la := (v - isum c1 n t) / (isum c3 n t - isum c1 n t)).
    assert (D : 0 < isum c3 n t - isum c1 n t) by lra.
    assert (LA : 0 <= la <= 1). { unfold la. split; [apply Rdiv_le_0_compat; lra|]. apply Rmult_le_reg_r with (isum c3 n t - isum c1 n t); auto. unfold Rdiv. rewrite Rmult_assoc, Rinv_l by lra. lra. }
    exists (fun i => c1 i + la * (c3 i - c1 i)). split.
    + intros i Hi. apply (proj1 (HC i Hi) (c1 i) (c3 i)); [auto|unfold c3; auto|]. unfold mix. destruct (Rle_dec (c1 i) (c3 i)); [left|right]; nra.
    + assert (E : isum (fun i => c1 i + la * (c3 i - c1 i)) n t = isum c1 n t + la * (isum c3 n t - isum c1 n t)).
      { unfold isum. rewrite (rsum_ext _ (fun i => (1 - la) * (c1 i / INR (S i) * t ^ S i) + la * (c3 i / INR (S i) * t ^ S i))) by (intros; unfold Rdiv; ring).
        rewrite rsum_plus, !rsum_scal. ring. }
      rewrite E. unfold la. field. lra.
Qed.
Lemma pow_m1_sq i : (-1) ^ i * (-1) ^ i = 1.
Proof. rewrite <- Rpow_mult_distr. replace (-1 * -1) with 1 by ring. apply pow1. Qed.
Lemma pow_m1_abs i : (-1) ^ i = 1 \/ (-1) ^ i = -1.
Proof. induction i as [|i [E|E]]; simpl; [now left|right|left]; rewrite E; ring. Qed.
(* any sign of t *)
Lemma int_coef_gen (C : nat -> R -> Prop) n (g : R -> R) (t v : R) : (forall i, (i < n)%nat -> itv (C i)) ->
  (forall u, mix 0 t u -> exists c, (forall i, (i < n)%nat -> C i (c i)) /\ g u = pe c n u) -> is_RInt g 0 t v ->
  exists c, (forall i, (i < n)%nat -> C i (c i)) /\ v = isum c n t.
Proof.
  intros HC HG HI. destruct (Rle_dec 0 t) as [T|T].
  - apply int_coef with (g := g); auto. intros u Hu. apply HG. unfold mix. lra.
  - assert (AL : forall i x, (-1) ^ i * ((-1) ^ i * x) = x) by (intros; rewrite <- Rmult_assoc, pow_m1_sq; ring).
    destruct (int_coef (fun i x => C i ((-1) ^ i * x)) n (fun u => g (- u)) (- t) (- v)) as (c & Hc & E); try lra.
    + intros i Hi. destruct (pow_m1_abs i) as [E|E].
      * rewrite E. split; [|split].
        -- intros a b z. rewrite !Rmult_1_l. apply (HC i Hi).
        -- destruct (HC i Hi) as (_ & [(l & A & M)|A] & _); [left; exists l; rewrite Rmult_1_l; split; auto; intros x; rewrite Rmult_1_l; auto|right; intros M; destruct (A M) as (x & X); exists x; now rewrite Rmult_1_l].
        -- destruct (HC i Hi) as (_ & _ & [(l & A & M)|A]); [left; exists l; rewrite Rmult_1_l; split; auto; intros x; rewrite Rmult_1_l; auto|right; intros M; destruct (A M) as (x & X); exists x; now rewrite Rmult_1_l].
      * pose proof (itv_opp _ (HC i Hi)) as IO. rewrite E.
        assert (Q : forall x, -1 * x = - x) by (intros; ring). destruct IO as (I1 & I2 & I3). split; [|split].
        -- intros a b z. rewrite !Q. apply I1.
        -- destruct I2 as [(l & A & M)|A]; [left; exists l; rewrite Q; split; auto; intros x; rewrite Q; auto|right; intros M; destruct (A M) as (x & X); exists x; now rewrite Q].
        -- destruct I3 as [(l & A & M)|A]; [left; exists l; rewrite Q; split; auto; intros x; rewrite Q; auto|right; intros M; destruct (A M) as (x & X); exists x; now rewrite Q].
    + intros u Hu. destruct (HG (- u)) as (c & Hc & E). { unfold mix. lra. } exists (fun i => (-1) ^ i * c i). split; [intros; rewrite AL; auto|].
      rewrite E. unfold pe. apply rsum_ext. intros i _. replace (- u) with (-1 * u) by ring. rewrite Rpow_mult_distr. ring.
    + pose proof (is_RInt_comp_opp g 0 (- t) (- v)) as CO. rewrite Ropp_0, Ropp_involutive in CO.
      assert (CO' : is_RInt (fun y => opp (g (- y))) 0 (- t) v).
      { apply (is_RInt_comp_opp g 0 (- t) v). now rewrite Ropp_0, Ropp_involutive. }
      apply is_RInt_opp in CO'. apply (is_RInt_ext (fun y => opp (opp (g (- y))))); [|exact CO']. intros x _. unfold opp; simpl. ring.
    + exists (fun i => (-1) ^ i * c i). split; auto. replace v with (- - v) by ring. rewrite E. unfold isum.
      rewrite <- (Rmult_1_l (rsum _ n)), <- Ropp_mult_distr_l_reverse, <- rsum_scal. apply rsum_ext. intros i _.
      replace (- t) with (-1 * t) by ring. rewrite Rpow_mult_distr. simpl. unfold Rdiv. ring.
Qed.

(* ---- uniqueness of expansions ---- *)
Lemma pe_zero d s : (exists M e, 0 < e /\ forall t, 0 < Rabs t < e -> Rabs (pe d s t) <= M * Rabs t ^ s) -> forall i, (i < s)%nat -> d i = 0.
Proof.
  revert d. induction s as [|s IH]; intros d (M & e & He & H) i Hi; [lia|].
  assert (D0 : d O = 0).
  { destruct (bigO_norm 0 _ (bigO_pe (fun i => d (S i)) s)) as (K & e' & HK & He' & H').
    destruct (Req_EM_T (d O) 0) as [|N]; auto. exfalso. pose proof (Rabs_pos_lt _ N) as P.
    set (q := Rabs M + K + 1). assert (Q : 0 < q) by (unfold q; pose proof (Rabs_pos M); lra).
    set (t := Rmin (Rmin e e') (Rabs (d O) / q) / 2).
    assert (P1 : 0 < Rabs (d O) / q) by (apply Rdiv_lt_0_compat; auto).
    assert (T0 : 0 < Rmin (Rmin e e') (Rabs (d O) / q)) by (repeat apply Rmin_glb_lt; lra).
    assert (T : 0 < t /\ t < e /\ t < e' /\ t < Rabs (d O) / q).
    { pose proof (Rmin_l (Rmin e e') (Rabs (d O) / q)). pose proof (Rmin_r (Rmin e e') (Rabs (d O) / q)). pose proof (Rmin_l e e'). pose proof (Rmin_r e e').
      unfold t. lra. }
    destruct T as (T1 & T2 & T3 & T4). assert (AT : Rabs t = t) by (apply Rabs_pos_eq; lra).
    specialize (H t). rewrite AT in H. specialize (H ltac:(lra)). specialize (H' t). rewrite AT in H'. specialize (H' T3). simpl in H'. rewrite pe_S in H.
    assert (T5 : q * t < Rabs (d O)). { apply Rmult_lt_compat_r with (r := q) in T4; auto. unfold Rdiv in T4. rewrite Rmult_assoc, Rinv_l in T4 by lra. lra. }
    assert (TS : t ^ S s <= t). { simpl. rewrite <- (Rmult_1_r t) at 3. apply Rmult_le_compat_l; [lra|]. apply pow1_le. lra. }
    assert (TP : 0 <= t ^ S s) by (apply pow_le; lra).
    set (p := pe (fun i => d (S i)) s t) in *.
    assert (A : Rabs (d O) <= Rabs (d O + t * p) + Rabs (t * p)).
    { replace (d O) with ((d O + t * p) + - (t * p)) at 1 by ring. eapply Rle_trans; [apply Rabs_triang|]. rewrite Rabs_Ropp. lra. }
    rewrite (Rabs_mult t), AT in A. assert (t * Rabs p <= t * K) by (apply Rmult_le_compat_l; lra).
    assert (M * t ^ S s <= Rabs M * t). { eapply Rle_trans; [apply Rmult_le_compat_r; [lra|apply Rle_abs]|]. apply Rmult_le_compat_l; [apply Rabs_pos|auto]. }
    unfold q in T5. lra. }
  destruct i as [|i]; auto. apply (IH (fun i => d (S i))); [|lia]. exists M, e. split; auto. intros t Ht. specialize (H t Ht). rewrite pe_S, D0, Rplus_0_l, Rabs_mult in H.
  apply Rmult_le_reg_l with (Rabs t); [apply Ht|]. simpl in H. lra.
Qed.
Lemma jet_unique s f a b : jet s f a -> jet s f b -> forall i, (i < s)%nat -> a i = b i.
Proof.
  intros JA JB i Hi. rewrite jet_bigO in JA, JB. apply (bigO_scal s (-1)) in JA. pose proof (bigO_plus _ _ _ JA JB) as (M & e & He & H).
  apply Rminus_diag_uniq. refine (pe_zero (fun i => a i - b i) s _ i Hi). exists M, e. split; auto. intros t Ht. specialize (H t (proj2 Ht)). cbv beta in H.
  replace (pe (fun i => a i - b i) s t) with (-1 * (f t - pe a s t) + (f t - pe b s t)); auto.
  rewrite (pe_ext (fun i => a i - b i) (fun i => a i + -1 * b i)) by (intros; ring). rewrite pe_plus, pe_scal. ring.
Qed.
(* the Taylor coefficients of F 0 at x0, for a sequence of successive derivatives *)
Lemma jet_family s F dom x0 : family F dom -> locally x0 dom -> jet s (fun t => F O (x0 + t)) (fun i => F i x0 / INR (fact i)).
Proof.
  intros FM L. rewrite jet_bigO. assert (E : forall t, x0 + t - x0 = t) by (intros; ring).
  pose proof (comp_bigO F dom x0 (fun t => x0 + t) s s FM L) as H. cbv beta in H.
  apply (bigO_ext s (fun t => F O (x0 + t) - rsum (fun k => F k x0 / INR (fact k) * (x0 + t - x0) ^ k) s) _ 1); [lra| |].
  - intros t _. unfold pe. now rewrite E.
  - apply H.
    + apply (bigO_ext 1 (fun t => t ^ 1) _ 1); [lra|intros; ring|apply bigO_pow_id].
    + apply (bigO_ext s (fun t => t ^ s) _ 1); [lra|intros; now rewrite E|apply bigO_pow_id].
Qed.

(* ---- continuity ---- *)
Lemma dpl_continuous (f : R -> R) (x l : R) : derivable_pt_lim f x l -> continuous f x.
Proof. intros H. apply (ex_derive_continuous f). exists l. now apply is_derive_Reals. Qed.
Lemma frl_continuous f x : is_arc f = false -> fdom f x -> continuous (frl f) x.
Proof.
  intros A H. destruct (match f with Asqrt => true | _ => false end) eqn:Q.
  - destruct f; try discriminate. apply continuous_sqrt.
  - apply (dpl_continuous _ x (fder f x)). apply fun_deriv. destruct f; try discriminate; exact H.
Qed.
Lemma rval_continuous n e (x : R -> nat -> R) t : awf n e -> noarc e = true -> (forall i, (i < n)%nat -> continuous (fun t => x t i) t) -> adom e (x t) ->
  continuous (fun t => rval e (x t)) t.
Proof.
  intros W A HX. induction e; intros D; cbn [awf noarc adom rval] in *.
  - now apply HX.
  - apply continuous_const.
  - apply andb_prop in A as []. apply (continuous_plus (fun t => rval e1 (x t)) (fun t => rval e2 (x t))); tauto.
  - apply andb_prop in A as []. apply (continuous_minus (fun t => rval e1 (x t)) (fun t => rval e2 (x t))); tauto.
  - apply andb_prop in A as []. apply (continuous_mult (fun t => rval e1 (x t)) (fun t => rval e2 (x t))); tauto.
  - apply andb_prop in A as []. apply (continuous_mult (fun t => rval e1 (x t)) (fun t => / rval e2 (x t))); [tauto|]. apply continuous_Rinv_comp; tauto.
  - assert (CE : continuous (fun t => rval e0 (x t)) t) by tauto. destruct D as [D DS]. destruct o; cbn [scv] in * .
    + apply (continuous_plus (fun t => rval e0 (x t)) (fun t => dy m e)); [auto|apply continuous_const].
    + apply (continuous_plus (fun t => dy m e) (fun t => rval e0 (x t))); [apply continuous_const|auto].
    + apply (continuous_minus (fun t => rval e0 (x t)) (fun t => dy m e)); [auto|apply continuous_const].
    + apply (continuous_minus (fun t => dy m e) (fun t => rval e0 (x t))); [apply continuous_const|auto].
    + apply (continuous_mult (fun t => rval e0 (x t)) (fun t => dy m e)); [auto|apply continuous_const].
    + apply (continuous_mult (fun t => dy m e) (fun t => rval e0 (x t))); [apply continuous_const|auto].
    + apply (continuous_mult (fun t => rval e0 (x t)) (fun t => / dy m e)); [auto|apply continuous_const].
    + apply (continuous_mult (fun t => dy m e) (fun t => / rval e0 (x t))); [apply continuous_const|]. apply continuous_Rinv_comp; auto.
  - apply (continuous_opp (fun t => rval e (x t))); tauto.
  - destruct D as [D DN]. assert (CE : continuous (fun t => rval e (x t)) t) by tauto.
    apply (continuous_comp (fun t => rval e (x t)) (fun y => powerRZ y n0)); auto.
    destruct (Z.eq_dec n0 0) as [->|N0]. { simpl. apply continuous_const. }
    destruct (Z.ltb_spec n0 1) as [L|L].
    + eapply dpl_continuous, pow_deriv; auto. intros _. apply DN. lia.
    + eapply dpl_continuous, pow_deriv; auto. intros. lia.
  - apply andb_prop in A as []. destruct D as (D1 & D2 & DP). apply (continuous_comp (fun t => rval e2 (x t) * ln (rval e1 (x t))) exp); [|apply continuous_exp].
    apply (continuous_mult (fun t => rval e2 (x t)) (fun t => ln (rval e1 (x t)))); [tauto|].
    apply (continuous_comp (fun t => rval e1 (x t)) ln); [tauto|]. now apply continuous_ln.
  - apply andb_prop in A as [A1 A2]. apply negb_true_iff in A1. destruct D as (D1 & D2). apply (continuous_comp (fun t => rval e (x t)) (frl f)); [tauto|].
    now apply frl_continuous.
Qed.
