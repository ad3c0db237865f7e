(* Proofs about the model of smith_error and vdka in kv/dka.hpp: every zero lies in one of the returned boxes. *)
From Coq Require Import Reals Lra Lia Psatz ZArith Bool List.
From Coquelicot Require Import Rcomplements Complex.
From Verif Require Import Ext Scalar IntervalModel IntervalSpec IntervalProofs IntervalEncl IntervalSets IntervalDivPow IntervalMore ElemModel ElemGen CplxModel CplxReal CplxProofs PolyModel PolyReal PolyProofs.
Open Scope R_scope.

Section Unify.
Context {S : scal} (OK : scal_ok S).
Local Notation cin := (@cin S).
Implicit Types u : uni S.
Implicit Types X Y : cx S.
Notation nthu k u := (nth k u (@dflt S)).

Lemma set_length {A} (l : list A) i a : length (set l i a) = length l.
Proof. revert i. induction l; intros [|i]; simpl; auto. Qed.
Lemma nth_set {A} (l : list A) i a k d : (i < length l)%nat -> nth k (set l i a) d = if Nat.eqb k i then a else nth k l d.
Proof.
  revert i k. induction l; intros [|i] [|k] H; simpl in *; auto; try lia. rewrite IHl by lia. reflexivity.
Qed.

Lemma ov_refl X : cvalid X -> ov X X = true.
Proof.
  intros [A B]. unfold ov. rewrite (proj2 (overlap_spec OK _ _ A A)), (proj2 (overlap_spec OK _ _ B B)); auto.
  - destruct (valid_isin _ B) as [r Hr]. eauto.
  - destruct (valid_isin _ A) as [r Hr]. eauto.
Qed.
Lemma chull_l X Y z : cin X z -> cvalid Y -> cin (chull X Y) z. Proof. apply (cin_hull_l OK). Qed.
Lemma chull_r X Y z : cvalid X -> cin Y z -> cin (chull X Y) z. Proof. apply (cin_hull_r OK). Qed.
Lemma chull_valid X Y : cvalid X -> cvalid Y -> cvalid (chull X Y).
Proof. intros [A B] [A' B']. split; cbn [chull re im]; apply (valid_hull OK); auto. Qed.

Definition rep u k : nat := match snd (nthu k u) with Some j => j | None => k end.
Record Inv (n : nat) (orig : list (cx S)) u : Prop := {
  i_len : length u = n;
  i_val : forall k, (k < n)%nat -> cvalid (fst (nthu k u));
  i_rep : forall k j, (k < n)%nat -> snd (nthu k u) = Some j -> (j < n)%nat /\ snd (nthu j u) = Some j;
  i_cov : forall k z, (k < n)%nat -> cin (nth k orig cx0) z -> cin (fst (nthu (rep u k) u)) z }.

(* one unification step *)
Definition step u i j : uni S :=
  let xi := fst (nthu i u) in let xj := fst (nthu j u) in
  let u1 := set u i (chull xi xj, snd (nthu i u)) in set u1 j (fst (nth j u1 dflt), Some i).
Lemma nth_step u i j k : (i < length u)%nat -> (j < length u)%nat ->
  nthu k (step u i j) = ((if Nat.eqb k i then chull (fst (nthu i u)) (fst (nthu j u)) else fst (nthu k u)),
                         (if Nat.eqb k j then Some i else snd (nthu k u))).
Proof.
  intros Hi Hj. unfold step. rewrite nth_set by (rewrite set_length; auto). rewrite !nth_set by auto.
  destruct (Nat.eqb_spec k j) as [-> |]; destruct (Nat.eqb_spec j i) as [-> |]; cbn [fst snd]; auto.
  - destruct (Nat.eqb_spec k i) as [-> |]; auto. now destruct (nthu k u).
  - destruct (Nat.eqb_spec k i) as [-> |]; auto. now destruct (nthu k u).
Qed.
Lemma step_inv n orig u i j : Inv n orig u -> (i < n)%nat -> (j < n)%nat -> snd (nthu j u) = None ->
  (j = i \/ snd (nthu i u) = Some i) -> Inv n orig (step u i j).
Proof.
  intros [L V RP CV] Hi Hj NJ SI. assert (N : forall k, nthu k (step u i j) = _) by (intros k; apply nth_step; lia).
  assert (Si : snd (nthu i (step u i j)) = Some i).
  { rewrite N. cbn [snd]. destruct (Nat.eqb_spec i j); auto. destruct SI; congruence. }
  split.
  - unfold step. now rewrite !set_length.
  - intros k Hk. rewrite N. cbn [fst]. destruct (Nat.eqb k i); auto using chull_valid.
  - intros k l Hk E. rewrite N in E. cbn [snd] in E. destruct (Nat.eqb_spec k j) as [-> |].
    + injection E as <-. auto.
    + destruct (RP k l Hk E) as [Hl El]. split; auto. rewrite N. cbn [snd]. destruct (Nat.eqb_spec l j) as [-> |]; auto. congruence.
  - intros k z Hk Hz. specialize (CV k z Hk Hz).
    assert (R : rep (step u i j) k = if Nat.eqb k j then i else rep u k).
    { unfold rep. rewrite N. cbn [snd]. destruct (Nat.eqb k j); auto. }
    rewrite R, N. cbn [fst]. destruct (Nat.eqb_spec k j) as [-> |NE].
    + rewrite Nat.eqb_refl. unfold rep in CV. rewrite NJ in CV. apply chull_r; auto.
    + destruct (Nat.eqb_spec (rep u k) i) as [E|]; auto. rewrite E in CV. apply chull_l; auto.
Qed.
(* entries that are unified stay so *)
Definition mono u u' : Prop := forall k j, snd (nthu k u) = Some j -> snd (nthu k u') = Some j.
Lemma step_mono n u i j : length u = n -> (i < n)%nat -> (j < n)%nat -> snd (nthu j u) = None -> mono u (step u i j).
Proof.
  intros L Hi Hj NJ k l E. rewrite nth_step by lia. cbn [snd]. destruct (Nat.eqb_spec k j) as [-> |]; auto. congruence.
Qed.
Lemma un_in_inv n orig i cnt : forall j u fl u' fl', (i < n)%nat -> (j + cnt <= n)%nat -> Inv n orig u ->
  (j = i /\ snd (nthu i u) = None /\ (0 < cnt)%nat \/ snd (nthu i u) = Some i) -> un_in i j cnt u fl = (u', fl') ->
  Inv n orig u' /\ mono u u' /\ snd (nthu i u') = Some i.
Proof.
  induction cnt; intros j u fl u' fl' Hi Hj HI HS H; cbn [un_in] in H.
  - injection H as <- <-. split; auto. split; [intros k l; auto|]. destruct HS as [(_ & _ & HC)|]; auto. lia.
  - destruct (nthu j u) as [xj uj] eqn:Ej. destruct uj as [r|].
    + apply (IHcnt (Datatypes.S j) _ _ _ _ Hi ltac:(lia) HI) in H; auto. right. destruct HS as [(-> & E & _)|]; auto. rewrite Ej in E. discriminate.
    + destruct (nthu i u) as [xi ui] eqn:Ei.
      assert (NJ : snd (nthu j u) = None) by now rewrite Ej.
      destruct (ov xi xj) eqn:OV.
      * assert (E : set (set u i (chull xi xj, ui)) j (fst (nth j (set u i (chull xi xj, ui)) dflt), Some i) = step u i j).
        { unfold step. now rewrite Ei, Ej. }
        rewrite E in H.
        assert (HI' : Inv n orig (step u i j)). { apply step_inv; auto; try lia. destruct HS as [(-> & _)|HS]; auto. right. rewrite Ei. auto. }
        assert (Si : snd (nthu i (step u i j)) = Some i).
        { rewrite nth_step by (rewrite (i_len _ _ _ HI); lia). cbn [snd]. destruct (Nat.eqb_spec i j); auto. destruct HS as [(-> & _)|HS]; [lia|]. now rewrite Ei. }
        destruct (IHcnt (Datatypes.S j) _ _ _ _ Hi ltac:(lia) HI' (or_intror Si) H) as (A & B & C). split; auto. split; auto.
        intros k l Hk. apply B. apply (step_mono n); auto. apply (i_len _ _ _ HI). lia.
      * destruct HS as [(-> & _)|HS].
        -- exfalso. rewrite Ej in Ei. injection Ei as <- <-. rewrite ov_refl in OV; [discriminate|].
           pose proof (i_val _ _ _ HI i Hi) as V. now rewrite Ej in V.
        -- apply (IHcnt (Datatypes.S j) _ _ _ _ Hi ltac:(lia) HI) in H; auto. right. rewrite Ei. auto.
Qed.
Lemma un_out_inv n orig cnt : forall i u fl u' fl', (i + cnt <= n)%nat -> Inv n orig u -> un_out i cnt n u fl = (u', fl') ->
  Inv n orig u' /\ mono u u' /\ forall k, (i <= k < i + cnt)%nat -> snd (nthu k u') <> None.
Proof.
  induction cnt; intros i u fl u' fl' Hi HI H; cbn [un_out] in H.
  - injection H as <- <-. split; auto. split; [intros k l; auto|]. intros; lia.
  - destruct (snd (nthu i u)) as [r|] eqn:E.
    + destruct (IHcnt (Datatypes.S i) _ _ _ _ ltac:(lia) HI H) as (A & B & C). split; auto. split; auto.
      intros k Hk. destruct (Nat.eq_dec k i) as [-> |]; [|apply C; lia]. rewrite (B i r E). discriminate.
    + destruct (un_in i i (n - i) u fl) as [u1 fl1] eqn:Eu.
      destruct (un_in_inv n orig i (n - i) i u fl u1 fl1 ltac:(lia) ltac:(lia) HI) as (A & B & C); auto. { left. split; auto. split; auto. lia. }
      destruct (IHcnt (Datatypes.S i) _ _ _ _ ltac:(lia) A H) as (A' & B' & C'). split; auto. split.
      * intros k l Hk. apply B', B, Hk.
      * intros k Hk. destruct (Nat.eq_dec k i) as [-> |]; [|apply C'; lia]. rewrite (B' i i C). discriminate.
Qed.
Lemma un_out_skip n cnt : forall i u fl, (forall k, (i <= k < i + cnt)%nat -> snd (nthu k u) <> None) -> un_out i cnt n u fl = (u, fl).
Proof.
  induction cnt; intros i u fl H; cbn [un_out]; auto. destruct (snd (nthu i u)) eqn:E. { apply IHcnt. intros k Hk. apply H. lia. }
  exfalso. apply (H i); auto. lia.
Qed.
Lemma un_loop_inv n orig : forall f u u', Inv n orig u -> un_loop f n u = Ok u' -> Inv n orig u'.
Proof.
  induction f; intros u u' HI H; cbn [un_loop] in H; [discriminate|]. destruct (un_out 0 (n - 1) n u true) as [u1 fl] eqn:E.
  destruct (un_out_inv n orig (n - 1) 0 _ _ _ _ ltac:(destruct n; lia) HI E) as (A & _). destruct fl; [injection H as <-; auto|eauto].
Qed.
(* the loop ends in at most two passes *)
Lemma un_loop_ends n orig f u : Inv n orig u -> (2 <= f)%nat -> exists u', un_loop f n u = Ok u'.
Proof.
  intros HI Hf. destruct f as [|[|f]]; try lia. cbn [un_loop]. destruct (un_out 0 (n - 1) n u true) as [u1 fl] eqn:E.
  destruct fl; eauto. destruct (un_out_inv n orig (n - 1) 0 _ _ _ _ ltac:(destruct n; lia) HI E) as (A & B & C).
  rewrite un_out_skip; eauto.
Qed.
Lemma un_fin_nth n orig : forall cnt i u u0, (i + cnt = n)%nat -> Inv n orig u0 -> length u = n ->
  (forall k, (k < n)%nat -> snd (nthu k u) = snd (nthu k u0)) ->
  (forall k, (k < n)%nat -> fst (nthu k u) = if Nat.ltb k i then fst (nthu (rep u0 k) u0) else fst (nthu k u0)) ->
  length (un_fin i cnt u) = n /\ forall k, (k < n)%nat -> fst (nthu k (un_fin i cnt u)) = fst (nthu (rep u0 k) u0).
Proof.
  induction cnt; intros i u u0 Hi HI L HS HF; cbn [un_fin].
  - split; auto. intros k Hk. rewrite HF by auto. destruct (Nat.ltb_spec k i); auto. lia.
  - pose proof (HS i ltac:(lia)) as Si. destruct (nthu i u) as [x r] eqn:E. cbn [snd] in Si.
    assert (RR : forall k, (k < n)%nat -> snd (nthu k u0) = Some k -> fst (nthu k u) = fst (nthu k u0)).
    { intros k Hk SK. rewrite HF by auto. unfold rep. rewrite SK. now destruct (Nat.ltb k i). }
    destruct r as [k|].
    + destruct (i_rep _ _ _ HI i k ltac:(lia) ltac:(auto)) as [Hk Sk].
      apply IHcnt; auto; try lia.
      * now rewrite set_length.
      * intros l Hl. rewrite nth_set by lia. destruct (Nat.eqb_spec l i) as [-> |]; auto.
      * intros l Hl. rewrite nth_set by lia. destruct (Nat.eqb_spec l i) as [-> |NE].
        -- destruct (Nat.ltb_spec i (Datatypes.S i)); [|lia]. cbn [fst]. rewrite RR by auto. unfold rep. now rewrite <- Si.
        -- rewrite HF by auto. destruct (Nat.ltb_spec l i), (Nat.ltb_spec l (Datatypes.S i)); auto; lia.
    + apply IHcnt; auto; try lia. intros l Hl. rewrite HF by auto.
      destruct (Nat.ltb_spec l i), (Nat.ltb_spec l (Datatypes.S i)); auto; try lia.
      replace l with i by lia. unfold rep. now rewrite <- Si.
Qed.
Lemma init_inv (xs : list (cx S)) : (forall k, (k < length xs)%nat -> cvalid (nth k xs cx0)) -> Inv (length xs) xs (map (fun x => (x, None)) xs).
Proof.
  intros V. assert (N : forall k, nthu k (map (fun x => (x, None)) xs) = (nth k xs cx0, None)).
  { intros k. unfold dflt. exact (map_nth (fun x => (x, None)) xs cx0 k). }
  split.
  - apply map_length.
  - intros k Hk. rewrite N. cbn [fst]. auto.
  - intros k j Hk E. rewrite N in E. discriminate.
  - intros k z Hk Hz. unfold rep. rewrite N. cbn [snd]. now rewrite N.
Qed.
(* each box is contained in the box returned at the same place *)
Theorem unify_cov f (xs r : list (cx S)) : (forall k, (k < length xs)%nat -> cvalid (nth k xs cx0)) -> unify f xs = Ok r ->
  length r = length xs /\ forall k z, (k < length xs)%nat -> cin (nth k xs cx0) z -> cin (nth k r cx0) z.
Proof.
  intros V H. unfold unify in H. apply bind_ok in H as (u & E & H). injection H as <-.
  pose proof (un_loop_inv _ xs _ _ _ (init_inv xs V) E) as HI.
  destruct (un_fin_nth (length xs) xs (length xs) 0 u u eq_refl HI (i_len _ _ _ HI)) as [L F]; auto.
  split; [now rewrite map_length|]. intros k z Hk Hz. change (@cx0 S) with (fst (@dflt S)). rewrite map_nth, F by auto.
  apply (i_cov _ _ _ HI); auto.
Qed.
Theorem unify_ends f (xs : list (cx S)) : (forall k, (k < length xs)%nat -> cvalid (nth k xs cx0)) -> (2 <= f)%nat -> exists r, unify f xs = Ok r.
Proof.
  intros V Hf. unfold unify. destruct (un_loop_ends _ xs f _ (init_inv xs V) Hf) as [u ->]. simpl. eauto.
Qed.
End Unify.

Section Smith.
Context {S : scal} (OK : scal_ok S).
Local Notation cin := (@cin S).
Local Notation isin := (@isin S).
Ltac inv H := apply bind_ok in H; let a := fresh "v" in let K := fresh "K" in destruct H as (a & K & H).

Lemma horner_encl p : forall pv X x F, Forall2 cin p pv -> cin X x -> horner p X = Ok F -> cin F (peval pv x).
Proof.
  induction p as [|c p IH]; intros pv X x F HP HX H; [discriminate|]. inversion HP as [|? cv ? pv' Hc Hp']; subst.
  destruct p as [|c' p].
  - injection H as <-. inversion Hp'; subst. simpl. eapply cin_eq; eauto. ring.
  - change (horner (c :: c' :: p) X) with (do r <- horner (c' :: p) X; Ok (cadd (cmul r X) c)) in H.
    inv H. injection H as <-. cbn [peval]. apply (cin_add OK); auto. apply (cin_mul OK); auto. apply (IH _ X x); auto.
Qed.
Lemma sm_df_encl i X xi (xv : nat -> C) lead : cin X xi -> forall xs j DF, (forall l, (l < length xs)%nat -> cin (nth l xs cx0) (xv (j + l)%nat)) ->
  cin DF (lead * cprod (oth i (fun k => xi - xv k)%C) j)%C ->
  cin (sm_df i j X xs DF) (lead * cprod (oth i (fun k => xi - xv k)%C) (j + length xs))%C.
Proof.
  intros HX. induction xs as [|y xs IH]; intros j DF HS HD; cbn [sm_df length].
  - now rewrite Nat.add_0_r.
  - rewrite Nat.add_succ_r. change (Datatypes.S (j + length xs)) with (Datatypes.S j + length xs)%nat. apply IH.
    + intros l Hl. specialize (HS (Datatypes.S l) ltac:(simpl; lia)). simpl nth in HS. now rewrite Nat.add_succ_r in HS.
    + cbn [cprod]. unfold oth at 2. destruct (Nat.eqb_spec j i).
      * eapply cin_eq; eauto. ring.
      * rewrite Cmult_assoc. apply (cin_mul OK); auto. apply (cin_sub OK); auto. specialize (HS O ltac:(simpl; lia)). simpl nth in HS. now rewrite Nat.add_0_r in HS.
Qed.
Lemma sm_err_ok n F D err fv dv : (Z.of_nat n <= 2 ^ 53)%Z -> sm_err n F D = Ok err -> cin F fv -> cin D dv -> swf err /\
  (sval err = Xp \/ dv <> RtoC 0 /\ ub (sval err) (Cmod (RtoC (INR n) * fv / dv)%C)).
Proof.
  intros B H HF HD. unfold sm_err in H. destruct (zero_in _) eqn:Z.
  - injection H as <-. destruct (ok_pinf _ OK). auto.
  - inv H. inv H. injection H as <-. destruct (sint_ok OK (Z.of_nat n) ltac:(lia)) as [W V].
    destruct (cdiv_encl OK _ _ _ _ _ K (cin_Smul OK _ _ _ _ W V HF) HD) as [ND Q].
    pose proof (cabs_encl OK _ _ _ K0 Q) as A. rewrite <- INR_IZR_INZ in A. destruct A as (_ & A2 & _ & A4). auto.
Qed.
Lemma pm1 : isin (mkiv (sint S (-1)) (sint S 1)) 0 /\ swf (sint S (-1)) /\ swf (sint S 1) /\ sval (sint S (-1)) = XR (-1) /\ sval (sint S 1) = XR 1.
Proof.
  destruct (sint_ok OK (-1) ltac:(lia)) as [W1 V1]. destruct (sint_ok OK 1 ltac:(lia)) as [W2 V2].
  split; auto. apply isin_ends; cbn [lo hi]; auto; rewrite ?V1, ?V2; simpl; lra.
Qed.
Lemma err_box (err : S) t : swf err -> ub (sval err) (Rabs t) -> isin (iSmul err (mkiv (sint S (-1)) (sint S 1))) t.
Proof.
  intros W U. destruct pm1 as (_ & W1 & W2 & V1 & V2). pose proof (Rabs_pos t) as Pt. destruct (ok_s0 _ OK) as [W0 V0].
  destruct (sval err) as [e| | |] eqn:E; simpl in U; try tauto.
  - destruct (Req_dec e 0) as [-> |N].
    + assert (t = 0) as ->. { destruct (Rcase_abs t); [rewrite Rabs_left in U; lra|rewrite Rabs_right in U; lra]. }
      replace 0 with (0 * 0) by ring. apply (isin_Smul OK); auto. apply pm1.
    + replace t with (e * (t / e)) by (field; auto). apply (isin_Smul OK); auto.
      assert (e > 0) by lra. assert (Rabs (t / e) <= 1).
      { unfold Rdiv. rewrite Rabs_mult, (Rabs_right (/ e)) by (left; now apply Rinv_0_lt_compat).
        apply Rmult_le_reg_r with e; auto. rewrite Rmult_assoc, Rinv_l by auto. lra. }
      apply Rcomplements.Rabs_le_between in H0. apply isin_ends; cbn [lo hi]; auto; rewrite ?V1, ?V2; simpl; lra.
  - unfold iSmul. assert (slt s0 err = true) as ->. { apply (ok_lt _ OK); auto. rewrite V0, E. simpl. auto. }
    destruct (ok_muld _ OK err (sint S (-1)) W W1) as [Wd Xd]. destruct (ok_mulu _ OK err (sint S 1) W W2) as [Wu Xu].
    rewrite E, V1 in Xd. rewrite E, V2 in Xu. cbn [xmul] in Xd, Xu. unfold xsgn_inf in Xd, Xu.
    rewrite (Flocq.Core.Raux.Rcompare_Lt (-1) 0) in Xd by lra. rewrite (Flocq.Core.Raux.Rcompare_Gt 1 0) in Xu by lra. cbn [xdown xup] in Xd, Xu.
    apply isin_ends; cbn [lo hi]; auto; rewrite ?Xd, ?Xu; simpl; auto.
Qed.
Lemma sm_box_in X x err z : cin X x -> swf err -> ub (sval err) (Cmod (z - x)%C) -> cin (sm_box X err) z.
Proof.
  intros [X1 X2] W U. pose proof (Rmax_Cmod (z - x)%C) as M. pose proof (Rmax_l (Rabs (fst (z - x)%C)) (Rabs (snd (z - x)%C))).
  pose proof (Rmax_r (Rabs (fst (z - x)%C)) (Rabs (snd (z - x)%C))).
  assert (A : isin (iSmul err (mkiv (sint S (-1)) (sint S 1))) (fst (z - x)%C)) by (apply err_box; auto; eapply ub_le; eauto; lra).
  assert (B : isin (iSmul err (mkiv (sint S (-1)) (sint S 1))) (snd (z - x)%C)) by (apply err_box; auto; eapply ub_le; eauto; lra).
  split; cbn [sm_box re im].
  - replace (fst z) with (fst x + fst (z - x)%C) by (unfold Cminus, Cplus, Copp; simpl; ring). apply (isin_add OK); auto.
  - replace (snd z) with (snd x + snd (z - x)%C) by (unfold Cminus, Cplus, Copp; simpl; ring). apply (isin_add OK); auto.
Qed.
Lemma sm_boxes_nth (p : list (cx S)) lead n all : forall xs i bs, sm_boxes p lead n all i xs = Ok bs -> length bs = length xs /\
  forall k, (k < length xs)%nat -> exists F err, horner p (nth k xs cx0) = Ok F /\
    sm_err n F (sm_df (i + k) 0 (nth k xs cx0) all lead) = Ok err /\ nth k bs cx0 = sm_box (nth k xs cx0) err.
Proof.
  induction xs as [|x xs IH]; intros i bs H; cbn [sm_boxes] in H.
  - injection H as <-. split; auto. intros k Hk. simpl in Hk. lia.
  - inv H. inv H. inv H. injection H as <-. destruct (IH _ _ K1) as [L G]. split; [simpl; lia|].
    intros [|k] Hk; simpl nth.
    + exists v, v0. rewrite Nat.add_0_r. auto.
    + destruct (G k ltac:(simpl in Hk; lia)) as (F & err & A). exists F, err. rewrite Nat.add_succ_r. exact A.
Qed.
Lemma Forall2_last p pv d dv : Forall2 cin p pv -> p <> nil -> cin (last p d) (last pv dv).
Proof.
  intros H. induction H as [|x y l l' Hx Hl IH]; intros N; [congruence|]. destruct l as [|a l]; inversion Hl; subst.
  - simpl. auto. - apply IH. discriminate.
Qed.
(* the approximations are finite numbers *)
Definition xfin (x : list (S * S)) (xv : nat -> C) : Prop := forall k, (k < length x)%nat ->
  let z := nth k x (s0, s0) in swf (fst z) /\ swf (snd z) /\ sval (fst z) = XR (fst (xv k)) /\ sval (snd z) = XR (snd (xv k)).
Theorem smith_error_encl fu (p : list (cx S)) x r pv xv z : smith_error fu p x = Ok r -> Forall2 cin p pv -> xfin x xv -> (2 <= length p)%nat ->
  (Z.of_nat (length p) <= 2 ^ 53)%Z -> peval pv z = RtoC 0 ->
  length r = length x /\ (forall k, (k < length x)%nat -> cin (nth k r cx0) (xv k)) /\ exists k, (k < length x)%nat /\ cin (nth k r cx0) z.
Proof.
  intros H HP HX L2 LB Z. unfold smith_error in H. destruct p as [|p0 p']; [simpl in L2; lia|]. set (p := p0 :: p') in *.
  set (n := (length p - 1)%nat) in *. destruct (Nat.eqb_spec (length x) n) as [Lx|]; [|discriminate].
  set (x2 := map (fun z : S * S => mkcx (ipt (fst z)) (ipt (snd z))) x) in *.
  assert (L2' : length x2 = n) by (unfold x2; rewrite map_length; auto).
  assert (X2 : forall k, (k < n)%nat -> cin (nth k x2 cx0) (xv k)).
  { intros k Hk. unfold x2. change (@cx0 S) with ((fun z : S * S => mkcx (ipt (fst z)) (ipt (snd z))) (s0, s0)). rewrite map_nth.
    destruct (HX k ltac:(lia)) as (W1 & W2 & V1 & V2). split; cbn [re im]; apply isin_pt; auto. }
  inv H. destruct (sm_boxes_nth _ _ _ _ _ _ _ K) as [Lv G]. clear K. rename v into bs.
  (* facts about each radius *)
  assert (PL : length pv = length p) by (clear - HP; induction HP; simpl; auto).
  set (a := last pv (RtoC 0)).
  assert (Ha : cin (last p cx0) a) by (apply Forall2_last; auto; discriminate).
  set (d := fun i => (a * cprod (oth i (fun j => xv i - xv j)%C) n)%C).
  assert (E : forall k, (k < n)%nat -> exists err, nth k bs cx0 = sm_box (nth k x2 cx0) err /\ swf err /\
     (sval err = Xp \/ d k <> RtoC 0 /\ ub (sval err) (Cmod (RtoC (INR n) * peval pv (xv k) / d k)%C))).
  { intros k Hk. destruct (G k ltac:(lia)) as (F & err & HF & HE & HB). exists err. split; auto.
    apply (sm_err_ok n _ _ err (peval pv (xv k)) (d k)) in HE; auto; try lia.
    - eapply horner_encl; eauto.
    - unfold d. replace n with (0 + length x2)%nat at 1 by lia. apply sm_df_encl; auto. { intros l Hl. apply X2. lia. }
      cbn [cprod]. eapply cin_eq; eauto. ring. }
  assert (EU : forall k, (k < n)%nat -> cin (nth k bs cx0) (xv k)).
  { intros k Hk. destruct (E k Hk) as (err & HB & W & D). rewrite HB. apply sm_box_in with (x := xv k); auto.
    replace (xv k - xv k)%C with (RtoC 0) by ring. rewrite Cmod_0. destruct D as [-> |[_ U]]; [simpl; auto|].
    eapply ub_le; eauto. apply Cmod_ge_0. }
  destruct (unify_cov OK fu bs r) as [Lr CV]; auto. { intros k Hk. eapply cin_valid. apply EU. lia. }
  split; [lia|]. split. { intros k Hk. apply CV; [lia|]. apply EU. lia. }
  destruct (Classical_Prop.classic (exists k, (k < n)%nat /\ exists err, nth k bs cx0 = sm_box (nth k x2 cx0) err /\ swf err /\ sval err = Xp)) as [(k & Hk & err & HB & W & V)|NI].
  - exists k. split; [lia|]. apply CV; [lia|]. rewrite HB. apply sm_box_in with (x := xv k); auto. rewrite V. simpl. auto.
  - assert (F : forall k, (k < n)%nat -> d k <> RtoC 0 /\ forall y, Cmod (y - xv k)%C <= Cmod (RtoC (INR n) * peval pv (xv k) / d k)%C -> cin (nth k bs cx0) y).
    { intros k Hk. destruct (E k Hk) as (err & HB & W & [V|[ND U]]). { exfalso. apply NI. eauto 6. }
      split; auto. intros y Hy. rewrite HB. apply sm_box_in with (x := xv k); auto. eapply ub_le; eauto. }
    assert (NP : pv = removelast pv ++ a :: nil) by (apply app_removelast_last; destruct pv; [simpl in PL; discriminate|discriminate]).
    assert (NL : length (removelast pv) = n). { pose proof (f_equal (@length C) NP) as Q. rewrite app_length in Q. simpl length in Q at 3. unfold n. lia. }
    assert (An : a <> RtoC 0). { intros A0. destruct (F O ltac:(unfold n; lia)) as [ND _]. apply ND. unfold d. rewrite A0. ring. }
    destruct (smith (removelast pv) a xv z An) as (k & Hk & Hz).
    + rewrite NL. intros i j Hi Hj NE EX. destruct (F i Hi) as [ND _]. apply ND. unfold d. rewrite (cprod_z _ n j Hj); [ring|].
      unfold oth. destruct (Nat.eqb_spec j i); [congruence|]. rewrite EX. ring.
    + rewrite NL. unfold n. lia.
    + rewrite <- NP. auto.
    + rewrite <- NP, NL in Hz. rewrite NL in Hk. exists k. split; [lia|]. apply CV; [lia|]. destruct (F k Hk) as [_ G']. apply G'. exact Hz.
Qed.
End Smith.
