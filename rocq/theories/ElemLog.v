(* log, log1p, asinh, acosh, atanh and pow(interval, interval) enclose. *)
From Coq Require Import Reals Lra Lia Psatz ZArith Bool.
From Flocq Require Import Core.
From Verif Require Import Ext Scalar IntervalModel IntervalSpec IntervalProofs IntervalEncl IntervalSets IntervalDivPow IntervalMore ElemModel RealFun RealConst RealInv ElemGen ElemExp.
Open Scope R_scope.

(* what log and its relatives need of T beyond scal_ok *)
Record log_laws (S : scal) (P : elemp S) : Prop := mklog_laws {
  ll_ln2 : isin (c_ln2 P) (ln 2);
  (* the exponent counter p is a multiple of 1/2 and its arithmetic is exact *)
  ll_p : forall (p : S) m d, swf p -> sval p = XR (IZR m / 2) -> (Z.abs m <= 100000)%Z -> 
    (d = s1 \/ d = shalf) -> let k := IZR m / 2 in let t := match sval d with XR t => t | _ => 0 end in
    swf (nadd p d) /\ sval (nadd p d) = XR (k + t) /\ swf (nsub p d) /\ sval (nsub p d) = XR (k - t);
  ll_frexp : forall (x : S) v, swf x -> sval x = XR v -> 0 < v -> (Z.abs (frexp_e P x) <= 1100)%Z;
  ll_range : forall (x : S) v, swf x -> sval x = XR v -> v <> 0 -> bpow radix2 (-1074) <= Rabs v <= bpow radix2 1024;
  ll_halve : forall (x : S) v, swf x -> sval x = XR v -> 1 < v -> swf (nmul x shalf) /\ sval (nmul x shalf) = XR (v / 2);
  ll_double : forall (x : S) v, swf x -> sval x = XR v -> 0 < v < 1 -> swf (nmul x (sint S 2)) /\ sval (nmul x (sint S 2)) = XR (v * 2);
  ll_low : forall x : S, swf x -> xle (sval x) (XR 0) -> swf (nmul x (sint S 2)) /\ xle (sval (nmul x (sint S 2))) (XR 0);
  ll_inf : forall x : S, swf x -> sval x = Xp -> swf (nmul x shalf) /\ sval (nmul x shalf) = Xp;
  ll_l2 : forall up s (x : S) a t, isqrt (ipt (sint S 2)) = Ok s -> swf x -> sval x = XR a -> 1 <= a <= 2 ->
    iSdiv x s = Ok t -> exists b, sval (pick S up t) = XR b /\ 0 < b <= 4 / 5 * a;
  ll_l4 : forall up s (x : S) a, isqrt (ipt (sint S 2)) = Ok s -> swf x -> sval x = XR a -> / 2 <= a <= 1 ->
    exists b, sval (pick S up (iSmul x s)) = XR b /\ 5 / 4 * a <= b <= 3 / 2 * a;
  ll_sub1 : forall (x : S) v, swf x -> sval x = XR v -> / 2 <= v <= 2 -> swf (nsub x s1) /\ sval (nsub x s1) = XR (v - 1);
  ll_1mx : forall (x : S) v, swf x -> sval x = XR v -> / 2 <= v <= 1 -> swf (nsub s1 x) /\ sval (nsub s1 x) = XR (1 - v);
  ll_1px : forall (x : S) v, swf x -> sval x = XR v -> - 1 <= v <= - / 2 -> swf (nadd s1 x) /\ sval (nadd s1 x) = XR (1 + v);
  ll_2x : forall (x : S) v, swf x -> sval x = XR v -> Rabs v <= / 2 -> swf (nmul (sint S 2) x) /\ sval (nmul (sint S 2) x) = XR (2 * v);
  ll_th1 : swf (th1 S P) /\ exists v, sval (th1 S P) = XR v /\ 3 / 2 <= v <= 2;
  ll_th2 : swf (th2 S P) /\ exists v, sval (th2 S P) = XR v /\ 11 / 10 <= v <= 6 / 5;
  ll_th3 : swf (th3 S P) /\ exists v, sval (th3 S P) = XR v /\ / 2 <= v <= 3 / 5;
  ll_th4 : swf (th4 S P) /\ exists v, sval (th4 S P) = XR v /\ 4 / 5 <= v <= 9 / 10;
  ll_th5 : swf (th5 S P) /\ exists v, sval (th5 S P) = XR v /\ 0 <= v <= / 2
}.

Section ElemLog.
Context {S : scal} (OK : scal_ok S) (P : elemp S) (L : log_laws S P).
Implicit Types X Q : iv S.
Ltac inv H := let a := fresh "T" in let E := fresh "E" in apply bind_ok in H as (a & E & H).

Lemma ln2_pos : 0 < ln 2.
Proof. pose proof ln2_bounds. unfold ln2_lo in H. lra. Qed.

(* p carries m/2 *)
Definition pval (p : S) (m : Z) := swf p /\ sval p = XR (IZR m / 2).
Lemma p_add1 p m : pval p m -> (Z.abs m <= 100000)%Z -> pval (nadd p s1) (m + 2).
Proof.
  intros [W E] B. destruct (ll_p _ _ L p m s1 W E B ltac:(auto)) as (A1 & A2 & _). split; auto. rewrite A2, (s1_v OK).
  f_equal. rewrite plus_IZR. lra.
Qed.
Lemma p_addh p m : pval p m -> (Z.abs m <= 100000)%Z -> pval (nadd p shalf) (m + 1).
Proof.
  intros [W E] B. destruct (ll_p _ _ L p m shalf W E B ltac:(auto)) as (A1 & A2 & _). split; auto. rewrite A2, (shalf_v OK).
  f_equal. rewrite plus_IZR. lra.
Qed.
Lemma p_sub1 p m : pval p m -> (Z.abs m <= 100000)%Z -> pval (nsub p s1) (m - 2).
Proof.
  intros [W E] B. destruct (ll_p _ _ L p m s1 W E B ltac:(auto)) as (_ & _ & A1 & A2). split; auto. rewrite A2, (s1_v OK).
  f_equal. rewrite minus_IZR. lra.
Qed.
Lemma p_subh p m : pval p m -> (Z.abs m <= 100000)%Z -> pval (nsub p shalf) (m - 1).
Proof.
  intros [W E] B. destruct (ll_p _ _ L p m shalf W E B ltac:(auto)) as (_ & _ & A1 & A2). split; auto. rewrite A2, (shalf_v OK).
  f_equal. rewrite minus_IZR. lra.
Qed.

(* x2 = a and the bookkeeping quantity ln a + (m/2) ln 2 *)
Definition tot (a : R) (m : Z) := ln a + IZR m / 2 * ln 2.
Definition rel (up : bool) (u w : R) := if up then u <= w else w <= u.
Lemma rel_trans up a b c : rel up a b -> rel up b c -> rel up a c.
Proof. destruct up; simpl; lra. Qed.
Lemma rel_refl up a : rel up a a. Proof. destruct up; simpl; lra. Qed.

Lemma l1_ok f : forall (x p x' p' : S) a m K, swf x -> sval x = XR a -> 0 < a -> pval p m ->
  4 * ln a + IZR m * ln 2 <= IZR K * ln 2 -> (-50000 <= m)%Z -> (m <= Z.max m (K + 2) <= 50000)%Z ->
  log_l1 S P f x p = Ok (x', p') ->
  exists a' m', swf x' /\ sval x' = XR a' /\ 0 < a' <= Rmin a 2 /\ pval p' m' /\ tot a' m' = tot a m /\
    (m <= m' <= Z.max m (K + 2))%Z /\ 4 * ln a' + IZR m' * ln 2 <= IZR K * ln 2.
Proof.
  destruct (ll_th1 _ _ L) as [WT (t & ET & HT)]. pose proof ln2_pos as LP.
  induction f as [|f IH]; intros x p x' p' a m K W E A HP HK HM HB H; simpl in H;
  (destruct (slt (th1 S P) x) eqn:C;
   [apply (slt_true OK) in C; auto; rewrite ET, E in C; simpl in C
   |apply (slt_false OK) in C; auto; try (rewrite ET || rewrite E; discriminate); rewrite ET, E in C; simpl in C;
    injection H as <- <-; exists a, m; repeat (split; auto); try lra; try lia;
    apply Rmin_glb; lra]); [discriminate|].
  destruct (ll_halve _ _ L x a W E ltac:(lra)) as [W1 E1].
  assert (LN : ln (a / 2) = ln a - ln 2). { unfold Rdiv. rewrite ln_mult by lra. rewrite ln_Rinv by lra. ring. }
  assert (MK : (m <= K)%Z).
  { apply Znot_gt_le. intros G. assert (IZR K <= IZR m) by (apply IZR_le; lia).
    assert (0 < ln a) by (rewrite <- ln_1; apply ln_increasing; lra).
    assert (IZR K * ln 2 <= IZR m * ln 2) by (apply Rmult_le_compat_r; lra). lra. }
  apply (IH _ _ _ _ _ (m + 2)%Z K W1 E1) in H; try lia; try lra.
  - destruct H as (a' & m' & A1 & A2 & A3 & A4 & A5 & A6 & A7). exists a', m'. repeat (split; auto); try lra; try lia.
    + destruct A3. eapply Rle_trans; eauto. apply Rmin_glb; [|apply Rmin_r]. eapply Rle_trans; [apply Rmin_l|]. lra.
    + rewrite A5. unfold tot. rewrite LN, plus_IZR. lra.
  - apply p_add1; auto. lia.
  - rewrite LN, plus_IZR. lra.
Qed.
Lemma l1_inf f : forall (x p : S), swf x -> sval x = Xp -> forall r, log_l1 S P f x p <> Ok r.
Proof.
  destruct (ll_th1 _ _ L) as [WT (t & ET & HT)].
  induction f as [|f IH]; intros x p W E r; simpl; (assert (slt (th1 S P) x = true) as -> by (apply (ok_lt _ OK); auto; rewrite ET, E; simpl; auto)).
  - discriminate.
  - destruct (ll_inf _ _ L x W E). apply IH; auto.
Qed.
Lemma l1_low f (x p : S) : swf x -> xle (sval x) (XR 0) -> log_l1 S P f x p = Ok (x, p).
Proof.
  intros W E. destruct (ll_th1 _ _ L) as [WT (t & ET & HT)].
  assert (slt (th1 S P) x = false) as C.
  { apply not_true_is_false. intros C. apply (ok_lt _ OK) in C; auto. rewrite ET in C. destruct (sval x); simpl in *; auto; lra. }
  destruct f; simpl; rewrite C; auto.
Qed.
Lemma l2_low f up s (x p : S) : swf x -> xle (sval x) (XR 0) -> log_l2 S P f up s x p = Ok (x, p).
Proof.
  intros W E. destruct (ll_th2 _ _ L) as [WT (t & ET & HT)].
  assert (slt (th2 S P) x = false) as C.
  { apply not_true_is_false. intros C. apply (ok_lt _ OK) in C; auto. rewrite ET in C. destruct (sval x); simpl in *; auto; lra. }
  destruct f; simpl; rewrite C; auto.
Qed.
Lemma l3_low f : forall (x p : S), swf x -> xle (sval x) (XR 0) -> forall r, log_l3 S P f x p <> Ok r.
Proof.
  destruct (ll_th3 _ _ L) as [WT (t & ET & HT)].
  induction f as [|f IH]; intros x p W E r; simpl; 
  (assert (slt x (th3 S P) = true) as -> by (apply (ok_lt _ OK); auto; rewrite ET; destruct (sval x); simpl in *; auto; lra)).
  - discriminate.
  - destruct (ll_low _ _ L x W E). apply IH; auto.
Qed.
Lemma sqrt2_isin s : isqrt (ipt (sint S 2)) = Ok s -> isin s (sqrt 2).
Proof.
  intros H. assert (isin (ipt (sint S 2)) 2) as K by (apply isin_pt; apply (sint_ok OK); lia).
  eapply isin_sqrt; eauto.
Qed.
Lemma ln_sqrt2 : ln (sqrt 2) = ln 2 / 2.
Proof.
  assert (ln (sqrt 2 * sqrt 2) = ln 2) by (rewrite sqrt_sqrt by lra; auto).
  rewrite ln_mult in H by (apply sqrt_lt_R0; lra). lra.
Qed.
Lemma s2pos : 0 < sqrt 2. Proof. apply sqrt_lt_R0; lra. Qed.
Lemma ln_le4 a b c : 0 < a -> 0 < b -> c * a <= b -> 0 < c -> ln c + ln a <= ln b.
Proof. intros. rewrite <- ln_mult by lra. apply ln_mono; auto. apply Rmult_lt_0_compat; auto. Qed.
Lemma ln45 : 4 * ln (4 / 5) <= - ln 2.
Proof.
  replace (4 * ln (4 / 5)) with (ln ((4 / 5) ^ 4)) by (rewrite ln_pow by lra; simpl; ring).
  rewrite <- ln_Rinv by lra. apply ln_mono; simpl; lra.
Qed.
Lemma ln54 : ln 2 <= 4 * ln (5 / 4).
Proof.
  replace (4 * ln (5 / 4)) with (ln ((5 / 4) ^ 4)) by (rewrite ln_pow by lra; simpl; ring).
  apply ln_mono; simpl; lra.
Qed.
Lemma pick_rel up T r b : isin T r -> sval (pick S up T) = XR b -> swf (pick S up T) /\ (if up then r <= b else b <= r).
Proof.
  intros (A1&A2&A3&A4) E. destruct up; simpl in *; rewrite E in *; auto.
Qed.
Lemma l2_ok f up s : isqrt (ipt (sint S 2)) = Ok s -> forall (x p x' p' : S) a m K, swf x -> sval x = XR a -> 0 < a <= 2 -> pval p m ->
  4 * ln a + IZR m * ln 2 <= IZR K * ln 2 -> (-50000 <= m)%Z -> (m <= Z.max m (K + 2) <= 50000)%Z ->
  log_l2 S P f up s x p = Ok (x', p') ->
  exists a' m', swf x' /\ sval x' = XR a' /\ 0 < a' <= 6 / 5 /\ pval p' m' /\ rel up (tot a m) (tot a' m') /\ (m <= m' <= Z.max m (K + 2))%Z.
Proof.
  intros HS. destruct (ll_th2 _ _ L) as [WT (t & ET & HT)]. pose proof ln2_pos as LP.
  induction f as [|f IH]; intros x p x' p' a m K W E A HP HK HM HB H; simpl in H;
  (destruct (slt (th2 S P) x) eqn:C;
   [apply (slt_true OK) in C; auto; rewrite ET, E in C; simpl in C
   |apply (slt_false OK) in C; auto; try (rewrite ET || rewrite E; discriminate); rewrite ET, E in C; simpl in C;
    injection H as <- <-; exists a, m; repeat (split; auto); try lra; try lia; apply rel_refl]); [discriminate|].
  inv H. destruct (ll_l2 _ _ L up s x a T HS W E ltac:(lra) E0) as (b & EB & HB1).
  destruct (isin_Sdiv OK _ _ _ _ _ E0 W E (sqrt2_isin _ HS)) as [_ HT2].
  destruct (pick_rel _ _ _ _ HT2 EB) as [W1 R1].
  assert (LN : ln b <= ln (4 / 5) + ln a). { rewrite <- ln_mult by lra. apply ln_mono; lra. }
  pose proof ln45.
  assert (MK : (m <= K)%Z).
  { apply Znot_gt_le. intros G. assert (IZR K <= IZR m) by (apply IZR_le; lia).
    assert (0 < ln a) by (rewrite <- ln_1; apply ln_increasing; lra).
    assert (IZR K * ln 2 <= IZR m * ln 2) by (apply Rmult_le_compat_r; lra). lra. }
  apply (IH _ _ _ _ _ (m + 1)%Z K W1 EB) in H; try lia; try lra.
  - destruct H as (a' & m' & A1 & A2 & A3 & A4 & A5 & A6). exists a', m'. repeat (split; auto); try lra; try lia.
    eapply rel_trans; [|apply A5].
    assert (Q : ln (a / sqrt 2) = ln a - ln 2 / 2).
    { unfold Rdiv at 1. rewrite ln_mult; [|lra|apply Rinv_0_lt_compat, s2pos]. rewrite ln_Rinv by apply s2pos. rewrite ln_sqrt2. ring. }
    assert (0 < a / sqrt 2) by (apply Rdiv_lt_0_compat; [lra|apply s2pos]).
    unfold tot. rewrite plus_IZR. destruct up; simpl in *.
    + assert (ln (a / sqrt 2) <= ln b) by (apply ln_mono; auto). lra.
    + assert (ln b <= ln (a / sqrt 2)) by (apply ln_mono; lra). lra.
  - apply p_addh; auto. lia.
  - rewrite plus_IZR. lra.
Qed.
Lemma l3_ok f : forall (x p x' p' : S) a m K, swf x -> sval x = XR a -> 0 < a <= 6 / 5 -> pval p m ->
  IZR K * ln 2 <= 4 * ln a + IZR m * ln 2 -> (m <= 50000)%Z -> (-50000 <= Z.min m (K - 2))%Z ->
  log_l3 S P f x p = Ok (x', p') ->
  exists a' m', swf x' /\ sval x' = XR a' /\ / 2 <= a' <= 6 / 5 /\ pval p' m' /\ tot a' m' = tot a m /\
    (Z.min m (K - 2) <= m' <= m)%Z /\ IZR K * ln 2 <= 4 * ln a' + IZR m' * ln 2.
Proof.
  destruct (ll_th3 _ _ L) as [WT (t & ET & HT)]. pose proof ln2_pos as LP.
  induction f as [|f IH]; intros x p x' p' a m K W E A HP HK HM HB H; simpl in H;
  (destruct (slt x (th3 S P)) eqn:C;
   [apply (slt_true OK) in C; auto; rewrite ET, E in C; simpl in C
   |apply (slt_false OK) in C; auto; try (rewrite ET || rewrite E; discriminate); rewrite ET, E in C; simpl in C;
    injection H as <- <-; exists a, m; repeat (split; auto); try lra; try lia]); [discriminate|].
  destruct (ll_double _ _ L x a W E ltac:(lra)) as [W1 E1].
  assert (LN : ln (a * 2) = ln a + ln 2) by (rewrite ln_mult; lra).
  assert (MK : (K <= m)%Z).
  { apply Znot_gt_le. intros G. assert (IZR m <= IZR K) by (apply IZR_le; lia).
    assert (ln a < 0) by (rewrite <- ln_1; apply ln_increasing; lra).
    assert (IZR m * ln 2 <= IZR K * ln 2) by (apply Rmult_le_compat_r; lra). lra. }
  apply (IH _ _ _ _ _ (m - 2)%Z K W1 E1) in H; try lia; try lra.
  - destruct H as (a' & m' & A1 & A2 & A3 & A4 & A5 & A6 & A7). exists a', m'. repeat (split; auto); try lra; try lia.
    rewrite A5. unfold tot. rewrite LN, minus_IZR. lra.
  - apply p_sub1; auto. lia.
  - rewrite LN, minus_IZR. lra.
Qed.
Lemma l4_ok f up s : isqrt (ipt (sint S 2)) = Ok s -> forall (x p x' p' : S) a m K, swf x -> sval x = XR a -> / 2 <= a <= 2 -> pval p m ->
  IZR K * ln 2 <= 4 * ln a + IZR m * ln 2 -> (m <= 50000)%Z -> (-50000 <= Z.min m (K - 2))%Z ->
  log_l4 S P f up s x p = Ok (x', p') ->
  exists a' m', swf x' /\ sval x' = XR a' /\ / 2 <= a' <= 2 /\ pval p' m' /\ rel up (tot a m) (tot a' m').
Proof.
  intros HS. destruct (ll_th4 _ _ L) as [WT (t & ET & HT)]. pose proof ln2_pos as LP.
  induction f as [|f IH]; intros x p x' p' a m K W E A HP HK HM HB H; simpl in H;
  (destruct (slt x (th4 S P)) eqn:C;
   [apply (slt_true OK) in C; auto; rewrite ET, E in C; simpl in C
   |apply (slt_false OK) in C; auto; try (rewrite ET || rewrite E; discriminate); rewrite ET, E in C; simpl in C;
    injection H as <- <-; exists a, m; repeat (split; auto); try lra; try lia; apply rel_refl]); [discriminate|].
  destruct (ll_l4 _ _ L up s x a HS W E ltac:(lra)) as (b & EB & HB1).
  pose proof (isin_Smul OK _ _ _ _ W E (sqrt2_isin _ HS)) as HT2.
  destruct (pick_rel _ _ _ _ HT2 EB) as [W1 R1].
  assert (LN : ln (5 / 4) + ln a <= ln b). { rewrite <- ln_mult by lra. apply ln_mono; lra. }
  pose proof ln54.
  assert (MK : (K <= m)%Z).
  { apply Znot_gt_le. intros G. assert (IZR m <= IZR K) by (apply IZR_le; lia).
    assert (ln a < 0) by (rewrite <- ln_1; apply ln_increasing; lra).
    assert (IZR m * ln 2 <= IZR K * ln 2) by (apply Rmult_le_compat_r; lra). lra. }
  apply (IH _ _ _ _ _ (m - 1)%Z K W1 EB) in H; try lia; try lra.
  - destruct H as (a' & m' & A1 & A2 & A3 & A4 & A5). exists a', m'. repeat (split; auto); try lra; try lia.
    eapply rel_trans; [|apply A5].
    assert (Q : ln (a * sqrt 2) = ln a + ln 2 / 2) by (rewrite ln_mult, ln_sqrt2; auto; try lra; apply s2pos).
    assert (0 < a * sqrt 2) by (apply Rmult_lt_0_compat; [lra|apply s2pos]).
    unfold tot. rewrite minus_IZR. destruct up; simpl in *.
    + assert (ln (a * sqrt 2) <= ln b) by (apply ln_mono; auto). lra.
    + assert (ln b <= ln (a * sqrt 2)) by (apply ln_mono; lra). lra.
  - apply p_subh; auto. lia.
  - rewrite minus_IZR. lra.
Qed.

Lemma log_loop_start f (x : S) v cinv Q : swf x -> sval x = XR v -> -1 < v -> (forall t, btw v t -> isin cinv (/ (1 + t))) ->
  log_loop S f x cinv 1 (ipt s0) (ipt (sneg s1)) (ipt (sneg s1)) = Ok Q -> isin Q (ln (1 + v)).
Proof.
  intros W E HV HC H. eapply (log_loop_ok OK f x v cinv 0); eauto.
  - simpl. rewrite Rplus_0_r. apply isin_0; auto.
  - simpl. replace (-1 * 1 * 1) with (-1) by ring. apply isin_m1; auto.
  - intros t Ht. simpl. replace (-1 * 1 * 1) with (-1) by ring. apply isin_m1; auto.
Qed.
Lemma bpow_ln e : ln (bpow radix2 e) = IZR e * ln 2.
Proof. rewrite bpow_exp. simpl. rewrite ln_exp. auto. Qed.

(* the part after the special cases *)
Lemma log_core f (x y : S) up v : swf x -> sval x = XR v -> 0 < v ->
  log_point S P f x up = Ok y -> swf y /\ (if up then ub (sval y) (ln v) else lb (sval y) (ln v)).
Proof.
  intros W E HV H. unfold log_point in H. inv H. rename T into s. rename E0 into HS.
  destruct (ok_pinf _ OK) as [WI EI].
  assert (seqb x spinf = false) as C1.
  { apply not_true_is_false. intros C. apply (ok_eq _ OK) in C; auto. rewrite EI, E in C. auto. }
  assert (seqb x s0 = false) as C2.
  { apply not_true_is_false. intros C. apply (ok_eq _ OK) in C; auto; [|apply s0_wf; auto]. rewrite (s0_v OK), E in C. simpl in C. lra. }
  rewrite C1, C2 in H. set (pi := frexp_e P x) in *. pose proof (ll_frexp _ _ L x v W E HV) as HPI. fold pi in HPI.
  inv H. rename T into q. rename E0 into HQ.
  assert (I2 : isin (ipt (sint S 2)) 2) by (apply isin_pt; apply (sint_ok OK); lia).
  destruct (ipow_encl OK _ _ _ _ HQ I2) as [_ IQ].
  assert (POW : powerRZ 2 (- pi) = bpow radix2 (- pi)) by (rewrite bpow_powerRZ; auto). rewrite POW in IQ.
  pose proof (isin_Smul OK _ _ _ _ W E IQ) as IX. set (X2 := iSmul x q) in *.
  assert (HP : pval (sint S pi) (2 * pi)).
  { split; [apply sint_wf; auto; lia|]. rewrite sint_v by (auto; lia). f_equal. rewrite mult_IZR. field. }
  assert (PP : 0 < v * bpow radix2 (- pi)) by (apply Rmult_lt_0_compat; auto; apply bpow_gt_0).
  assert (LNP : ln (v * bpow radix2 (- pi)) = ln v - IZR pi * ln 2) by (rewrite ln_mult, bpow_ln, opp_IZR; auto; [ring|apply bpow_gt_0]).
  pose proof ln2_pos as LP.
  (* x2 is a positive finite number, or the loops never end *)
  assert (exists a, sval (pick S up X2) = XR a /\ swf (pick S up X2) /\ 0 < a /\ rel up (ln v) (tot a (2 * pi))) as (a & EA & WA & PA & RA).
  { pose proof IX as (A1&A2&A3&A4). destruct up; simpl pick in *.
    - destruct (sval (hi X2)) as [a| | |] eqn:EH; simpl in A4; try tauto.
      + exists a. assert (0 < a) by lra. repeat (split; auto). unfold rel, tot. rewrite mult_IZR.
        pose proof (ln_mono _ _ PP A4). lra.
      + inv H. exfalso. eapply l1_inf; eauto.
    - destruct (sval (lo X2)) as [a| | |] eqn:EH; simpl in A3; try tauto.
      + destruct (Rlt_or_le 0 a) as [PA|PA].
        * exists a. repeat (split; auto). unfold rel, tot. rewrite mult_IZR. pose proof (ln_mono _ _ PA A3). lra.
        * inv H. rewrite l1_low in E0 by (auto; rewrite EH; simpl; auto). injection E0 as <-.
          inv H. simpl in E0. rewrite l2_low in E0 by (auto; rewrite EH; simpl; auto). injection E0 as <-.
          inv H. exfalso. simpl in E0. eapply l3_low in E0; eauto. rewrite EH; simpl; auto.
      + inv H. rewrite l1_low in E0 by (auto; rewrite EH; simpl; auto). injection E0 as <-.
        inv H. simpl in E0. rewrite l2_low in E0 by (auto; rewrite EH; simpl; auto). injection E0 as <-.
        inv H. exfalso. simpl in E0. eapply l3_low in E0; eauto. rewrite EH; simpl; auto. }
  clear PP LNP IX IQ POW HQ. set (x2 := pick S up X2) in *. clearbody x2. clear X2 q.
  assert (RNG : forall (z : S) b, swf z -> sval z = XR b -> 0 < b -> -1074 * ln 2 <= ln b <= 1024 * ln 2).
  { intros z b Wz Ez Pb. destruct (ll_range _ _ L z b Wz Ez ltac:(lra)) as [B1 B2]. rewrite Rabs_pos_eq in B1, B2 by lra.
    apply ln_mono in B1; [|apply bpow_gt_0]. apply ln_mono in B2; auto. rewrite bpow_ln in B1, B2. auto. }
  inv H. destruct T as [x3 p3]. rename E0 into H1.
  pose proof (RNG _ _ WA EA PA) as [_ RU].
  apply (l1_ok f x2 (sint S pi) x3 p3 a (2 * pi) (4096 + 2 * pi)) in H1; auto; try lia; [|rewrite !plus_IZR; lra].
  destruct H1 as (a3 & m3 & W3 & E3 & A3 & P3 & T3 & M3 & K3).
  inv H. destruct T as [x4 p4]. rename E0 into H2. simpl in H2.
  assert (0 < a3 <= 2) as A3'. { destruct A3. split; auto. eapply Rle_trans; eauto. apply Rmin_r. }
  apply (l2_ok f up s HS x3 p3 x4 p4 a3 m3 (4096 + 2 * pi)) in H2; auto; try lia.
  destruct H2 as (a4 & m4 & W4 & E4 & A4 & P4 & T4 & M4).
  pose proof (RNG _ _ W4 E4 ltac:(lra)) as [RL _].
  inv H. destruct T as [x5 p5]. rename E0 into H3. simpl in H3.
  apply (l3_ok f x4 p4 x5 p5 a4 m4 (-4296 + m4)) in H3; auto; try lia; try lra; [|rewrite !plus_IZR; lra].
  destruct H3 as (a5 & m5 & W5 & E5 & A5 & P5 & T5 & M5 & K5).
  inv H. destruct T as [x6 p6]. rename E0 into H4. simpl in H4.
  apply (l4_ok f up s HS x5 p5 x6 p6 a5 m5 (-4296 + m4)) in H4; auto; try lia; try lra.
  destruct H4 as (a6 & m6 & W6 & E6 & A6 & P6 & T6).
  inv H. rename T into cinv. rename E0 into HC. inv H. rename T into r. rename E0 into HL. injection H as <-.
  destruct (ll_sub1 _ _ L x6 a6 W6 E6 A6) as [W7 E7].
  assert (HLN : isin r (ln (1 + (a6 - 1)))).
  { eapply log_loop_start; eauto. lra. intros t Ht.
    assert (isin (hullSS x6 s1) (1 + t)) as HH.
    { apply (isin_hullSS OK _ _ a6 1); auto; try apply s1_wf; try apply s1_v; auto.
      unfold btw in Ht. unfold Rmin, Rmax; destruct (Rle_dec a6 1); lra. }
    pose proof (isin_Sdiv OK _ _ _ 1 _ HC (s1_wf OK) (s1_v OK) HH) as [_ K]. replace (/ (1 + t)) with (1 / (1 + t)); auto. unfold Rdiv. ring. }
  replace (1 + (a6 - 1)) with a6 in HLN by ring.
  destruct P6 as [WP EP].
  pose proof (isin_add OK _ _ _ _ HLN (isin_mulS OK _ _ _ _ (ll_ln2 _ _ L) WP EP)) as (B1 & B2 & B3 & B4).
  assert (TT : rel up (ln v) (ln a6 + ln 2 * (IZR m6 / 2))).
  { eapply rel_trans; [exact RA|]. rewrite <- T3. eapply rel_trans; [exact T4|]. rewrite <- T5.
    eapply rel_trans; [exact T6|]. unfold tot. replace (ln 2 * (IZR m6 / 2)) with (IZR m6 / 2 * ln 2) by ring. apply rel_refl. }
  destruct up; simpl in *; split; auto.
  - eapply ub_le; eauto. - eapply lb_le; eauto.
Qed.

Lemma log_point_lo f (x y : S) v : swf x -> lb (sval x) v -> 0 < v -> log_point S P f x false = Ok y ->
  swf y /\ lb (sval y) (ln v).
Proof.
  intros W B HV H. destruct (sval x) as [e| | |] eqn:E; simpl in B; try tauto.
  - destruct (Rlt_or_le 0 e) as [PE|NE].
    + destruct (log_core _ _ _ _ _ W E PE H) as [WY LY]. split; auto. eapply lb_le; eauto. apply ln_mono; auto.
    + unfold log_point in H. inv H. destruct (ok_pinf _ OK) as [WI EI].
      assert (seqb x spinf = false) as C1.
      { apply not_true_is_false. intros C. apply (ok_eq _ OK) in C; auto. rewrite EI, E in C. auto. }
      rewrite C1 in H. destruct (seqb x s0) eqn:C2.
      * injection H as <-. destruct (ok_ninf _ OK) as [WJ EJ]. split; auto. rewrite EJ. simpl. auto.
      * exfalso. assert (NZ : e <> 0). { intros ->. assert (seqb x s0 = true); [|congruence]. apply (ok_eq _ OK); auto; [apply s0_wf; auto|]. rewrite E, (s0_v OK). simpl. auto. }
        inv H. assert (I2 : isin (ipt (sint S 2)) 2) by (apply isin_pt; apply (sint_ok OK); lia).
        destruct (ipow_encl OK _ _ _ _ E1 I2) as [_ IQ]. rewrite <- (bpow_powerRZ radix2) in IQ.
        pose proof (isin_Smul OK _ _ _ _ W E IQ) as (A1 & A2 & A3 & A4). cbv zeta in H. simpl pick in H.
        assert (XL : xle (sval (lo (iSmul x T0))) (XR 0)).
        { pose proof (bpow_gt_0 radix2 (- frexp_e P x)). 
          assert (e * bpow radix2 (- frexp_e P x) <= 0) by nra.
          destruct (sval (lo (iSmul x T0))); simpl in *; auto; lra. }
        inv H. rewrite l1_low in E2 by auto. injection E2 as <-. 
        inv H. simpl in E2. rewrite l2_low in E2 by auto. injection E2 as <-. inv H. simpl in E2. eapply l3_low in E2; eauto.
  - exfalso. unfold log_point in H. inv H. destruct (ok_pinf _ OK) as [WI EI].
    assert (seqb x spinf = false) as C1.
    { apply not_true_is_false. intros C. apply (ok_eq _ OK) in C; auto. rewrite EI, E in C. auto. }
    assert (seqb x s0 = false) as C2.
    { apply not_true_is_false. intros C. apply (ok_eq _ OK) in C; auto; [|apply s0_wf; auto]. rewrite (s0_v OK), E in C. auto. }
    rewrite C1, C2 in H. inv H.
    assert (I2 : isin (ipt (sint S 2)) 2) by (apply isin_pt; apply (sint_ok OK); lia).
    destruct (ipow_encl OK _ _ _ _ E1 I2) as [_ IQ]. rewrite <- (bpow_powerRZ radix2) in IQ. destruct IQ as (A1 & A2 & A3 & A4).
    cbv zeta in H. simpl pick in H.
    assert (swf (lo (iSmul x T0)) /\ xle (sval (lo (iSmul x T0))) (XR 0)) as [WX XL].
    { unfold iSmul. assert (slt s0 x = false) as ->.
      { apply not_true_is_false. intros C. apply (ok_lt _ OK) in C; auto; [|apply s0_wf; auto]. rewrite (s0_v OK), E in C. auto. }
      assert (slt x s0 = true) as -> by (apply (ok_lt _ OK); auto; [apply s0_wf; auto|]; rewrite (s0_v OK), E; simpl; auto).
      simpl. destruct (ok_muld _ OK x (hi T0)) as [W1 D1]; auto. split; auto. rewrite E in D1.
      pose proof (bpow_gt_0 radix2 (- frexp_e P x)).
      destruct (sval (hi T0)); simpl in A4; try tauto; simpl in D1; [rewrite xsgn_inf_pos in D1 by lra|]; simpl in D1; rewrite D1; simpl; auto. }
    inv H. rewrite l1_low in E2 by auto. injection E2 as <-. 
    inv H. simpl in E2. rewrite l2_low in E2 by auto. injection E2 as <-. inv H. simpl in E2. eapply l3_low in E2; eauto.
Qed.
Lemma log_point_pinf f (x y : S) : swf x -> sval x = Xp -> log_point S P f x true = Ok y -> swf y /\ sval y = Xp.
Proof.
  intros W E H. unfold log_point in H. inv H. destruct (ok_pinf _ OK) as [WI EI].
  assert (seqb x spinf = true) as C by (apply (ok_eq _ OK); auto; rewrite E, EI; simpl; auto).
  rewrite C in H. injection H as <-. auto.
Qed.
Lemma log_point_hi f (x y : S) v : swf x -> ub (sval x) v -> 0 < v -> log_point S P f x true = Ok y ->
  swf y /\ ub (sval y) (ln v).
Proof.
  intros W B HV H. destruct (sval x) as [e| | |] eqn:E; simpl in B; try tauto.
  - destruct (log_core f x y true e W E ltac:(lra) H) as [WY LY]. split; auto. eapply ub_le; eauto. apply ln_mono; auto.
  - destruct (log_point_pinf _ _ _ W E H) as [WY EY]. split; auto. rewrite EY. simpl. auto.
Qed.
Lemma ilog_encl f X x Q : ilog S P f X = Ok Q -> isin X x -> 0 < x -> isin Q (ln x).
Proof.
  intros H (A1 & A2 & A3 & A4) HX. unfold ilog in H. destruct (slt (lo X) s0); [discriminate|].
  inv H. inv H. injection H as <-.
  destruct (log_point_lo _ _ _ _ A1 A3 HX E). destruct (log_point_hi _ _ _ _ A2 A4 HX E0).
  apply isin_ends; auto.
Qed.

(* log1p *)
Lemma th5_test (x : S) : swf x -> sle (sneg (th5 S P)) x && sle x (th5 S P) = true ->
  exists v, sval x = XR v /\ Rabs v <= / 2.
Proof.
  destruct (ll_th5 _ _ L) as [WT (t & ET & HT)].
  intros W H. apply andb_true_iff in H as [H1 H2].
  apply (ok_le _ OK) in H1; auto; [|apply sneg_wf; auto].
  apply (ok_le _ OK) in H2; auto.
  rewrite (sneg_v OK), ET in * by auto. simpl in *.
  destruct (sval x); simpl in *; try tauto. exists r. split; auto. apply Rabs_le. lra.
Qed.
Lemma log1p_origin_ok f (x : S) v Q : swf x -> sval x = XR v -> Rabs v <= / 2 -> log1p_origin S f x = Ok Q -> isin Q (ln (1 + v)).
Proof.
  intros W E HV H. unfold log1p_origin in H. inv H. apply Rabs_bnd in HV.
  eapply log_loop_start; eauto. lra. intros t Ht.
  assert (isin (iSadd x (ipt s1)) (v + 1)) as K1 by (apply (isin_Sadd OK); auto; apply isin_1; auto).
  assert (isin (hullIS (iSadd x (ipt s1)) s1) (1 + t)) as K2.
  { eapply (isin_hullIS OK _ s1 1 (v + 1)); eauto; try apply s1_wf; try apply s1_v; auto. unfold btw in Ht. lra. }
  pose proof (isin_Sdiv OK _ _ _ 1 _ E0 (s1_wf OK) (s1_v OK) K2) as [_ K]. replace (/ (1 + t)) with (1 / (1 + t)); auto. unfold Rdiv. ring.
Qed.
Lemma log1p_point_lo f (x y : S) v : swf x -> lb (sval x) v -> is_fin (sval x) -> -1 < v -> log1p_point S P f x false = Ok y ->
  swf y /\ lb (sval y) (ln (1 + v)).
Proof.
  intros W B F HV H. unfold log1p_point in H. destruct (sle (sneg (th5 S P)) x && sle x (th5 S P)) eqn:C.
  - destruct (th5_test x W C) as (e & E & HE). inv H. injection H as <-.
    destruct (log1p_origin_ok _ _ _ _ W E HE E0) as (A1 & A2 & A3 & A4). simpl. split; auto. eapply lb_le; eauto.
    rewrite E in B. simpl in B. apply Rabs_bnd in HE. apply ln_mono; lra.
  - simpl pick in H. destruct (sval x) as [e| | |] eqn:E; simpl in F; try tauto. simpl in B.
    destruct (isin_Sadd OK x (ipt s1) 1 e W E (isin_1 OK)) as (A1 & A2 & A3 & A4).
    apply (log_point_lo f (lo (iSadd x (ipt s1)))); auto; [|lra]. eapply lb_le; [exact A3|lra].
Qed.
Lemma log1p_point_hi f (x y : S) v : swf x -> ub (sval x) v -> -1 < v -> log1p_point S P f x true = Ok y ->
  swf y /\ ub (sval y) (ln (1 + v)).
Proof.
  intros W B HV H. unfold log1p_point in H. destruct (sle (sneg (th5 S P)) x && sle x (th5 S P)) eqn:C.
  - destruct (th5_test x W C) as (e & E & HE). inv H. injection H as <-.
    destruct (log1p_origin_ok _ _ _ _ W E HE E0) as (A1 & A2 & A3 & A4). simpl. split; auto. eapply ub_le; eauto.
    rewrite E in B. simpl in B. apply ln_mono; lra.
  - simpl pick in H. destruct (sval x) as [e| | |] eqn:E; simpl in B; try tauto.
    + destruct (isin_Sadd OK x (ipt s1) 1 e W E (isin_1 OK)) as (A1 & A2 & A3 & A4).
      apply (log_point_hi f (hi (iSadd x (ipt s1)))); auto; [|lra]. eapply ub_le; [exact A4|lra].
    + destruct (ok_addu _ OK x s1) as [W1 U1]; auto; [apply s1_wf; auto|]. rewrite E, (s1_v OK) in U1. simpl in U1.
      simpl hi in H. destruct (log_point_pinf _ _ _ W1 U1 H) as [WY EY]. split; auto. rewrite EY. simpl. auto.
Qed.
Lemma ilog1p_encl f X x Q : ilog1p S P f X = Ok Q -> isin X x -> -1 < x -> isin Q (ln (1 + x)).
Proof.
  intros H (A1 & A2 & A3 & A4) HX. unfold ilog1p in H. destruct (slt (lo X) (sneg s1)) eqn:C; [discriminate|].
  apply (slt_false OK) in C; auto; try apply sneg_wf; try apply s1_wf; auto.
  2: destruct (sval (lo X)); simpl in A3; congruence || tauto.
  2: rewrite (sneg_v OK), (s1_v OK); [discriminate|apply s1_wf; auto].
  rewrite (sneg_v OK), (s1_v OK) in C by (apply s1_wf; auto). 
  inv H. inv H. injection H as <-.
  assert (F : is_fin (sval (lo X))) by (destruct (sval (lo X)); simpl in *; tauto).
  destruct (log1p_point_lo _ _ _ _ A1 A3 F HX E). destruct (log1p_point_hi _ _ _ _ A2 A4 HX E0).
  apply isin_ends; auto.
Qed.
(* the upper end for an argument unbounded above *)
Lemma ilog_top f X Q : swf (lo X) -> swf (hi X) -> sval (hi X) = Xp -> ilog S P f X = Ok Q -> swf (hi Q) /\ sval (hi Q) = Xp.
Proof.
  intros W1 W2 E H. unfold ilog in H. destruct (slt (lo X) s0); [discriminate|]. inv H. inv H. injection H as <-. simpl.
  eapply log_point_pinf; eauto.
Qed.

(* functions of the form interval(f(lower).lower(), f(upper).upper()), increasing on D; at an
   infinite endpoint the outer bound is infinite *)
Lemma by_ends_gen p (D : R -> Prop) g X x Q :
  (forall a b, D a -> D b -> a <= b -> g a <= g b) -> D x ->
  (forall e v Q, swf e -> sval e = XR v -> v <= x -> p e = Ok Q -> D v /\ isin Q (g v) \/ (swf (lo Q) /\ sval (lo Q) = Xm)) ->
  (forall e v Q, swf e -> sval e = XR v -> x <= v -> p e = Ok Q -> D v /\ isin Q (g v) \/ (swf (hi Q) /\ sval (hi Q) = Xp)) ->
  (forall e Q, swf e -> sval e = Xp -> p e = Ok Q -> swf (hi Q) /\ sval (hi Q) = Xp) ->
  (forall e Q, swf e -> sval e = Xm -> p e = Ok Q -> swf (lo Q) /\ sval (lo Q) = Xm) ->
  by_ends S p X = Ok Q -> isin X x -> isin Q (g x).
Proof.
  intros M DX HL HH HP HM H (W1 & W2 & A & B). unfold by_ends in H. inv H. inv H. injection H as <-.
  apply isin_ends; simpl.
  - destruct (sval (lo X)) as [v| | |] eqn:EL; simpl in A; try tauto.
    + destruct (HL _ _ _ W1 EL A E) as [[? K]|[K ?]]; auto. apply K.
    + apply (HM _ _ W1 EL E).
  - destruct (sval (hi X)) as [v| | |] eqn:EL; simpl in B; try tauto.
    + destruct (HH _ _ _ W2 EL B E0) as [[? K]|[K ?]]; auto. apply K.
    + apply (HP _ _ W2 EL E0).
  - destruct (sval (lo X)) as [v| | |] eqn:EL; simpl in A; try tauto.
    + destruct (HL _ _ _ W1 EL A E) as [[? (_ & _ & K & _)]|[_ K]]; [|rewrite K; simpl; auto]. eapply lb_le; eauto.
    + destruct (HM _ _ W1 EL E) as [_ ->]. simpl. auto.
  - destruct (sval (hi X)) as [v| | |] eqn:EL; simpl in B; try tauto.
    + destruct (HH _ _ _ W2 EL B E0) as [[? (_ & _ & _ & K)]|[_ K]]; [|rewrite K; simpl; auto]. eapply ub_le; eauto.
    + destruct (HP _ _ W2 EL E0) as [_ ->]. simpl. auto.
Qed.

(* asinh *)
Definition rasinh x := ln (x + sqrt (1 + x * x)).
Lemma asinh_arg_pos x : 0 < x + sqrt (1 + x * x).
Proof.
  assert (Rabs x < sqrt (1 + x * x)).
  { rewrite <- (sqrt_Rsqr_abs x). apply sqrt_lt_1; unfold Rsqr; nra. }
  pose proof (Rle_abs (- x)). rewrite Rabs_Ropp in H0. lra.
Qed.
Lemma rasinh_sinh y : rasinh (sinh y) = y. Proof. symmetry. apply asinh_ln. Qed.
Lemma sinh_rasinh x : sinh (rasinh x) = x.
Proof.
  unfold rasinh, sinh. pose proof (asinh_arg_pos x). rewrite exp_Ropp, exp_ln by auto.
  assert (/ (x + sqrt (1 + x * x)) = sqrt (1 + x * x) - x).
  { apply Rmult_eq_reg_l with (x + sqrt (1 + x * x)); [|lra]. rewrite Rinv_r by lra.
    replace ((x + sqrt (1 + x * x)) * (sqrt (1 + x * x) - x)) with (sqrt (1 + x * x) * sqrt (1 + x * x) - x * x) by ring.
    rewrite sqrt_sqrt by nra. ring. }
  rewrite H0. field.
Qed.
Lemma rasinh_mono a b : a <= b -> rasinh a <= rasinh b.
Proof.
  intros H. destruct (Rle_or_lt (rasinh a) (rasinh b)); auto. apply sinh_lt in H0. rewrite !sinh_rasinh in H0. lra.
Qed.
Lemma rasinh_opp x : rasinh (- x) = - rasinh x.
Proof. rewrite <- (sinh_rasinh x) at 1. rewrite <- sinh_opp. apply rasinh_sinh. Qed.
Lemma isin_sq (x : S) v : swf x -> sval x = XR v -> isin (imulS (ipt x) x) (v * v).
Proof. intros. apply (isin_mulS OK); auto. apply isin_pt; auto. Qed.
Lemma isin_1add X x : isin X x -> isin (iSadd s1 X) (1 + x).
Proof. apply (isin_Sadd OK). apply s1_wf; auto. apply s1_v; auto. Qed.
Lemma asinh_point_ok f (x : S) v Q : swf x -> sval x = XR v -> asinh_point S P f x = Ok Q -> isin Q (rasinh v).
Proof.
  intros W E H. unfold asinh_point in H.
  assert (0 <= 1 + v * v) by nra.
  destruct (slt x (sneg shalf)); [|destruct (sle x shalf) eqn:C].
  - inv H. unfold rneg in H. inv H. injection H as <-.
    destruct (isin_sqrt OK _ _ _ E0 (isin_1add _ _ (isin_sq _ _ W E))) as [_ K].
    rewrite <- (Ropp_involutive (rasinh v)). apply isin_neg; auto. rewrite <- rasinh_opp.
    unfold rasinh. replace (- v * - v) with (v * v) by ring.
    eapply ilog_encl; eauto.
    + apply (isin_Sadd OK); auto using sneg_wf. rewrite (sneg_v OK), E; auto.
    + pose proof (asinh_arg_pos (- v)). replace (- v * - v) with (v * v) in H by ring. auto.
  - inv H. inv H.
    destruct (isin_sqrt OK _ _ _ E0 (isin_1add _ _ (isin_sq _ _ W E))) as [_ K].
    destruct (isin_Sdiv OK _ _ _ _ _ E1 W E (isin_1add _ _ K)) as [_ K2].
    pose proof (isin_mulS OK _ _ _ _ (isin_1add _ _ K2) W E) as K3.
    assert (EQ : 1 + (1 + v / (1 + sqrt (1 + v * v))) * v = v + sqrt (1 + v * v)).
    { pose proof (sqrt_pos (1 + v * v)) as SP. pose proof (sqrt_sqrt (1 + v * v) H0) as SS. set (s := sqrt (1 + v * v)) in *. 
      apply Rmult_eq_reg_r with (1 + s); [|lra]. field_simplify; [|lra]. nra. }
    pose proof (asinh_arg_pos v).
    unfold rasinh. rewrite <- EQ. eapply ilog1p_encl; eauto. lra.
  - inv H. destruct (isin_sqrt OK _ _ _ E0 (isin_1add _ _ (isin_sq _ _ W E))) as [_ K].
    unfold rasinh. eapply ilog_encl; eauto.
    + apply (isin_Sadd OK); auto.
    + apply asinh_arg_pos.
Qed.
Lemma iasinh_encl f X x Q : iasinh S P f X = Ok Q -> isin X x -> isin Q (rasinh x).
Proof.
  apply (by_ends_gen _ (fun _ => True)); auto.
  - intros. apply rasinh_mono; auto.
  - intros. left. split; auto. eapply asinh_point_ok; eauto.
  - intros. left. split; auto. eapply asinh_point_ok; eauto.
  - intros e R W E H. unfold asinh_point in H.
    assert (slt e (sneg shalf) = false) as C1.
    { apply not_true_is_false. intros C. apply (ok_lt _ OK) in C; auto; [|apply sneg_wf, shalf_wf; auto]. rewrite E in C. simpl in C. auto. }
    assert (sle e shalf = false) as C2.
    { apply not_true_is_false. intros C. apply (ok_le _ OK) in C; auto; [|apply shalf_wf; auto]. rewrite E, (shalf_v OK) in C. simpl in C. auto. }
    rewrite C1, C2 in H. inv H. unfold isqrt in E0.
    assert (slt s0 e = true) as C3 by (apply (ok_lt _ OK); auto; [apply s0_wf; auto|]; rewrite E, (s0_v OK); simpl; auto).
    unfold imulS in E0. rewrite C3 in E0. simpl in E0.
    destruct (slt (addd s1 (muld e e)) s0); [discriminate|]. injection E0 as <-.
    destruct (ok_mulu _ OK e e) as [W1 U1]; auto. rewrite E in U1. simpl in U1.
    destruct (ok_muld _ OK e e) as [W1' U1']; auto.
    destruct (ok_addu _ OK s1 (mulu e e)) as [W2 U2]; auto; [apply s1_wf; auto|]. rewrite (s1_v OK), U1 in U2. simpl in U2.
    destruct (ok_addd _ OK s1 (muld e e)) as [W2' _]; auto; [apply s1_wf; auto|].
    destruct (ok_sqru _ OK (addu s1 (mulu e e))) as [W3 U3]; auto. rewrite U2 in U3. simpl in U3.
    destruct (ok_sqrd _ OK (addd s1 (muld e e))) as [W3' _]; auto.
    destruct (ok_addu _ OK e (sqru (addu s1 (mulu e e)))) as [W4 U4]; auto. rewrite E, U3 in U4. simpl in U4.
    destruct (ok_addd _ OK e (sqrd (addd s1 (muld e e)))) as [W4' _]; auto.
    eapply ilog_top; [| | |eauto]; auto.
  - intros e R W E H. unfold asinh_point in H.
    assert (slt e (sneg shalf) = true) as C1.
    { apply (ok_lt _ OK); auto; [apply sneg_wf, shalf_wf; auto|]. rewrite E, (sneg_v OK), (shalf_v OK) by (apply shalf_wf; auto). simpl. auto. }
    rewrite C1 in H. inv H. unfold isqrt in E0.
    assert (slt s0 e = false) as C3.
    { apply not_true_is_false. intros C. apply (ok_lt _ OK) in C; auto; [|apply s0_wf; auto]. rewrite E, (s0_v OK) in C. simpl in C. auto. }
    assert (slt e s0 = true) as C4 by (apply (ok_lt _ OK); auto; [apply s0_wf; auto|]; rewrite E, (s0_v OK); simpl; auto).
    unfold imulS in E0. rewrite C3, C4 in E0. simpl in E0.
    destruct (slt (addd s1 (muld e e)) s0); [discriminate|]. injection E0 as <-.
    destruct (ok_mulu _ OK e e) as [W1 U1]; auto. rewrite E in U1. simpl in U1.
    destruct (ok_muld _ OK e e) as [W1' U1']; auto.
    destruct (ok_addu _ OK s1 (mulu e e)) as [W2 U2]; auto; [apply s1_wf; auto|]. rewrite (s1_v OK), U1 in U2. simpl in U2.
    destruct (ok_addd _ OK s1 (muld e e)) as [W2' _]; auto; [apply s1_wf; auto|].
    destruct (ok_sqru _ OK (addu s1 (mulu e e))) as [W3 U3]; auto. rewrite U2 in U3. simpl in U3.
    destruct (ok_sqrd _ OK (addd s1 (muld e e))) as [W3' _]; auto.
    pose proof (sneg_wf OK _ W) as WN. pose proof (sneg_v OK _ W) as EN. rewrite E in EN. simpl in EN.
    destruct (ok_addu _ OK (sneg e) (sqru (addu s1 (mulu e e)))) as [W4 U4]; auto. rewrite EN, U3 in U4. simpl in U4.
    destruct (ok_addd _ OK (sneg e) (sqrd (addd s1 (muld e e)))) as [W4' _]; auto.
    unfold rneg in H. inv H. injection H as <-. simpl.
    eapply ilog_top in E0 as [W5 E5]; auto. split; [apply sneg_wf; auto|]. rewrite (sneg_v OK), E5; auto.
Qed.
(* acosh *)
Definition racosh x := ln (x + sqrt (x * x - 1)).
Lemma racosh_mono a b : 1 <= a -> 1 <= b -> a <= b -> racosh a <= racosh b.
Proof.
  intros H1 H2 H. unfold racosh. pose proof (sqrt_pos (a * a - 1)). apply ln_mono; [lra|].
  assert (sqrt (a * a - 1) <= sqrt (b * b - 1)) by (apply sqrt_le_1; nra). lra.
Qed.
Lemma acosh_point_ok f (x : S) v Q : swf x -> sval x = XR v -> acosh_point S P f x = Ok Q -> 1 <= v /\ isin Q (racosh v).
Proof.
  intros W E H. unfold acosh_point in H. destruct (slt x s1) eqn:C1; [discriminate|].
  apply (slt_false OK) in C1; auto; try apply s1_wf; auto; try congruence; [|rewrite (s1_v OK); discriminate].
  rewrite (s1_v OK), E in C1. simpl in C1. split; auto.
  destruct (seqb x s1) eqn:C2.
  - injection H as <-. apply (ok_eq _ OK) in C2; auto; [|apply s1_wf; auto]. rewrite (s1_v OK), E in C2. simpl in C2. subst v.
    unfold racosh. replace (1 * 1 - 1) with 0 by ring. rewrite sqrt_0, Rplus_0_r, ln_1. apply isin_0; auto.
  - destruct (sle x (sdy 3 (-1))) eqn:C3.
    + inv H. destruct (ok_dy _ OK 3 (-1)) as [W3 E3]; try lia.
      apply (ok_le _ OK) in C3; auto. rewrite E, E3 in C3. simpl in C3.
      destruct (ll_sub1 _ _ L x v W E ltac:(lra)) as [W4 E4].
      pose proof (isin_pt _ _ W4 E4) as K1.
      pose proof (isin_addS OK _ _ _ _ (isin_pt _ _ W E) (s1_wf OK) (s1_v OK)) as K2.
      destruct (isin_sqrt OK _ _ _ E0 (isin_mul OK _ _ _ _ K1 K2)) as [_ K3].
      pose proof (isin_add OK _ _ _ _ K1 K3) as K4.
      pose proof (sqrt_pos ((v - 1) * (v + 1))).
      unfold racosh. replace (v + sqrt (v * v - 1)) with (1 + (v - 1 + sqrt ((v - 1) * (v + 1)))).
      * eapply ilog1p_encl; eauto. lra.
      * replace ((v - 1) * (v + 1)) with (v * v - 1) by ring. ring.
    + inv H. destruct (isin_sqrt OK _ _ _ E0 (isin_subS OK _ _ _ _ (isin_sq _ _ W E) (s1_wf OK) (s1_v OK))) as [_ K].
      unfold racosh. pose proof (sqrt_pos (v * v - 1)). eapply ilog_encl; eauto; [|lra]. apply (isin_Sadd OK); auto.
Qed.
Lemma iacosh_encl f X x Q : iacosh S P f X = Ok Q -> isin X x -> 1 <= x /\ isin Q (racosh x).
Proof.
  intros H HX. assert (HX1 : 1 <= x).
  { unfold iacosh, by_ends in H. inv H. destruct HX as (A1 & A2 & A3 & A4).
    destruct (sval (lo X)) as [v| | |] eqn:EL; simpl in A3; try tauto.
    - destruct (acosh_point_ok _ _ _ _ A1 EL E). lra.
    - exfalso. unfold acosh_point in E. assert (slt (lo X) s1 = true) as C by (apply (ok_lt _ OK); auto; [apply s1_wf; auto|]; rewrite EL, (s1_v OK); simpl; auto).
      rewrite C in E. discriminate. }
  split; auto. revert H HX. apply (by_ends_gen _ (fun x => 1 <= x)); auto.
  - intros. apply racosh_mono; auto.
  - intros. left. eapply acosh_point_ok; eauto.
  - intros. left. eapply acosh_point_ok; eauto.
  - intros e R W E H. unfold acosh_point in H. destruct (slt e s1); [discriminate|].
    destruct (seqb e s1) eqn:C1. { apply (ok_eq _ OK) in C1; auto; [|apply s1_wf; auto]. rewrite E, (s1_v OK) in C1. elim C1. }
    destruct (ok_dy _ OK 3 (-1)) as [W3 E3]; try lia.
    destruct (sle e (sdy 3 (-1))) eqn:C2. { apply (ok_le _ OK) in C2; auto. rewrite E, E3 in C2. elim C2. }
    inv H. unfold isqrt in E0.
    assert (slt s0 e = true) as C3 by (apply (ok_lt _ OK); auto; [apply s0_wf; auto|]; rewrite E, (s0_v OK); simpl; auto).
    unfold imulS in E0. rewrite C3 in E0. simpl in E0.
    destruct (slt (subd (muld e e) s1) s0); [discriminate|]. injection E0 as <-.
    destruct (ok_mulu _ OK e e) as [W1 U1]; auto. rewrite E in U1. simpl in U1.
    destruct (ok_muld _ OK e e) as [W1' U1']; auto.
    destruct (ok_subu _ OK (mulu e e) s1) as [W2 U2]; auto; [apply s1_wf; auto|]. rewrite (s1_v OK), U1 in U2. simpl in U2.
    destruct (ok_subd _ OK (muld e e) s1) as [W2' _]; auto; [apply s1_wf; auto|].
    destruct (ok_sqru _ OK (subu (mulu e e) s1)) as [W5 U3]; auto. rewrite U2 in U3. simpl in U3.
    destruct (ok_sqrd _ OK (subd (muld e e) s1)) as [W5' _]; auto.
    destruct (ok_addu _ OK e (sqru (subu (mulu e e) s1))) as [W4 U4]; auto. rewrite E, U3 in U4. simpl in U4.
    destruct (ok_addd _ OK e (sqrd (subd (muld e e) s1))) as [W4' _]; auto.
    eapply ilog_top; [| | |eauto]; auto.
  - intros e R W E H. unfold acosh_point in H.
    assert (slt e s1 = true) as C by (apply (ok_lt _ OK); auto; [apply s1_wf; auto|]; rewrite E, (s1_v OK); simpl; auto).
    rewrite C in H. discriminate.
Qed.
(* atanh *)
Definition ratanh x := / 2 * ln ((1 + x) / (1 - x)).
Lemma ratio_pos x : -1 < x < 1 -> 0 < (1 + x) / (1 - x).
Proof. intros. apply Rdiv_lt_0_compat; lra. Qed.
Lemma ratanh_mono a b : -1 < a < 1 -> -1 < b < 1 -> a <= b -> ratanh a <= ratanh b.
Proof.
  intros H1 H2 H. unfold ratanh. apply Rmult_le_compat_l; [lra|]. apply ln_mono; [apply ratio_pos; auto|].
  unfold Rdiv. apply Rmult_le_compat; try lra.
  - left; apply Rinv_0_lt_compat; lra. - apply Rinv_le_contravar; lra.
Qed.
Lemma atanh_point_dom f (x : S) v Q : swf x -> sval x = XR v -> atanh_point S P f x = Ok Q -> -1 <= v <= 1.
Proof.
  intros W E H. unfold atanh_point in H.
  destruct (slt x (sneg s1)) eqn:C1; [discriminate|]. destruct (slt s1 x) eqn:C2; [discriminate|].
  pose proof (sneg_v OK _ (s1_wf OK)) as EN. rewrite (s1_v OK) in EN. simpl in EN.
  apply (slt_false OK) in C1; auto; try apply sneg_wf; try apply s1_wf; auto; try (rewrite EN; discriminate); try (rewrite E; discriminate).
  apply (slt_false OK) in C2; auto; try apply s1_wf; auto; try congruence; [|rewrite (s1_v OK); discriminate].
  rewrite EN, E in C1. rewrite (s1_v OK), E in C2. simpl in *. lra.
Qed.
Lemma isin_Shalf X x : isin X x -> isin (iSmul shalf X) (/ 2 * x).
Proof. intros. apply (isin_Smul OK); auto. apply shalf_wf; auto. apply shalf_v; auto. Qed.
Lemma isin_1sub X x : isin X x -> isin (iSsub s1 X) (1 - x).
Proof. apply (isin_Ssub OK). apply s1_wf; auto. apply s1_v; auto. Qed.
Lemma atanh_point_ok f (x : S) v Q : swf x -> sval x = XR v -> -1 < v < 1 -> atanh_point S P f x = Ok Q -> isin Q (ratanh v).
Proof.
  intros W E D H. unfold atanh_point in H.
  pose proof (sneg_v OK _ (s1_wf OK)) as EN. rewrite (s1_v OK) in EN. simpl in EN.
  destruct (slt x (sneg s1) || slt s1 x); [discriminate|].
  destruct (seqb x (sneg s1)) eqn:C1.
  { apply (ok_eq _ OK) in C1; auto; [|apply sneg_wf, s1_wf; auto]. rewrite EN, E in C1. simpl in C1. lra. }
  destruct (seqb x s1) eqn:C2.
  { apply (ok_eq _ OK) in C2; auto; [|apply s1_wf; auto]. rewrite (s1_v OK), E in C2. simpl in C2. lra. }
  pose proof (ratio_pos v D) as RP.
  pose proof (sneg_v OK _ (shalf_wf OK)) as EH. rewrite (shalf_v OK) in EH. simpl in EH.
  destruct (slt x (sneg shalf)) eqn:C3; [|destruct (sle x shalf) eqn:C4].
  - inv H. inv H. injection H as <-. apply (ok_lt _ OK) in C3; auto; [|apply sneg_wf, shalf_wf; auto]. rewrite E, EH in C3. simpl in C3.
    destruct (ll_1px _ _ L x v W E ltac:(lra)) as [W1 E2].
    destruct (isin_Sdiv OK _ _ _ _ _ E0 W1 E2 (isin_1sub _ _ (isin_pt _ _ W E))) as [_ K].
    apply isin_Shalf. eapply ilog_encl; eauto.
  - inv H. inv H. injection H as <-.
    apply (slt_false OK) in C3; auto; try apply sneg_wf; try apply shalf_wf; auto; try congruence.
    rewrite EH, E in C3. simpl in C3. apply (ok_le _ OK) in C4; auto; [|apply shalf_wf; auto]. rewrite E, (shalf_v OK) in C4. simpl in C4.
    destruct (ll_2x _ _ L x v W E ltac:(apply Rabs_le; lra)) as [W1 E2].
    destruct (isin_Sdiv OK _ _ _ _ _ E0 W1 E2 (isin_1sub _ _ (isin_pt _ _ W E))) as [_ K].
    apply isin_Shalf. replace ((1 + v) / (1 - v)) with (1 + 2 * v / (1 - v)) in * by (field; lra). eapply ilog1p_encl; eauto. lra.
  - inv H. inv H. injection H as <-.
    apply (sle_false OK) in C4; auto; try apply shalf_wf; auto; try congruence; [|rewrite (shalf_v OK); discriminate].
    rewrite (shalf_v OK), E in C4. simpl in C4.
    destruct (ll_1mx _ _ L x v W E ltac:(lra)) as [W1 E2].
    destruct (isin_divS OK _ _ _ _ _ E0 (isin_1add _ _ (isin_pt _ _ W E)) W1 E2) as [_ K].
    apply isin_Shalf. eapply ilog_encl; eauto.
Qed.
Lemma iatanh_encl f X x Q : iatanh S P f X = Ok Q -> isin X x -> -1 < x < 1 -> isin Q (ratanh x).
Proof.
  intros H HX HD. revert H HX.
  pose proof (sneg_v OK _ (s1_wf OK)) as EN. rewrite (s1_v OK) in EN. simpl in EN.
  apply (by_ends_gen _ (fun x => -1 < x < 1)); auto.
  - intros. apply ratanh_mono; auto.
  - intros e v R W E LE H. pose proof (atanh_point_dom _ _ _ _ W E H) as DM.
    destruct (Req_dec v (-1)) as [->|N].
    + right. unfold atanh_point in H. destruct (slt e (sneg s1) || slt s1 e); [discriminate|].
      assert (seqb e (sneg s1) = true) as C by (apply (ok_eq _ OK); auto; [apply sneg_wf, s1_wf; auto|]; rewrite EN, E; simpl; lra).
      rewrite C in H. injection H as <-. simpl. apply (ok_ninf _ OK).
    + left. assert (-1 < v < 1) by lra. split; auto. eapply atanh_point_ok; eauto.
  - intros e v R W E LE H. pose proof (atanh_point_dom _ _ _ _ W E H) as DM.
    destruct (Req_dec v 1) as [->|N].
    + right. unfold atanh_point in H. destruct (slt e (sneg s1) || slt s1 e); [discriminate|].
      destruct (seqb e (sneg s1)) eqn:C1.
      { apply (ok_eq _ OK) in C1; auto; [|apply sneg_wf, s1_wf; auto]. rewrite EN, E in C1. simpl in C1. lra. }
      assert (seqb e s1 = true) as C by (apply (ok_eq _ OK); auto; [apply s1_wf; auto|]; rewrite (s1_v OK), E; simpl; lra).
      rewrite C in H. injection H as <-. simpl. apply (ok_pinf _ OK).
    + left. assert (-1 < v < 1) by lra. split; auto. eapply atanh_point_ok; eauto.
  - intros e R W E H. unfold atanh_point in H.
    assert (slt s1 e = true) as C by (apply (ok_lt _ OK); auto; [apply s1_wf; auto|]; rewrite E, (s1_v OK); simpl; auto).
    rewrite C, orb_true_r in H. discriminate.
  - intros e R W E H. unfold atanh_point in H.
    assert (slt e (sneg s1) = true) as C by (apply (ok_lt _ OK); auto; [apply sneg_wf, s1_wf; auto|]; rewrite E, EN; simpl; auto).
    rewrite C in H. discriminate.
Qed.
End ElemLog.
