(* Soundness of the models of ode and odelong (OdeModel.v) for every double back end. *)
From Coq Require Import Reals ZArith Bool List Lra Lia Psatz Arith.
From Coquelicot Require Import Coquelicot.
From Verif Require Import Ext Scalar IntervalModel IntervalSpec IntervalProofs IntervalEncl IntervalSets Backends ElemModel PropsElem.
From Verif Require Import RealFun ADModel ADReal ADProofs ADInst ADSys PsaModel PsaReal PsaProofs PsaExpr PsaInt PsaUseProofs PsaInst.
From Verif Require Import PsaHist PsaHistProofs PsaHistRep OdeLip OdePicard OdeSeries OdeStep OdeModel OdeHist OdeSpec.
Import List ListNotations.
Open Scope R_scope.

Lemma ev_time n x t : ev n x t = at_time n x t. Proof. reflexivity. Qed.
(* from curves in local time to solutions *)
Lemma deriv_shift (f : R -> R) (a t l : R) : is_derive f t l -> is_derive (fun s => f (s - a)) (t + a) l.
Proof.
  intros D. rewrite <- (Rmult_1_l l). apply (is_derive_comp f (fun s => s - a)).
  - now replace (t + a - a) with t by ring.
  - auto_derive; auto.
Qed.
Section Sol.
Variables (n : nat) (es : nat -> aexpr).
Hypothesis WF : forall i, (i < n)%nat -> awf (S n) (es i).
Hypothesis NA : forall i, (i < n)%nat -> noarc (es i) = true.
Notation F := (fun i => rval (es i)).
Lemma make_solution t0 H x0 u : 0 <= H -> near_curve n u -> (forall t i, 0 <= t <= H -> (i < n)%nat -> adiff (es i) (curve n t0 u t)) -> (forall i, (i < n)%nat -> u i 0 = x0 i) ->
  (forall i t, (i < n)%nat -> 0 < t < H -> is_derive (u i) t (F i (curve n t0 u t))) -> unique_solution n es t0 (t0 + H) x0 (fun i t => u i (t - t0)).
Proof.
  intros HH C AD U0 DU. assert (CE : forall t, at_time n (fun j => u j (t - t0)) t = curve n t0 u (t - t0)). { intros t. unfold at_time, curve, ev. now replace (t0 + (t - t0)) with t by ring. }
  split; [split; [|split; [|split]]|].
  - intros i Hi. rewrite Rminus_eq_0. auto.
  - intros i t Hi Ht. rewrite CE. apply adiff_dom, AD; auto. lra.
  - intros i t Hi Ht. rewrite CE. apply is_derive_Reals. replace t with (t - t0 + t0) at 1 by ring. apply (deriv_shift (u i)). apply DU; auto. lra.
  - intros i t Hi Ht e E. destruct (proj2 (cont_eps (u i) (t - t0)) (C i (t - t0) Hi) e E) as (d & D & K). exists d. split; auto. intros s _ Hs. apply K.
    now replace (s - t0 - (t - t0)) with (s - t) by ring.
  - intros t' psi Ht' (P0 & PD & PV & PC) i t Hi Ht. symmetry. replace (psi i t) with (psi i ((t - t0) + t0)) by (f_equal; ring).
    apply (sol_unique n F t0 (t' - t0) u (fun i s => psi i (s + t0))); auto; try lra.
    + split.
      * intros j Hj s Hs e E. destruct (proj2 (cont_eps (u j) s) (C j s Hj) e E) as (d & D & K). exists d. auto.
      * intros j s Hj Hs. apply DU; auto. lra.
    + split.
      * intros j Hj s Hs e E. destruct (PC j (s + t0) Hj ltac:(lra) e E) as (d & D & K). exists d. split; auto. intros r Hr Lr. apply K; [lra|]. now replace (r + t0 - (s + t0)) with (r - s) by ring.
      * intros j s Hj Hs. specialize (PV j (s + t0) Hj ltac:(lra)). apply is_derive_Reals in PV. change (ev n) with (at_time n).
        replace (t0 + s) with (s + t0) by ring. pose proof (deriv_shift (psi j) (- t0) (s + t0) _ PV) as DS. replace (s + t0 + - t0) with s in DS by ring.
        apply (is_derive_ext (fun r => psi j (r - - t0))); auto. intros r. f_equal. ring.
    + intros j Hj. rewrite U0, Rplus_0_l, P0; auto.
    + intros j s Hj Hs. apply adiff_lip; auto. apply AD; auto. lra.
Qed.
End Sol.

Section Ode.
Variables (b : backend) (fuel : nat).
Notation S_ := (bscal b).
Notation B := (Ibase (bpar b) fuel).
Notation I := (iv S_).
Notation rel := (@isin S_).
Variable root : S_ -> nat -> S_.
Variables (n : nat) (es : nat -> aexpr).
Hypothesis WF : forall i, (i < n)%nat -> awf (S n) (es i).
Hypothesis PL : forall i, (i < n)%nat -> plog (es i).
Hypothesis NA : forall i, (i < n)%nat -> noarc (es i) = true.
Lemma bwf (x : S_) : swf x. Proof. destruct b as [| |f]; exact Logic.I. Qed.

(* any factor times [-1, 1] contains 0 *)
Lemma unit_zero (s : S_) : isin (iSmul s iunit) 0.
Proof.
  pose proof (bok b) as OK. destruct (ok_s0 _ OK) as [W0 V0]. destruct (ok_dy _ OK (-1) 0 ltac:(lia) ltac:(lia)) as [W1 V1]. destruct (ok_dy _ OK 1 0 ltac:(lia) ltac:(lia)) as [W2 V2].
  replace (IZR (-1) * Flocq.Core.Raux.bpow Flocq.Core.Zaux.radix2 0) with (-1) in V1 by (simpl; ring). replace (IZR 1 * Flocq.Core.Raux.bpow Flocq.Core.Zaux.radix2 0) with 1 in V2 by (simpl; ring).
  pose proof (bwf s) as W. unfold iSmul, iunit. cbn [lo hi].
  destruct (slt s0 s) eqn:E1.
  - apply (ok_lt _ OK) in E1; auto. rewrite V0 in E1.
    destruct (ok_muld _ OK s (sdy (-1) 0) W W1) as [Wd Xd]. destruct (ok_mulu _ OK s (sdy 1 0) W W2) as [Wu Xu]. rewrite V1 in Xd. rewrite V2 in Xu.
    split; [exact Wd|]. split; [exact Wu|]. cbn [lo hi]. destruct (sval s) as [r| | |]; simpl in E1; try tauto; cbn [xmul] in Xd, Xu.
    + simpl in Xd, Xu. split; [destruct (sval (muld s (sdy (-1) 0)))|destruct (sval (mulu s (sdy 1 0)))]; simpl in *; auto; lra.
    + unfold xsgn_inf in Xd, Xu. rewrite (Flocq.Core.Raux.Rcompare_Lt (-1) 0) in Xd by lra. rewrite (Flocq.Core.Raux.Rcompare_Gt 1 0) in Xu by lra. cbn [xdown xup] in Xd, Xu. rewrite Xd, Xu. simpl. auto.
  - destruct (slt s s0) eqn:E2.
    + apply (ok_lt _ OK) in E2; auto. rewrite V0 in E2.
      destruct (ok_muld _ OK s (sdy 1 0) W W2) as [Wd Xd]. destruct (ok_mulu _ OK s (sdy (-1) 0) W W1) as [Wu Xu]. rewrite V2 in Xd. rewrite V1 in Xu.
      split; [exact Wd|]. split; [exact Wu|]. cbn [lo hi]. destruct (sval s) as [r| | |]; simpl in E2; try tauto; cbn [xmul] in Xd, Xu.
      * simpl in Xd, Xu. split; [destruct (sval (muld s (sdy 1 0)))|destruct (sval (mulu s (sdy (-1) 0)))]; simpl in *; auto; lra.
      * unfold xsgn_inf in Xd, Xu. rewrite (Flocq.Core.Raux.Rcompare_Lt (-1) 0) in Xu by lra. rewrite (Flocq.Core.Raux.Rcompare_Gt 1 0) in Xd by lra. cbn [xdown xup xneg] in Xd, Xu. rewrite Xd, Xu. simpl. auto.
    + split; [exact W0|]. split; [exact W0|]. unfold i0, ipt. cbn [lo hi]. rewrite V0. simpl. lra.
Qed.
Lemma allb_ok k g : allb k g = true -> forall i, (i < k)%nat -> g i = true.
Proof. induction k; simpl; intros E i Hi; [lia|]. apply andb_prop in E as [E1 E2]. destruct (Nat.eq_dec i k); [subst; auto|apply IHk; auto; lia]. Qed.
Lemma setco_len (x : list B) k v : length x = Datatypes.S k -> length (setco (bpar b) fuel x k v) = Datatypes.S k.
Proof. intros L. unfold setco. rewrite app_length, firstn_length_le by lia. cbn [length]. rewrite skipn_length. lia. Qed.
Lemma setco_at (x : list B) k v l : length x = Datatypes.S k -> (l <= k)%nat -> at_ (B:=B) (setco (bpar b) fuel x k v) l = if (l =? k)%nat then v else at_ (B:=B) x l.
Proof.
  intros L Hl. unfold setco, at_. destruct (Nat.eqb_spec l k) as [->|N].
  - rewrite app_nth2; rewrite firstn_length_le by lia; [|lia]. now rewrite Nat.sub_diag.
  - rewrite app_nth1 by (rewrite firstn_length_le; lia). rewrite <- (firstn_skipn k x) at 2. now rewrite app_nth1 by (rewrite firstn_length_le; lia).
Qed.
(* a sequence of two steps *)
Lemma hb_ok {A A'} (M : hM B A) (f : A -> hM B A') s r s' : hbind M f s = (Ok r, s') -> exists a s1, M s = (Ok a, s1) /\ f a s1 = (Ok r, s').
Proof. unfold hbind. destruct (M s) as [[a|e] s1]; intros E; [eauto|discriminate E]. Qed.
(* parts of a Picard step *)
Lemma pic_parts init ord x t w st st' : ode_pic (bpar b) fuel n es init ord x t st = (Ok w, st') -> exists y J W, ode_f (bpar b) fuel n es x t st = (Ok y, st') /\
  (forall i, (i < n)%nat -> ps_integrate (B:=B) (y i) = Ok (J i)) /\
  (forall i, (i < n)%nat -> ps_setorder (B:=B) (p_mode st') (p_dom st') (J i) ord = Ok (W i)) /\ forall i, (i < n)%nat -> ps_addT (B:=B) (W i) (init i) = Ok (w i).
Proof.
  unfold ode_pic, ode_int. intros E. apply hb_ok in E as (y & s1 & EY & E). unfold hget, hlift in E. apply pair_equal_spec in E as [E <-]. pose proof (vecM_ok _ _ _ _ E) as KW. clear E.
  exists y, (fun i => match ps_integrate (B:=B) (y i) with Ok J => J | _ => [] end),
    (fun i => match ps_setorder (B:=B) (p_mode s1) (p_dom s1) (match ps_integrate (B:=B) (y i) with Ok J => J | _ => [] end) ord with Ok J => J | _ => [] end).
  split; [exact EY|]. split; [|split]; intros i Hi; specialize (KW i Hi); apply bind_ok in KW as (J & EJ & KW); apply bind_ok in KW as (W & EW & KW); rewrite EJ; auto; rewrite EW; auto.
Qed.
Lemma f_keep x t : keep B (ode_f (bpar b) fuel n es x t). Proof. apply keep_vec. intros. apply keep_eval. Qed.
(* what a successful return of the while loop says; Pr is any property of the step width kept by its changes, St any property of the state *)
Lemma while_ok (Pr : S_ -> Prop) (p : ode_param S_) (start end_ : I) (St : pst B -> Prop) (low : (nat -> list B) -> Prop) :
  (forall r q, Pr r -> Pr (nmul r (smaxS (sminS (sdy 1 (-1)) (ndiv (sdy 1 (-1)) q)) (sdy 1 (-3))))) -> (forall r, Pr r -> Pr (nmul r (sdy 1 (-1)))) ->
  (forall r m, Pr r -> Pr (ndiv r (root m (op_order p)))) -> Pr (mid (isub end_ start)) ->
  (forall s, St s -> p_mode s = 2%Z) -> (forall D s, St s -> St (set_dom D s)) ->
  (forall x t D s y s', St s -> low x -> ps_setorder (B:=B) 2 D [start : bT B; t1] (Z.of_nat (op_order p)) = Ok t -> ode_f (bpar b) fuel n es x t s = (Ok y, s') -> St s' /\ p_dom s' = p_dom s) ->
  (forall s s', St s -> p_mode s' = p_mode s -> St (set_uh false s')) ->
  (forall x v, low x -> low (fun i => setco (bpar b) fuel (x i) (op_order p) (v i))) ->
  forall f init x tol radius restart resized st w t deltat end2 ret st', Pr radius -> St st -> low x ->
  ode_while (bpar b) fuel root n es f p init start end_ x tol radius restart resized st = (Ok (w, t, deltat, end2, ret), st') -> ret <> 0%Z ->
  deltat = isub end2 start /\ ps_setorder (B:=B) 2 (mkiv s0 (hi deltat)) [start : bT B; t1] (Z.of_nat (op_order p)) = Ok t /\
  ((ret = 1%Z /\ op_auto p = true /\ igeS end2 (lo end_) = false /\ exists r, Pr r /\ end2 = ipt (mid (iaddS start r))) \/ (ret = 2%Z /\ end2 = end_ /\ (op_auto p = true -> exists r, igeS (ipt (mid (iaddS start r))) (lo end_) = true))) /\
  exists ns st1, let z := fun i => setco (bpar b) fuel (x i) (op_order p) (iadd (at_ (B:=B) (x i) (op_order p)) (iSmul (ns i) iunit)) in
    St st1 /\ p_dom st1 = mkiv s0 (hi deltat) /\ ode_pic (bpar b) fuel n es init (Z.of_nat (op_order p)) z t st1 = (Ok w, st') /\
    forall i, (i < n)%nat -> isubset (at_ (B:=B) (w i) (op_order p)) (at_ (B:=B) (z i) (op_order p)) = true.
Proof.
  intros C1 C2 C3 C4 SM SD SK SE LS. induction f as [|f IH]; intros init x tol radius restart resized st w t deltat end2 ret st' CR ST LX E RN; [discriminate E|]. cbn [ode_while] in E.
  match type of E with match ?q with _ => _ end _ = _ => destruct q as [[e2 rad2] rt] eqn:EQ end.
  assert (HQ : Pr rad2 /\ ((rt = 1%Z /\ op_auto p = true /\ igeS e2 (lo end_) = false /\ e2 = ipt (mid (iaddS start rad2))) \/ (rt = 2%Z /\ e2 = end_ /\ (op_auto p = true -> exists r, igeS (ipt (mid (iaddS start r))) (lo end_) = true)))).
  { destruct (op_auto p) eqn:AU; [destruct (igeS (ipt (mid (iaddS start radius))) (lo end_)) eqn:G|]; apply pair_equal_spec in EQ as [EQ E3]; apply pair_equal_spec in EQ as [E1' E2']; subst; auto 6; (split; [assumption|right; split; [reflexivity|split; [reflexivity|]]]); intros; [exists radius; exact G|congruence]. }
  clear EQ. destruct HQ as [HR HQ]. apply hb_ok in E as (u0 & s1 & EM & E). unfold hmod in EM. apply pair_equal_spec in EM as [_ EM]. assert (ST1 : St s1) by (rewrite <- EM; now apply SD).
  assert (PD : p_dom s1 = mkiv s0 (hi (isub e2 start))) by (now rewrite <- EM). clear EM.
  apply hb_ok in E as (t' & s2 & ET & E). unfold ode_t, hget, hlift in ET. apply pair_equal_spec in ET as [ET <-]. rewrite (SM _ ST1), PD in ET. unfold torg in ET.
  destruct (ode_f (bpar b) fuel n es x t' s1) as [[y|[| |]] s2] eqn:EF; try discriminate E.
  2:{ destruct (op_auto p && (restart <? op_rmax p)%nat); [|discriminate E]. apply IH in E; auto. apply (SE s1); auto. destruct (f_keep x t' s1) as [K _]. rewrite EF in K. exact K. }
  destruct (SK _ _ _ _ _ _ ST1 LX ET EF) as [ST2 PD2].
  apply hb_ok in E as (w0 & s3 & EI & E). unfold ode_int, hget, hlift in EI. apply pair_equal_spec in EI as [_ <-]. clear EF.
  match type of E with (if _ then (if _ then ?r else _) else _) _ = _ => set (rest := r) in E end.
  assert (HREST : rest s2 = (Ok (w, t, deltat, end2, ret), st') -> deltat = isub end2 start /\ ps_setorder (B:=B) 2 (mkiv s0 (hi deltat)) [start : bT B; t1] (Z.of_nat (op_order p)) = Ok t /\
    ((ret = 1%Z /\ op_auto p = true /\ igeS end2 (lo end_) = false /\ exists r, Pr r /\ end2 = ipt (mid (iaddS start r))) \/ (ret = 2%Z /\ end2 = end_ /\ (op_auto p = true -> exists r, igeS (ipt (mid (iaddS start r))) (lo end_) = true))) /\
    exists ns st1, let z := fun i => setco (bpar b) fuel (x i) (op_order p) (iadd (at_ (B:=B) (x i) (op_order p)) (iSmul (ns i) iunit)) in
    St st1 /\ p_dom st1 = mkiv s0 (hi deltat) /\ ode_pic (bpar b) fuel n es init (Z.of_nat (op_order p)) z t st1 = (Ok w, st') /\
    forall i, (i < n)%nat -> isubset (at_ (B:=B) (w i) (op_order p)) (at_ (B:=B) (z i) (op_order p)) = true).
  { unfold rest. clear E rest. intros E. apply hb_ok in E as (w1 & s3 & EP & E).
    match type of E with (if ?q then _ else _) _ = _ => destruct q eqn:EB end.
    - unfold hret, hlift in E. apply pair_equal_spec in E as [E ES]. apply oki in E. repeat (apply pair_equal_spec in E as [E ?]). subst. split; auto. split; auto. split.
      + destruct HQ as [(A1 & A0 & A2 & A3)|A]; [left|right; auto]. split; auto. split; auto. split; auto. exists rad2. auto.
      + eexists. exists s2. split; [exact ST2|]. split; [congruence|]. split; [exact EP|]. exact (allb_ok _ _ EB).
    - destruct (negb (op_auto p) || (op_rmax p <=? restart)%nat).
      + unfold hret, hlift in E. apply pair_equal_spec in E as [E ES]. apply oki in E. repeat (apply pair_equal_spec in E as [E ?]). subst. congruence.
      + destruct (pic_parts _ _ _ _ _ _ _ EP) as (y1 & J & W & EY & _). apply IH in E; auto. refine (proj1 (SK _ _ _ _ _ _ ST2 _ ET EY)). apply (LS x). exact LX. }
  destruct (op_auto p && negb (rt =? 2)%Z && negb resized); [|auto].
  match type of E with (if ?q then _ else _) _ = _ => destruct q end; [auto|]. apply IH in E; auto.
Qed.
Variables (x0 : nat -> R) (t0_ : R) (init : nat -> I) (start : I).
Hypothesis HX : forall i, (i < n)%nat -> isin (init i) (x0 i).
Hypothesis HS : isin start t0_.
Hypothesis DOM : forall i, (i < n)%nat -> adom (es i) (at_time n x0 t0_).
(* lines 99-124 *)
Notation tinv := (tinv B rel n es x0 t0_).
Notation hst1 := (hst1 B rel n es t0_).
Lemma ev_c0 (c : nat -> nat -> R) : (forall i, (i < n)%nat -> c i O = x0 i) -> ev n (fun k => c k O) t0_ = at_time n x0 t0_.
Proof. intros H. apply FunctionalExtensionality.functional_extensionality. intros k. unfold ev, at_time. destruct (Nat.ltb_spec k n); auto. Qed.
(* one turn *)
Lemma taylor_turn fast j c x t st y st' : hst1 fast j c st -> (fast = true -> (1 <= j)%nat -> p_uh st = true) -> (Z.of_nat (Datatypes.S j) <= 2 ^ 51)%Z -> tinv j c x ->
  (j <> O -> forall i, (i < n)%nat -> adiff (es i) (at_time n x0 t0_)) ->
  ps_setorder (B:=B) (p_mode st) (p_dom st) [start : bT B; t1] (Z.of_nat j) = Ok t -> ode_pic (bpar b) fuel n es init (Z.of_nat (j + 1)) x t st = (Ok y, st') ->
  (forall i, (i < n)%nat -> adiff (es i) (at_time n x0 t0_)) /\ (exists c', tinv (Datatypes.S j) c' y /\ hst1 fast (Datatypes.S j) c' st') /\ p_uh st' = p_uh st.
Proof.
  intros HT HU LJ T AD ET EP. destruct (pic_parts _ _ _ _ _ _ _ EP) as (f & J & W & EY & EJ & EW & EA). rewrite (proj1 HT) in ET.
  assert (C0 : forall i, (i < n)%nat -> c i O = x0 i) by (intros i Hi; now apply T).
  destruct (stage B rel (IOK b fuel) n es WF PL NA t0_ start HS fast j c x t st f st' HT HU ltac:(lia)) as (PY & H1 & U1 & D1); auto.
  - intros i Hi. split; now apply T.
  - intros _ i Hi. rewrite ev_c0 by auto. now apply DOM.
  - assert (DIF : forall i, (i < n)%nat -> adiff (es i) (at_time n x0 t0_)). { intros i Hi. rewrite <- (ev_c0 c) by auto. now apply PY. }
    split; auto. split; auto. rewrite (proj1 H1) in EW.
    destruct (tinv_step B rel (IOK b fuel) n es WF NA x0 t0_ DIF (p_dom st') j c x f y J W init T ltac:(lia) (fun i Hi => proj1 (PY i Hi)) EJ EW EA HX) as (c' & T' & CC).
    exists c'. split; auto. apply (hst1_c B rel n es t0_ fast (Datatypes.S j) c c'); auto. intros i l Hi Hl. apply CC; auto. lia.
Qed.
Lemma taylor_loop fast k : forall j x c x' st st', ((1 <= k)%nat \/ forall i, (i < n)%nat -> adiff (es i) (at_time n x0 t0_)) -> (j <> O -> forall i, (i < n)%nat -> adiff (es i) (at_time n x0 t0_)) ->
  hst1 fast j c st -> (fast = true -> (2 <= j)%nat -> p_uh st = true) -> tinv j c x -> (Z.of_nat (j + k) < 2 ^ 51)%Z ->
  ode_taylor (bpar b) fuel n es fast init start k j x st = (Ok x', st') -> (forall i, (i < n)%nat -> adiff (es i) (at_time n x0 t0_)) /\ exists c', tinv (j + k) c' x' /\ hst1 fast (j + k) c' st'.
Proof.
  induction k as [|k IH]; intros j x c x' st st' KD DIF HT HU T L E; cbn [ode_taylor] in E.
  - unfold hret, hlift in E. apply pair_equal_spec in E as [E <-]. apply oki in E. subst x'. split; [destruct KD as [KD|KD]; [lia|exact KD]|]. exists c. rewrite Nat.add_0_r. auto.
  - apply hb_ok in E as (u0 & s1 & EM & E). unfold hmod in EM. apply pair_equal_spec in EM as [_ EM].
    assert (HT1 : hst1 fast j c s1 /\ (fast = true -> (1 <= j)%nat -> p_uh s1 = true)).
    { destruct fast; cbn [andb] in EM; [|subst s1; split; [exact HT|discriminate]]. destruct (Nat.eqb_spec j 1) as [->|N].
      - rewrite <- EM. destruct HT as (A1 & A2 & A3 & A4 & A5). split; [|auto]. split; [exact A1|]. split; [lia|]. split; [exact A3|]. split; [|lia]. intros _. apply A4. right; lia.
      - rewrite <- EM. split; [exact HT|]. intros; apply HU; auto. lia. }
    destruct HT1 as [HT1 HU1]. clear EM HU HT.
    apply hb_ok in E as (t & s2 & ET & E). unfold ode_t, hget, hlift in ET. apply pair_equal_spec in ET as [ET <-]. unfold torg in ET. apply hb_ok in E as (y & s2 & EP & E).
    destruct (taylor_turn fast j c x t s1 y s2 HT1 HU1 ltac:(lia) T DIF ET EP) as (AD & (c' & T' & HT') & UU).
    replace (j + Datatypes.S k)%nat with (Datatypes.S j + k)%nat by lia. replace (j + 1)%nat with (Datatypes.S j) in E by lia. apply (IH (Datatypes.S j) y c' x' s2 st'); auto; [|lia].
    intros FA LJ. rewrite UU. apply HU1; auto. lia.
Qed.
Lemma taylor_ok fast p x st st' : (1 <= p)%nat -> (Z.of_nat p < 2 ^ 51)%Z -> ode_taylor (bpar b) fuel n es fast init start p 0 (fun i => [init i : bT B]) (ode_enter (bpar b) fuel fast st) = (Ok x, st') ->
  (forall i, (i < n)%nat -> adiff (es i) (at_time n x0 t0_)) /\ exists c, tinv p c x /\ hst1 fast p c st'.
Proof.
  intros P1 P2 E.
  assert (H0 : hst1 fast 0 (fun i => delta (x0 i)) (ode_enter (bpar b) fuel fast st)).
  { split; [reflexivity|]. split; [discriminate|]. destruct fast; [|reflexivity]. split; [reflexivity|]. split; [|reflexivity]. intros [C|C]; [discriminate C|lia]. }
  assert (DIF : forall i, (i < n)%nat -> adiff (es i) (at_time n x0 t0_)).
  { destruct p as [|p]; [lia|]. cbn [ode_taylor] in E. apply hb_ok in E as (u0 & s1 & EM & E). unfold hmod in EM. apply pair_equal_spec in EM as [_ EM].
    assert (s1 = ode_enter (bpar b) fuel fast st) as -> by (rewrite <- EM; now destruct fast). clear EM.
    apply hb_ok in E as (t & s2 & ET & E). unfold ode_t, hget, hlift in ET. apply pair_equal_spec in ET as [ET <-]. apply hb_ok in E as (y & s2 & EP & _). destruct (pic_parts _ _ _ _ _ _ _ EP) as (f & J & W & EY & _).
    assert (N0 : fast = true -> (1 <= 0)%nat -> p_uh (ode_enter (bpar b) fuel fast st) = true) by (intros; lia).
    destruct (stage B rel (IOK b fuel) n es WF PL NA t0_ start HS fast 0 (fun i => delta (x0 i)) (fun i => [init i : bT B]) t _ f s2 H0 N0 ltac:(lia)) as (PY & _); [| exact ET | |exact EY|].
    - intros i Hi. split; auto. intros [|l] Hl; simpl in *; [now apply HX|lia].
    - intros _ i Hi. rewrite (ev_c0 (fun i => delta (x0 i))) by auto. now apply DOM.
    - intros i Hi. rewrite <- (ev_c0 (fun i => delta (x0 i))) by auto. now apply PY. }
  apply (taylor_loop fast p 0 (fun i => [init i : bT B]) (fun i => delta (x0 i)) x (ode_enter (bpar b) fuel fast st)); auto.
  - lia.
  - apply (tinv_0 B rel n es WF NA x0 t0_ DIF init HX).
Qed.
(* ---- mode 2 ---- *)
Section Mode2.
Variables (p : nat) (c : nat -> nat -> R) (H : R) (D : I).
Hypothesis P1 : (1 <= p)%nat.
Hypothesis P2 : (Z.of_nat (Datatypes.S p) <= 2 ^ 52)%Z.
Hypothesis HH : 0 <= H.
Hypothesis HD : forall t, 0 <= t <= H -> isin D t.
Hypothesis DIF : forall i, (i < n)%nat -> adiff (es i) (at_time n x0 t0_).
Hypothesis C0 : forall i, (i < n)%nat -> c i O = x0 i.
Hypothesis CJ : forall i, (i < n)%nat -> jet p (fun t => rval (es i) (pcurve n t0_ c (Datatypes.S p) t)) (dcoef (c i)).
Variable t : list B.
Hypothesis ET : ps_setorder (B:=B) 2 D [start : bT B; t1] (Z.of_nat p) = Ok t.
Notation lowc := (lowc B rel n p c).
Notation oinv := (oinv B rel n es t0_ p c H).
Notation ZC := (ZC B rel n p c H).
Notation TT := (TT n (fun i => rval (es i)) t0_ H (QQ p c) (QQ' p c)).
Notation hst2 := (hst2 B rel n es t0_ p c).
Lemma lowc_lowp z : lowc z -> lowp B rel n p c z.
Proof. intros L i Hi. destruct (L i Hi) as [LL K]. split; auto. intros l Hl. apply K. lia. Qed.
Lemma pic_turn z w st st' : lowc z -> hst2 st -> p_dom st = D -> ode_pic (bpar b) fuel n es init (Z.of_nat p) z t st = (Ok w, st') ->
  good B rel n es t0_ p c H z /\ (forall u, ZC z u -> ZC w (TT u) /\ lowc w) /\ hst2 st' /\ p_dom st' = D.
Proof.
  intros LZ ST PD E. destruct (pic_parts _ _ _ _ _ _ _ E) as (y & J & W & EY & EJ & EW & EA).
  destruct (eval_keep B rel (IOK b fuel) n es WF PL NA t0_ start HS p c P1 P2 z D t st y st' ST (lowc_lowp z LZ) ET EY) as [ST' PD'].
  rewrite (proj1 ST'), PD', PD in EW.
  pose proof (eval_class B rel (IOK b fuel) (isin_itv b fuel) n es WF PL NA t0_ start HS p c P1 P2 H z t st y st' ST LZ ltac:(now rewrite PD) ltac:(now rewrite PD) EY) as EC.
  split; [|split; [|split; [auto|congruence]]].
  - exact (eval_good B rel n es WF NA x0 t0_ DIF p c H P1 P2 C0 CJ z y EC).
  - intros u HU. exact (TT_step B rel (IOK b fuel) (isin_itv b fuel) n es WF NA x0 t0_ DIF p c H D P1 P2 HH HD C0 CJ z y J W w init EC EJ EW EA HX u HU).
Qed.
Lemma refine_ok ps k : op_order ps = p -> forall w w' st st', oinv w -> hst2 st -> p_dom st = D -> ode_refine (bpar b) fuel n es k ps init t w st = (Ok w', st') -> oinv w'.
Proof.
  intros EP. induction k as [|k IH]; intros w w' st st' IW ST PD E; cbn [ode_refine] in E.
  - unfold hret, hlift in E. apply pair_equal_spec in E as [E _]. apply oki in E. now subst w'.
  - apply hb_ok in E as (v & s1 & EV & E). rewrite EP in *. pose proof IW as (LW & GW & SW). destruct (pic_turn w v st s1 LW ST PD EV) as (_ & SST & ST1 & PD1). apply (IH _ _ s1 st') in E; auto.
    destruct (SST _ (ZC_poly B rel n p c H P1 P2 w (fun i => lowc_p B rel n p c P1 P2 w i LW))) as [_ LV].
    apply (oinv_next B rel n es t0_ p c H P1 P2 w v); auto.
    + intros i Hi. destruct (LV i Hi) as [LL _]. rewrite LL. now apply setco_len.
    + intros i l Hi Hl. destruct (LV i Hi) as [LL _]. rewrite setco_at by (auto; lia). destruct (Nat.eqb_spec l p); [lia|auto].
    + intros i d Hi. destruct (LV i Hi) as [LL _]. rewrite setco_at, Nat.eqb_refl by auto. apply (isin_intersect (bok b)).
      * exact (isin_valid _ _ (lowc_p B rel n p c P1 P2 v i LV Hi)).
      * exact (isin_valid _ _ (lowc_p B rel n p c P1 P2 w i LW Hi)).
Qed.
End Mode2.
(* a bounded box *)
Definition bounded (X : I) : Prop := exists l h, sval (lo X) = XR l /\ sval (hi X) = XR h.
Lemma bounded_bnd X : bounded X -> bnd B rel X.
Proof.
  intros (l & h & L & U). exists (Rabs l + Rabs h). intros d (_ & _ & A1 & A2). rewrite L in A1. rewrite U in A2. simpl in A1, A2.
  pose proof (Rle_abs h). pose proof (Rle_abs (- l)). rewrite Rabs_Ropp in *. pose proof (Rabs_pos l). pose proof (Rabs_pos h). apply Rabs_le. lra.
Qed.
(* the parts of a call of ode that returns *)
Lemma ode_parts fast f p init' start' end_ st r box e2 w st' : ode (bpar b) fuel root n es fast f p init' start' end_ st = (Ok (r, box, e2, w), st') -> exists x s1 w1 t deltat end2 ret s2,
  ode_taylor (bpar b) fuel n es fast init' start' (op_order p) 0 (fun i => [init' i : bT B]) (ode_enter (bpar b) fuel fast st) = (Ok x, s1) /\
  ode_while (bpar b) fuel root n es f p init' start' end_ x (ode_tol n p init') (ode_radius (bpar b) fuel root n p (ode_tol n p init') x) 0 false (set_mode 2 s1) = (Ok (w1, t, deltat, end2, ret), s2) /\
  ((ret = 0%Z /\ r = 0%Z /\ box = init' /\ e2 = end_ /\ st' = ode_leave (bpar b) fuel st s2) \/ (ret <> 0%Z /\ r = ret /\ e2 = (if (ret =? 1)%Z then end2 else end_) /\ box = (fun i => ps_eval (B:=B) (w i) deltat) /\
     exists s3, ode_refine (bpar b) fuel n es (op_iter p) p init' t w1 s2 = (Ok w, s3) /\ st' = ode_leave (bpar b) fuel st s3)).
Proof.
  unfold ode. intros E. apply hb_ok in E as (u0 & s0' & EM & E). unfold hmod in EM. apply pair_equal_spec in EM as [_ <-]. apply hb_ok in E as (x & s1 & EX & E).
  apply hb_ok in E as (u1 & s1' & EM & E). unfold hmod in EM. apply pair_equal_spec in EM as [_ <-]. apply hb_ok in E as ([[[[w1 t] deltat] end2] ret] & s2 & EW & E).
  exists x, s1, w1, t, deltat, end2, ret, s2. split; auto. split; auto. apply hb_ok in E as (q & s3 & ER & E). apply hb_ok in E as (u2 & s4 & EM & E).
  unfold hmod in EM. apply pair_equal_spec in EM as [_ <-]. unfold hret, hlift in E. apply pair_equal_spec in E as [E <-]. apply oki in E. subst q.
  destruct (Z.eqb_spec ret 0) as [R0|R0].
  - unfold hret, hlift in ER. apply pair_equal_spec in ER as [ER <-]. apply oki in ER. repeat (apply pair_equal_spec in ER as [ER ?]). left. subst. auto 6.
  - apply hb_ok in ER as (w2 & s4 & ER & E). unfold hret, hlift in E. apply pair_equal_spec in E as [E <-]. apply oki in E. repeat (apply pair_equal_spec in E as [E ?]). right. subst. split; auto. split; auto. split; auto. split; auto. eauto.
Qed.
Theorem ode_ok fast f p end_ st r box e2 w st' t1_ : (1 <= op_order p)%nat -> (Z.of_nat (op_order p) < 2 ^ 51)%Z ->
  ode (bpar b) fuel root n es fast f p init start end_ st = (Ok (r, box, e2, w), st') -> r <> 0%Z -> isin e2 t1_ -> t0_ <= t1_ -> (forall i, (i < n)%nat -> bnd B rel (box i)) ->
  exists phi, unique_solution n es t0_ t1_ x0 phi /\ forall i, (i < n)%nat -> isin (box i) (phi i t1_).
Proof.
  intros P1 P2 E RN HE HT HB. destruct (ode_parts _ _ _ _ _ _ _ _ _ _ _ _ E) as (x & s1 & w1 & t & deltat & end2 & ret & s2 & EX & EW & [(_ & C & _)|(R0 & -> & -> & -> & s3 & ER & _)]); [congruence|]. clear E RN.
  destruct (taylor_ok fast (op_order p) x st s1 P1 P2 EX) as (DIF & c & T & H1).
  assert (P3 : (Z.of_nat (Datatypes.S (op_order p)) <= 2 ^ 52)%Z) by lia.
  assert (LX : lowp B rel n (op_order p) c x). { intros i Hi. destruct (T i Hi) as (LL & CX & _). split; auto. intros l Hl. apply CX. lia. }
  destruct (while_ok (fun _ => True) p start end_ (hst2 B rel n es t0_ (op_order p) c) (lowp B rel n (op_order p) c)) with (f := f) (init := init) (x := x) (tol := ode_tol n p init)
    (radius := ode_radius (bpar b) fuel root n p (ode_tol n p init) x) (restart := O) (resized := false) (st := set_mode 2 s1) (w := w1) (t := t) (deltat := deltat) (end2 := end2) (ret := ret) (st' := s2)
    as (-> & ET & HR & ns & st1 & ST1 & PD1 & EP & SB); auto.
  { intros s Hs. exact (proj1 Hs). }
  { intros v t' D s y s' Hs LV ET EF. exact (eval_keep B rel (IOK b fuel) n es WF PL NA t0_ start HS (op_order p) c P1 P3 v D t' s y s' Hs LV ET EF). }
  { intros s s' Hs EM. exact (hst2_uh B rel n es t0_ (op_order p) c s s' Hs EM). }
  { intros v a LV i Hi. destruct (LV i Hi) as [LL K]. split; [now apply setco_len|]. intros l Hl. rewrite setco_at by (auto; lia). destruct (Nat.eqb_spec l (op_order p)); [lia|now apply K]. }
  { exact (hst1_2 B rel n es t0_ (op_order p) c P1 fast s1 H1). }
  set (z := fun i => setco (bpar b) fuel (x i) (op_order p) (iadd (at_ (B:=B) (x i) (op_order p)) (iSmul (ns i) iunit))) in *. cbv zeta in EP, SB.
  assert (HE2 : isin end2 t1_). { destruct HR as [(-> & _)|(-> & -> & _)]; exact HE. }
  set (H := t1_ - t0_). assert (HH : 0 <= H) by (unfold H; lra).
  assert (DH : isin (isub end2 start) H). { apply (bk_sub _ _ (IOK b fuel)); auto. }
  assert (HD : forall s, 0 <= s <= H -> isin (mkiv s0 (hi (isub end2 start))) s).
  { intros s Hs. destruct (ok_s0 _ (bok b)) as [W0 V0]. destruct DH as (_ & W2 & _ & U). split; [exact W0|]. split; [exact W2|]. cbn [lo hi]. rewrite V0. split; [simpl; lra|].
    destruct (sval (hi (isub end2 start))); simpl in *; auto; lra. }
  assert (C0 : forall i, (i < n)%nat -> c i O = x0 i) by (intros i Hi; now apply T).
  assert (CJ : forall i, (i < n)%nat -> jet (op_order p) (fun t => rval (es i) (pcurve n t0_ c (Datatypes.S (op_order p)) t)) (dcoef (c i))) by (intros i Hi; now apply T).
  assert (LZ : lowc B rel n (op_order p) c z).
  { intros i Hi. destruct (T i Hi) as (LL & CX & _). unfold z. split; [now apply setco_len|]. intros l Hl. rewrite setco_len in Hl by auto. rewrite setco_at by (auto; lia).
    destruct (Nat.eqb_spec l (op_order p)) as [->|N]; [|apply CX; lia]. replace (c i (op_order p)) with (c i (op_order p) + 0) by ring. apply (bk_add _ _ (IOK b fuel)); [apply CX; lia|apply unit_zero]. }
  destruct (pic_turn (op_order p) c H _ P1 P3 HH HD DIF C0 CJ t ET z w1 st1 s2 LZ ST1 PD1 EP) as (GZ & ST & ST2 & PD2).
  assert (IW : oinv B rel n es t0_ (op_order p) c H w1).
  { apply (oinv_first B rel n es t0_ (op_order p) c H P1 P3 z w1 LZ GZ ST). intros i d Hi Hd.
    destruct (ST _ (ZC_poly B rel n (op_order p) c H P1 P3 z (fun i => lowc_p B rel n _ c P1 P3 z i LZ))) as [_ LW].
    refine (proj1 (isubset_spec (bok b) _ _ _ _) (SB i Hi) d Hd); [exact (isin_valid _ _ (lowc_p B rel n _ c P1 P3 w1 i LW Hi))|exact (isin_valid _ _ (lowc_p B rel n _ c P1 P3 z i LZ Hi))]. }
  pose proof (refine_ok (op_order p) c H _ P1 P3 HH HD DIF C0 CJ t ET p (op_iter p) eq_refl w1 w s2 s3 IW ST2 PD2 ER) as IW2.
  destruct (exist_sol B rel (IOK b fuel) (isin_itv b fuel) n es WF NA x0 t0_ (op_order p) c H P1 P3 HH C0 w (isub end2 start) IW2 DH HB) as (u & NC & AD & U0 & DU & UE).
  exists (fun i t => u i (t - t0_)). split; [|intros i Hi; exact (UE i Hi)]. replace t1_ with (t0_ + H) by (unfold H; ring). now apply make_solution.
Qed.
(* a successful step starts where the right-hand sides are differentiable *)
Lemma ode_adiff fast f p end_ st r box e2 w st' : (1 <= op_order p)%nat -> (Z.of_nat (op_order p) < 2 ^ 51)%Z ->
  ode (bpar b) fuel root n es fast f p init start end_ st = (Ok (r, box, e2, w), st') -> forall i, (i < n)%nat -> adiff (es i) (at_time n x0 t0_).
Proof. intros P1 P2 E. destruct (ode_parts _ _ _ _ _ _ _ _ _ _ _ _ E) as (x & s1 & w1 & t & deltat & end2 & ret & s2 & EX & _). exact (proj1 (taylor_ok fast (op_order p) x st s1 P1 P2 EX)). Qed.
End Ode.

(* a loop in mode 2 from any state *)
Lemma while_any : forall b fuel (root : bscal b -> nat -> bscal b) n es (Pr : bscal b -> Prop) f p (init : nat -> iv (bscal b)) start end_ x tol radius restart resized st w t deltat end2 ret st',
  (forall r q, Pr r -> Pr (nmul r (smaxS (sminS (sdy 1 (-1)) (ndiv (sdy 1 (-1)) q)) (sdy 1 (-3))))) -> (forall r, Pr r -> Pr (nmul r (sdy 1 (-1)))) ->
  (forall r m, Pr r -> Pr (ndiv r (root m (op_order p)))) -> Pr (mid (isub end_ start)) -> Pr radius -> p_mode st = 2%Z ->
  ode_while (bpar b) fuel root n es f p init start end_ x tol radius restart resized st = (Ok (w, t, deltat, end2, ret), st') -> ret <> 0%Z ->
  deltat = isub end2 start /\
  ((ret = 1%Z /\ op_auto p = true /\ igeS end2 (lo end_) = false /\ exists r, Pr r /\ end2 = ipt (mid (iaddS start r))) \/ (ret = 2%Z /\ end2 = end_ /\ (op_auto p = true -> exists r, igeS (ipt (mid (iaddS start r))) (lo end_) = true))) /\
  exists ns st1, let z := fun i => setco (bpar b) fuel (x i) (op_order p) (iadd (at_ (B:=Ibase (bpar b) fuel) (x i) (op_order p)) (iSmul (ns i) iunit)) in
    p_mode st1 = 2%Z /\ p_dom st1 = (mkiv s0 (hi deltat) : bT (Ibase (bpar b) fuel)) /\ ode_pic (bpar b) fuel n es init (Z.of_nat (op_order p)) z t st1 = (Ok w, st').
Proof.
  intros b fuel root n es Pr f p init start end_ x tol radius restart resized st w t deltat end2 ret st' C1 C2 C3 C4 C5 M E RN.
  destruct (while_ok b fuel root n es Pr p start end_ (fun s => p_mode s = 2%Z) (fun _ => True) C1 C2 C3 C4) with (f := f) (init := init) (x := x) (tol := tol) (radius := radius) (restart := restart)
    (resized := resized) (st := st) (w := w) (t := t) (deltat := deltat) (end2 := end2) (ret := ret) (st' := st') as (A1 & A2 & A3 & ns & st1 & B1 & B2 & B3 & B4); auto.
  - intros y t' D s y' s' Hs _ _ EF. destruct (f_keep b fuel n es y t' s) as [K1 K2]. rewrite EF in K1, K2. cbn [fst snd] in K1, K2. split; [congruence|now apply (K2 y')].
  - intros s s' Hs EM. cbn [set_uh p_mode]. congruence.
  - split; auto. split; auto. exists ns, st1. auto.
Qed.
Lemma taylor_mode b fuel n es fast (init : nat -> iv (bscal b)) start k : forall j x st x' st', ode_taylor (bpar b) fuel n es fast init start k j x st = (Ok x', st') -> p_mode st' = p_mode st.
Proof.
  induction k as [|k IH]; intros j x st x' st' E; cbn [ode_taylor] in E.
  - unfold hret, hlift in E. now apply pair_equal_spec in E as [_ <-].
  - apply hb_ok in E as (u0 & s1 & EM & E). unfold hmod in EM. apply pair_equal_spec in EM as [_ EM]. apply hb_ok in E as (t & s2 & ET & E). unfold ode_t, hget, hlift in ET. apply pair_equal_spec in ET as [_ <-].
    apply hb_ok in E as (y & s2 & EP & E). apply IH in E. rewrite E. destruct (pic_parts _ _ _ _ _ _ _ _ _ _ _ EP) as (f & J & W & EY & _). destruct (f_keep b fuel n es x t s1) as [K _]. rewrite EY in K. cbn [snd] in K. rewrite K, <- EM.
    now destruct (fast && (j =? 1)%nat).
Qed.
(* where a step ends; Pr is any property of step widths that holds at first and is kept *)
Theorem ode_time : forall b fuel (root : bscal b -> nat -> bscal b) n es (Pr : bscal b -> Prop) fast f p (init : nat -> iv (bscal b)) start end_ st r box e2 w st',
  (forall r q, Pr r -> Pr (nmul r (smaxS (sminS (sdy 1 (-1)) (ndiv (sdy 1 (-1)) q)) (sdy 1 (-3))))) -> (forall r, Pr r -> Pr (nmul r (sdy 1 (-1)))) ->
  (forall r m, Pr r -> Pr (ndiv r (root m (op_order p)))) -> Pr (mid (isub end_ start)) -> (forall x, Pr (ode_radius (bpar b) fuel root n p (ode_tol n p init) x)) ->
  ode (bpar b) fuel root n es fast f p init start end_ st = (Ok (r, box, e2, w), st') -> r <> 0%Z ->
  (r = 1%Z /\ op_auto p = true /\ igeS e2 (lo end_) = false /\ exists r, Pr r /\ e2 = ipt (mid (iaddS start r))) \/
  (r = 2%Z /\ e2 = end_ /\ (op_auto p = true -> exists r, igeS (ipt (mid (iaddS start r))) (lo end_) = true)).
Proof.
  intros b fuel root n es Pr fast f p init start end_ st r box e2 w st' C1 C2 C3 C4 C5 E RN.
  destruct (ode_parts _ _ _ _ _ _ _ _ _ _ _ _ _ _ _ _ _ E) as (x & s1 & w1 & t & deltat & end2 & ret & s2 & EX & EW & [(_ & C & _)|(R0 & -> & -> & _)]); [congruence|]. clear E.
  destruct (while_any b fuel root n es Pr f p init start end_ x _ _ _ _ (set_mode 2 s1) w1 t deltat end2 ret s2 C1 C2 C3 C4 (C5 x) eq_refl EW R0) as (_ & HR & _).
  destruct HR as [(-> & A & G & H)|(-> & H)]; [left|right; split; [reflexivity|]]; auto. split; [reflexivity|]. apply H.
Qed.
Theorem ode_return : forall b fuel (root : bscal b -> nat -> bscal b) n es fast f p (init : nat -> iv (bscal b)) start end_ st r box e2 w st',
  ode (bpar b) fuel root n es fast f p init start end_ st = (Ok (r, box, e2, w), st') ->
  (r = 0%Z /\ box = init /\ e2 = end_) \/ (r = 1%Z /\ op_auto p = true /\ igeS e2 (lo end_) = false) \/ (r = 2%Z /\ e2 = end_).
Proof.
  intros b fuel root n es fast f p init start end_ st r box e2 w st' E. destruct (Z.eq_dec r 0) as [->|N].
  - left. split; auto. destruct (ode_parts _ _ _ _ _ _ _ _ _ _ _ _ _ _ _ _ _ E) as (x & s1 & w1 & t & deltat & end2 & ret & s2 & EX & EW & [(_ & _ & -> & -> & _)|(R0 & C & _)]); [auto|congruence].
  - right. destruct (ode_time b fuel root n es (fun _ => True) fast f p init start end_ st r box e2 w st' (fun _ _ _ => Logic.I) (fun _ _ => Logic.I) (fun _ _ _ => Logic.I) Logic.I (fun _ => Logic.I) E N) as [(-> & A & G & _)|(-> & A & _)]; auto.
Qed.
