(* The mode 2 part of kv/ode.hpp for any base type: one Picard step on a class of curves, and the existence of the solution in the class. *)
From Coq Require Import Reals ZArith Bool List Lra Lia Psatz Arith.
From Coquelicot Require Import Coquelicot.
From Verif Require Import Ext RealFun RealConst ADModel ADReal ADProofs PsaModel PsaReal PsaProofs PsaExpr PsaInt PsaUseProofs OdeLip OdePicard OdeSeries.
Import List ListNotations.
Open Scope R_scope.

Lemma kap_abs H t : 0 <= H -> Rabs (kap H t) <= Rabs t.
Proof. intros HH. pose proof (kap_lip H t 0 HH) as K. rewrite (kap_id H 0) in K by lra. now rewrite !Rminus_0_r in K. Qed.
Lemma cont_pe c k t : continuous (pe c k) t.
Proof.
  apply (continuous_ext (fun t => rsum (fun i => c i * t ^ i) k)); [reflexivity|]. induction k; simpl rsum.
  - apply continuous_const.
  - apply (continuous_plus (fun t => rsum (fun i => c i * t ^ i) k) (fun t => c k * t ^ k)); auto. apply (ex_derive_continuous (fun t : R => c k * t ^ k)). auto_derive; auto.
Qed.
Lemma bigO_kap m h H : 0 <= H -> bigO m h -> bigO m (fun t => h (kap H t)).
Proof.
  intros HH O. apply bigO_norm in O as (M & e & M0 & E & K). exists M, e. split; [lra|]. intros t Ht. pose proof (kap_abs H t HH). eapply Rle_trans; [apply K; lra|].
  apply Rmult_le_compat_l; auto. apply pow_incr. split; [apply Rabs_pos|auto].
Qed.

Section Step2.
Variable B : base.
Variable rel : B -> R -> Prop.
Hypothesis OK : base_ok B rel.
Hypothesis CVX : rel_itv B rel.
Notation Rep := (Rep B rel).
Notation coef := (coef B rel).
Variables (n : nat) (es : nat -> aexpr).
Hypothesis WF : forall i, (i < n)%nat -> awf (S n) (es i).
Hypothesis NA : forall i, (i < n)%nat -> noarc (es i) = true.
Variables (x0 : nat -> R) (t0_ : R).
Notation F := (fun i => rval (es i)).
Notation p0 := (ev n x0 t0_).
Hypothesis DIF : forall i, (i < n)%nat -> adiff (es i) p0.
Variables (p : nat) (c : nat -> nat -> R) (H : R) (D : B).
Hypothesis P1 : (1 <= p)%nat.
Hypothesis P2 : (Z.of_nat (S p) <= 2 ^ 52)%Z.
Hypothesis HH : 0 <= H.
Hypothesis HD : forall t, 0 <= t <= H -> rel D t.
Hypothesis C0 : forall i, (i < n)%nat -> c i O = x0 i.
Hypothesis CJ : forall i, (i < n)%nat -> jet p (fun t => F i (pcurve n t0_ c (S p) t)) (dcoef (c i)).
Definition QQ (i : nat) : R -> R := pe (c i) (S p).
Definition QQ' (i : nat) : R -> R := pe (dcoef (c i)) p.
Notation TT := (TT n F t0_ H QQ QQ').
Notation curve := (curve n t0_).
Notation integrand := (integrand n F t0_ H QQ').
Lemma QQ_deriv i t : is_derive (QQ i) t (QQ' i t).
Proof.
  apply (is_derive_ext (pe (icoef (c i O) (dcoef (c i))) (S p))); [|apply pe_icoef_derive]. intros s. apply pe_ext. intros l _. apply icoef_dcoef.
Qed.
Lemma QQ'_cont i t : continuous (QQ' i) t. Proof. apply cont_pe. Qed.
(* the set of values at time t *)
Definition tube (w : nat -> list B) (t : R) (y : nat -> R) : Prop := forall i, (i < n)%nat -> exists d, rel (at_ (w i) p) d /\ y i = pe (c i) p t + d * t ^ p.
Definition ZC (w : nat -> list B) (u : nat -> R -> R) : Prop :=
  near_curve n u /\ (forall i, (i < n)%nat -> jet p (u i) (c i)) /\ forall t, 0 <= t <= H -> tube w t (fun i => u i t).
Definition lowc (w : nat -> list B) : Prop := forall i, (i < n)%nat -> length (w i) = S p /\ coef (w i) (c i).
Definition good (w : nat -> list B) : Prop := forall t y i, 0 <= t <= H -> tube w t y -> (i < n)%nat -> adiff (es i) (ev n y (t0_ + t)).
Lemma ZC_jet w u i : ZC w u -> (i < n)%nat -> jet p (fun t => F i (curve u t)) (dcoef (c i)).
Proof.
  intros (_ & J & _) Hi. apply (jet_near p (fun t => F i (pcurve n t0_ c (S p) t))); [|now apply CJ].
  apply (cmp_O n es WF NA x0 t0_ DIF (fun j t => u j t) (fun j t => pe (c j) (S p) t)); auto.
  - intros j Hj. rewrite <- (C0 j Hj). apply (jet_dev p); auto.
  - intros j Hj. rewrite <- (C0 j Hj). apply pe_O. lia.
  - intros j Hj. specialize (J j Hj). rewrite jet_bigO in J. apply (bigO_ext p (fun t => (u j t - pe (c j) p t) + (- c j p) * t ^ p) _ 1); [lra| |].
    + intros t _. rewrite pe_last. ring.
    + apply bigO_plus; auto. apply bigO_scal, bigO_pow_id.
Qed.
Section Turn.
Variables (z y J W w : nat -> list B) (init : nat -> B).
Hypothesis LZ : lowc z.
(* y are the series of f *)
Hypothesis EY : forall u i s, ZC z u -> (i < n)%nat -> 0 <= s <= H -> adiff (es i) (curve u s) /\ Rep (Some (s, true)) (S p) (y i) (fun t => F i (curve u t)).
(* f at one point of a curve of the class *)
Lemma eval_at u i s : ZC z u -> (i < n)%nat -> 0 <= s <= H ->
  adiff (es i) (curve u s) /\ (length (y i) = 1%nat \/ length (y i) = S p) /\ exists b, coef (y i) b /\ (forall l, (length (y i) <= l)%nat -> b l = 0) /\
    F i (curve u s) = pe b (S p) s /\ forall l, (l < p)%nat -> b l = dcoef (c i) l.
Proof.
  intros HU Hi Hs. destruct (EY u i s HU Hi Hs) as [DF [LR (b & CB & ZB & EV & JB)]].
  cbn [fst snd] in *. split; auto. split; auto. exists b. split; auto. split; auto. split; auto. intros l Hl.
    apply (jet_unique p (fun t => F i (curve u t))); auto; [|now apply (ZC_jet z)]. specialize (JB eq_refl). rewrite Jo_2 in JB by lia. now replace (S p - 1)%nat with p in JB by lia.
Qed.
Lemma eval_good : good z.
Proof.
  intros s x i Hs HT Hi. destruct (choose_all (fun i d => rel (at_ (z i) p) d) (fun i d => x i = pe (c i) p s + d * s ^ p) n HT) as (d & Hd).
  assert (HU : ZC z (fun i t => pe (c i) p t + d i * t ^ p)).
  { split; [|split].
    - intros k r Hk. apply (continuous_plus (pe (c k) p) (fun t => d k * t ^ p)); [apply cont_pe|]. apply (ex_derive_continuous (fun t : R => d k * t ^ p)). auto_derive; auto.
    - intros k Hk. rewrite jet_bigO. apply (bigO_ext p (fun t => d k * t ^ p) _ 1); [lra|intros; ring|]. apply bigO_scal, bigO_pow_id.
    - intros r Hr k Hk. exists (d k). split; [now apply Hd|reflexivity]. }
  destruct (eval_at _ i s HU Hi Hs) as [A _]. replace (ev n x (t0_ + s)) with (curve (fun i t => pe (c i) p t + d i * t ^ p) s); auto.
  unfold OdePicard.curve. apply FunctionalExtensionality.functional_extensionality. intros j. unfold ev. destruct (Nat.ltb_spec j n); auto. symmetry. now apply Hd.
Qed.
Hypothesis EJ : forall i, (i < n)%nat -> ps_integrate (y i) = Ok (J i).
Hypothesis EW : forall i, (i < n)%nat -> ps_setorder 2 D (J i) (Z.of_nat p) = Ok (W i).
Hypothesis EA : forall i, (i < n)%nat -> ps_addT (W i) (init i) = Ok (w i).
Hypothesis HI : forall i, (i < n)%nat -> rel (init i) (x0 i).
(* the coefficients of the result, for any choice of the last coefficient of f *)
Lemma result_coef u i q s : ZC z u -> (i < n)%nat -> 0 <= s <= H -> (if (length (y i) =? S p)%nat then rel (at_ (y i) p) q else q = 0) ->
  length (w i) = S p /\ (forall l, (l < p)%nat -> rel (at_ (w i) l) (c i l)) /\ rel (at_ (w i) p) (c i p + q / INR (S p) * s).
Proof.
  intros HU Hi Hs Hq. destruct (eval_at u i 0 HU Hi ltac:(lra)) as (_ & LY & b & CB & ZB & _ & LB). pose (b' := fun l => if (l <? p)%nat then dcoef (c i) l else if (l =? p)%nat then q else 0).
  assert (LO : forall l, (l < p)%nat -> b' l = b l). { intros l Hl. unfold b'. destruct (Nat.ltb_spec l p); [|lia]. symmetry. now apply LB. }
  assert (IC : forall l, (l <= p)%nat -> icoef (x0 i) b' l = c i l).
  { intros [|l] Hl; cbn [icoef]; [symmetry; auto|]. unfold b'. destruct (Nat.ltb_spec l p); [|lia]. unfold dcoef. field. apply not_0_INR. lia. }
  assert (BP : b' p = q). { unfold b'. now rewrite Nat.ltb_irrefl, Nat.eqb_refl. }
  assert (CB' : coef (y i) b').
  { intros l Hl. destruct (Nat.ltb_spec l p); [rewrite LO by auto; now apply CB|]. destruct LY as [LY|LY]; [lia|]. rewrite LY, Nat.eqb_refl in Hq. replace l with p by lia. now rewrite BP. }
  assert (ZB' : forall l, (length (y i) <= l)%nat -> b' l = 0).
  { intros l Hl. destruct (Nat.ltb_spec l p); [rewrite LO by auto; now apply ZB|]. unfold b'. destruct (Nat.ltb_spec l p); [lia|]. destruct (Nat.eqb_spec l p); auto. subst l. destruct (Nat.eqb_spec (length (y i)) (S p)); [lia|auto]. }
  destruct (int_ok B rel OK 2 D (y i) p (init i) (x0 i) b' s (J i) (W i) (w i)) as [LL CC]; auto; try lia. split; auto. split.
  - intros l Hl. specialize (CC l ltac:(lia)). cbn beta in CC. destruct (Nat.ltb_spec l p); [|lia]. rewrite IC in CC by lia. exact CC.
  - specialize (CC p ltac:(lia)). cbn beta in CC. rewrite Nat.ltb_irrefl in CC. change (2 =? 1)%Z with false in CC. cbv iota in CC.
    match type of CC with rel _ ?v => replace (c i p + q / INR (S p) * s) with v; auto end. destruct LY as [LY|LY].
    + destruct (Nat.eqb_spec (length (y i)) (S p)); [lia|]. rewrite LY, Hq. destruct (Nat.ltb_spec 1 p).
      * replace (2 - p)%nat with 0%nat by lia. unfold pe. simpl rsum. rewrite IC by lia. unfold Rdiv. ring.
      * replace (2 - p)%nat with 1%nat by lia. unfold pe. simpl rsum. rewrite Nat.add_0_r, IC by lia. unfold Rdiv. simpl pow. ring.
    + rewrite LY. destruct (Nat.ltb_spec (S p) p); [lia|]. replace (S (S p) - p)%nat with 2%nat by lia. unfold pe. cbn [rsum]. rewrite Nat.add_0_r, IC by lia.
      replace (p + 1)%nat with (S p) by lia. cbn [icoef]. rewrite BP. simpl pow. ring.
Qed.
Lemma TT_step u : ZC z u -> ZC w (TT u) /\ lowc w.
Proof.
  intros HU. assert (AD : forall i s, (i < n)%nat -> 0 <= s <= H -> adiff (es i) (curve u s)). { intros i s Hi Hs. now apply eval_at. }
  assert (IC : forall i, (i < n)%nat -> forall s, continuous (integrand u i) s).
  { intros i Hi. apply integrand_cont; auto. - intros; apply QQ'_cont. - apply HU. - intros s Hs. apply adiff_lip; auto. }
  assert (TD : forall i s, (i < n)%nat -> is_derive (TT u i) s (QQ' i s + integrand u i s)). { intros i s Hi. apply TT_deriv; auto. apply QQ_deriv. }
  assert (T0 : forall i, TT u i 0 = c i O). { intros i. unfold OdePicard.TT. rewrite RInt_point. unfold zero; simpl. unfold QQ. rewrite pe_0 by lia. ring. }
  split; [split; [|split]|].
  - intros i s Hi. apply (ex_derive_continuous (TT u i)). eexists. now apply TD.
  - intros i Hi. apply (jet_weak (S p) p); [lia|]. apply (jet_coef (S p) _ (icoef (TT u i 0) (dcoef (c i)))). { intros l _. rewrite T0. apply icoef_dcoef. }
    apply (jet_int p (TT u i) (fun s => QQ' i s + integrand u i s)).
    + rewrite jet_bigO. apply (bigO_ext p (fun s => integrand u i s) _ 1); [lra|intros; unfold QQ'; ring|].
      apply (bigO_kap p (fun s => F i (curve u s) - QQ' i s) H HH). pose proof (ZC_jet z u i HU Hi) as J0. now rewrite jet_bigO in J0.
    + exists 1. split; [lra|]. intros s _. apply is_derive_Reals. now apply TD.
  - intros s Hs i Hi. assert (IN : is_RInt (integrand u i) 0 s (RInt (integrand u i) 0 s)). { apply (RInt_correct (V := R_CompleteNormedModule)). apply (ex_RInt_continuous (V := R_CompleteNormedModule)). intros; now apply IC. }
    pose (CS := fun l x => if (l <? p)%nat then x = 0 else if (length (y i) =? S p)%nat then rel (at_ (y i) p) x else x = 0).
    assert (IZ : itv (fun x => x = 0)). { split; [intros a b v -> -> M; unfold mix in M; lra|]. split; left; exists 0; split; auto; intros x ->; lra. }
    destruct (int_coef_gen CS (S p) (integrand u i) s (RInt (integrand u i) 0 s)) as (d & Hd & EV); auto.
    { intros l Hl. unfold CS. destruct (Nat.ltb_spec l p); [exact IZ|]. destruct (Nat.eqb_spec (length (y i)) (S p)); [|exact IZ]. destruct (eval_at u i 0 HU Hi ltac:(lra)) as (_ & _ & b & CB & _).
      apply (CVX (at_ (y i) p) (b p)). apply CB. lia. }
    { intros r Hr. assert (HR : 0 <= r <= H) by (unfold mix in Hr; lra). destruct (eval_at u i r HU Hi HR) as (_ & LY & b & CB & ZB & EV & LB).
      exists (fun l => if (l <? p)%nat then 0 else b l). split.
      - intros l Hl. unfold CS. destruct (Nat.ltb_spec l p); auto. replace l with p by lia. destruct (Nat.eqb_spec (length (y i)) (S p)); [apply CB; lia|]. apply ZB. lia.
      - unfold OdePicard.integrand. rewrite kap_id by auto. rewrite EV. unfold QQ'. rewrite !pe_last, Nat.ltb_irrefl. rewrite (pe_ext b (dcoef (c i)) p) by auto.
        rewrite (pe_ext (fun l => if (l <? p)%nat then 0 else b l) (fun _ => 0) p). 2:{ intros l Hl. destruct (Nat.ltb_spec l p); [auto|lia]. }
        assert (Z0 : pe (fun _ => 0) p r = 0). { unfold pe. clear. induction p as [|q IH]; simpl; [auto|]. rewrite IH. ring. } rewrite Z0. ring. }
    assert (D0 : forall l, (l < p)%nat -> d l = 0). { intros l Hl. specialize (Hd l ltac:(lia)). unfold CS in Hd. destruct (Nat.ltb_spec l p); [auto|lia]. }
    pose proof (Hd p ltac:(lia)) as Hp. unfold CS in Hp. rewrite Nat.ltb_irrefl in Hp.
    exists (c i p + d p / INR (S p) * s). split; [now apply (result_coef u i (d p) s)|]. unfold OdePicard.TT, QQ. rewrite EV, pe_last. unfold isum. cbn [rsum].
    assert (Z0 : forall q, (q <= p)%nat -> rsum (fun l => d l / INR (S l) * s ^ S l) q = 0).
    { induction q as [|q IH]; intros Hq; cbn [rsum]; [auto|]. rewrite IH, (D0 q) by lia. unfold Rdiv. ring. }
    rewrite Z0 by lia. change (s ^ S p) with (s * s ^ p). ring.
  - intros i Hi. destruct (eval_at u i 0 HU Hi ltac:(lra)) as (_ & LY & b & CB & ZB & _ & _).
    destruct (result_coef u i (b p) 0) as (A & A' & A''); auto; [lra| |].
    { destruct (Nat.eqb_spec (length (y i)) (S p)); [apply CB; lia|apply ZB; lia]. }
    split; auto. intros l Hl. destruct (Nat.eq_dec l p) as [->|N]; [|apply A'; lia]. now rewrite Rmult_0_r, Rplus_0_r in A''.
Qed.
End Turn.
(* curves of a larger class *)
Lemma tube_incl w v t y : (forall i d, (i < n)%nat -> rel (at_ (w i) p) d -> rel (at_ (v i) p) d) -> tube w t y -> tube v t y.
Proof. intros S T i Hi. destruct (T i Hi) as (d & A & E). exists d. auto. Qed.
Lemma ZC_incl w v u : (forall i d, (i < n)%nat -> rel (at_ (w i) p) d -> rel (at_ (v i) p) d) -> ZC w u -> ZC v u.
Proof. intros S (A & J & T). split; auto. split; auto. intros t Ht. apply (tube_incl w); auto. Qed.
Lemma good_incl w v : (forall i d, (i < n)%nat -> rel (at_ (w i) p) d -> rel (at_ (v i) p) d) -> good v -> good w.
Proof. intros S G t y i Ht T Hi. apply (G t y i Ht); auto. now apply (tube_incl w). Qed.
Lemma ZC_poly w : (forall i, (i < n)%nat -> rel (at_ (w i) p) (c i p)) -> ZC w QQ.
Proof.
  intros A. split; [|split].
  - intros i t Hi. apply cont_pe.
  - intros i Hi. apply (jet_weak (S p)); [lia|]. unfold QQ. rewrite jet_bigO. apply (bigO_ext (S p) (fun _ => 0) _ 1); [lra|intros; ring|apply bigO_zero].
  - intros t Ht i Hi. exists (c i p). split; [auto|]. unfold QQ. now rewrite pe_last.
Qed.
(* what the loop keeps *)
Definition oinv (w : nat -> list B) : Prop := lowc w /\ good w /\ forall u, ZC w u -> ZC w (TT u).
Lemma lowc_p w i : lowc w -> (i < n)%nat -> rel (at_ (w i) p) (c i p).
Proof. intros L Hi. destruct (L i Hi) as [LL C]. apply C. lia. Qed.
Lemma oinv_first z w : lowc z -> good z -> (forall u, ZC z u -> ZC w (TT u) /\ lowc w) ->
  (forall i d, (i < n)%nat -> rel (at_ (w i) p) d -> rel (at_ (z i) p) d) -> oinv w.
Proof.
  intros LZ GZ ST IN. pose proof (ZC_poly z (fun i => lowc_p z i LZ)) as U0. split; [now apply (ST QQ)|]. split; [now apply (good_incl w z)|].
  intros u HU. apply ST. now apply (ZC_incl w).
Qed.
Lemma oinv_next z w v : oinv z -> (forall u, ZC z u -> ZC w (TT u) /\ lowc w) -> (forall i, (i < n)%nat -> length (v i) = length (w i)) ->
  (forall i l, (i < n)%nat -> (l < p)%nat -> at_ (v i) l = at_ (w i) l) ->
  (forall i d, (i < n)%nat -> rel (at_ (v i) p) d <-> rel (at_ (w i) p) d /\ rel (at_ (z i) p) d) -> oinv v.
Proof.
  intros (LZ & GZ & SZ) ST LV AV IV. pose proof (ZC_poly z (fun i => lowc_p z i LZ)) as U0. pose proof (ST _ U0) as [_ LW].
  assert (VC : forall i, (i < n)%nat -> rel (at_ (v i) p) (c i p)). { intros i Hi. apply IV; auto. split; now apply lowc_p. }
  split; [|split].
  - intros i Hi. destruct (LW i Hi) as [L CW]. rewrite LV by auto. split; auto. intros l Hl. rewrite LV, L in Hl by auto.
    destruct (Nat.eq_dec l p) as [->|N]; [now apply VC|]. rewrite AV by (auto; lia). apply CW. lia.
  - apply (good_incl v z); auto. intros i d Hi Hd. now apply IV.
  - intros u HV. assert (HU : ZC z u). { apply (ZC_incl v); auto. intros i d Hi Hd. now apply IV. }
    destruct (ST u HU) as [(A & J & T) _]. destruct (SZ u HU) as (_ & _ & T'). split; auto. split; auto. intros t Ht i Hi.
    destruct (T t Ht i Hi) as (d & Hd & E). destruct (T' t Ht i Hi) as (d' & Hd' & E'). destruct (Req_dec t 0) as [T0|T0].
    + exists (c i p). split; auto. rewrite E, T0, pow_i by lia. ring.
    + exists d. split; auto. apply IV; auto. split; auto. replace d with d'; auto. rewrite E in E'. apply (Rmult_eq_reg_r (t ^ p)); [lra|]. now apply pow_nonzero.
Qed.

(* ---- the solution in the class ---- *)
Definition bnd (X : B) : Prop := exists M, forall d, rel X d -> Rabs d <= M.
Lemma itv_box X d0 : rel X d0 -> bnd X -> exists l h, l <= h /\ forall d, rel X d <-> l <= d <= h.
Proof.
  intros R0 (M & HM). destruct (CVX X d0 R0) as (A & L & U). destruct L as [(l & Hl & L)|L].
  2:{ exfalso. destruct (L (- Rabs M - 1)) as (x & Hx & LE). specialize (HM x Hx). pose proof (Rle_abs M). pose proof (Rle_abs (- x)). rewrite Rabs_Ropp in *. pose proof (Rabs_pos M). lra. }
  destruct U as [(h & Hh & U)|U].
  2:{ exfalso. destruct (U (Rabs M + 1)) as (x & Hx & LE). specialize (HM x Hx). pose proof (Rle_abs M). pose proof (Rle_abs x). lra. }
  exists l, h. split; [now apply U|]. intros d. split; [intros Hd; split; auto|]. intros Hd. apply (A l h); auto. unfold mix. lra.
Qed.
Section Exist.
Variable w : nat -> list B.
Hypothesis IW : oinv w.
Variables (lo hi : nat -> R).
Hypothesis LH : forall i, (i < n)%nat -> lo i <= hi i.
Hypothesis BX : forall i d, (i < n)%nat -> rel (at_ (w i) p) d <-> lo i <= d <= hi i.
Definition phi (q : nat -> R) : nat -> R := ev n (fun i => pe (c i) p (q n) + q i * q n ^ p) (t0_ + q n).
Lemma lip_pow N j k x : (j < N)%nat -> lip_at N (fun q => q j ^ k) x.
Proof. intros Hj. induction k; simpl; [apply lip_const|]. apply (lip_mult N (fun q => q j) (fun q => q j ^ k)); auto. now apply lip_var. Qed.
Lemma lip_phi q j : (j < S n)%nat -> lip_at (S n) (fun q => phi q j) q.
Proof.
  intros Hj. unfold phi, ev. destruct (Nat.ltb_spec j n).
  - apply (lip_plus (S n) (fun q => pe (c j) p (q n)) (fun q => q j * q n ^ p)).
    + unfold pe. generalize p. intros k. induction k as [|k IH]; simpl; [apply lip_const|]. apply (lip_plus (S n) (fun q => rsum (fun i => c j i * q n ^ i) k) (fun q => c j k * q n ^ k)); auto.
      apply (lip_scal (S n) (c j k) (fun q => q n ^ k)). apply lip_pow. lia.
    + apply (lip_mult (S n) (fun q => q j) (fun q => q n ^ p)); [apply lip_var; lia|apply lip_pow; lia].
  - apply (lip_plus (S n) (fun _ => t0_) (fun q => q n)); [apply lip_const|apply lip_var; lia].
Qed.
Lemma phi_near q e : 0 < e -> exists d, 0 < d /\ forall q', cl (S n) d q' q -> cl (S n) e (phi q') (phi q).
Proof.
  intros E. destruct (fin_min (S n) (fun j d => forall q', cl (S n) d q' q -> Rabs (phi q' j - phi q j) < e)) as (d & D0 & K).
  - intros j a b _ LE K q' C'. apply K. now apply (cl_le _ b).
  - intros j Hj. exact (lip_cont (S n) (fun q => phi q j) q e (lip_phi q j Hj) E).
  - exists d. split; auto. intros q' C' j Hj. now apply K.
Qed.
Definition ulip (q : nat -> R) (d : R) : Prop := forall i, (i < n)%nat ->
  (forall y z r, 0 <= r -> cl (S n) d y (phi q) -> cl (S n) d z (phi q) -> (forall j, (j < S n)%nat -> Rabs (y j - z j) <= r) -> Rabs (F i y - F i z) <= / d * r) /\
  Rabs (F i (phi q)) <= / d.
Lemma ulip_mono : mono ulip.
Proof.
  intros q d d' D' LE U i Hi. destruct (U i Hi) as [A B']. assert (IV : / d <= / d') by (apply Rinv_le_contravar; auto). split; [|lra].
  intros y z r R0 HY HZ HR. eapply Rle_trans; [apply (A y z r); auto; now apply (cl_le _ d')|]. apply Rmult_le_compat_r; auto.
Qed.
Definition qlo (j : nat) : R := if (j <? n)%nat then lo j else 0.
Definition qhi (j : nat) : R := if (j <? n)%nat then hi j else H.
Lemma phi_adiff q i : inbox (S n) qlo qhi q -> (i < n)%nat -> adiff (es i) (phi q).
Proof.
  intros HQ Hi. unfold phi. destruct IW as (_ & G & _). apply G; auto.
  - specialize (HQ n ltac:(lia)). unfold qlo, qhi in HQ. now rewrite Nat.ltb_irrefl in HQ.
  - intros j Hj. exists (q j). split; auto. apply BX; auto. specialize (HQ j ltac:(lia)). unfold qlo, qhi in HQ. destruct (Nat.ltb_spec j n); [auto|lia].
Qed.
Lemma ulip_all : exists d, 0 < d /\ forall q, inbox (S n) qlo qhi q -> (forall i, (S n <= i)%nat -> q i = 0) -> ulip q d.
Proof.
  apply (compactN (S n) qlo qhi) with (w := fun _ => 0).
  - intros i Hi. unfold qlo, qhi. destruct (Nat.ltb_spec i n); auto.
  - exact ulip_mono.
  - intros q HQ. destruct (fin_min n (fun i d => forall q', cl (S n) d q' q -> (forall y z r, 0 <= r -> cl (S n) d y (phi q') -> cl (S n) d z (phi q') -> (forall j, (j < S n)%nat -> Rabs (y j - z j) <= r) -> Rabs (F i y - F i z) <= / d * r) /\
      Rabs (F i (phi q')) <= / d)) as (d & D0 & K).
    + intros i a b B0 LE K q' C'. assert (IV : / a <= / b) by (apply Rinv_le_contravar; auto). destruct (K q' (cl_le _ b a _ _ LE C')) as [A B']. split; [|lra].
      intros y z r R0 HY HZ HR. eapply Rle_trans; [apply (A y z r); auto; now apply (cl_le _ b)|]. apply Rmult_le_compat_r; auto.
    + intros i Hi. destruct (proj1 (adiff_lip (S n) (es i) (phi q) (WF i Hi) (NA i Hi) (phi_adiff q i HQ Hi))) as (a & L & A0 & L0 & K).
      destruct (phi_near q (a / 2)) as (b & B0 & N); [lra|]. set (M := Rabs (F i (phi q)) + L * a + L + 1). assert (M0 : 0 < M). { unfold M. pose proof (Rabs_pos (F i (phi q))). assert (0 <= L * a) by (apply Rmult_le_pos; lra). lra. }
      assert (IM : 0 < / M) by (now apply Rinv_0_lt_compat). set (d := Rmin (Rmin (a / 2) b) (/ M)). assert (D0 : 0 < d). { unfold d. repeat apply Rmin_glb_lt; lra. }
      assert (DA : d <= a / 2) by (unfold d; eapply Rle_trans; [apply Rmin_l|apply Rmin_l]). assert (DB : d <= b) by (unfold d; eapply Rle_trans; [apply Rmin_l|apply Rmin_r]).
      assert (DM : M <= / d). { rewrite <- (Rinv_inv M). apply Rinv_le_contravar; auto. unfold d. apply Rmin_r. }
      exists d. split; auto. intros q' C'. assert (NQ : cl (S n) (a / 2) (phi q') (phi q)) by (apply N; now apply (cl_le _ d)).
      assert (TR : forall y, cl (S n) d y (phi q') -> cl (S n) a y (phi q)).
      { intros y HY j Hj. specialize (HY j Hj). specialize (NQ j Hj). replace (y j - phi q j) with ((y j - phi q' j) + (phi q' j - phi q j)) by ring. eapply Rle_lt_trans; [apply Rabs_triang|]. lra. }
      split.
      * intros y z r R0 HY HZ HR. eapply Rle_trans; [apply (K y z r); auto|]. apply Rmult_le_compat_r; auto. unfold M in DM. pose proof (Rabs_pos (F i (phi q))). assert (0 <= L * a) by (apply Rmult_le_pos; lra). lra.
      * assert (K' : Rabs (F i (phi q') - F i (phi q)) <= L * a).
        { apply (K (phi q') (phi q) a); [lra| |now apply cl_refl|]. - now apply (cl_le _ (a / 2)); [lra|]. - intros j Hj. specialize (NQ j Hj). lra. }
        replace (F i (phi q')) with ((F i (phi q') - F i (phi q)) + F i (phi q)) by ring. eapply Rle_trans; [apply Rabs_triang|]. unfold M in DM. lra.
    + exists d. split; auto. intros q' _ C' _ i Hi. now apply K.
Qed.
Lemma tube_q t y : 0 <= t <= H -> tube w t y -> exists q, inbox (S n) qlo qhi q /\ (forall i, (S n <= i)%nat -> q i = 0) /\ forall j, (j < S n)%nat -> ev n y (t0_ + t) j = phi q j.
Proof.
  intros Ht T. destruct (choose_all (fun i d => rel (at_ (w i) p) d) (fun i d => y i = pe (c i) p t + d * t ^ p) n T) as (d & Hd).
  exists (fun j => if (j <? n)%nat then d j else if (j =? n)%nat then t else 0). split; [|split].
  - intros j Hj. unfold qlo, qhi. destruct (Nat.ltb_spec j n); [apply BX; auto; now apply Hd|]. destruct (Nat.eqb_spec j n); [auto|lia].
  - intros j Hj. destruct (Nat.ltb_spec j n); [lia|]. destruct (Nat.eqb_spec j n); [lia|auto].
  - intros j Hj. unfold phi, ev. rewrite Nat.ltb_irrefl, Nat.eqb_refl. destruct (Nat.ltb_spec j n); auto. now apply Hd.
Qed.
Lemma tube_lip : exists L, 0 < L /\ forall t y z r i, 0 <= t <= H -> tube w t y -> tube w t z -> 0 <= r -> (i < n)%nat -> (forall j, (j < n)%nat -> Rabs (y j - z j) <= r) ->
  Rabs (F i (ev n y (t0_ + t)) - F i (ev n z (t0_ + t))) <= L * r.
Proof.
  destruct ulip_all as (d & D0 & U). assert (I0 : 0 < / d) by (now apply Rinv_0_lt_compat). assert (I1 : 0 < / d * / d) by (now apply Rmult_lt_0_compat).
  exists (/ d + 2 * (/ d * / d)). split; [lra|]. intros t y z r i Ht TY TZ R0 Hi HR.
  destruct (tube_q t y Ht TY) as (q & Q1 & Q2 & EQ). destruct (tube_q t z Ht TZ) as (q' & Q1' & Q2' & EQ'). destruct (U q Q1 Q2 i Hi) as [UL UB]. destruct (U q' Q1' Q2' i Hi) as [_ UB'].
  rewrite (rval_ext (S n) (es i) _ (phi q) (WF i Hi) EQ), (rval_ext (S n) (es i) _ (phi q') (WF i Hi) EQ').
  assert (HR' : forall j, (j < S n)%nat -> Rabs (phi q j - phi q' j) <= r).
  { intros j Hj. rewrite <- EQ, <- EQ' by auto. unfold ev. destruct (Nat.ltb_spec j n); auto. rewrite Rminus_diag_eq, Rabs_R0; auto. }
  destruct (Rlt_dec r d) as [LT|GE].
  - eapply Rle_trans; [apply (UL (phi q) (phi q') r); auto|].
    + now apply cl_refl.
    + intros j Hj. specialize (HR' j Hj). rewrite Rabs_minus_sym. lra.
    + apply Rmult_le_compat_r; auto. lra.
  - assert (B2 : Rabs (F i (phi q) - F i (phi q')) <= 2 * / d). { unfold Rminus. eapply Rle_trans; [apply Rabs_triang|]. rewrite Rabs_Ropp. lra. }
    eapply Rle_trans; [exact B2|]. replace (2 * / d) with (2 * (/ d * / d) * d) by (field; lra). eapply Rle_trans; [apply Rmult_le_compat_l; [lra|]|apply Rmult_le_compat_r; [auto|]].
    + apply Rnot_lt_le, GE.
    + lra.
Qed.
Lemma tube_iff t y : 0 <= t <= H -> tube w t y <-> forall i, (i < n)%nat -> pe (c i) p t + lo i * t ^ p <= y i <= pe (c i) p t + hi i * t ^ p.
Proof.
  intros Ht. assert (TP : 0 <= t ^ p) by (apply pow_le; lra). split; intros K i Hi; specialize (K i Hi).
  - destruct K as (d & Hd & ->). apply BX in Hd; auto. split; apply Rplus_le_compat_l, Rmult_le_compat_r; tauto.
  - destruct (Req_dec t 0) as [T0|T0].
    + exists (lo i). split; [apply BX; auto; split; [lra|auto]|]. rewrite T0 in *. rewrite pow_i in * by lia. lra.
    + assert (TP' : 0 < t ^ p) by (apply pow_lt; lra). exists ((y i - pe (c i) p t) / t ^ p). split; [|field; lra]. apply BX; auto.
      split; [apply (Rmult_le_reg_r (t ^ p))|apply (Rmult_le_reg_r (t ^ p))]; auto; replace ((y i - pe (c i) p t) / t ^ p * t ^ p) with (y i - pe (c i) p t) by (field; lra); lra.
Qed.
Lemma exist_box : exists u, near_curve n u /\ (forall t, 0 <= t <= H -> tube w t (fun i => u i t)) /\ (forall i, (i < n)%nat -> u i 0 = x0 i) /\
  forall i t, (i < n)%nat -> 0 < t < H -> is_derive (u i) t (F i (curve u t)).
Proof.
  destruct tube_lip as (L & L0 & LL). destruct IW as (LW & GW & SW).
  destruct (picard n F t0_ H QQ QQ' HH QQ_deriv QQ'_cont (ZC w) (tube w) L L0 LL) with (u0 := QQ) as (u & A & A' & A'' & A3).
  - intros t y i Ht T Hi. apply adiff_lip; [auto|auto|now apply (GW t y i)].
  - intros u HU. apply HU.
  - intros u t HU. apply HU.
  - exact SW.
  - intros t yk y Ht T LIM. apply tube_iff; auto. intros i Hi. split.
    + apply (is_lim_seq_le (fun _ => pe (c i) p t + lo i * t ^ p) (fun k => yk k i) (Finite (pe (c i) p t + lo i * t ^ p)) (Finite (y i))); auto using is_lim_seq_const.
      intros k. apply (tube_iff t (yk k) Ht); auto.
    + apply (is_lim_seq_le (fun k => yk k i) (fun _ => pe (c i) p t + hi i * t ^ p) (Finite (y i)) (Finite (pe (c i) p t + hi i * t ^ p))); auto using is_lim_seq_const.
      intros k. apply (tube_iff t (yk k) Ht); auto.
  - apply ZC_poly. intros i Hi. now apply lowc_p.
  - exists u. split; auto. split; auto. split; auto. intros i Hi. rewrite A'' by auto. unfold QQ. rewrite pe_0 by lia. auto.
Qed.
End Exist.
Lemma exist_sol w (E : B) : oinv w -> rel E H -> (forall i, (i < n)%nat -> bnd (hornerT (w i) E)) ->
  exists u, near_curve n u /\ (forall t i, 0 <= t <= H -> (i < n)%nat -> adiff (es i) (curve u t)) /\ (forall i, (i < n)%nat -> u i 0 = x0 i) /\
    (forall i t, (i < n)%nat -> 0 < t < H -> is_derive (u i) t (F i (curve u t))) /\ forall i, (i < n)%nat -> rel (hornerT (w i) E) (u i H).
Proof.
  intros IW RE BR. destruct IW as (LW & GW & SW).
  assert (HV : forall i d, (i < n)%nat -> rel (at_ (w i) p) d -> rel (hornerT (w i) E) (pe (c i) p H + d * H ^ p)).
  { intros i d Hi Hd. destruct (LW i Hi) as [LL CW]. pose (c' := fun l => if (l <? p)%nat then c i l else d).
    assert (CC : coef (w i) c'). { intros l Hl. unfold c'. destruct (Nat.ltb_spec l p); [now apply CW|]. now replace l with p by lia. }
    pose proof (horner_rel B rel OK (w i) c' E H CC RE) as R1. rewrite LL, pe_last in R1. unfold c' at 2 in R1. rewrite Nat.ltb_irrefl in R1.
    rewrite (pe_ext c' (c i) p) in R1; auto. intros l Hl. unfold c'. destruct (Nat.ltb_spec l p); [auto|lia]. }
  destruct (Req_dec H 0) as [H0|H0].
  - exists QQ. pose proof (ZC_poly w (fun i => lowc_p w i LW)) as (A & J & T). split; auto. split; [|split; [|split]].
    + intros t i Ht Hi. apply (GW t (fun i => QQ i t) i); auto.
    + intros i Hi. unfold QQ. rewrite pe_0 by lia. auto.
    + intros i t Hi Ht. lra.
    + intros i Hi. unfold QQ. rewrite pe_last. apply HV; auto. now apply lowc_p.
  - assert (HP : 0 < H ^ p) by (apply pow_lt; lra).
    assert (BW : forall i, (i < n)%nat -> bnd (at_ (w i) p)).
    { intros i Hi. destruct (BR i Hi) as (M & HM). exists ((M + Rabs (pe (c i) p H)) / H ^ p). intros d Hd. specialize (HM _ (HV i d Hi Hd)).
      apply (Rmult_le_reg_r (H ^ p)); auto. unfold Rdiv. rewrite Rmult_assoc, Rinv_l, Rmult_1_r by lra.
      replace (Rabs d * H ^ p) with (Rabs ((pe (c i) p H + d * H ^ p) - pe (c i) p H)).
      - eapply Rle_trans; [apply Rabs_triang|]. rewrite Rabs_Ropp. lra.
      - replace (pe (c i) p H + d * H ^ p - pe (c i) p H) with (d * H ^ p) by ring. rewrite Rabs_mult. f_equal. apply Rabs_pos_eq. lra. }
    assert (BXS : forall k, (k <= n)%nat -> exists lo hi, forall i, (i < k)%nat -> lo i <= hi i /\ forall d, rel (at_ (w i) p) d <-> lo i <= d <= hi i).
    { induction k as [|k IH]; intros Hk; [exists (fun _ => 0), (fun _ => 0); intros; lia|]. destruct IH as (lo & hi & K); [lia|].
      destruct (itv_box (at_ (w k) p) (c k p)) as (l & h & LE & KK). { apply lowc_p; auto. } { apply BW. lia. }
      exists (fun i => if (i =? k)%nat then l else lo i), (fun i => if (i =? k)%nat then h else hi i). intros i Hi. destruct (Nat.eqb_spec i k); [subst; auto|apply K; lia]. }
    destruct (BXS n (le_n n)) as (lo & hi & K).
    destruct (exist_box w (conj LW (conj GW SW)) lo hi) as (u & A & T & U0 & DU); [intros i Hi; exact (proj1 (K i Hi))|intros i d Hi; exact (proj2 (K i Hi) d)|].
    exists u. split; auto. split; [|split; [|split]]; auto.
    + intros t i Ht Hi. apply (GW t (fun i => u i t) i); auto.
    + intros i Hi. destruct (T H ltac:(lra) i Hi) as (d & Hd & ->). now apply HV.
Qed.
End Step2.
