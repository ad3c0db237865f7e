(* Quotients and powers of affine forms, and straight-line programs over affine forms. *)
From Coq Require Import Reals Lra Lia Psatz ZArith Bool List Arith Permutation.
From Flocq Require Import Core.
From Verif Require Import Ext Scalar IntervalModel IntervalSpec IntervalProofs IntervalEncl RealFun RealInv ElemModel ElemGen ElemExp ElemLog ElemTrig
  AffModel AffSpec AffProofs AffFun AffRed.
Import ListNotations.
Open Scope R_scope.

Section Pow.
Context {S : scal} (OK : scal_ok S) (AL : aff_laws S).
Notation iv := (iv S). Notation form := (form S).

Lemma close_len m (l : list S) err r : close m l err = Ok r -> length r = (1 + m)%nat.
Proof.
  unfold close. destruct (Nat.leb_spec (length l) m) as [B|B].
  - intros E; injection E as <-. rewrite !app_length, repeat_length. simpl. lia.
  - destruct (Nat.eqb_spec (length l) (1 + m)) as [B2|B2]; [|discriminate]. intros E; injection E as <-.
    rewrite app_length, firstn_length. simpl. lia.
Qed.
Lemma amul_over m (x y : form) r : amul m x y = Ok r -> fst r = (1 + m)%nat /\ over (fst r) (snd r).
Proof.
  intros H. unfold amul in H. apply bind_ok in H as (l & H & E). injection E as <-. split; auto.
  unfold over. cbn [fst snd fs]. apply close_len in H. lia.
Qed.
Lemma lmul_fin (p q : S) (xs : list S) : forall ys, Forall fin (lmul p q xs ys) -> Forall fin xs /\ Forall fin ys.
Proof.
  induction xs as [|a xs IH]; intros [|b ys] H; cbn [lmul] in H; auto.
  - split; auto. rewrite Forall_forall in *. intros c Hc. apply (muld_f OK AL p c). apply H, (in_map (fun b => muld p b)). auto.
  - split; auto. rewrite Forall_forall in *. intros c Hc. apply (muld_f OK AL q c). apply H, (in_map (fun a => muld q a)). auto.
  - inversion H as [|? ? F1 F2]; subst. destruct (addd_f OK AL _ _ F1) as (G1 & G2 & _).
    destruct (muld_f OK AL _ _ G1) as (_ & FA & _). destruct (muld_f OK AL _ _ G2) as (_ & FB & _). destruct (IH _ F2). auto.
Qed.
Lemma amul_fin m (x y : form) r : amul m x y = Ok r -> over m x -> over m y -> ffin (snd r) -> ffin x /\ ffin y.
Proof.
  intros H OX OY F. unfold amul in H. apply bind_ok in H as (l & H & E). injection E as <-. destruct F as (F0 & FL & _). cbn [snd f0 fs] in *.
  destruct (muld_f OK AL _ _ F0) as (X0 & Y0 & _).
  assert (L : (length (lmul (f0 x) (f0 y) (fs x) (fs y)) <= m)%nat). { rewrite lmul_len. unfold over in *. lia. }
  destruct (close_fin _ _ _ _ H L FL) as [FM FE]. destruct (lmul_fin _ _ _ _ FM) as [XL YL].
  destruct (addu_f OK AL _ _ FE) as (_ & FE2 & _). destruct (addu_f OK AL _ _ FE2) as (G1 & G2 & _).
  destruct (mulu_f OK AL _ _ G1) as (_ & EX & _). destruct (mulu_f OK AL _ _ G2) as (_ & EY & _). repeat split; auto.
Qed.
Lemma linfin_over m (x : form) a I r : linfin m x a I = Ok r -> fst r = (1 + m)%nat /\ over (fst r) (snd r).
Proof.
  intros H. unfold linfin in H. apply bind_ok in H as (l & H & E). injection E as <-. split; auto.
  unfold over. cbn [fst snd fs]. apply close_len in H. lia.
Qed.
Lemma ainv_over m (x : form) r : ainv m x = Ok r -> fst r = (1 + m)%nat /\ over (fst r) (snd r).
Proof.
  unfold ainv. destruct (_ && _); [discriminate|]. intros H. apply bind_ok in H as (? & _ & H). apply bind_ok in H as (? & _ & H).
  apply bind_ok in H as (? & _ & H). eapply linfin_over; eauto.
Qed.
Lemma adiv_ok m (x y : form) r e u v : adiv m x y = Ok r -> over m x -> over m y -> assignment e -> frep e x u -> frep e y v -> frange y ->
  ffin (snd r) -> v <> 0 /\ newsym m e r (u / v).
Proof.
  intros H OX OY AS RX RY FY F. unfold adiv in H. apply bind_ok in H as (q & E & H).
  destruct (ainv_over _ _ _ E) as [MQ OQ]. assert (OX' : over (fst q) x) by (unfold over in *; lia).
  destruct (amul_fin _ _ _ _ H OX' OQ F) as [_ FQ].
  destruct (ainv_ok OK AL m y e v OY AS RY FY q E FQ) as [NZ (_ & _ & e' & EX & RQ)]. split; auto.
  destruct (amul_ok OK AL _ _ _ _ _ _ _ H OX' OQ (proj1 EX) (frep_extends _ _ _ _ _ OX EX RX) RQ F) as (M2 & O2 & e2 & EX2 & R2).
  split; [lia|]. split; auto. exists e2. split; [refine (extends_trans m (fst q) _ _ _ ltac:(lia) EX EX2)|]. replace (u / v) with (u * (1 / v)) by (field; auto). auto.
Qed.
Lemma aTmul_fin (c : S) (x : form) : ffin (aTmul c x) -> ffin x /\ fin c.
Proof.
  intros (F0 & FL & FE). cbn [aTmul f0 fs fe] in *. destruct (muld_f OK AL _ _ F0) as (FC & FX & _).
  destruct (addu_f OK AL _ _ FE) as (G & _ & _). destruct (mulu_f OK AL _ _ G) as (G1 & _ & _). split; auto. repeat split; auto.
  rewrite Forall_forall in *. intros a Ha. apply (muld_f OK AL c a), FL, (in_map (fun a => muld c a)). auto.
Qed.
Lemma aTdiv_ok m (c : S) (y : form) r e v : aTdiv m c y = Ok r -> over m y -> assignment e -> frep e y v -> frange y ->
  ffin (snd r) -> v <> 0 /\ newsym m e r (rv c / v).
Proof.
  intros H OY AS RY FY F. unfold aTdiv in H. apply bind_ok in H as (q & E & H). injection H as <-. cbn [fst snd] in *.
  destruct (ainv_over _ _ _ E) as [MQ OQ]. destruct (aTmul_fin _ _ F) as [FQ _].
  destruct (ainv_ok OK AL m y e v OY AS RY FY q E FQ) as [NZ (_ & _ & e' & EX & RQ)]. split; auto.
  split; [cbn [fst]; lia|]. split. { unfold over in *. cbn [fst snd aTmul fs]. rewrite map_length. auto. }
  exists e'. split; auto. cbn [snd]. pose proof (aTmul_ok OK AL e' _ c _ (proj1 EX) RQ F) as K.
  replace (rv c / v) with (rv c * (1 / v)) by (field; auto). auto.
Qed.

Lemma apow_loop_over p : forall m (r xp : form) q, apow_loop m r xp p = Ok q -> over m r -> over m xp -> (m <= fst q)%nat /\ over (fst q) (snd q).
Proof.
  induction p as [p IH|p IH|]; intros m r xp q H OR OP; cbn [apow_loop] in H.
  - apply bind_ok in H as (r1 & E1 & H). apply bind_ok in H as (q1 & E2 & H).
    destruct (amul_over _ _ _ _ E1) as [M1 O1]. destruct (amul_over _ _ _ _ E2) as [M2 O2].
    destruct (IH _ _ _ _ H) as [M O]; auto; [unfold over in *; lia|]. split; [lia|auto].
  - apply bind_ok in H as (q1 & E2 & H). destruct (amul_over _ _ _ _ E2) as [M2 O2].
    destruct (IH _ _ _ _ H) as [M O]; auto; [unfold over in *; lia|]. split; [lia|auto].
  - apply bind_ok in H as (r1 & E1 & H). apply bind_ok in H as (q1 & E2 & H). injection H as <-.
    destruct (amul_over _ _ _ _ E1) as [M1 O1]. destruct (amul_over _ _ _ _ E2) as [M2 O2]. cbn [fst snd]. unfold over in *. lia.
Qed.
Lemma apow_loop_fin p : forall m (r xp : form) q, apow_loop m r xp p = Ok q -> over m r -> over m xp -> ffin (snd q) -> ffin r /\ ffin xp.
Proof.
  induction p as [p IH|p IH|]; intros m r xp q H OR OP F; cbn [apow_loop] in H.
  - apply bind_ok in H as (r1 & E1 & H). apply bind_ok in H as (q1 & E2 & H).
    destruct (amul_over _ _ _ _ E1) as [M1 O1]. destruct (amul_over _ _ _ _ E2) as [M2 O2].
    destruct (IH _ _ _ _ H) as [FR FQ]; auto; [unfold over in *; lia|].
    apply (amul_fin _ _ _ _ E1); auto.
  - apply bind_ok in H as (q1 & E2 & H). destruct (amul_over _ _ _ _ E2) as [M2 O2].
    destruct (IH _ _ _ _ H) as [FR FQ]; auto; [unfold over in *; lia|]. split; auto. apply (amul_fin _ _ _ _ E2); auto.
  - apply bind_ok in H as (r1 & E1 & H). apply bind_ok in H as (q1 & E2 & H). injection H as <-. cbn [snd] in F.
    apply (amul_fin _ _ _ _ E1); auto.
Qed.
Lemma apow_loop_ok p : forall m (r xp : form) q e v u, apow_loop m r xp p = Ok q -> over m r -> over m xp -> assignment e ->
  frep e r v -> frep e xp u -> ffin (snd q) -> newsym m e q (v * u ^ Pos.to_nat p).
Proof.
  induction p as [p IH|p IH|]; intros m r xp q e v u H OR OP AS RR RP F; cbn [apow_loop] in H.
  - apply bind_ok in H as (r1 & E1 & H). apply bind_ok in H as (q1 & E2 & H).
    destruct (amul_over _ _ _ _ E1) as [M1 O1]. destruct (amul_over _ _ _ _ E2) as [M2 O2].
    assert (O1' : over (fst q1) (snd r1)) by (unfold over in *; lia). assert (OP' : over (fst r1) xp) by (unfold over in *; lia).
    destruct (apow_loop_fin _ _ _ _ _ H O1' O2 F) as [F1 F2].
    destruct (amul_ok OK AL _ _ _ _ _ _ _ E1 OR OP AS RR RP F1) as (_ & _ & e1 & X1 & R1).
    pose proof (frep_extends _ _ _ _ _ OP X1 RP) as RP1.
    destruct (amul_ok OK AL _ _ _ _ _ _ _ E2 OP' OP' (proj1 X1) RP1 RP1 F2) as (_ & _ & e2 & X2 & R2).
    destruct (IH _ _ _ _ _ _ _ H O1' O2 (proj1 X2) (frep_extends _ _ _ _ _ O1 X2 R1) R2 F) as (M3 & O3 & e3 & X3 & R3).
    split; [lia|]. split; auto. exists e3. split; [exact (extends_trans m (fst r1) _ _ _ ltac:(lia) X1 (extends_trans (fst r1) (fst q1) _ _ _ ltac:(lia) X2 X3))|].
    rewrite Pos2Nat.inj_xI. cbn [pow]. rewrite pow_mult. replace (v * (u * (u ^ 2) ^ Pos.to_nat p)) with (v * u * (u * u) ^ Pos.to_nat p); auto.
    replace (u ^ 2) with (u * u) by ring. ring.
  - apply bind_ok in H as (q1 & E2 & H). destruct (amul_over _ _ _ _ E2) as [M2 O2].
    assert (OR' : over (fst q1) r) by (unfold over in *; lia).
    destruct (apow_loop_fin _ _ _ _ _ H OR' O2 F) as [F1 F2].
    destruct (amul_ok OK AL _ _ _ _ _ _ _ E2 OP OP AS RP RP F2) as (_ & _ & e2 & X2 & R2).
    destruct (IH _ _ _ _ _ _ _ H OR' O2 (proj1 X2) (frep_extends _ _ _ _ _ OR X2 RR) R2 F) as (M3 & O3 & e3 & X3 & R3).
    split; [lia|]. split; auto. exists e3. split; [exact (extends_trans m (fst q1) _ _ _ ltac:(lia) X2 X3)|].
    rewrite Pos2Nat.inj_xO, pow_mult. replace (u ^ 2) with (u * u) by ring. auto.
  - apply bind_ok in H as (r1 & E1 & H). apply bind_ok in H as (q1 & E2 & H). injection H as <-. cbn [fst snd] in *.
    destruct (amul_over _ _ _ _ E1) as [M1 O1]. destruct (amul_over _ _ _ _ E2) as [M2 O2].
    destruct (amul_ok OK AL _ _ _ _ _ _ _ E1 OR OP AS RR RP F) as (_ & _ & e1 & X1 & R1).
    split; [cbn [fst]; lia|]. split; [unfold over in *; cbn [fst snd]; lia|]. exists e1. split; auto. cbn [snd]. simpl pow. rewrite Rmult_1_r. auto.
Qed.
Lemma one_rep e : frep e (of_T (@s1 S)) 1.
Proof.
  destruct (s0_f OK) as [F0 V0]. destruct (rv_ex _ _ (s1_v OK)) as [F1 V1]. split; [repeat split; auto; constructor|].
  cbn [of_T f0 fs fe lsum]. rewrite V1, V0. replace (1 - (1 + 0)) with 0 by lra. rewrite Rabs_R0. lra.
Qed.
(* the power is x^n; for n < 0 the range of x^(-n), of which the reciprocal is taken, must be finite *)
Lemma apow_ok m (x : form) n r e u : apow m x n = Ok r -> over m x -> assignment e -> frep e x u -> ffin (snd r) ->
  ((n < 0)%Z -> forall q, apow m x (- n) = Ok q -> frange (snd q)) ->
  ((n < 0)%Z -> u <> 0) /\ newsym m e r (powerRZ u n).
Proof.
  intros H OX AS RX F HN. assert (O1 : forall k, over k (of_T (@s1 S))) by (intros; unfold over; simpl; lia).
  destruct n as [|p|p]; cbn [apow] in H.
  - injection H as <-. split; [lia|]. split; [cbn [fst]; lia|]. split; [apply O1|]. exists e. split; [apply extends_refl; auto|]. apply one_rep.
  - split; [lia|]. pose proof (apow_loop_ok _ _ _ _ _ _ _ _ H (O1 m) OX AS (one_rep e) RX F) as K. rewrite Rmult_1_l in K. exact K.
  - destruct (Z.eqb_spec (Z.neg p) (-2147483648)); [discriminate|]. apply bind_ok in H as (q & E & H).
    pose proof (HN ltac:(lia) q E) as FQ. destruct (apow_loop_over _ _ _ _ _ E (O1 m) OX) as [MQ OQ].
    unfold aTdiv in H. apply bind_ok in H as (w & EW & H). pose proof H as H'. injection H as <-. cbn [snd] in F.
    destruct (aTmul_fin _ _ F) as [FW _].
    assert (FQ2 : ffin (snd q)).
    { unfold ainv in EW. destruct (_ && _) in EW; [discriminate|]. apply bind_ok in EW as (? & _ & EW). apply bind_ok in EW as (? & _ & EW).
      apply bind_ok in EW as (? & _ & EW). unfold linfin in EW. apply bind_ok in EW as (l & EW & EE). injection EE as <-. destruct FW as (G0 & GL & _).
      cbn [snd f0 fs] in *. destruct (close_fin _ _ _ _ EW ltac:(rewrite map_length; exact OQ) GL) as [FM FE].
      destruct (mulu_f OK AL _ _ G0) as (G1 & _ & _). destruct (addu_f OK AL _ _ G1) as (G2 & _ & _). destruct (addd_f OK AL _ _ G2) as (G3 & _ & _).
      destruct (muld_f OK AL _ _ G3) as (G4 & _ & _). destruct (addu_f OK AL _ _ FE) as (_ & G5 & _). destruct (mulu_f OK AL _ _ G5) as (_ & G6 & _).
      split; auto. split; auto. rewrite Forall_forall in *. intros c Hc.
      refine (proj1 (muld_f OK AL c _ (FM _ (in_map (fun c => muld c _) _ _ Hc)))). }
    destruct (apow_loop_ok _ _ _ _ _ _ _ _ E (O1 m) OX AS (one_rep e) RX FQ2) as (_ & _ & e1 & X1 & R1). rewrite Rmult_1_l in R1.
    assert (HT : aTdiv (fst q) s1 (snd q) = Ok (fst w, aTmul s1 (snd w))) by (unfold aTdiv; rewrite EW; reflexivity).
    destruct (aTdiv_ok _ _ _ _ _ _ HT OQ (proj1 X1) R1 FQ F) as [NZ (M2 & O2 & e2 & X2 & R2)].
    split; [intros _ Z; apply NZ; rewrite Z; apply pow_ne_zero; pose proof (Pos2Nat.is_pos p); lia|].
    split; [lia|]. split; auto. exists e2. split; [exact (extends_trans m (fst q) _ _ _ ltac:(lia) X1 X2)|].
    destruct (rv_ex _ _ (s1_v OK)) as [_ V1]. rewrite V1 in R2. unfold powerRZ. replace (/ u ^ Pos.to_nat p) with (1 / u ^ Pos.to_nat p) by (unfold Rdiv; lra). auto.
Qed.
End Pow.

From Verif Require Import AffLang.
Section Prog.
Context {S : scal} (OK : scal_ok S) (AL : aff_laws S) (P : elemp S) (LE : exp_laws S P) (LL : log_laws S P) (LT : trig_laws S P).
Variables (nexp nlog : S -> S) (fuel : nat) (inp : nat -> R).
Notation form := (form S).

Lemma Ok_inj {A} (a b : A) : Ok a = Ok b -> a = b. Proof using Type. intros H; injection H; auto. Qed.
Lemma afun_ok f m (x : form) r e u : afun P nexp nlog fuel f m x = Ok r -> over m x -> assignment e -> frep e x u -> frange x -> ffin (snd r) ->
  rfdom f u /\ newsym m e r (rfn f u).
Proof using All.
  intros H OX AS RX FX F. destruct f; cbn [afun rfdom rfn] in *.
  - eapply (asqrt_ok OK AL); eauto.
  - split; [exact Logic.I|]. eapply (asquare_ok OK AL); eauto.
  - split; [exact Logic.I|]. eapply (aexp_ok OK AL); eauto.
  - eapply (alog_ok OK AL); eauto.
  - split; [exact Logic.I|]. eapply (asin_ok OK AL); eauto.
  - split; [exact Logic.I|]. eapply (acos_ok OK AL); eauto.
  - eapply (atan_ok OK AL); eauto.
  - destruct (aasin_ok OK AL m x e u OX AS RX P LT fuel r H F). split; auto; lra.
  - destruct (aacos_ok OK AL m x e u OX AS RX P LT fuel r H F). split; auto; lra.
  - split; [exact Logic.I|]. eapply (asinh_ok OK AL); eauto.
  - split; [exact Logic.I|]. eapply (acosh_ok OK AL); eauto.
  - split; [exact Logic.I|]. eapply (atanh_ok OK AL); eauto.
  - split; [exact Logic.I|]. eapply (aasinh_ok OK AL); eauto.
  - destruct (aacosh_ok OK AL m x e u OX AS RX P LL fuel r H F). split; auto; lra.
  - eapply (aatanh_ok OK AL); eauto.
Qed.

Definition jrep (s : nat * list form) (e : nat -> R) (v : list R) : Prop :=
  assignment e /\ Forall (over (fst s)) (snd s) /\ Forall2 (frep e) (snd s) v.
Lemma rg_ok {A} (l : list A) i a : rg l i = Ok a -> (i < length l)%nat /\ forall d, nth i l d = a.
Proof.
  unfold rg. destruct (nth_error l i) eqn:E; [|discriminate]. intros H; injection H as <-.
  split; [apply nth_error_Some; congruence|]. intros d. apply nth_error_nth; auto.
Qed.
Lemma push_rep s e v r w : jrep s e v -> newsym (fst s) e r w -> exists e', jrep (push s r) e' (v ++ [w]).
Proof using Type.
  intros (AS & OV & R) (M & O & e' & EX & RW). exists e'. split; [apply EX|]. unfold push. cbn [fst snd]. split.
  - apply Forall_app. split; [|constructor; auto]. rewrite Forall_forall in *. intros x Hx. specialize (OV x Hx). unfold over in *. lia.
  - apply Forall2_app; [|constructor; auto]. clear - R OV EX. induction R as [|x u l v H R IH]; constructor.
    + inversion OV; subst. eapply frep_extends; eauto.
    + apply IH. inversion OV; auto.
Qed.
Lemma same_sym m e (x : form) v : assignment e -> over m x -> frep e x v -> newsym m e (m, x) v.
Proof using Type. intros. split; [cbn [fst]; lia|]. split; auto. exists e. split; auto. apply extends_refl; auto. Qed.
Lemma ladd_len (p : list S) : forall q, length (ladd p q) = Nat.max (length p) (length q).
Proof using Type. induction p as [|a p IH]; intros [|b q]; simpl; auto. Qed.
Lemma lsub_len (p : list S) : forall q, length (lsub p q) = Nat.max (length p) (length q).
Proof using Type. induction p as [|a p IH]; intros [|b q]; simpl; auto. rewrite map_length; auto. Qed.
Lemma const_rep e (c : S) : fin c -> frep e (of_T c) (rv c).
Proof using OK.
  intros F. destruct (s0_f OK) as [F0 V0]. split; [repeat split; auto; constructor|]. cbn [of_T f0 fs fe lsum]. rewrite V0.
  replace (rv c - (rv c + 0)) with 0 by lra. rewrite Rabs_R0. lra.
Qed.
Ltac ov := unfold over in *; cbn [fs aadd asub aaddT aTadd asubT aTsub amulT aTmul adivT aneg of_T length]; rewrite ?ladd_len, ?lsub_len, ?map_length; lia.
Lemma astep_ok i s s' e v : astep P nexp nlog fuel i s = Ok s' -> isafe i s -> jrep s e v -> Forall frange (snd s) ->
  Forall ffin (snd s') -> match i with JIn X => isin X (inp (length v)) | _ => True end ->
  rdom i v /\ exists e', jrep s' e' (rstep inp i v).
Proof using All.
  intros H SF J FR F IN. pose proof J as (AS & OV & RX). destruct (Forall2_at _ _ _ (of_T s0) 0 RX) as [LV RN].
  assert (AT : forall i x, rg (snd s) i = Ok x -> over (fst s) x /\ frep e x (nth i v 0) /\ frange x).
  { intros k x HK. destruct (rg_ok _ _ _ HK) as [LK EK]. rewrite <- (EK (of_T s0)). split; [apply Forall_at; auto|]. split; [apply RN; auto|apply Forall_at; auto]. }
  assert (PU : forall r, s' = push s r -> ffin (snd r)).
  { intros r ->. unfold push in F. cbn [snd] in F. apply Forall_app in F as [_ F]. inversion F; auto. }
  destruct i; cbn [astep isafe rdom rstep rval] in *;
    repeat match goal with
    | H : bind (rg _ _) _ = Ok _ |- _ => let x := fresh "x" in let E := fresh "E" in apply bind_ok in H as (x & E & H); destruct (AT _ _ E) as (? & ? & ?)
    | H : bind _ _ = Ok _ |- _ => let x := fresh "r" in let E := fresh "E" in apply bind_ok in H as (x & E & H)
    end; apply Ok_inj in H; try (specialize (PU _ (eq_sym H)); cbn [snd] in PU); try subst s'.
  all: try (split; [exact Logic.I|]; apply push_rep with e; [exact J|]; apply same_sym; [exact AS|ov|]).
  - split; [exact Logic.I|]. apply push_rep with e; [exact J|]. apply (of_iv_ok OK AL); auto.
  - apply const_rep; auto.
  - apply (aadd_ok OK AL); auto.
  - apply (asub_ok OK AL); auto.
  - split; [exact Logic.I|]. apply push_rep with e; [exact J|]. eapply (amul_ok OK AL); eauto.
  - destruct (adiv_ok OK AL _ _ _ _ _ _ _ E1 ltac:(eassumption) ltac:(eassumption) AS ltac:(eassumption) ltac:(eassumption) ltac:(eassumption) PU).
    split; auto. apply push_rep with e; auto.
  - apply (aaddT_ok OK AL); auto.
  - apply (aTadd_ok OK AL); auto.
  - apply (asubT_ok OK AL); auto.
  - apply (aTsub_ok OK AL); auto.
  - apply (amulT_ok OK AL); auto.
  - apply (aTmul_ok OK AL); auto.
  - apply (adivT_ok OK AL); tauto.
  - destruct (aTdiv_ok OK AL _ _ _ _ _ _ E0 ltac:(eassumption) AS ltac:(eassumption) ltac:(eassumption) PU).
    split; auto. apply push_rep with e; auto.
  - apply (aneg_ok OK); auto.
  - destruct (apow_ok OK AL _ _ _ _ _ _ E0 ltac:(eassumption) AS ltac:(eassumption) PU) as [D N]. { intros Hn q Hq. eapply SF; eauto. }
    split; auto. apply push_rep with e; auto.
  - destruct (afun_ok _ _ _ _ _ _ E0 ltac:(eassumption) AS ltac:(eassumption) ltac:(eassumption) PU).
    split; auto. apply push_rep with e; auto.
  - split; [exact Logic.I|]. destruct (epsilon_reduce (fst s) (perm (fst s) (snd s)) n nl (snd s)) as [m' y] eqn:ER.
    destruct (epsilon_reduce_ok OK AL _ _ _ _ _ _ _ _ _ ER SF OV AS RX F) as (_ & O & e' & A' & R'). exists e'. split; auto.
  - split; [exact Logic.I|]. destruct (epsilon_reduce2 n (snd s)) as [m' y] eqn:ER.
    destruct (epsilon_reduce2_ok OK AL _ _ _ _ _ _ ER AS RX F) as (_ & O & e' & A' & _ & R'). exists e'. split; auto.
Qed.
Theorem arun_ok p : forall s s' e v, arun P nexp nlog fuel p s = Ok s' -> safe P nexp nlog fuel p s -> jrep s e v -> Forall frange (snd s) ->
  inputs inp p v -> rdefined inp p v /\ exists e', jrep s' e' (rrun inp p v).
Proof using All.
  induction p as [|i p IH]; intros s s' e v H SF J FR IN; cbn [arun safe inputs rdefined rrun] in *.
  - apply Ok_inj in H as <-. split; [exact Logic.I|]. exists e. auto.
  - apply bind_ok in H as (s1 & H1 & H). destruct SF as [SI SF]. destruct (SF _ H1) as (F1 & F2 & SF'). destruct IN as [I1 I2].
    destruct (astep_ok _ _ _ _ _ H1 SI J FR F1 I1) as [D (e1 & J1)].
    destruct (IH _ _ _ _ H SF' J1 F2 I2) as [D2 K]. auto.
Qed.
End Prog.
