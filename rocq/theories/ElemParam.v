(* The elementary functions computed with two scalar types whose operations agree through a relation agree through it. *)
From Coq Require Import Reals Lra Lia ZArith Bool.
From Flocq Require Import Core BinarySingleNaN.
From Verif Require Import Fp64 RDoubleHw Ext Scalar IntervalModel IntervalSpec IntervalProofs IntervalEncl IntervalSets IntervalDivPow IntervalMore IntervalParam Expr.
From Verif Require Import ElemModel RealFun RealConst RealInv ElemGen ElemExp ElemLog ElemTrig ElemAtan2 ElemConst ElemMore ExprFun Elem64.
Open Scope R_scope.

Section Param.
Variables A B : scal.
Variable RR : A -> B -> Prop.
Variable P : srel A B RR.
Variable OK : scal_ok A.
Variable PA : elemp A.
Variable PB : elemp B.
Notation RI := (RI A B RR).
(* what the elementary functions use besides *)
Record erel : Prop := mkerel {
  e_nsub : forall x x' y y', RR x x' -> RR y y' -> RR (nsub x y) (nsub x' y');
  e_ndiv : forall x x' y y', RR x x' -> RR y y' -> seqb y s0 = false -> RR (ndiv x y) (ndiv x' y');
  e_max : RR smax smax; e_dmin : RR sdmin sdmin; e_eps : RR seps seps;
  e_e : RI (c_e PA) (c_e PB); e_pi : RI (c_pi PA) (c_pi PB); e_ln2 : RI (c_ln2 PA) (c_ln2 PB);
  e_frexp : forall x x', RR x x' -> frexp_e PA x = frexp_e PB x';
  e_per : seqb (lo (c_pi PA)) s0 = false /\ seqb (lo (pi2 PA)) s0 = false;
  e_sqrt : forall x x', RR x x' -> RR (nsqrt PA x) (nsqrt PB x')
}.
Variable E : erel.
Hypothesis WF : forall x : A, swf x.
Variable XL : exp_laws A PA.
Variable LL : log_laws A PA.
Variable TL : trig_laws A PA.

(* the divisor never has one sign at one end and zero at the other *)
Definition nzok (Y : iv A) : Prop := (slt s0 (lo Y) = true -> seqb (hi Y) s0 = false) /\ (slt (hi Y) s0 = true -> seqb (lo Y) s0 = false).
Lemma nz_valid Y : ivalid Y -> nzok Y.
Proof. intros V. split; intros L; apply (nz_all A OK Y V); auto. Qed.
Lemma nz_ipt x : nzok (ipt x).
Proof. split; simpl; intros L; [apply (nz_pos A OK)|apply (nz_neg A OK)]; auto. Qed.
Lemma nz_hullSS x y : nzok (hullSS x y).
Proof.
  unfold hullSS. destruct (slt x y) eqn:L; split; cbn [lo hi]; intros K.
  - apply (nz_pos A OK); auto. apply (ok_lt _ OK) in L, K; auto. apply (ok_lt _ OK); auto. destruct (sval s0), (sval x), (sval y); simpl in *; try tauto; lra.
  - apply (nz_neg A OK); auto. apply (ok_lt _ OK) in L, K; auto. apply (ok_lt _ OK); auto. destruct (sval s0), (sval x), (sval y); simpl in *; try tauto; lra.
  - apply not_true_iff_false. intros Q. apply (eq0_true OK) in Q; auto. apply (lt0_true OK) in K; auto. apply not_true_iff_false in L. apply L.
    apply (ok_lt _ OK); auto. rewrite Q. auto.
  - apply not_true_iff_false. intros Q. apply (eq0_true OK) in Q; auto. apply (gt0_true OK) in K; auto. apply not_true_iff_false in L. apply L.
    apply (ok_lt _ OK); auto. rewrite Q. auto.
Qed.
Lemma q_div X X' Y Y' : nzok Y -> RI X X' -> RI Y Y' -> Rres RI (idiv X Y) (idiv X' Y').
Proof.
  intros [N1 N2] [H1 H2] [H3 H4]. pose proof (r_0 _ _ _ P) as R0. unfold idiv.
  apply (rif (Rres RI)); [apply (r_lt _ _ _ P); auto|intros L|intros _; apply (rif (Rres RI)); [apply (r_lt _ _ _ P); auto|intros L|intros _; reflexivity]].
  - pose proof (nz_pos A OK _ (WF _) L). specialize (N1 L). apply rres_ok.
    apply (rif RI); [apply (r_le _ _ _ P); auto|intros _|intros _; apply (rif RI); [apply (r_le _ _ _ P); auto|intros _|intros _]];
    (split; cbn [lo hi]; first [apply (r_divd _ _ _ P)|apply (r_divu _ _ _ P)]; auto).
  - pose proof (nz_neg A OK _ (WF _) L). specialize (N2 L). apply rres_ok.
    apply (rif RI); [apply (r_le _ _ _ P); auto|intros _|intros _; apply (rif RI); [apply (r_le _ _ _ P); auto|intros _|intros _]];
    (split; cbn [lo hi]; first [apply (r_divd _ _ _ P)|apply (r_divu _ _ _ P)]; auto).
Qed.
Lemma q_Sdiv X X' y y' : nzok X -> RI X X' -> RR y y' -> Rres RI (iSdiv y X) (iSdiv y' X').
Proof.
  intros [N1 N2] [H1 H2] H3. pose proof (r_0 _ _ _ P) as R0. unfold iSdiv.
  apply (rif (Rres RI)); [apply eq_or; apply (r_lt _ _ _ P); auto|intros L|intros _; reflexivity].
  apply orb_true_iff in L. assert (K : seqb (lo X) s0 = false /\ seqb (hi X) s0 = false).
  { destruct L as [L|L]; split; auto; [apply (nz_pos A OK)|apply (nz_neg A OK)]; auto. }
  destruct K. apply rres_ok. apply (rif RI); [apply (r_le _ _ _ P); auto|intros _|intros _];
    (split; cbn [lo hi]; first [apply (r_divd _ _ _ P)|apply (r_divu _ _ _ P)]; auto).
Qed.
Lemma q_divS X X' y y' : RI X X' -> RR y y' -> Rres RI (idivS X y) (idivS X' y').
Proof. intros. apply p_divS; auto. Qed.
Lemma q_lo X X' : RI X X' -> RR (lo X) (lo X'). Proof. intros []; auto. Qed.
Lemma q_hi X X' : RI X X' -> RR (hi X) (hi X'). Proof. intros []; auto. Qed.
Lemma q_mk a a' b b' : RR a a' -> RR b b' -> RI (mkiv a b) (mkiv a' b'). Proof. split; auto. Qed.
Lemma q_dy m e : RR (sdy m e) (sdy m e). Proof. apply (r_dy _ _ _ P). Qed.
Lemma q_ifS (c c' : bool) a a' b b' : c = c' -> RR a a' -> RR b b' -> RR (if c then a else b) (if c' then a' else b').
Proof. intros <- ? ?. destruct c; auto. Qed.
Lemma q_ifI (c c' : bool) a a' b b' : c = c' -> RI a a' -> RI b b' -> RI (if c then a else b) (if c' then a' else b').
Proof. intros <- ? ?. destruct c; auto. Qed.
Lemma q_pick up X X' : RI X X' -> RR (pick A up X) (pick B up X'). Proof. intros []; destruct up; auto. Qed.
Lemma q_gtS X X' y y' : RI X X' -> RR y y' -> igtS X y = igtS X' y'.
Proof. intros [] ?. unfold igtS. apply (r_lt _ _ _ P); auto. Qed.
Lemma q_negb (a b : bool) : a = b -> negb a = negb b. Proof. congruence. Qed.
Lemma rbind {T T' U U' : Type} (Q : T -> T' -> Prop) (Q' : U -> U' -> Prop) x x' f f' :
  Rres Q x x' -> (forall a a', x = Ok a -> Q a a' -> Rres Q' (f a) (f' a')) -> Rres Q' (bind x f) (bind x' f').
Proof. destruct x, x'; simpl; intros; auto; contradiction. Qed.
Create HintDb par.
Local Hint Resolve (r_0 _ _ _ P) (r_1 _ _ _ P) q_dy (r_pinf _ _ _ P) (r_ninf _ _ _ P) (r_neg _ _ _ P) (r_abs _ _ _ P) (r_nadd _ _ _ P) (r_nmul _ _ _ P)
  (r_floor _ _ _ P) (r_ceil _ _ _ P) (e_nsub E) (e_max E) (e_dmin E) (e_eps E) (e_e E) (e_pi E) (e_ln2 E) (e_sqrt E) q_lo q_hi q_mk q_ifS q_ifI q_pick
  (r_lt _ _ _ P) (r_le _ _ _ P) (r_eqb _ _ _ P) eq_and eq_or q_negb q_gtS : par.
Local Hint Resolve (p_ipt A B RR) (p_i0 A B RR P) (p_whole A B RR P) (p_add A B RR P) (p_sub A B RR P) (p_neg A B RR P) (p_addS A B RR P) (p_Sadd A B RR P)
  (p_subS A B RR P) (p_Ssub A B RR P) (p_mul A B RR P) (p_mulS A B RR P) (p_Smul A B RR P) (p_sqrt A B RR P) (p_hullSS A B RR P) (p_hull A B RR P)
  (p_hullIS A B RR P) (p_hullSI A B RR P) (p_mid A B RR P) (p_mag A B RR P) (p_zero_in A B RR P) (p_intersect A B RR P) (p_in A B RR P) (p_subset A B RR P)
  q_div q_Sdiv q_divS nz_valid nz_ipt nz_hullSS : par.
Ltac un := unfold sint, squart, shalf, ipm1 in *.
Ltac slv := solve [auto 20 with par].
Ltac rel := repeat (cbv zeta; first
  [ slv
  | match goal with
    | |- Rres _ (Err _) (Err _) => reflexivity
    | |- Rres _ (Ok _) (Ok _) => apply rres_ok
    | |- Rres _ (if ?c then _ else _) (if ?c then _ else _) => let K := fresh "C" in destruct c eqn:K
    | |- Rres ?Q (if _ then _ else _) (if _ then _ else _) => apply (rif (Rres Q)); [slv|intros|intros]
    | |- Rres _ (bind _ _) (bind _ _) => eapply (rbind RI); [|intros]
    | |- _ /\ _ => split; cbn [fst snd]
    end ]).

Lemma e_ipower_loop f : forall i i' r r' x x', RR i i' -> RI r r' -> RI x x' -> Rres RI (ipower_loop A f i r x) (ipower_loop B f i' r' x').
Proof. induction f; intros; cbn [ipower_loop]; un; rel; apply IHf; slv. Qed.
Lemma e_ipower f X X' i i' : RR i i' -> RI X X' -> Rres RI (ipower A f X i) (ipower B f X' i').
Proof. intros. unfold ipower. rel. apply e_ipower_loop; slv. Qed.
Lemma v_pow_loop f : forall (i : A) r X Q, ivalid r -> ivalid X -> ipower_loop A f i r X = Ok Q -> ivalid Q.
Proof.
  induction f; intros i r X Q V1 V2 H; cbn [ipower_loop] in H.
  - destruct (seqb i s0); [|discriminate]. injection H as <-. auto.
  - destruct (seqb i s0); [injection H as <-; auto|]. destruct (negb _); eapply IHf in H; eauto; apply (valid_mul OK); auto.
Qed.
Lemma nz_power f (X : iv A) i Q : ivalid X -> ipower A f X i = Ok Q -> nzok Q.
Proof.
  intros V H. unfold ipower in H. destruct (negb _); [injection H as <-; apply nz_ipt|]. apply nz_valid. refine (v_pow_loop f i _ _ Q _ V H).
  eapply isin_valid, isin_pt; [auto|apply (val1 OK)].
Qed.
Lemma v_e : ivalid (c_e PA). Proof. eapply isin_valid, (xl_e _ _ XL). Qed.
Lemma v_pi : ivalid (c_pi PA). Proof. eapply isin_valid, (tl_pi _ _ TL). Qed.
Local Hint Resolve v_e v_pi : par.
Lemma e_rem : Rres RI (exp_rem A PA) (exp_rem B PB).
Proof. unfold exp_rem. rel. apply q_Sdiv; auto with par. apply nz_valid. eapply (valid_sqrt OK); eauto. apply v_e. Qed.
Lemma e_exp_loop f : forall x x' m m' i r r' y y', RR x x' -> RI m m' -> RI r r' -> RI y y' ->
  Rres RI (exp_loop A f x m i r y) (exp_loop B f x' m' i r' y').
Proof. induction f; intros; cbn [exp_loop]; un; [reflexivity|]. rel. Qed.
Lemma e_split x x' : RR x x' -> RR (fst (exp_split A x)) (fst (exp_split B x')) /\ RR (snd (exp_split A x)) (snd (exp_split B x')).
Proof.
  intros H. unfold exp_split. un. cbv zeta.
  set (Q := fun (p : A * A) (q : B * B) => RR (fst p) (fst q) /\ RR (snd p) (snd q)).
  apply (rif Q); [slv|intros _|intros _]; (apply (rif Q); [slv|intros _|intros _]); split; cbn [fst snd]; slv.
Qed.
Lemma e_exp f x x' : RR x x' -> Rres RI (exp_point A PA f x) (exp_point B PB f x').
Proof.
  intros H. unfold exp_point. destruct (e_split x x' H) as [S1 S2]. destruct (exp_split A x) as [xi xf], (exp_split B x') as [xi' xf']. cbn [fst snd] in S1, S2.
  rel; try apply e_rem; try apply e_exp_loop; try apply e_ipower; try slv. apply q_div; auto. eapply nz_power; eauto. apply v_e.
Qed.
Local Hint Resolve e_exp e_ipower e_rem e_exp_loop : par.
Lemma e_ends (g : A -> res (iv A)) (g' : B -> res (iv B)) X X' : (forall x x', RR x x' -> Rres RI (g x) (g' x')) -> RI X X' -> Rres RI (by_ends A g X) (by_ends B g' X').
Proof. intros G H. unfold by_ends. rel. Qed.
Lemma e_iexp f X X' : RI X X' -> Rres RI (iexp A PA f X) (iexp B PB f X').
Proof. intros. apply e_ends; auto with par. Qed.
Lemma e_expm1 f x x' : RR x x' -> Rres RI (expm1_point A PA f x) (expm1_point B PB f x').
Proof. intros. unfold expm1_point, expm1_origin. un. rel. Qed.
Lemma e_iexpm1 f X X' : RI X X' -> Rres RI (iexpm1 A PA f X) (iexpm1 B PB f X').
Proof. intros. apply e_ends; auto using e_expm1. Qed.

(* log *)
Definition R2 (p : A * A) (q : B * B) : Prop := RR (fst p) (fst q) /\ RR (snd p) (snd q).
Lemma e_th : RR (th1 A PA) (th1 B PB) /\ RR (th2 A PA) (th2 B PB) /\ RR (th3 A PA) (th3 B PB) /\ RR (th4 A PA) (th4 B PB) /\ RR (th5 A PA) (th5 B PB).
Proof. unfold th1, th2, th3, th4, th5, sqrt2d. un. repeat apply conj; slv. Qed.
Ltac ths := destruct e_th as (T1 & T2 & T3 & T4 & T5).
Lemma e_l1 f : forall x x' p p', RR x x' -> RR p p' -> Rres R2 (log_l1 A PA f x p) (log_l1 B PB f x' p').
Proof. ths. induction f; intros; cbn [log_l1]; un; rel; split; auto. Qed.
Lemma e_l2 f up s s' : nzok s -> RI s s' -> forall x x' p p', RR x x' -> RR p p' -> Rres R2 (log_l2 A PA f up s x p) (log_l2 B PB f up s' x' p').
Proof. ths. induction f; intros; cbn [log_l2]; un; rel; split; auto. Qed.
Lemma e_l3 f : forall x x' p p', RR x x' -> RR p p' -> Rres R2 (log_l3 A PA f x p) (log_l3 B PB f x' p').
Proof. ths. induction f; intros; cbn [log_l3]; un; rel; split; auto. Qed.
Lemma e_l4 f up s s' : RI s s' -> forall x x' p p', RR x x' -> RR p p' -> Rres R2 (log_l4 A PA f up s x p) (log_l4 B PB f up s' x' p').
Proof. ths. induction f; intros; cbn [log_l4]; un; rel; split; auto. Qed.
Lemma e_log_loop f : forall x x' c c' i r r' y y' z z', RR x x' -> RI c c' -> RI r r' -> RI y y' -> RI z z' ->
  Rres RI (log_loop A f x c i r y z) (log_loop B f x' c' i r' y' z').
Proof. induction f; intros; cbn [log_loop]; un; [reflexivity|]. rel. Qed.
Lemma v_pt x r : sval x = XR r -> ivalid (ipt (x : A)). Proof. intros. eapply isin_valid, isin_pt; eauto. Qed.
Lemma v_int k : (Z.abs k <= 2 ^ 53)%Z -> ivalid (ipt (sint A k)).
Proof. intros. destruct (ok_dy _ OK k 0) as [_ V]; [auto|lia|]. eapply v_pt, V. Qed.
Lemma e_log f x x' up : RR x x' -> Rres RR (log_point A PA f x up) (log_point B PB f x' up).
Proof.
  intros H. unfold log_point. eapply (rbind RI); [unfold sint; slv|intros s s' Es Hs].
  assert (VS : ivalid s) by (eapply (valid_sqrt OK); [apply (v_int 2); lia|eauto]).
  apply (rif (Rres RR)); [slv|intros _; apply rres_ok; destruct up; slv|intros _].
  apply (rif (Rres RR)); [slv|intros _; apply rres_ok; destruct up; slv|intros _].
  rewrite (e_frexp E x x' H). cbv zeta. eapply (rbind RI); [apply p_pow; auto; [apply v_int; lia|unfold sint; slv]|intros q q' Eq Hq].
  eapply (rbind R2); [apply e_l1; unfold sint; slv|intros a a' _ Ha].
  eapply (rbind R2); [apply e_l2; try apply Ha; auto with par|intros b b' _ Hb].
  eapply (rbind R2); [apply e_l3; apply Hb|intros c c' _ Hc].
  eapply (rbind R2); [apply e_l4; try apply Hc; auto|intros d d' _ [Hd1 Hd2]].
  destruct d as [d1 d2], d' as [d1' d2']. cbn [fst snd] in Hd1, Hd2.
  eapply (rbind RI); [slv|intros]. eapply (rbind RI); [apply e_log_loop; slv|intros]. apply rres_ok; slv.
Qed.
Local Hint Resolve e_log : par.
Lemma e_ilog f X X' : RI X X' -> Rres RI (ilog A PA f X) (ilog B PB f X').
Proof.
  intros H. unfold ilog. apply (rif (Rres RI)); [slv|intros _; reflexivity|intros _].
  eapply (rbind RR); [slv|intros]. eapply (rbind RR); [slv|intros]. apply rres_ok; slv.
Qed.
Lemma e_log1p f x x' up : RR x x' -> Rres RR (log1p_point A PA f x up) (log1p_point B PB f x' up).
Proof.
  intros H. ths. unfold log1p_point. apply (rif (Rres RR)); [slv|intros C|intros C; apply e_log; slv].
  eapply (rbind RI); [|intros; apply rres_ok; slv]. unfold log1p_origin. eapply (rbind RI); [|intros; apply e_log_loop; slv].
  apply q_Sdiv; try slv. apply nz_valid. destruct (th5_test OK PA LL x (WF x) C) as (r & Er & _).
  rewrite hullIS_eq. apply (isin_valid _ 1). apply (isin_hull_r OK).
  - eapply isin_valid, (isin_Sadd OK); eauto. apply isin_pt; auto. apply (val1 OK).
  - apply isin_pt; auto. apply (val1 OK).
Qed.
Lemma nn_lo (X : iv A) : ivalid X -> sval (lo X) <> Xn. Proof. intros (_ & _ & H & _) N. rewrite N in H. exact H. Qed.
Lemma nn_hi (X : iv A) : ivalid X -> sval (hi X) <> Xn. Proof. intros (_ & _ & _ & H & _) N. rewrite N in H. exact H. Qed.
Lemma e_ilog1p f X X' : RI X X' -> Rres RI (ilog1p A PA f X) (ilog1p B PB f X').
Proof.
  intros H. unfold ilog1p. apply (rif (Rres RI)); [slv|intros _; reflexivity|intros _].
  eapply (rbind RR); [apply e_log1p; slv|intros]. eapply (rbind RR); [apply e_log1p; slv|intros]. apply rres_ok; slv.
Qed.
Lemma e_powI f X X' Y Y' : RI X X' -> RI Y Y' -> Rres RI (ipowI A PA f X Y) (ipowI B PB f X' Y').
Proof. intros. unfold ipowI. eapply (rbind RI); [apply e_ilog; auto|intros]. apply e_iexp. slv. Qed.

(* sin, cos *)
Lemma e_sc f odd : forall X X' i r r' y y', RI X X' -> RI r r' -> RI y y' -> Rres RI (sc_loop A f odd X i r y) (sc_loop B f odd X' i r' y').
Proof. induction f; intros; cbn [sc_loop]; un; [reflexivity|]. rel. Qed.
Lemma e_sino f X X' : RI X X' -> Rres RI (sin_origin A f X) (sin_origin B f X').
Proof. intros. apply e_sc; slv. Qed.
Lemma e_coso f X X' : RI X X' -> Rres RI (cos_origin A f X) (cos_origin B f X').
Proof. intros. apply e_sc; slv. Qed.
Lemma e_rneg x x' : Rres RI x x' -> Rres RI (rneg A x) (rneg B x').
Proof. intros. unfold rneg. eapply (rbind RI); eauto. intros. apply rres_ok; slv. Qed.
Lemma nz_sint k : (0 < k <= 2 ^ 53)%Z -> seqb (sint A k) s0 = false.
Proof.
  intros K. apply not_true_iff_false. intros Q. apply (eq0_true OK) in Q; auto. destruct (ok_dy _ OK k 0) as [_ V]; [lia|lia|].
  unfold sint in Q. rewrite V in Q. injection Q as Q. simpl in Q. rewrite Rmult_1_r in Q. apply (eq_IZR k 0) in Q. lia.
Qed.
Lemma e_mpi : RR (mpi A PA) (mpi B PB). Proof. unfold mpi. slv. Qed.
Lemma e_d4 x x' : RR x x' -> RR (ndiv x (sdy 4 0)) (ndiv x' (sdy 4 0)).
Proof. intros. apply (e_ndiv E); auto with par. apply (nz_sint 4). lia. Qed.
Lemma e_d3 x x' : RR x x' -> RR (ndiv x (sdy 3 0)) (ndiv x' (sdy 3 0)).
Proof. intros. apply (e_ndiv E); auto with par. apply (nz_sint 3). lia. Qed.
Local Hint Resolve e_sino e_coso e_rneg e_mpi e_d4 e_d3 : par.
Lemma e_sin f : forall X X', RI X X' -> Rres RI (sin_point A PA f X) (sin_point B PB f X').
Proof. induction f; intros; cbn [sin_point]; un; rel. Qed.
Lemma e_cos f : forall X X', RI X X' -> Rres RI (cos_point A PA f X) (cos_point B PB f X').
Proof. induction f; intros; cbn [cos_point]; un; rel. Qed.
Local Hint Resolve e_sin e_cos : par.
Lemma e_reduce f b b' per per' : RR b b' -> RI per per' -> seqb (lo per) s0 = false -> forall X X', RI X X' -> Rres RI (reduce A f b per X) (reduce B f b' per' X').
Proof.
  intros Hb Hp N. assert (D : forall x x', RR x x' -> RR (ndiv x (lo per)) (ndiv x' (lo per'))) by (intros; apply (e_ndiv E); auto with par).
  induction f; intros; cbn [reduce]; un; rel.
Qed.
Lemma e_inf X X' : RI X X' -> inf_end A X = inf_end B X'.
Proof. intros. unfold inf_end. slv. Qed.
Lemma e_ext (c c' : bool) r r' v v' : c = c' -> RI r r' -> RR v v' -> RI (ext_if A c r v) (ext_if B c' r' v').
Proof. intros. unfold ext_if. slv. Qed.
Local Hint Resolve e_inf e_ext : par.
Lemma e_isin f X X' : RI X X' -> Rres RI (isin_ A PA f X) (isin_ B PB f X').
Proof.
  intros. unfold isin_. un. rel. apply e_reduce; auto with par. apply (e_per E).
Qed.
Lemma e_icos f X X' : RI X X' -> Rres RI (icos A PA f X) (icos B PB f X').
Proof.
  intros. unfold icos. un. rel. apply e_reduce; auto with par. apply (e_per E).
Qed.
Lemma e_tanp f (x : A) x' : is_fin (sval x) \/ sval x = Xn -> RR x x' -> Rres RI (tan_point A PA f x) (tan_point B PB f x').
Proof.
  intros F H. unfold tan_point. eapply (rbind RI); [slv|intros a a' Ea Ha]. eapply (rbind RI); [slv|intros b b' Eb Hb].
  apply q_div; auto. apply nz_valid. destruct F as [F|F]; [|destruct (tl_nan _ _ TL f x b F); contradiction].
  destruct (sval x) as [r| | |] eqn:Ex; simpl in F; try tauto. apply (isin_valid _ (cos r)).
  apply (cos_point_ok OK PA TL f (ipt x) r b); [apply isin_pt; auto|auto].
Qed.
Lemma e_itan f X X' : ivalid X -> RI X X' -> Rres RI (itan A PA f X) (itan B PB f X').
Proof.
  intros V H. unfold itan. cbv zeta. apply (rif (Rres RI)); [slv|intros _; apply rres_ok; slv|intros FE].
  eapply (rbind RI); [apply e_reduce; auto; [unfold shalf; slv|slv|apply (e_per E)]|intros I2 I2' E2 HI].
  apply (rif (Rres RI)); [unfold shalf; slv|intros _; apply rres_ok; slv|intros WT].
  destruct (valid_isin X V) as [x Hx]. fold (pih PA) in E2, WT.
  pose proof (inf_end_fin OK _ _ (tl_absm _ _ TL) Hx FE) as FX.
  destruct (tl_pihhi _ _ TL) as (ph & EPH). assert (FB : is_fin (sval (hi (pih PA)))) by (rewrite EPH; simpl; auto).
  destruct (reduce_ok OK PA TL f (hi (pih PA)) (c_pi PA) PI X x I2) as [N|(k & l & HI2 & EL & _)]; auto; [apply (tl_pi _ _ TL)| |].
  - unfold by_ends. eapply (rbind RI); [apply e_tanp; [auto|slv]|intros a a' Ea _]. exfalso.
    unfold tan_point in Ea. apply bind_ok in Ea as (t & Et & _). destruct (tl_nan _ _ TL f _ t N). contradiction.
  - pose proof HI2 as (_ & _ & _ & UB). unfold by_ends. eapply (rbind RI); [apply e_tanp; [rewrite EL; simpl; auto|slv]|intros].
    eapply (rbind RI); [apply e_tanp; [|slv]|intros; apply rres_ok; slv]. left.
    destruct (sval (hi I2)) eqn:EH; simpl in UB; try tauto; simpl; auto.
    assert (sle (hi (pih PA)) (hi I2) = true); [|congruence]. apply (ok_le _ OK); auto. rewrite EPH, EH. simpl. auto.
Qed.
(* atan *)
Lemma e_atan_loop f : forall X X' i r r' y y', RI X X' -> RI r r' -> RI y y' -> Rres RI (atan_loop A f X i r y) (atan_loop B f X' i r' y').
Proof. induction f; intros; cbn [atan_loop]; un; [reflexivity|]. rel. Qed.
Lemma e_atano f X X' : RI X X' -> Rres RI (atan_origin A f X) (atan_origin B f X').
Proof. intros. apply e_atan_loop; slv. Qed.
Lemma e_sq : RR (sq2p1 A PA) (sq2p1 B PB) /\ RR (sq2m1 A PA) (sq2m1 B PB) /\ RR (sq6d3 A PA) (sq6d3 B PB).
Proof. unfold sq2p1, sq2m1, sq6d3, sqrt2d. un. repeat apply conj; slv. Qed.
Local Hint Resolve e_atano : par.
Lemma v_1sub X : ivalid X -> ivalid (iSsub (@s1 A) X).
Proof. intros V. destruct (valid_isin X V) as [x Hx]. eapply isin_valid, (isin_1sub OK), Hx. Qed.
Lemma v_1add X : ivalid X -> ivalid (iSadd (@s1 A) X).
Proof. intros V. destruct (valid_isin X V) as [x Hx]. eapply isin_valid, (isin_1add OK), Hx. Qed.
Lemma v_add1 X : ivalid X -> ivalid (iaddS X (@s1 A)).
Proof. intros V. destruct (valid_isin X V) as [x Hx]. eapply isin_valid, (isin_addS OK); eauto. apply (s1_v OK). Qed.
Lemma fin_btw (x b c : A) r s : sval b = XR r -> sval c = XR s -> slt x b = false -> slt x c = true -> exists v, sval x = XR v.
Proof.
  intros Eb Ec L1 L2. apply (ok_lt _ OK) in L2; auto. rewrite Ec in L2. apply not_true_iff_false in L1.
  destruct (sval x) eqn:Ex; simpl in L2; try tauto; eauto. elim L1. apply (ok_lt _ OK); auto. rewrite Ex, Eb. simpl. auto.
Qed.
Lemma sneg_fin (b : A) r : sval b = XR r -> sval (sneg b) = XR (- r).
Proof. intros H. rewrite (sneg_v OK), H by auto. reflexivity. Qed.
Lemma e_atan f x x' : RR x x' -> Rres RI (atan_point A PA f x) (atan_point B PB f x').
Proof.
  intros H. destruct e_sq as (S1 & S2 & S3). destruct (tl_sq2p1 _ _ TL) as [Wp (p & Ep & Hp)]. destruct (tl_sq2m1 _ _ TL) as [Wm (m & Em & Hm)].
  unfold atan_point. un. rel; (apply q_div; [|slv|slv]); apply nz_valid.
  - destruct (fin_btw x _ _ _ _ (sneg_fin _ _ Ep) (sneg_fin _ _ Em) H0 H1) as (v & Ev). apply v_1sub. eapply v_pt, Ev.
  - destruct (fin_btw x _ _ _ _ Em Ep H2 H3) as (v & Ev). apply v_add1. eapply v_pt, Ev.
Qed.
Lemma e_iatan f X X' : RI X X' -> Rres RI (iatan A PA f X) (iatan B PB f X').
Proof. intros. apply e_ends; auto using e_atan. Qed.
Local Hint Resolve e_iatan : par.

(* asin, acos *)
Lemma e_asin_arg x x' v : sval x = XR v -> -1 < v < 1 -> RR x x' -> Rres RI (asin_arg A PA x) (asin_arg B PB x').
Proof.
  intros Ev D H. destruct e_sq as (S1 & S2 & S3). pose proof (v_pt x v Ev) as VX. destruct (tl_sq6d3 _ _ TL) as [W6 (c & E6 & H6)].
  destruct (tl_abs _ _ TL x v (WF x) Ev) as [WA EA].
  unfold asin_arg. un.
  apply (rif (Rres RI)); [slv|intros C|intros C; apply (rif (Rres RI)); [slv|intros C2|intros C2]]; (eapply (rbind RI); [slv|intros a a' Ea Ha]);
    (apply q_Sdiv; auto); apply nz_valid; eapply (valid_sqrt OK); try exact Ea.
  - apply v_1sub. eapply isin_valid, (isin_sq OK); eauto.
  - apply (slt_false OK) in C; auto; try congruence. rewrite EA, E6 in C. simpl in C.
    apply (lt0_true OK) in C2; auto. rewrite Ev in C2. simpl in C2. rewrite Rabs_pos_eq in C by lra.
    destruct (tl_1mx _ _ TL x v (WF x) Ev ltac:(lra)) as [W1 E1]. destruct (valid_isin _ (v_1add _ VX)) as [z Hz].
    eapply isin_valid, (isin_mulS OK); eauto.
  - apply (slt_false OK) in C; auto; try congruence. rewrite EA, E6 in C. simpl in C.
    apply (slt_false OK) in C2; auto; try congruence; [|rewrite (s0_v OK); discriminate]. rewrite (s0_v OK), Ev in C2. simpl in C2. rewrite Rabs_left1 in C by lra.
    destruct (tl_1px _ _ TL x v (WF x) Ev ltac:(lra)) as [W1 E1]. destruct (valid_isin _ (v_1sub _ VX)) as [z Hz].
    eapply isin_valid, (isin_Smul OK); eauto.
Qed.
Lemma in_open (x : A) : sval x <> Xn -> slt x (sneg s1) || slt s1 x = false -> seqb x s1 = false -> seqb x (sneg s1) = false -> exists v, sval x = XR v /\ -1 < v < 1.
Proof.
  intros N C C1 C2. assert (M : sval (sneg (@s1 A)) = XR (-1)) by (rewrite (sneg_v OK), (s1_v OK) by auto; reflexivity).
  pose proof C as C'. apply orb_false_iff in C' as [C3 C4]. apply (slt_false OK) in C3; auto; try congruence. apply (slt_false OK) in C4; auto; try congruence; [|rewrite (s1_v OK); discriminate].
  rewrite M in C3. rewrite (s1_v OK) in C4. destruct (sval x) as [v| | |] eqn:Ev; simpl in C3, C4; try tauto. exists v. split; auto.
  assert (v <> 1). { intros ->. apply not_true_iff_false in C1. apply C1. apply (ok_eq _ OK); auto. rewrite Ev, (s1_v OK). simpl; auto. }
  assert (v <> -1). { intros ->. apply not_true_iff_false in C2. apply C2. apply (ok_eq _ OK); auto. rewrite Ev, M. simpl; auto. }
  lra.
Qed.
Lemma e_asin f x x' : sval x <> Xn -> RR x x' -> Rres RI (asin_point A PA f x) (asin_point B PB f x').
Proof.
  intros N H. unfold asin_point. un. rel. destruct (in_open x) as (v & Ev & D); auto. eapply e_asin_arg; eauto.
Qed.
Lemma e_ends' (g : A -> res (iv A)) (g' : B -> res (iv B)) X X' : (forall x x', sval x <> Xn -> RR x x' -> Rres RI (g x) (g' x')) -> ivalid X -> RI X X' ->
  Rres RI (by_ends A g X) (by_ends B g' X').
Proof.
  intros G V H. unfold by_ends. eapply (rbind RI); [apply G; [apply nn_lo; auto|slv]|intros].
  eapply (rbind RI); [apply G; [apply nn_hi; auto|slv]|intros]. apply rres_ok; slv.
Qed.
Lemma e_iasin f X X' : ivalid X -> RI X X' -> Rres RI (iasin A PA f X) (iasin B PB f X').
Proof. intros. apply e_ends'; auto using e_asin. Qed.
Lemma e_pihm f X X' : ivalid X -> RI X X' -> Rres RI (pih_m_atan_point A PA f X) (pih_m_atan_point B PB f X').
Proof.
  intros V H. destruct e_sq as (S1 & S2 & S3). unfold pih_m_atan_point. un. rel; (apply q_div; [|slv|slv]); apply nz_valid; [apply v_1sub|apply v_add1]; auto.
Qed.
Lemma e_acos f x x' : sval x <> Xn -> RR x x' -> Rres RI (acos_point A PA f x) (acos_point B PB f x').
Proof.
  intros N H. unfold acos_point. un. apply (rif (Rres RI)); [slv|intros _; reflexivity|intros C1]. apply (rif (Rres RI)); [slv|intros _; apply rres_ok; slv|intros C2].
  apply (rif (Rres RI)); [slv|intros _; apply rres_ok; slv|intros C3]. destruct (in_open x) as (v & Ev & D); auto.
  eapply (rbind RI); [eapply e_asin_arg; eauto|intros q q' Eq Hq]. apply e_pihm; auto.
  eapply isin_valid, (asin_arg_ok OK PA TL x v q); auto.
Qed.
Lemma e_iacos f X X' : ivalid X -> RI X X' -> Rres RI (iacos A PA f X) (iacos B PB f X').
Proof.
  intros V H. unfold iacos. eapply (rbind RI); [apply e_acos; [apply nn_hi; auto|slv]|intros].
  eapply (rbind RI); [apply e_acos; [apply nn_lo; auto|slv]|intros]. apply rres_ok; slv.
Qed.
Lemma e_atan2p f x x' y y' : RR x x' -> RR y y' -> Rres RI (atan2_point A PA f y x) (atan2_point B PB f y' x').
Proof. intros. unfold atan2_point. un. rel. Qed.
Lemma e_glue a a' b b' : Rres RI a a' -> Rres RI b b' -> Rres RI (glue A a b) (glue B a' b').
Proof. intros. unfold glue. eapply (rbind RI); [auto|intros]. eapply (rbind RI); [auto|intros]. apply rres_ok; slv. Qed.
Lemma e_iatan2 f X X' Y Y' : RI X X' -> RI Y Y' -> Rres RI (iatan2 A PA f Y X) (iatan2 B PB f Y' X').
Proof.
  intros. assert (G : forall x x' y y', RR x x' -> RR y y' -> Rres RI (atan2_point A PA f y x) (atan2_point B PB f y' x')) by (intros; apply e_atan2p; auto).
  unfold iatan2. un. cbv zeta.
  repeat (apply (rif (Rres RI)); [slv|intros|intros]); try (apply rres_ok; slv); try (apply e_glue; [apply G; slv|]; try (apply G; slv)).
  eapply (rbind RI); [apply G; slv|intros]. apply rres_ok; slv.
Qed.

(* hyperbolic *)
Lemma rep_nn (x : A) : sval x <> Xn -> exists w, rep A (sval x) w.
Proof. intros N. destruct (sval x) as [v| | |]; [exists v|exists (maxv A)|exists (- maxv A)|tauto]; simpl; auto; lra. Qed.
Lemma v_exp f (x : A) t : sval x <> Xn -> exp_point A PA f x = Ok t -> ivalid t.
Proof. intros N Et. destruct (rep_nn x N) as [w Hw]. eapply isin_valid, (exp_point_rep OK PA XL); eauto. Qed.
Lemma nn_neg (x : A) : sval x <> Xn -> sval (sneg x) <> Xn.
Proof. intros N. rewrite (sneg_v OK) by auto. destruct (sval x); simpl; congruence. Qed.
Lemma e_coshh : Rres RI (coshh A PA) (coshh B PB).
Proof. unfold coshh. un. rel. apply q_Sdiv; auto with par. apply nz_valid. eapply (valid_sqrt OK); eauto. apply v_e. Qed.
Lemma e_sinh_loop f : forall x x' m m' i r r' y y', RR x x' -> RI m m' -> RI r r' -> RI y y' ->
  Rres RI (sinh_loop A f x m i r y) (sinh_loop B f x' m' i r' y').
Proof. induction f; intros; cbn [sinh_loop]; un; [reflexivity|]. rel. Qed.
Lemma e_sinho f x x' : RR x x' -> Rres RI (sinh_origin A PA f x) (sinh_origin B PB f x').
Proof. intros. unfold sinh_origin. eapply (rbind RI); [apply e_coshh|intros]. apply e_sinh_loop; slv. Qed.
Lemma e_sinh f x x' : sval x <> Xn -> RR x x' -> Rres RI (sinh_point A PA f x) (sinh_point B PB f x').
Proof.
  intros N H. unfold sinh_point. un. rel; try (apply e_sinho; auto); (apply q_Sdiv; [|slv|slv]); apply nz_valid;
    match goal with K : exp_point _ _ _ ?e = Ok ?t |- ivalid ?t => apply (v_exp f e t); [auto using nn_neg|exact K] end.
Qed.
Lemma e_cosh f x x' : sval x <> Xn -> RR x x' -> Rres RI (cosh_point A PA f x) (cosh_point B PB f x').
Proof.
  intros N H. unfold cosh_point. un. rel; (apply q_Sdiv; [|slv|slv]); apply nz_valid;
    match goal with K : exp_point _ _ _ ?e = Ok ?t |- ivalid ?t => apply (v_exp f e t); [auto using nn_neg|exact K] end.
Qed.
Lemma e_isinh f X X' : ivalid X -> RI X X' -> Rres RI (isinh A PA f X) (isinh B PB f X').
Proof. intros. apply e_ends'; auto using e_sinh. Qed.
Lemma e_icosh f X X' : ivalid X -> RI X X' -> Rres RI (icosh A PA f X) (icosh B PB f X').
Proof.
  intros V H. unfold icosh. eapply (rbind RI); [apply e_cosh; [apply nn_lo; auto|slv]|intros].
  eapply (rbind RI); [apply e_cosh; [apply nn_hi; auto|slv]|intros]. apply rres_ok; slv.
Qed.
Lemma e_tanh f x x' : sval x <> Xn -> RR x x' -> Rres RI (tanh_point A PA f x) (tanh_point B PB f x').
Proof.
  intros N H. destruct (rep_nn x N) as [w Hw]. unfold tanh_point. un.
  apply (rif (Rres RI)); [slv|intros _|intros _; apply (rif (Rres RI)); [slv|intros _|intros _]].
  - eapply (rbind RI); [slv|intros t t' Et Ht]. eapply (rbind RI); [apply q_Sdiv; [|slv|slv]|intros; apply rres_ok; slv].
    apply nz_valid, v_1add. eapply v_exp; [|eauto]. destruct (xl_twice _ _ XL x w (WF x) Hw) as [_ K]. intros K2. unfold sint in K. rewrite K2 in K. elim K.
  - eapply (rbind RI); [slv|intros t t' Et Ht]. eapply (rbind RI); [apply q_Sdiv; [|slv|slv]|intros; apply rres_ok; slv].
    apply nz_valid, v_1add. eapply v_exp; [|eauto]. destruct (xl_mtwice _ _ XL x w (WF x) Hw) as [_ K]. intros K2. unfold sint in K. rewrite K2 in K. elim K.
  - eapply (rbind RI); [apply e_sinho; auto|intros]. eapply (rbind RI); [apply e_cosh; auto|intros c c' Ec Hc].
    apply q_div; auto. apply nz_valid. eapply isin_valid, (cosh_point_rep OK PA XL); eauto.
Qed.
Lemma e_itanh f X X' : ivalid X -> RI X X' -> Rres RI (itanh A PA f X) (itanh B PB f X').
Proof. intros. apply e_ends'; auto using e_tanh. Qed.
Lemma e_asinh f x x' : RR x x' -> Rres RI (asinh_point A PA f x) (asinh_point B PB f x').
Proof.
  intros H. unfold asinh_point. un.
  apply (rif (Rres RI)); [slv|intros C1|intros C1; apply (rif (Rres RI)); [slv|intros C2|intros C2]]; (eapply (rbind RI); [slv|intros a a' Ea Ha]).
  - apply e_rneg, e_ilog. slv.
  - assert (exists v, sval x = XR v) as (v & Ev).
    { apply (ok_le _ OK) in C2; auto. pose proof (shalf_v OK) as E2. unfold shalf in E2. rewrite E2 in C2. apply not_true_iff_false in C1.
      destruct (sval x) eqn:Ex; simpl in C2; try tauto; eauto. elim C1. apply (ok_lt _ OK); auto. rewrite Ex, (sneg_v OK), E2 by auto. simpl. auto. }
    eapply (rbind RI); [apply q_Sdiv; [|slv|slv]|intros; apply e_ilog1p; slv]. apply nz_valid, v_1add. eapply (valid_sqrt OK); [|eauto].
    apply v_1add. eapply isin_valid, (isin_sq OK); eauto.
  - apply e_ilog. slv.
Qed.
Lemma e_iasinh f X X' : RI X X' -> Rres RI (iasinh A PA f X) (iasinh B PB f X').
Proof. intros. apply e_ends; auto using e_asinh. Qed.
Lemma e_acosh f x x' : RR x x' -> Rres RI (acosh_point A PA f x) (acosh_point B PB f x').
Proof. intros H. unfold acosh_point. un. rel; [apply e_ilog1p|apply e_ilog]; slv. Qed.
Lemma e_iacosh f X X' : RI X X' -> Rres RI (iacosh A PA f X) (iacosh B PB f X').
Proof. intros. apply e_ends; auto using e_acosh. Qed.
Lemma e_atanh f x x' : sval x <> Xn -> RR x x' -> Rres RI (atanh_point A PA f x) (atanh_point B PB f x').
Proof.
  intros N H. unfold atanh_point. un. apply (rif (Rres RI)); [slv|intros _; reflexivity|intros C1]. apply (rif (Rres RI)); [slv|intros _; apply rres_ok; slv|intros C2].
  apply (rif (Rres RI)); [slv|intros _; apply rres_ok; slv|intros C3]. destruct (in_open x) as (v & Ev & D); auto. pose proof (v_pt x v Ev) as VX.
  apply (rif (Rres RI)); [slv|intros _|intros _; apply (rif (Rres RI)); [slv|intros _|intros _]].
  - eapply (rbind RI); [apply q_Sdiv; [apply nz_valid, v_1sub, VX|slv|slv]|intros]. eapply (rbind RI); [apply e_ilog; auto|intros]. apply rres_ok; slv.
  - eapply (rbind RI); [apply q_Sdiv; [apply nz_valid, v_1sub, VX|slv|slv]|intros]. eapply (rbind RI); [apply e_ilog1p; auto|intros]. apply rres_ok; slv.
  - eapply (rbind RI); [slv|intros]. eapply (rbind RI); [apply e_ilog; auto|intros]. apply rres_ok; slv.
Qed.
Lemma e_iatanh f X X' : ivalid X -> RI X X' -> Rres RI (iatanh A PA f X) (iatanh B PB f X').
Proof. intros. apply e_ends'; auto using e_atanh. Qed.
Lemma ufun_rel fuel f X X' : ivalid X -> RI X X' -> Rres RI (ufun_i PA fuel f X) (ufun_i PB fuel f X').
Proof.
  intros V H. destruct f; cbn [ufun_i]; auto using e_iexp, e_iexpm1, e_ilog, e_ilog1p, e_isin, e_icos, e_itan, e_iatan, e_iasin, e_iacos, e_isinh, e_icosh, e_itanh,
    e_iasinh, e_iacosh, e_iatanh.
Qed.
(* a valid argument gives a valid result *)
Lemma v_ilog f (X Q : iv A) : ivalid X -> ilog A PA f X = Ok Q -> ivalid Q.
Proof.
  intros V Hq. destruct (valid_isin X V) as [x Hx]. destruct (Rlt_or_le 0 x) as [Px|Nx].
  { eapply isin_valid, (ilog_encl OK PA LL); eauto. }
  pose proof Hx as (W1 & W2 & L1 & U1). unfold ilog in Hq. destruct (slt (lo X) s0) eqn:C; [discriminate|].
  apply bind_ok in Hq as (a & Ea & Hq). apply bind_ok in Hq as (b & Eb & Hq). injection Hq as <-.
  assert (exists w, ub (sval b) w /\ 0 <= 0) as (w & Hw & _).
  { destruct (sval (hi X)) as [u| | |] eqn:Eu; simpl in U1; try tauto.
    - destruct (Rlt_or_le 0 u) as [Pu|Nu].
      + exists (ln u). split; [|lra]. apply (log_point_hi OK PA LL f (hi X) b u); auto. rewrite Eu. simpl. lra.
      + assert (u = 0).
        { apply (slt_false OK) in C; auto; try congruence; [|intros K; rewrite K in L1; exact L1|rewrite (s0_v OK); discriminate]. rewrite (s0_v OK) in C.
          destruct (sval (lo X)); simpl in *; try tauto; lra. }
        subst u. unfold log_point in Eb. apply bind_ok in Eb as (s & _ & Eb).
        assert (seqb (hi X) spinf = false) as C1.
        { apply not_true_is_false. intros K. apply (ok_eq _ OK) in K; auto. destruct (ok_pinf _ OK) as [_ EI]. rewrite EI, Eu in K. auto. }
        assert (seqb (hi X) s0 = true) as C2 by (apply (ok_eq _ OK); auto; rewrite (s0_v OK), Eu; simpl; auto).
        rewrite C1, C2 in Eb. injection Eb as <-. destruct (maxv_v OK) as [EM _]. exists (- maxv A). rewrite (sneg_v OK), EM by auto. simpl. lra.
    - exists 0. split; [|lra]. replace 0 with (ln 1) by apply ln_1. apply (log_point_hi OK PA LL f (hi X) b 1); auto; [|lra]. rewrite Eu. simpl. auto. }
  apply (isin_valid _ w). apply isin_ends; auto; cbn [lo hi]; auto.
  rewrite <- (ln_exp w). refine (proj2 (log_point_lo OK PA LL f (lo X) a (exp w) _ _ (exp_pos w) Ea)); auto.
  eapply lb_le; [exact L1|]. pose proof (exp_pos w). lra.
Qed.
Lemma v_ilog1p f (X Q : iv A) : ivalid X -> ilog1p A PA f X = Ok Q -> ivalid Q.
Proof.
  intros V Hq. destruct (valid_isin X V) as [x Hx]. destruct (Rlt_or_le (-1) x) as [Px|Nx].
  { eapply isin_valid, (ilog1p_encl OK PA LL); eauto. }
  pose proof Hx as (W1 & W2 & L1 & U1). unfold ilog1p in Hq. destruct (slt (lo X) (sneg s1)) eqn:C; [discriminate|].
  assert (M : sval (sneg (@s1 A)) = XR (-1)) by (rewrite (sneg_v OK), (s1_v OK) by auto; reflexivity).
  apply (slt_false OK) in C; auto; try congruence; [|intros K; rewrite K in L1; exact L1]. rewrite M in C.
  assert (F : is_fin (sval (lo X))) by (destruct (sval (lo X)); simpl in *; tauto).
  apply bind_ok in Hq as (a & Ea & Hq). apply bind_ok in Hq as (b & Eb & Hq). injection Hq as <-.
  assert (exists w, ub (sval b) w /\ 0 <= 0) as (w & Hw & _).
  { destruct (sval (hi X)) as [u| | |] eqn:Eu; simpl in U1; try tauto.
    - destruct (Rlt_or_le (-1) u) as [Pu|Nu].
      + exists (ln (1 + u)). split; [|lra]. apply (log1p_point_hi OK PA LL f (hi X) b u); auto. rewrite Eu. simpl. lra.
      + assert (u = -1) by (destruct (sval (lo X)); simpl in *; try tauto; lra). subst u.
        unfold log1p_point in Eb. destruct (sle (sneg (th5 A PA)) (hi X) && sle (hi X) (th5 A PA)) eqn:T.
        { destruct (th5_test OK PA LL _ (WF _) T) as (r & Er & Hr). rewrite Eu in Er. injection Er as <-. rewrite Rabs_left in Hr by lra. lra. }
        cbn [pick] in Eb. destruct (isin_Sadd OK (hi X) (ipt s1) 1 (-1) W2 Eu (isin_1 OK)) as (_ & B2 & _ & B4).
        set (h := hi (iSadd (hi X) (ipt s1))) in *. clearbody h. replace (-1 + 1) with 0 in B4 by ring.
        assert (VV : ivalid (mkiv (@s0 A) h)). { apply (isin_valid _ 0). apply isin_ends; auto; cbn [lo hi]; auto. rewrite (s0_v OK). simpl. lra. }
        destruct (sval h) as [u| | |] eqn:Eh; simpl in B4; try tauto.
        * destruct (Rlt_or_le 0 u) as [Pu|Nu'].
          -- exists (ln u). split; [|lra]. apply (log_point_hi OK PA LL f h b u); auto. rewrite Eh. simpl. lra.
          -- assert (u = 0) by lra. subst u. unfold log_point in Eb. apply bind_ok in Eb as (s & _ & Eb).
             assert (seqb h spinf = false) as C1.
             { apply not_true_is_false. intros K. apply (ok_eq _ OK) in K; auto. destruct (ok_pinf _ OK) as [_ EI]. rewrite EI, Eh in K. auto. }
             assert (seqb h s0 = true) as C2 by (apply (ok_eq _ OK); auto; rewrite (s0_v OK), Eh; simpl; auto).
             rewrite C1, C2 in Eb. injection Eb as <-. destruct (maxv_v OK) as [EM _]. exists (- maxv A). rewrite (sneg_v OK), EM by auto. simpl. lra.
        * exists 0. split; [|lra]. replace 0 with (ln 1) by apply ln_1. apply (log_point_hi OK PA LL f h b 1); auto; [|lra]. rewrite Eh. simpl. auto.
    - exists (ln (1 + 0)). split; [|lra]. apply (log1p_point_hi OK PA LL f (hi X) b 0); auto; [|lra]. rewrite Eu. simpl. auto. }
  apply (isin_valid _ w). apply isin_ends; auto; cbn [lo hi]; auto.
  rewrite <- (ln_exp w). replace (exp w) with (1 + (exp w - 1)) by ring. pose proof (exp_pos w).
  refine (proj2 (log1p_point_lo OK PA LL f (lo X) a (exp w - 1) _ _ F _ Ea)); auto; [|lra].
  eapply lb_le; [exact L1|]. lra.
Qed.
Lemma v_iatanh f (X Q : iv A) : ivalid X -> iatanh A PA f X = Ok Q -> ivalid Q.
Proof.
  intros V Hq. destruct (valid_isin X V) as [x Hx]. pose proof Hx as (W1 & W2 & L1 & U1). 
  pose proof Hq as Hq'. unfold iatanh, by_ends in Hq. apply bind_ok in Hq as (a & Ea & Hq). apply bind_ok in Hq as (b & Eb & Hq). injection Hq as <-.
  assert (M : sval (sneg (@s1 A)) = XR (-1)) by (rewrite (sneg_v OK), (s1_v OK) by auto; reflexivity).
  destruct (sval (lo X)) as [l| | |] eqn:El; simpl in L1; try tauto.
  2:{ exfalso. unfold atanh_point in Ea. assert (slt (lo X) (sneg s1) = true) as C by (apply (ok_lt _ OK); auto; rewrite El, M; simpl; auto). rewrite C in Ea. discriminate. }
  destruct (sval (hi X)) as [h| | |] eqn:Eh; simpl in U1; try tauto.
  2:{ exfalso. unfold atanh_point in Eb. assert (slt s1 (hi X) = true) as C by (apply (ok_lt _ OK); auto; rewrite Eh, (s1_v OK); simpl; auto). rewrite C, orb_true_r in Eb. discriminate. }
  pose proof (atanh_point_dom OK PA _ _ _ _ W1 El Ea) as D1. pose proof (atanh_point_dom OK PA _ _ _ _ W2 Eh Eb) as D2.
  destruct (Req_dec l h) as [->|NE].
  2:{ eapply isin_valid, (iatanh_encl OK PA LL f X ((l + h) / 2)); eauto; [|lra]. apply isin_ends; auto; [rewrite El|rewrite Eh]; simpl; lra. }
  destruct (Req_dec h 1) as [->|N1]; [|destruct (Req_dec h (-1)) as [->|N2]].
  - assert (G : forall (e : A) q, sval e = XR 1 -> atanh_point A PA f e = Ok q -> q = mkiv smax spinf).
    { intros e q Ee Hh. unfold atanh_point in Hh. destruct (slt e (sneg s1) || slt s1 e); [discriminate|].
      destruct (seqb e (sneg s1)) eqn:C1. { apply (ok_eq _ OK) in C1; auto. rewrite M, Ee in C1. simpl in C1. lra. }
      assert (seqb e s1 = true) as C by (apply (ok_eq _ OK); auto; rewrite (s1_v OK), Ee; simpl; lra). rewrite C in Hh. injection Hh as <-. auto. }
    rewrite (G _ _ El Ea), (G _ _ Eh Eb). cbn [lo hi]. destruct (maxv_v OK) as [EM _]. destruct (ok_pinf _ OK) as [WI EI].
    apply (isin_valid _ (maxv A)). apply isin_ends; auto; cbn [lo hi]; [rewrite EM|rewrite EI]; simpl; auto; lra.
  - assert (G : forall (e : A) q, sval e = XR (-1) -> atanh_point A PA f e = Ok q -> q = mkiv sninf (sneg smax)).
    { intros e q Ee Hh. unfold atanh_point in Hh. destruct (slt e (sneg s1) || slt s1 e); [discriminate|].
      assert (seqb e (sneg s1) = true) as C by (apply (ok_eq _ OK); auto; rewrite M, Ee; simpl; lra). rewrite C in Hh. injection Hh as <-. auto. }
    rewrite (G _ _ El Ea), (G _ _ Eh Eb). cbn [lo hi]. destruct (maxv_v OK) as [EM _]. destruct (ok_ninf _ OK) as [WI EI].
    apply (isin_valid _ (- maxv A)). apply isin_ends; auto; cbn [lo hi]; [rewrite EI|rewrite (sneg_v OK), EM by auto]; simpl; auto; lra.
  - eapply isin_valid, (iatanh_encl OK PA LL f X h); eauto; [|lra]. apply isin_ends; auto; [rewrite El|rewrite Eh]; simpl; lra.
Qed.
Lemma v_ufun fuel f (X Q : iv A) : ivalid X -> ufun_i PA fuel f X = Ok Q -> ivalid Q.
Proof.
  intros V Hq. destruct (valid_isin X V) as [x Hx]. destruct f; cbn [ufun_i] in Hq.
  - eapply isin_valid, (iexp_encl OK PA XL); eauto.
  - eapply isin_valid, (iexpm1_encl OK PA XL); eauto.
  - eapply v_ilog; eauto.
  - eapply v_ilog1p; eauto.
  - eapply isin_valid, (sin_encl OK PA TL); eauto.
  - eapply isin_valid, (cos_encl OK PA TL); eauto.
  - eapply isin_valid, (tan_encl OK PA TL); eauto.
  - eapply isin_valid, (iatan_encl OK PA TL); eauto.
  - eapply isin_valid, (iasin_encl OK PA TL fuel X x Q); eauto.
  - eapply isin_valid, (iacos_encl OK PA TL fuel X x Q); eauto.
  - eapply isin_valid, (isinh_encl OK PA XL); eauto.
  - eapply isin_valid, (icosh_encl OK PA XL); eauto.
  - eapply isin_valid, (itanh_encl OK PA XL); eauto.
  - eapply isin_valid, (iasinh_encl OK PA LL); eauto.
  - eapply isin_valid, (iacosh_encl OK PA LL fuel X x Q); eauto.
  - eapply v_iatanh; eauto.
Qed.
(* expressions *)
Lemma v_expr fuel ea : (forall n, ivalid (ea n)) -> forall e Q, cst_ok e -> ieval (ufun_i PA fuel) ea e = Ok Q -> ivalid Q.
Proof.
  intros V e. induction e; simpl; intros Q C Hq.
  - injection Hq as <-; auto.
  - injection Hq as <-. destruct (ok_dy _ OK m e) as [_ Ev]; try tauto. eapply v_pt, Ev.
  - destruct C. apply bind_ok in Hq as (a & Ea & Hq). apply bind_ok in Hq as (b & Eb & Hq). injection Hq as <-. apply (valid_add OK); auto.
  - destruct C. apply bind_ok in Hq as (a & Ea & Hq). apply bind_ok in Hq as (b & Eb & Hq). injection Hq as <-. apply (valid_sub OK); auto.
  - destruct C. apply bind_ok in Hq as (a & Ea & Hq). apply bind_ok in Hq as (b & Eb & Hq). injection Hq as <-. apply (valid_mul OK); auto.
  - destruct C. apply bind_ok in Hq as (a & Ea & Hq). apply bind_ok in Hq as (b & Eb & Hq). apply (valid_div OK a b); auto.
  - apply bind_ok in Hq as (a & Ea & Hq). injection Hq as <-. apply (valid_neg OK); auto.
  - apply bind_ok in Hq as (a & Ea & Hq). apply (valid_sqrt OK a); auto.
  - apply bind_ok in Hq as (a & Ea & Hq). apply (valid_pow OK a n); auto.
  - apply bind_ok in Hq as (a & Ea & Hq). injection Hq as <-. apply (valid_abs OK); auto.
  - destruct C. apply bind_ok in Hq as (a & Ea & Hq). apply bind_ok in Hq as (b & Eb & Hq). injection Hq as <-. apply (valid_max OK); auto.
  - destruct C. apply bind_ok in Hq as (a & Ea & Hq). apply bind_ok in Hq as (b & Eb & Hq). injection Hq as <-. apply (valid_min OK); auto.
  - apply bind_ok in Hq as (a & Ea & Hq). apply (v_ufun fuel f a); auto.
Qed.
Lemma expr_rel fuel ea eb e : (forall n, ivalid (ea n)) -> (forall n, RI (ea n) (eb n)) -> cst_ok e ->
  Rres RI (ieval (ufun_i PA fuel) ea e) (ieval (ufun_i PB fuel) eb e).
Proof.
  intros V HE. pose proof (v_expr fuel ea V) as VV. 
  induction e; simpl; intros C.
  - apply HE.
  - apply rres_ok; slv.
  - destruct C as [C1 C2]. eapply rbind; [apply IHe1; auto|intros X X' EX HX]. eapply rbind; [apply IHe2; auto|intros Y Y' EY HY]. apply rres_ok; slv.
  - destruct C as [C1 C2]. eapply rbind; [apply IHe1; auto|intros X X' EX HX]. eapply rbind; [apply IHe2; auto|intros Y Y' EY HY]. apply rres_ok; slv.
  - destruct C as [C1 C2]. eapply rbind; [apply IHe1; auto|intros X X' EX HX]. eapply rbind; [apply IHe2; auto|intros Y Y' EY HY]. apply rres_ok; slv.
  - destruct C as [C1 C2]. eapply rbind; [apply IHe1; auto|intros X X' EX HX]. eapply rbind; [apply IHe2; auto|intros Y Y' EY HY].
    apply q_div; auto. apply nz_valid. eauto.
  - eapply rbind; [apply IHe; auto|intros X X' EX HX]. apply rres_ok; slv.
  - eapply rbind; [apply IHe; auto|intros X X' EX HX]. slv.
  - eapply rbind; [apply IHe; auto|intros X X' EX HX]. apply p_pow; eauto.
  - eapply rbind; [apply IHe; auto|intros X X' EX HX]. apply p_abs; auto.
  - destruct C as [C1 C2]. eapply rbind; [apply IHe1; auto|intros X X' EX HX]. eapply rbind; [apply IHe2; auto|intros Y Y' EY HY]. apply p_max; auto.
  - destruct C as [C1 C2]. eapply rbind; [apply IHe1; auto|intros X X' EX HX]. eapply rbind; [apply IHe2; auto|intros Y Y' EY HY]. apply p_min; auto.
  - eapply rbind; [apply IHe; auto|intros X X' EX HX]. apply ufun_rel; eauto.
Qed.
End Param.

(* the double back ends *)
Section V.
Variables au ad su sd mu md du dd : b64 -> b64 -> b64. Variables qu qd : b64 -> b64.
Variables au' ad' su' sd' mu' md' du' dd' : b64 -> b64 -> b64. Variables qu' qd' : b64 -> b64.
Hypothesis I1 : ideal64 au ad su sd mu md du dd qu qd.
Hypothesis I2 : ideal64 au' ad' su' sd' mu' md' du' dd' qu' qd'.
Notation SA := (mk64 au ad su sd mu md du dd qu qd).
Notation SB := (mk64 au' ad' su' sd' mu' md' du' dd' qu' qd').
Notation PA := (P64 au ad su sd mu md du dd qu qd).
Notation PB := (P64 au' ad' su' sd' mu' md' du' dd' qu' qd').
Lemma narrow_nz (C : iv SA) c : narrow C c -> 1 <= c -> seqb (lo C) s0 = false.
Proof.
  intros (_ & _ & a & b & Ea & Eb & H1 & H2) Hc. apply not_true_iff_false. intros Q. apply Beqb_v in Q. change (v64 (lo C)) with (sval (lo C)) in Q.
  rewrite Ea in Q. simpl in Q. assert (bpow radix2 (-30) <= bpow radix2 (-1)) by (apply bpow_le; lia). simpl (bpow radix2 (-1)) in H. lra.
Qed.
Lemma erel64 : erel SA SB vrel PA PB.
Proof.
  constructor.
  - intros x x' y y' H H0. cbv [mk64 nsub]. unfold vrel. rewrite !Bminus_v, H, H0. auto.
  - intros x x' y y' H H0 H1. cbv [mk64 ndiv seqb s0] in *. assert (v64 y <> XR 0). { intros K. apply not_true_iff_false in H1. apply H1, Beqb_v. rewrite K. simpl. auto. }
    unfold vrel. rewrite !Bdiv_v, H, H0; auto. rewrite <- H0; auto.
  - reflexivity. - reflexivity. - reflexivity.
  - split; reflexivity. - split; reflexivity. - split; reflexivity.
  - intros x x' H. destruct (vrel_cases _ _ H) as [->|(s & t & -> & ->)]; reflexivity.
  - pose proof (tl_narrow _ _ (trig_laws64 _ _ _ _ _ _ _ _ _ _ I1)) as N. pose proof PI_RGT_0. pose proof pi_gt. split.
    + apply (narrow_nz _ PI); [|lra]. apply N. unfold extrema. cbn [List.In]. tauto.
    + apply (narrow_nz _ (2 * PI)); [|lra]. apply N. unfold extrema, pi2. cbn [List.In]. tauto.
  - intros x x' H. cbv [nsqrt P64]. unfold vrel. rewrite !Bsqrt_v, H. auto.
Qed.
End V.
