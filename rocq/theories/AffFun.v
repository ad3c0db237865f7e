(* Joint enclosure of the nonlinear operations of affine arithmetic. *)
From Coq Require Import Reals Lra Lia Psatz ZArith Bool List Arith.
From Flocq Require Import Core.
From Verif Require Import Ext Scalar IntervalModel IntervalSpec IntervalProofs IntervalEncl IntervalSets IntervalDivPow IntervalMore
  ElemModel RealFun RealInv ElemGen ElemExp ElemLog ElemTrig ADModel ADReal ADInst AffModel AffSpec AffProofs.
Import ListNotations.
Open Scope R_scope.

(* real facts: f(v) - a*v on [l,u] for a convex or concave f *)
Lemma conv_max (fl fv fu l v u a s : R) : l <= v <= u -> fv + s * (l - v) <= fl -> fv + s * (u - v) <= fu ->
  fv - a * v <= fl - a * l \/ fv - a * v <= fu - a * u.
Proof. intros H A B. destruct (Rle_dec s a); [left|right]; nra. Qed.
Lemma conc_min (fl fv fu l v u a s : R) : l <= v <= u -> fl <= fv + s * (l - v) -> fu <= fv + s * (u - v) ->
  fl - a * l <= fv - a * v \/ fu - a * u <= fv - a * v.
Proof. intros H A B. destruct (Rle_dec s a); [right|left]; nra. Qed.
Lemma inv_tan v w : 0 < v -> 0 < w -> 1 / v + (- (/ v * / v)) * (w - v) <= 1 / w.
Proof.
  intros V W. assert (E : 1 / w - (1 / v + (- (/ v * / v)) * (w - v)) = (w - v) * (w - v) * (/ w * (/ v * / v))) by (field; lra).
  assert (0 <= (w - v) * (w - v) * (/ w * (/ v * / v))); [|lra].
  apply Rmult_le_pos; [apply Rle_0_sqr|]. pose proof (Rinv_0_lt_compat _ W). pose proof (Rinv_0_lt_compat _ V). apply Rmult_le_pos; [lra|apply Rmult_le_pos; lra].
Qed.
Lemma inv_tan_neg v w : v < 0 -> w < 0 -> 1 / w <= 1 / v + (- (/ v * / v)) * (w - v).
Proof.
  intros V W. pose proof (inv_tan (- v) (- w) ltac:(lra) ltac:(lra)) as K.
  replace (1 / - v) with (- (1 / v)) in K by (field; lra). replace (1 / - w) with (- (1 / w)) in K by (field; lra).
  replace (/ - v * / - v) with (/ v * / v) in K by (field; lra). lra.
Qed.
Lemma inv_am a v : 0 <= - a -> 0 < v -> 2 * sqrt (- a) <= 1 / v - a * v.
Proof.
  intros A V. pose proof (sqrt_sqrt _ A) as S2. set (s := sqrt (- a)) in *. assert (EA : a = - (s * s)) by lra. rewrite EA.
  assert (E : 1 / v - - (s * s) * v - 2 * s = (1 - s * v) * (1 - s * v) * / v) by (field; lra).
  assert (0 <= (1 - s * v) * (1 - s * v) * / v); [|lra]. apply Rmult_le_pos; [apply Rle_0_sqr|]. left. apply Rinv_0_lt_compat; auto.
Qed.
Lemma inv_am_neg a v : 0 <= - a -> v < 0 -> 1 / v - a * v <= - 2 * sqrt (- a).
Proof.
  intros A V. pose proof (inv_am a (- v) A ltac:(lra)) as K. replace (1 / - v) with (- (1 / v)) in K by (field; lra). lra.
Qed.
Lemma exp_tan v w : exp v + exp v * (w - v) <= exp w.
Proof.
  pose proof (exp_ineq1_le (w - v)) as K. pose proof (exp_pos v). assert (E : exp w = exp v * exp (w - v)).
  { rewrite <- exp_plus. f_equal. lra. } rewrite E. nra.
Qed.
Lemma exp_min a v : 0 < a -> a * (1 - ln a) <= exp v - a * v.
Proof. intros A. pose proof (exp_tan (ln a) v) as K. rewrite exp_ln in K by auto. lra. Qed.
Lemma ln_tan v w : 0 < v -> 0 < w -> ln w <= ln v + / v * (w - v).
Proof.
  intros V W. pose proof (exp_ineq1_le (ln (w / v))) as K. assert (0 < w / v) by (apply Rdiv_lt_0_compat; auto).
  rewrite exp_ln in K by auto. unfold Rdiv in K. rewrite ln_mult, ln_Rinv in K by (auto; apply Rinv_0_lt_compat; auto).
  assert (/ v * (w - v) = w * / v - 1) by (field; lra). lra.
Qed.
Lemma ln_max a v : 0 < a -> 0 < v -> ln v - a * v <= ln (1 / a) - 1.
Proof.
  intros A V. pose proof (Rinv_0_lt_compat _ A) as IA. replace (1 / a) with (/ a) by (field; lra).
  pose proof (ln_tan (/ a) v IA V) as K. rewrite Rinv_inv in K. assert (a * (v - / a) = a * v - 1) by (field; lra). lra.
Qed.
Lemma sqrt_tan v w : 0 < v -> 0 <= w -> sqrt w <= sqrt v + / (2 * sqrt v) * (w - v).
Proof.
  intros V W. pose proof (sqrt_lt_R0 _ V) as P. pose proof (sqrt_sqrt v ltac:(lra)) as E1. pose proof (sqrt_sqrt w W) as E2.
  pose proof (sqrt_pos w). set (s := sqrt v) in *. set (t := sqrt w) in *. rewrite <- E1, <- E2.
  assert (E : s + / (2 * s) * (t * t - s * s) - t = (t - s) * (t - s) * / (2 * s)) by (field; lra).
  assert (0 <= (t - s) * (t - s) * / (2 * s)); [|lra]. apply Rmult_le_pos; [apply Rle_0_sqr|]. left. apply Rinv_0_lt_compat; lra.
Qed.
Lemma sqrt_max a v : 0 < a -> 0 <= v -> sqrt v - a * v <= 1 / (4 * a).
Proof.
  intros A V. pose proof (sqrt_sqrt _ V) as E. set (s := sqrt v) in *. rewrite <- E.
  assert (E2 : 1 / (4 * a) - (s - a * (s * s)) = (1 - 2 * a * s) * (1 - 2 * a * s) * / (4 * a)) by (field; lra).
  assert (0 <= (1 - 2 * a * s) * (1 - 2 * a * s) * / (4 * a)); [|lra]. apply Rmult_le_pos; [apply Rle_0_sqr|]. left. apply Rinv_0_lt_compat; lra.
Qed.

Section Fun.
Context {S : scal} (OK : scal_ok S) (AL : aff_laws S).
Notation iv := (iv S). Notation form := (form S).

Lemma isin_convex (X : iv) p q w : isin X p -> isin X q -> p <= w <= q -> isin X w.
Proof.
  intros (W1 & W2 & A & B) (_ & _ & A' & B') H. split; [auto|]. split; [auto|].
  split; [destruct (sval (lo X))|destruct (sval (hi X))]; simpl in *; auto; lra.
Qed.
Lemma range3 (R0 A B : iv) (p a b w : R) : isin R0 p -> isin A a -> isin B b ->
  p <= w \/ a <= w \/ b <= w -> w <= p \/ w <= a \/ w <= b -> isin (hull (hull R0 A) B) w.
Proof.
  intros HP HA HB LO UP. pose proof (isin_hull_l OK _ A _ HP (isin_valid _ _ HA)) as P1.
  pose proof (isin_hull_l OK _ B _ P1 (isin_valid _ _ HB)) as P2.
  pose proof (isin_hull_r OK R0 _ _ (isin_valid _ _ HP) HA) as A1.
  pose proof (isin_hull_l OK _ B _ A1 (isin_valid _ _ HB)) as A2.
  pose proof (isin_hull_r OK (hull R0 A) _ _ (isin_valid _ _ A1) HB) as B2.
  destruct LO as [LO|[LO|LO]], UP as [UP|[UP|UP]]; eapply isin_convex; try exact (conj LO UP); eauto.
Qed.
Lemma pt_rv (c : S) : fin c -> isin (ipt c) (rv c).
Proof. intros F. apply isin_pt; [apply (wf AL)|apply fin_ex; auto]. Qed.
Lemma slt0_f (c : S) : fin c -> (slt c s0 = true <-> rv c < 0).
Proof.
  intros F. rewrite (ok_lt _ OK) by apply (wf AL). rewrite (fin_ex _ F), (fin_ex _ (proj1 (s0_f OK))), (proj2 (s0_f OK)). simpl. tauto.
Qed.
Lemma slt0'_f (c : S) : fin c -> (slt s0 c = true <-> 0 < rv c).
Proof.
  intros F. rewrite (ok_lt _ OK) by apply (wf AL). rewrite (fin_ex _ F), (fin_ex _ (proj1 (s0_f OK))), (proj2 (s0_f OK)). simpl. tauto.
Qed.
Lemma sle0_f (c : S) : fin c -> (sle c s0 = true <-> rv c <= 0).
Proof.
  intros F. rewrite (ok_le _ OK) by apply (wf AL). rewrite (fin_ex _ F), (fin_ex _ (proj1 (s0_f OK))), (proj2 (s0_f OK)). simpl. tauto.
Qed.
Ltac inv H := let y := fresh "q" in let E := fresh "E" in apply bind_ok in H as (y & E & H).
Ltac fx c := (apply (wf AL)).
Lemma fin_v (c : S) : fin c -> swf c /\ sval c = XR (rv c). Proof. intros; split; [apply (wf AL)|now apply fin_ex]. Qed.
Lemma int_v z : (-4 <= z <= 4)%Z -> swf (@sint S z) /\ sval (@sint S z) = XR (IZR z).
Proof. intros. apply (sint_ok OK). lia. Qed.

Lemma isin_mul0 (a : S) (Y : iv) : fin a -> rv a = 0 -> isin (imul (ipt a) Y) 0.
Proof.
  intros F Z. unfold imul. cbn [ipt lo hi]. pose proof (fin_ex _ F) as E. rewrite Z in E.
  assert (A : sle s0 a = true) by (apply (ok_le _ OK); try apply (wf AL); rewrite E, (s0_v OK); simpl; lra).
  assert (B : seqb a s0 = true) by (apply (ok_eq _ OK); try apply (wf AL); rewrite E, (s0_v OK); simpl; lra).
  rewrite A, B. unfold i0. apply isin_pt; [apply (wf AL)|apply (s0_v OK)].
Qed.
(* the end of the range computation: f(c) - a*c at a finite point c *)
Lemma end_isin (q : iv) (a c : S) (v : R) : fin a -> fin c -> isin q v -> isin (isub q (iSmul a (ipt c))) (v - rv a * rv c).
Proof.
  intros FA FC H. apply (isin_sub OK); auto. apply (isin_Smul OK); try (apply fin_v; auto). apply pt_rv; auto.
Qed.

Section Op.
Variables (m : nat) (x : form) (e : nat -> R) (u : R).
Hypothesis (OX : over m x) (AS : assignment e) (RX : frep e x u) (FR : frange x).
Let FL : fin (lo (to_iv x)) := proj1 FR.
Let FU : fin (hi (to_iv x)) := proj2 FR.
Let BX : rv (lo (to_iv x)) <= u <= rv (hi (to_iv x)) := to_iv_ok OK AL e x u AS RX FR.

Lemma ainv_ok r : ainv m x = Ok r -> ffin (snd r) -> u <> 0 /\ newsym m e r (1 / u).
Proof.
  intros H F. unfold ainv in H. set (l := lo (to_iv x)) in *. set (h := hi (to_iv x)) in *.
  destruct (slt l s0 && slt s0 h) eqn:Z; [discriminate|]. apply andb_false_iff in Z.
  inv H. inv H. inv H. set (a := ndiv (sneg s1) (nmul l h)) in *.
  destruct (isin_Sdiv OK _ _ _ 1 (rv l) E0 (s1_wf OK) (s1_v OK) (pt_rv _ FL)) as [NL IL].
  destruct (isin_Sdiv OK _ _ _ 1 (rv h) E1 (s1_wf OK) (s1_v OK) (pt_rv _ FU)) as [NU IU].
  assert (SG : (slt s0 h = true /\ 0 < rv l) \/ (slt s0 h = false /\ rv h < 0)).
  { destruct (slt s0 h) eqn:SH.
    - left. split; auto. destruct Z as [Z|Z]; [|discriminate]. destruct (Rlt_dec (rv l) 0) as [D|D]; [|lra].
      apply (slt0_f _ FL) in D. congruence.
    - right. split; auto. destruct (Rlt_dec 0 (rv h)) as [D|D]; [apply (slt0'_f _ FU) in D; congruence|lra]. }
  assert (NZ : u <> 0) by (destruct SG as [[_ ?]|[_ ?]]; lra). split; auto.
  eapply (linfin_ok OK AL); eauto. intros FA.
  destruct (isin_sqrt OK _ _ _ E (isin_neg OK _ _ (pt_rv _ FA))) as [NA IA].
  destruct (int_v 2 ltac:(lia)) as [W2 V2].
  destruct SG as [[SH P]|[SH P]]; rewrite SH.
  - apply (range3 _ _ _ (2 * sqrt (- rv a)) (1 / rv l - rv a * rv l) (1 / rv h - rv a * rv h)).
    + apply (isin_Smul OK); auto.
    + apply end_isin; auto.
    + apply end_isin; auto.
    + left. apply inv_am; lra.
    + right. apply (conv_max _ _ _ _ _ _ _ (- (/ u * / u))); [auto| |]; apply inv_tan; lra.
  - assert (VN : swf (sneg (@sint S 2)) /\ sval (sneg (@sint S 2)) = XR (- 2)).
    { destruct (ok_neg _ OK _ W2) as [WN EN]. split; auto. rewrite EN, V2. simpl. f_equal. }
    apply (range3 _ _ _ (- 2 * sqrt (- rv a)) (1 / rv l - rv a * rv l) (1 / rv h - rv a * rv h)).
    + apply (isin_Smul OK); tauto.
    + apply end_isin; auto.
    + apply end_isin; auto.
    + right. apply (conc_min _ _ _ _ _ _ _ (- (/ u * / u))); [auto| |]; apply inv_tan_neg; lra.
    + left. apply inv_am_neg; lra.
Qed.

Lemma asqrt_ok P r : asqrt P m x = Ok r -> ffin (snd r) -> 0 <= u /\ newsym m e r (sqrt u).
Proof.
  intros H F. unfold asqrt in H. set (l := lo (to_iv x)) in *. set (h := hi (to_iv x)) in *.
  destruct (slt l s0) eqn:Z; [discriminate|].
  assert (PL : 0 <= rv l). { destruct (Rlt_dec (rv l) 0) as [D|D]; [apply (slt0_f _ FL) in D; congruence|lra]. }
  inv H. inv H. inv H. split; [lra|]. eapply (linfin_ok OK AL); eauto. intros FA. set (a := ndiv s1 _) in *.
  destruct (isin_sqrt OK _ _ _ E0 (pt_rv _ FL)) as [_ IL]. destruct (isin_sqrt OK _ _ _ E1 (pt_rv _ FU)) as [_ IU].
  destruct (int_v 4 ltac:(lia)) as [W4 V4].
  destruct (isin_Sdiv OK _ _ _ 1 (4 * rv a) E (s1_wf OK) (s1_v OK)) as [NA IA].
  { apply (isin_Smul OK); auto. apply pt_rv; auto. }
  apply (range3 _ _ _ (1 / (4 * rv a)) (sqrt (rv l) - rv a * rv l) (sqrt (rv h) - rv a * rv h)); auto using end_isin.
  - right. destruct (Rle_lt_dec u 0) as [D|D].
    + left. assert (u = rv l) as <- by lra. lra.
    + apply (conc_min _ _ _ _ _ _ _ (/ (2 * sqrt u))); [auto| |]; apply sqrt_tan; lra.
  - destruct (Rlt_dec 0 (rv a)) as [D|D].
    + left. apply sqrt_max; lra.
    + right. right. assert (sqrt u <= sqrt (rv h)) by (apply sqrt_le_1_alt; lra). nra.
Qed.

Lemma asquare_ok r : asquare m x = Ok r -> ffin (snd r) -> newsym m e r (u * u).
Proof.
  intros H F. unfold asquare in H. set (l := lo (to_iv x)) in *. set (h := hi (to_iv x)) in *.
  eapply (linfin_ok OK AL); eauto. intros FA. set (a := nadd l h) in *.
  destruct (squart_ok OK) as [W4 V4].
  apply (range3 _ _ _ (- rv a * rv a * / 4) (rv l * (rv l - rv a)) (rv h * (rv h - rv a))).
  - apply (isin_mulS OK); auto. apply (isin_mul OK); [apply (isin_neg OK)|]; apply pt_rv; auto.
  - apply (isin_mul OK); [apply pt_rv; auto|]. apply (isin_subS OK); try apply fin_v; auto. apply pt_rv; auto.
  - apply (isin_mul OK); [apply pt_rv; auto|]. apply (isin_subS OK); try apply fin_v; auto. apply pt_rv; auto.
  - left. pose proof (Rle_0_sqr (u - rv a / 2)) as K. unfold Rsqr in K. lra.
  - right. replace (rv l * (rv l - rv a)) with (rv l * rv l - rv a * rv l) by ring.
    replace (rv h * (rv h - rv a)) with (rv h * rv h - rv a * rv h) by ring.
    apply (conv_max _ _ _ _ _ _ _ (2 * u)); auto; [pose proof (Rle_0_sqr (u - rv l)) as K|pose proof (Rle_0_sqr (u - rv h)) as K]; unfold Rsqr in K; lra.
Qed.

Section Elem.
Context (P : elemp S) (LE : exp_laws S P) (LL : log_laws S P) (LT : trig_laws S P) (fuel : nat) (nexp nlog : S -> S).
Lemma aexp_ok r : aexp P nexp fuel m x = Ok r -> ffin (snd r) -> newsym m e r (exp u).
Proof.
  intros H F. unfold aexp in H. set (l := lo (to_iv x)) in *. set (h := hi (to_iv x)) in *.
  inv H. inv H. inv H. eapply (linfin_ok OK AL); eauto. intros FA. set (a := if seqb h l then _ else _) in *.
  pose proof (ilog_dom OK P _ _ _ _ E (pt_rv _ FA)) as PA.
  assert (I0 : isin (imul (ipt a) (iSsub s1 q)) (if Req_EM_T (rv a) 0 then 0 else rv a * (1 - ln (rv a)))).
  { destruct (Req_EM_T (rv a) 0) as [Z|Z]; [apply isin_mul0; auto|].
    apply (isin_mul OK); [apply pt_rv; auto|]. apply (isin_Ssub OK); [apply (s1_wf OK)|apply (s1_v OK)|].
    eapply (ilog_encl OK P LL); eauto; [apply pt_rv; auto|lra]. }
  apply (range3 _ _ _ _ (exp (rv l) - rv a * rv l) (exp (rv h) - rv a * rv h) _ I0).
  - apply end_isin; auto. eapply (iexp_encl OK P LE); eauto. apply pt_rv; auto.
  - apply end_isin; auto. eapply (iexp_encl OK P LE); eauto. apply pt_rv; auto.
  - left. destruct (Req_EM_T (rv a) 0) as [Z|Z]; [rewrite Z; pose proof (exp_pos u); lra|]. apply exp_min; lra.
  - right. apply (conv_max _ _ _ _ _ _ _ (exp u)); auto; apply exp_tan.
Qed.
Lemma alog_ok r : alog P nlog fuel m x = Ok r -> ffin (snd r) -> 0 < u /\ newsym m e r (ln u).
Proof.
  intros H F. unfold alog in H. set (l := lo (to_iv x)) in *. set (h := hi (to_iv x)) in *.
  destruct (sle l s0) eqn:Z; [discriminate|].
  assert (PL : 0 < rv l). { destruct (Rle_dec (rv l) 0) as [D|D]; [apply (sle0_f _ FL) in D; congruence|lra]. }
  split; [lra|].
  inv H. inv H. inv H. inv H. eapply (linfin_ok OK AL); eauto. intros FA. set (a := if seqb h l then _ else _) in *.
  destruct (isin_Sdiv OK _ _ _ 1 (rv a) E (s1_wf OK) (s1_v OK) (pt_rv _ FA)) as [NA IA].
  pose proof (ilog_dom OK P _ _ _ _ E0 IA) as PA.
  assert (PA' : 0 < rv a). { destruct (Rlt_dec (rv a) 0) as [D|D]; [|lra]. pose proof (Rinv_lt_0_compat _ D). unfold Rdiv in PA. lra. }
  assert (P1 : 0 < 1 / rv a) by (apply Rdiv_lt_0_compat; lra).
  apply (range3 _ _ _ (ln (1 / rv a) - 1) (ln (rv l) - rv a * rv l) (ln (rv h) - rv a * rv h)).
  - apply (isin_subS OK); [|apply (s1_wf OK)|apply (s1_v OK)]. eapply (ilog_encl OK P LL); eauto.
  - apply end_isin; auto. eapply (ilog_encl OK P LL); eauto. apply pt_rv; auto.
  - apply end_isin; auto. eapply (ilog_encl OK P LL); eauto; [apply pt_rv; auto|lra].
  - right. apply (conc_min _ _ _ _ _ _ _ (/ u)); auto; apply ln_tan; lra.
  - left. apply ln_max; lra.
Qed.

End Elem.
End Op.

(* ---- functions evaluated by the mean value form ---- *)
Section Mean.
Variables (m : nat) (x : form) (e : nat -> R) (u : R).
Hypothesis (OX : over m x) (AS : assignment e) (RX : frep e x u).
Section Elem.
Context (P : elemp S) (LE : exp_laws S P) (LL : log_laws S P) (LT : trig_laws S P) (fuel : nat).
Lemma aadd_over k (y z : form) : over k y -> over k z -> over k (aadd y z).
Proof.
  unfold over, aadd. cbn [fs]. assert (L : forall p q : list S, length (ladd p q) = Nat.max (length p) (length q)).
  { induction p as [|a p IH]; intros [|b q]; simpl; auto. } rewrite L. lia.
Qed.
Lemma aadd_fin (y z : form) : ffin (aadd y z) -> ffin y /\ ffin z.
Proof.
  intros (F0 & FL & FE). cbn [f0 fs fe aadd] in *.
  destruct (addu_f OK AL _ _ FE) as (FE1 & FE2 & _). destruct (addu_f OK AL _ _ FE1) as (FY & FZ & _).
  cbn [ladd_err] in FE2. destruct (addd_f OK AL _ _ F0) as (F3 & F4 & _).
  destruct (ladd_ok OK AL e AS _ _ _ 1%nat FE2 FL) as (_ & FYL & FZL & _). repeat split; auto.
Qed.
Lemma center : isin (to_iv x) (rv (f0 x)).
Proof.
  apply (to_iv_isin OK AL (fun _ => 0)); [intros i; lra|]. destruct RX as [F B]. split; auto.
  assert (Z : forall (l : list S) k, lsum (fun _ => 0) k l = 0). { induction l as [|a l IH]; intros k; simpl; auto. rewrite IH. lra. }
  rewrite Z. pose proof (Rabs_pos (u - (rv (f0 x) + lsum e 1 (fs x)))). rewrite Rabs_pos_eq; lra.
Qed.
Lemma meanv_ok (F D : iv -> res iv) f r : meanv F D m x = Ok r -> ffin (snd r) ->
  (forall Q0 Q, F (ipt (f0 x)) = Ok Q0 -> D (to_iv x) = Ok Q -> isin Q0 (frl f (rv (f0 x))) /\
     forall z, isin (to_iv x) z -> fdiff f z /\ isin Q (fder f z)) ->
  fdiff f u /\ newsym m e r (frl f u).
Proof.
  intros H FN HY. unfold meanv in H. inv H. inv H. destruct (of_iv m _) as [m' g] eqn:G. injection H as <-. cbn [fst snd] in *.
  set (tmp := mkform s0 (fs x) (fe x)) in *. set (mm := mid q0) in *.
  destruct (HY _ _ E E0) as [I0 ID]. clear HY.
  destruct (aadd_fin _ _ FN) as [FG FT]. pose proof FT as (FT0 & _ & _). cbn [aTmul f0] in FT0.
  destruct (muld_f OK AL _ _ FT0) as (FM & _ & _). destruct RX as [FX BXX]. pose proof FX as (FX0 & FXL & FXE).
  pose proof (to_iv_isin OK AL e x u AS RX) as IU. pose proof center as IC.
  assert (RT : frep e tmp (u - rv (f0 x))).
  { split; [split; [apply s0_f; auto|split; auto]|]. cbn [tmp f0 fs fe]. rewrite (proj2 (s0_f OK)).
    replace (u - rv (f0 x) - (0 + lsum e 1 (fs x))) with (u - (rv (f0 x) + lsum e 1 (fs x))) by ring. auto. }
  pose proof (to_iv_isin OK AL e tmp _ AS RT) as IT.
  assert (MV : exists z, isin (to_iv x) z /\ frl f u = frl f (rv (f0 x)) + fder f z * (u - rv (f0 x))).
  { set (c := rv (f0 x)) in *. destruct (Rtotal_order c u) as [L|[L|L]].
    - destruct (MVT_cor2 (frl f) (fder f) c u L) as (z & EZ & BZ).
      { intros z BZ. apply fun_deriv, ID. eapply isin_convex; [exact IC|exact IU|exact BZ]. }
      exists z. split; [eapply isin_convex; [exact IC|exact IU|lra]|lra].
    - exists c. split; auto. rewrite <- L. lra.
    - destruct (MVT_cor2 (frl f) (fder f) u c L) as (z & EZ & BZ).
      { intros z BZ. apply fun_deriv, ID. eapply isin_convex; [exact IU|exact IC|exact BZ]. }
      exists z. split; [eapply isin_convex; [exact IU|exact IC|lra]|lra]. }
  destruct MV as (z & IZ & EZ). destruct (ID z IZ) as [_ IDZ]. split; [apply ID; auto|].
  assert (IR : isin (iadd q (imul (isubS q0 mm) (to_iv tmp))) (frl f (rv (f0 x)) + (fder f z - rv mm) * (u - rv (f0 x)))).
  { apply (isin_add OK); auto. apply (isin_mul OK); auto. apply (isin_subS OK); auto; apply fin_v; auto. }
  assert (NG : newsym m e (m', g) (frl f (rv (f0 x)) + (fder f z - rv mm) * (u - rv (f0 x)))).
  { rewrite <- G. apply (of_iv_ok OK AL); auto. rewrite G. exact FG. }
  destruct NG as (ML & OV & e' & EX & RG). cbn [fst snd] in *.
  assert (OT : over m (aTmul mm tmp)). { unfold over. cbn [aTmul fs tmp]. rewrite map_length. exact OX. }
  split; [cbn [fst]; lia|]. split. { cbn [fst snd]. apply aadd_over; auto. unfold over in *; lia. }
  exists e'. split; auto. cbn [snd].
  pose proof (aTmul_ok OK AL e tmp mm _ AS RT FT) as RM. pose proof (frep_extends _ _ _ _ _ OT EX RM) as RM'.
  pose proof (aadd_ok OK AL e' _ _ _ _ (proj1 EX) RG RM' FN) as RS.
  replace (frl f u) with (frl f (rv (f0 x)) + (fder f z - rv mm) * (u - rv (f0 x)) + rv mm * (u - rv (f0 x))) by (rewrite EZ; ring).
  exact RS.
Qed.

Lemma sq_isin (I p : iv) z : ipow I 2 = Ok p -> isin I z -> isin p (z * z).
Proof. intros H HI. destruct (ipow_encl OK _ _ _ _ H HI) as [_ K]. simpl in K. replace (z * (z * 1)) with (z * z) in K by ring. auto. Qed.
Lemma pow_m2 (c p : iv) z : ipow c (-2) = Ok p -> isin c z -> z <> 0 /\ isin p (1 / (z * z)).
Proof.
  intros H HI. destruct (ipow_encl OK _ _ _ _ H HI) as [N K]. assert (NZ : z <> 0) by (apply N; lia). split; auto.
  simpl in K. replace (/ (z * (z * 1))) with (1 / (z * z)) in K by (field; auto). auto.
Qed.
Ltac fs_ := split; [|intros z HZ; cbn [fdiff fdom fder frl]].
Definition ptx (FX : fin (f0 x)) : isin (ipt (f0 x)) (rv (f0 x)) := pt_rv _ FX.
Let FX0 : fin (f0 x) := proj1 (proj1 RX).

Lemma asin_ok r : asin_ P fuel m x = Ok r -> ffin (snd r) -> newsym m e r (sin u).
Proof.
  intros H F. refine (proj2 (meanv_ok _ _ Asin r H F _)). intros Q0 Q H0 H1. fs_.
  - eapply (sin_encl OK P LT); eauto. exact (ptx FX0).
  - split; [exact Logic.I|]. eapply (cos_encl OK P LT); eauto.
Qed.
Lemma acos_ok r : acos_ P fuel m x = Ok r -> ffin (snd r) -> newsym m e r (cos u).
Proof.
  intros H F. refine (proj2 (meanv_ok _ _ Acos r H F _)). intros Q0 Q H0 H1. fs_.
  - eapply (cos_encl OK P LT); eauto. exact (ptx FX0).
  - split; [exact Logic.I|]. inv H1. injection H1 as <-. apply (isin_neg OK). eapply (sin_encl OK P LT); eauto.
Qed.
Lemma atan_ok r : atan_ P fuel m x = Ok r -> ffin (snd r) -> cos u <> 0 /\ newsym m e r (tan u).
Proof.
  intros H F. refine (meanv_ok _ _ Atan_ r H F _). intros Q0 Q H0 H1. fs_.
  - eapply (tan_encl OK P LT); eauto. exact (ptx FX0).
  - inv H1. eapply pow_m2; eauto. eapply (cos_encl OK P LT); eauto.
Qed.
Lemma asinh_ok r : asinh_ P fuel m x = Ok r -> ffin (snd r) -> newsym m e r (sinh u).
Proof.
  intros H F. refine (proj2 (meanv_ok _ _ Asinh r H F _)). intros Q0 Q H0 H1. fs_.
  - eapply (isinh_encl OK P LE); eauto. exact (ptx FX0).
  - split; [exact Logic.I|]. eapply (icosh_encl OK P LE); eauto.
Qed.
Lemma acosh_ok r : acosh_ P fuel m x = Ok r -> ffin (snd r) -> newsym m e r (cosh u).
Proof.
  intros H F. refine (proj2 (meanv_ok _ _ Acosh_ r H F _)). intros Q0 Q H0 H1. fs_.
  - eapply (icosh_encl OK P LE); eauto. exact (ptx FX0).
  - split; [exact Logic.I|]. eapply (isinh_encl OK P LE); eauto.
Qed.
Lemma atanh_ok r : atanh_ P fuel m x = Ok r -> ffin (snd r) -> newsym m e r (tanh u).
Proof.
  intros H F. refine (proj2 (meanv_ok _ _ Atanh_ r H F _)). intros Q0 Q H0 H1. fs_.
  - eapply (itanh_encl OK P LE); eauto. exact (ptx FX0).
  - split; [exact Logic.I|]. inv H1. eapply pow_m2; eauto. eapply (icosh_encl OK P LE); eauto.
Qed.
Lemma root_div (p q Q : iv) (c : S) (k v : R) : isqrt p = Ok q -> iSdiv c q = Ok Q -> swf c -> sval c = XR k -> isin p v ->
  0 < v /\ isin Q (k / sqrt v).
Proof.
  intros H1 H2 W V HP. destruct (isin_sqrt OK _ _ _ H1 HP) as [N IS]. destruct (isin_Sdiv OK _ _ _ k _ H2 W V IS) as [NZ ID].
  split; auto. destruct (Rle_lt_or_eq_dec _ _ N) as [?|Z]; auto. exfalso. apply NZ. rewrite <- Z. apply sqrt_0.
Qed.
Lemma aasin_ok r : aasin P fuel m x = Ok r -> ffin (snd r) -> -1 < u < 1 /\ newsym m e r (asin u).
Proof.
  intros H F. refine (meanv_ok _ _ Aasin r H F _). intros Q0 Q H0 H1. fs_.
  - eapply (iasin_encl OK P LT); eauto. exact (ptx FX0).
  - inv H1. inv H1. destruct (root_div _ _ _ _ 1 (1 - z * z) E0 H1 (s1_wf OK) (s1_v OK)) as [N K].
    { apply (isin_Ssub OK); [apply (s1_wf OK)|apply (s1_v OK)|]. eapply sq_isin; eauto. }
    split; [nra|]. auto.
Qed.
Lemma aacos_ok r : aacos P fuel m x = Ok r -> ffin (snd r) -> -1 < u < 1 /\ newsym m e r (acos u).
Proof.
  intros H F. refine (meanv_ok _ _ Aacos r H F _). intros Q0 Q H0 H1. fs_.
  - eapply (iacos_encl OK P LT); eauto. exact (ptx FX0).
  - inv H1. inv H1. destruct (ok_neg _ OK _ (s1_wf OK)) as [WN VN]. rewrite (s1_v OK) in VN. simpl in VN.
    destruct (root_div _ _ _ _ (- (1)) (1 - z * z) E0 H1 WN VN) as [N K].
    { apply (isin_Ssub OK); [apply (s1_wf OK)|apply (s1_v OK)|]. eapply sq_isin; eauto. }
    split; [nra|]. auto.
Qed.
Lemma aasinh_ok r : aasinh P fuel m x = Ok r -> ffin (snd r) -> newsym m e r (rasinh u).
Proof.
  intros H F. refine (proj2 (meanv_ok _ _ Aasinh r H F _)). intros Q0 Q H0 H1. fs_.
  - eapply (iasinh_encl OK P LL); eauto. exact (ptx FX0).
  - split; [exact Logic.I|]. inv H1. inv H1. refine (proj2 (root_div _ _ _ _ 1 (z * z + 1) E0 H1 (s1_wf OK) (s1_v OK) _)).
    apply (isin_addS OK); [|apply (s1_wf OK)|apply (s1_v OK)]. eapply sq_isin; eauto.
Qed.
Lemma aacosh_ok r : aacosh P fuel m x = Ok r -> ffin (snd r) -> 1 < u /\ newsym m e r (racosh u).
Proof.
  intros H F. refine (meanv_ok _ _ Aacosh r H F _). intros Q0 Q H0 H1.
  destruct (iacosh_encl OK P LL _ _ _ _ H0 (ptx FX0)) as [G1 IV]. fs_; auto. pose proof center as IC.
  inv H1. inv H1.
  assert (K : forall t, isin (to_iv x) t -> 0 < t * t - 1 /\ isin Q (1 / sqrt (t * t - 1))).
  { intros t HT. apply (root_div _ _ _ _ 1 (t * t - 1) E0 H1 (s1_wf OK) (s1_v OK)).
    apply (isin_subS OK); [|apply (s1_wf OK)|apply (s1_v OK)]. eapply sq_isin; eauto. }
  destruct (K z HZ) as [Z1 Z2]. split; auto. destruct (Rlt_dec 1 z) as [D|D]; auto. exfalso. assert (z < -1) by nra.
  destruct (K 0 (isin_convex _ _ _ 0 HZ IC ltac:(lra))). lra.
Qed.
Lemma aatanh_ok r : aatanh P fuel m x = Ok r -> ffin (snd r) -> -1 < u < 1 /\ newsym m e r (ratanh u).
Proof.
  intros H F. refine (meanv_ok _ _ Aatanh r H F _). intros Q0 Q H0 H1. pose proof center as IC.
  inv H1. assert (K : forall t, isin (to_iv x) t -> 1 - t * t <> 0 /\ isin Q (1 / (1 - t * t))).
  { intros t HT. eapply (isin_Sdiv OK); eauto; [apply (s1_wf OK)|apply (s1_v OK)|].
    apply (isin_Ssub OK); [apply (s1_wf OK)|apply (s1_v OK)|]. eapply sq_isin; eauto. }
  pose proof (iatanh_dom OK P _ _ _ _ H0 (ptx FX0)) as BC.
  assert (BC' : -1 < rv (f0 x) < 1). { destruct (K _ IC) as [N _]. split; destruct (Rle_lt_or_eq_dec _ _ (proj1 BC)) as [?|Z];
    destruct (Rle_lt_or_eq_dec _ _ (proj2 BC)) as [?|Z2]; auto; exfalso; apply N; rewrite <- ?Z, ?Z2; lra. }
  fs_.
  - eapply (iatanh_encl OK P LL); eauto. exact (ptx FX0).
  - destruct (K z HZ) as [Z1 Z2]. split; auto. split.
    + destruct (Rlt_dec (-1) z) as [D|D]; auto. exfalso. destruct (K (-1) (isin_convex _ _ _ (-1) HZ IC ltac:(lra))) as [NN _]. apply NN; lra.
    + destruct (Rlt_dec z 1) as [D|D]; auto. exfalso. destruct (K 1 (isin_convex _ _ _ 1 IC HZ ltac:(lra))) as [NN _]. apply NN; lra.
Qed.
End Elem.
End Mean.
End Fun.
