(* Enclosure proofs for the model of kv/complex.hpp. *)
From Coq Require Import Reals Lra Lia Psatz ZArith Bool.
From Coquelicot Require Import Complex.
From Verif Require Import Ext Scalar IntervalModel IntervalSpec IntervalProofs IntervalEncl IntervalSets IntervalDivPow IntervalMore ElemModel RealFun RealConst RealInv ElemGen ElemExp ElemLog ElemTrig ElemAtan2 CplxModel CplxReal.
Open Scope R_scope.

(* a complex number lies in a rectangle *)
Definition cin {S : scal} (X : cx S) (z : C) : Prop := isin (re X) (fst z) /\ isin (im X) (snd z).
(* principal argument in (-pi, pi], logarithm and square root *)
Definition Carg (z : C) : R := ratan2 (snd z) (fst z).
Definition Clog (z : C) : C := (ln (Cmod z), Carg z).
Definition Csqrt (z : C) : C := (sqrt (Cmod z) * cos (Carg z / 2), sqrt (Cmod z) * sin (Carg z / 2)).

(* 2 pi i *)
Definition turn : C := (0, 2 * PI).

Lemma Carg_polar z : z <> RtoC 0 -> fst z = Cmod z * cos (Carg z) /\ snd z = Cmod z * sin (Carg z).
Proof. intros N. apply Cnz in N. rewrite Cmod_alt. exact (ratan2_angle (snd z) (fst z) N). Qed.
Lemma Cexp_Clog z : z <> RtoC 0 -> Cexp (Clog z) = z.
Proof. intros N. destruct (Carg_polar z N). now apply polar_log. Qed.
Lemma Csqrt_sq z : (Csqrt z * Csqrt z)%C = z.
Proof.
  destruct (Ceq_dec z (RtoC 0)) as [-> |N].
  - unfold Csqrt. rewrite Cmod_0, sqrt_0. unfold Cmult; simpl. apply Ceq; ring.
  - destruct (Carg_polar z N). apply polar_sqrt; auto. apply sqrt_sqrt, Cmod_ge_0.
Qed.
Lemma Cexp_2pi z : Cexp (z + turn)%C = Cexp z.
Proof. rewrite Cexp_plus. unfold Cexp at 2; cbn [fst snd turn]. rewrite exp_0, cos_2PI, sin_2PI. rewrite !Rmult_1_l. apply Cmult_1_r. Qed.
Lemma Cdiv_parts (x y : C) : y <> RtoC 0 -> let t := fst y * fst y + snd y * snd y in
  t <> 0 /\ (x / y)%C = ((fst y * fst x + snd y * snd x) / t, (fst y * snd x - fst x * snd y) / t).
Proof.
  intros N t. assert (T : t <> 0). { apply Cnz in N. unfold t. destruct N; nra. } split; auto.
  unfold Cdiv, Cinv, Cmult; cbn [fst snd]. replace (fst y ^ 2 + snd y ^ 2) with t by (unfold t; ring).
  apply Ceq; field; auto.
Qed.

Section CplxProofs.
Context {S : scal} (OK : scal_ok S) (P : elemp S) (LE : exp_laws S P) (LL : log_laws S P) (LT : trig_laws S P).
Variable f : nat.
Local Notation cin := (@cin S).
Local Notation isin := (@isin S).
Ltac inv H := apply bind_ok in H; let a := fresh "v" in let K := fresh "K" in destruct H as (a & K & H).
Ltac ret H := injection H as <-.

Lemma cin_mk (A B : iv S) a b : isin A a -> isin B b -> cin (mkcx A B) (a, b). Proof. split; auto. Qed.
Lemma cin_cofI (X : iv S) x : isin X x -> cin (cofI X) (RtoC x).
Proof. intros. split; auto. apply (isin_i0 OK). Qed.
Lemma cin_cofS (a : S) x : swf a -> sval a = XR x -> cin (cofS a) (RtoC x).
Proof. intros. split; simpl. now apply isin_pt. apply (isin_i0 OK). Qed.
Lemma cin_1 : cin (cofS (@s1 S)) (RtoC 1). Proof. apply cin_cofS; apply (ok_s1 _ OK). Qed.
Lemma cin_i : cin (@cxi S) Ci.
Proof. split; simpl. apply (isin_i0 OK). apply isin_pt; auto; apply (ok_s1 _ OK). Qed.
Lemma cin_add X Y x y : cin X x -> cin Y y -> cin (cadd X Y) (x + y)%C.
Proof. intros [] []. split; cbn [fst snd re im cadd Cplus]; now apply isin_add. Qed.
Lemma cin_sub X Y x y : cin X x -> cin Y y -> cin (csub X Y) (x - y)%C.
Proof. intros [] []. split; cbn [fst snd re im csub Cminus Cplus Copp]; now apply isin_sub. Qed.
Lemma cin_neg X x : cin X x -> cin (cneg X) (- x)%C.
Proof. intros []. split; cbn [fst snd re im cneg Copp]; now apply isin_neg. Qed.
Lemma cin_conj X x : cin X x -> cin (cconj X) (Cconj x).
Proof. intros []. split; cbn [fst snd re im cconj Cconj]; auto. now apply isin_neg. Qed.
Lemma cin_mul X Y x y : cin X x -> cin Y y -> cin (cmul X Y) (x * y)%C.
Proof. intros [] []. split; cbn [fst snd re im cmul Cmult]; [apply isin_sub|apply isin_add]; auto; now apply isin_mul. Qed.
Lemma Rr (a b : R) : a = b -> forall (X : iv S), isin X b -> isin X a. Proof. now intros ->. Qed.
Ltac sc := match goal with |- _ = _ => unfold Rminus; ring | _ => idtac end.
Lemma cin_addS X b x y : cin X x -> swf b -> sval b = XR y -> cin (caddS X b) (x + RtoC y)%C.
Proof. intros [] ? ?. split; cbn [fst snd re im caddS Cplus RtoC]. now apply isin_addS. apply (Rr _ (snd x)); auto; sc. Qed.
Lemma cin_Sadd b X x y : swf b -> sval b = XR y -> cin X x -> cin (cSadd b X) (RtoC y + x)%C.
Proof. intros ? ? []. split; cbn [fst snd re im cSadd Cplus RtoC]. now apply isin_Sadd. apply (Rr _ (snd x)); auto; sc. Qed.
Lemma cin_addI X Y x y : cin X x -> isin Y y -> cin (caddI X Y) (x + RtoC y)%C.
Proof. intros [] ?. split; cbn [fst snd re im caddI Cplus RtoC]. now apply isin_add. apply (Rr _ (snd x)); auto; sc. Qed.
Lemma cin_Iadd X Y x y : isin X x -> cin Y y -> cin (cIadd X Y) (RtoC x + y)%C.
Proof. intros ? []. split; cbn [fst snd re im cIadd Cplus RtoC]. now apply isin_add. apply (Rr _ (snd y)); auto; sc. Qed.
Lemma cin_subS X b x y : cin X x -> swf b -> sval b = XR y -> cin (csubS X b) (x - RtoC y)%C.
Proof. intros [] ? ?. split; cbn [fst snd re im csubS Cminus Cplus Copp RtoC]. now apply isin_subS. apply (Rr _ (snd x)); auto; sc. Qed.
Lemma cin_Ssub b X x y : swf b -> sval b = XR y -> cin X x -> cin (cSsub b X) (RtoC y - x)%C.
Proof. intros ? ? []. split; cbn [fst snd re im cSsub Cminus Cplus Copp RtoC]. now apply isin_Ssub. rewrite Rplus_0_l. now apply isin_neg. Qed.
Lemma cin_subI X Y x y : cin X x -> isin Y y -> cin (csubI X Y) (x - RtoC y)%C.
Proof. intros [] ?. split; cbn [fst snd re im csubI Cminus Cplus Copp RtoC]. now apply isin_sub. apply (Rr _ (snd x)); auto; sc. Qed.
Lemma cin_Isub X Y x y : isin X x -> cin Y y -> cin (cIsub X Y) (RtoC x - y)%C.
Proof. intros ? []. split; cbn [fst snd re im cIsub Cminus Cplus Copp RtoC]. now apply isin_sub. rewrite Rplus_0_l. now apply isin_neg. Qed.
Lemma cin_mulS X b x y : cin X x -> swf b -> sval b = XR y -> cin (cmulS X b) (x * RtoC y)%C.
Proof. intros [] ? ?. split; cbn [fst snd re im cmulS Cmult RtoC]; [apply (Rr _ (fst x * y)); sc|apply (Rr _ (snd x * y)); sc]; now apply isin_mulS. Qed.
Lemma cin_Smul b X x y : swf b -> sval b = XR y -> cin X x -> cin (cSmul b X) (RtoC y * x)%C.
Proof. intros ? ? []. split; cbn [fst snd re im cSmul Cmult RtoC]; [apply (Rr _ (y * fst x)); sc|apply (Rr _ (y * snd x)); sc]; now apply isin_Smul. Qed.
Lemma cin_mulI X Y x y : cin X x -> isin Y y -> cin (cmulI X Y) (x * RtoC y)%C.
Proof. intros [] ?. split; cbn [fst snd re im cmulI Cmult RtoC]; [apply (Rr _ (fst x * y)); sc|apply (Rr _ (snd x * y)); sc]; now apply isin_mul. Qed.
Lemma cin_Imul X Y x y : isin X x -> cin Y y -> cin (cImul X Y) (RtoC x * y)%C.
Proof. intros ? []. split; cbn [fst snd re im cImul Cmult RtoC]; [apply (Rr _ (x * fst y)); sc|apply (Rr _ (x * snd y)); sc]; now apply isin_mul. Qed.

Lemma norm_nz y : fst y * fst y + snd y * snd y <> 0 -> y <> RtoC 0.
Proof. intros N ->. apply N. simpl. ring. Qed.
Lemma cdiv_encl X Y Q x y : cdiv X Y = Ok Q -> cin X x -> cin Y y -> y <> RtoC 0 /\ cin Q (x / y)%C.
Proof.
  intros H [X1 X2] [Y1 Y2]. unfold cdiv in H. inv H. inv H. ret H.
  assert (T : isin (iadd (imul (re Y) (re Y)) (imul (im Y) (im Y))) (fst y * fst y + snd y * snd y)) by (apply isin_add; auto; now apply isin_mul).
  destruct (fun h => isin_div OK _ _ _ (fst y * fst x + snd y * snd x) _ K h T) as [N A]. { apply isin_add; auto; now apply isin_mul. }
  destruct (fun h => isin_div OK _ _ _ (fst y * snd x - fst x * snd y) _ K0 h T) as [_ B]. { apply isin_sub; auto; now apply isin_mul. }
  apply norm_nz in N. split; auto. destruct (Cdiv_parts x y N) as [_ ->]. split; auto.
Qed.
Lemma cdivS_encl X b Q x y : cdivS X b = Ok Q -> cin X x -> swf b -> sval b = XR y -> y <> 0 /\ cin Q (x / RtoC y)%C.
Proof.
  intros H [X1 X2] W V. unfold cdivS in H. inv H. inv H. ret H.
  destruct (isin_divS OK _ _ _ _ _ K X1 W V) as [N A]. destruct (isin_divS OK _ _ _ _ _ K0 X2 W V) as [_ B]. split; auto.
  assert (N' : RtoC y <> RtoC 0) by (intros E; apply RtoC_inj in E; auto).
  split; unfold Cdiv, Cinv, Cmult, RtoC; cbn [fst snd re im]; [apply (Rr _ (fst x / y))|apply (Rr _ (snd x / y))]; auto; field; auto.
Qed.
Lemma cdivI_encl X Y Q x y : cdivI X Y = Ok Q -> cin X x -> isin Y y -> y <> 0 /\ cin Q (x / RtoC y)%C.
Proof.
  intros H [X1 X2] V. unfold cdivI in H. inv H. inv H. ret H.
  destruct (isin_div OK _ _ _ _ _ K X1 V) as [N A]. destruct (isin_div OK _ _ _ _ _ K0 X2 V) as [_ B]. split; auto.
  split; unfold Cdiv, Cinv, Cmult, RtoC; cbn [fst snd re im]; [apply (Rr _ (fst x / y))|apply (Rr _ (snd x / y))]; auto; field; auto.
Qed.
Lemma cSdiv_encl a Y Q x y : cSdiv a Y = Ok Q -> swf a -> sval a = XR x -> cin Y y -> y <> RtoC 0 /\ cin Q (RtoC x / y)%C.
Proof.
  intros H W V [Y1 Y2]. unfold cSdiv in H. inv H. inv H. ret H.
  assert (T : isin (iadd (imul (re Y) (re Y)) (imul (im Y) (im Y))) (fst y * fst y + snd y * snd y)) by (apply isin_add; auto; now apply isin_mul).
  destruct (fun h => isin_div OK _ _ _ (fst y * x) _ K h T) as [N A]. { now apply isin_mulS. }
  destruct (fun h => isin_div OK _ _ _ (- x * snd y) _ K0 h T) as [_ B]. { apply isin_Smul; auto using sneg_wf. rewrite (sneg_v OK), V; auto. }
  apply norm_nz in N. split; auto. destruct (Cdiv_parts (RtoC x) y N) as [M ->]. split; cbn [re im fst snd RtoC].
  - eapply Rr; [|exact A]. field; auto. - eapply Rr; [|exact B]. field; auto.
Qed.
Lemma cIdiv_encl X Y Q x y : cIdiv X Y = Ok Q -> isin X x -> cin Y y -> y <> RtoC 0 /\ cin Q (RtoC x / y)%C.
Proof.
  intros H V [Y1 Y2]. unfold cIdiv in H. inv H. inv H. ret H.
  assert (T : isin (iadd (imul (re Y) (re Y)) (imul (im Y) (im Y))) (fst y * fst y + snd y * snd y)) by (apply isin_add; auto; now apply isin_mul).
  destruct (fun h => isin_div OK _ _ _ (fst y * x) _ K h T) as [N A]. { now apply isin_mul. }
  destruct (fun h => isin_div OK _ _ _ (- x * snd y) _ K0 h T) as [_ B]. { apply isin_mul; auto. now apply isin_neg. }
  apply norm_nz in N. split; auto. destruct (Cdiv_parts (RtoC x) y N) as [M ->]. split; cbn [re im fst snd RtoC].
  - eapply Rr; [|exact A]. field; auto. - eapply Rr; [|exact B]. field; auto.
Qed.

Lemma cabs_encl X x Q : cabs X = Ok Q -> cin X x -> isin Q (Cmod x).
Proof.
  intros H [X1 X2]. unfold cabs in H. inv H. inv H.
  destruct (ipow_encl OK _ _ _ _ K X1) as [_ A]. destruct (ipow_encl OK _ _ _ _ K0 X2) as [_ B].
  destruct (isin_sqrt OK _ _ (fst x ^ 2 + snd x ^ 2) H) as [_ R]; auto. apply isin_add; auto.
Qed.
Lemma iatan2_0 X Y Q r : iatan2 S P f Y X = Ok Q -> isin Y 0 -> isin X 0 -> - PI <= r <= PI -> isin Q r.
Proof.
  intros H HY HX Hr. unfold iatan2 in H.
  rewrite (proj2 (zero_in_spec OK X (isin_valid _ _ HX)) HX) in H. rewrite (proj2 (zero_in_spec OK Y (isin_valid _ _ HY)) HY) in H.
  injection H as <-. destruct (tl_pi _ _ LT) as (A1 & A2 & A3 & A4). apply isin_ends; cbn [lo hi]; auto using (sneg_wf OK).
  - rewrite (sneg_v OK) by auto. destruct (sval (hi (c_pi P))); simpl in *; auto; lra.
  - eapply ub_le; [exact A4|lra].
Qed.
(* the argument: principal, or one turn further when the box meets the cut from below *)
Definition cut (X : cx S) : bool := crosses (im X) (re X).
Lemma carg_encl X x Q : carg S P f X = Ok Q -> cin X x -> x <> RtoC 0 ->
  isin Q (Carg x) \/ (cut X = true /\ isin Q (Carg x + 2 * PI)).
Proof.
  intros H [X1 X2] N. pose proof (iatan2_encl OK P LT f _ _ _ _ _ H X2 X1 (Cnz _ N)) as K. unfold cut, Carg.
  destruct (crosses (im X) (re X)); auto. destruct (Rlt_dec (snd x) 0); auto.
Qed.
Lemma clog_encl X x Q : clog S P f X = Ok Q -> cin X x -> x <> RtoC 0 ->
  cin Q (Clog x) \/ (cut X = true /\ cin Q (Clog x + turn)%C).
Proof.
  intros H HX N. unfold clog in H. inv H. inv H. inv H. ret H.
  pose proof (cabs_encl _ _ _ K HX) as A. pose proof (ilog_encl OK P LL _ _ _ _ K0 A (Cmod_pos _ N)) as B.
  destruct (carg_encl _ _ _ K1 HX N) as [G|[G1 G]]; [left|right; split; auto]; split; cbn [re im fst snd Clog turn Cplus]; auto.
  apply (Rr _ (ln (Cmod x))); auto. ring.
Qed.
Lemma clog_ex X x Q : clog S P f X = Ok Q -> cin X x -> x <> RtoC 0 -> exists w, cin Q w /\ Cexp w = x.
Proof.
  intros H HX N. destruct (clog_encl _ _ _ H HX N) as [K|[_ K]]; eexists; (split; [exact K|]); rewrite ?Cexp_2pi; now apply Cexp_Clog.
Qed.
Lemma half_v : swf (@shalf S) /\ sval (@shalf S) = XR (/ 2).
Proof. split. apply (shalf_wf OK). rewrite (shalf_v OK). reflexivity. Qed.
Lemma csqrt_encl X x Q : csqrt S P f X = Ok Q -> cin X x ->
  cin Q (Csqrt x) \/ (cut X = true /\ cin Q (- Csqrt x)%C).
Proof.
  intros H HX. unfold csqrt in H. inv H. inv H. inv H. cbv zeta in H. inv H. inv H. ret H. destruct half_v as [HW HV].
  pose proof (cabs_encl _ _ _ K HX) as A. destruct (isin_sqrt OK _ _ _ K0 A) as [_ B].
  assert (G : forall t, isin v1 t -> cin (mkcx (imul v0 v2) (imul v0 v3)) (sqrt (Cmod x) * cos (t / 2), sqrt (Cmod x) * sin (t / 2))).
  { intros t T. assert (isin (imulS v1 shalf) (t / 2)) by now apply isin_mulS.
    apply cin_mk; apply isin_mul; auto; [eapply cos_encl|eapply sin_encl]; eauto. }
  destruct (Ceq_dec x (RtoC 0)) as [-> |N].
  - left. assert (I0 : isin v1 0). { destruct HX. eapply iatan2_0; eauto. pose proof PI_RGT_0; lra. }
    apply G in I0. unfold Csqrt. rewrite Cmod_0, sqrt_0, !Rmult_0_l in *. auto.
  - destruct (carg_encl _ _ _ K1 HX N) as [T|[CT T]]; [left|right; split; auto]; apply G in T; auto.
    replace (- Csqrt x)%C with ((sqrt (Cmod x) * cos ((Carg x + 2 * PI) / 2), sqrt (Cmod x) * sin ((Carg x + 2 * PI) / 2)) : C); auto.
    replace ((Carg x + 2 * PI) / 2) with (Carg x / 2 + PI) by field. rewrite neg_cos, neg_sin. unfold Csqrt, Copp; cbn [fst snd]. apply Ceq; ring.
Qed.
Lemma csqrt_ex X x Q : csqrt S P f X = Ok Q -> cin X x -> exists w, cin Q w /\ (w * w)%C = x.
Proof.
  intros H HX. destruct (csqrt_encl _ _ _ H HX) as [K|[_ K]]; eexists; (split; [exact K|]).
  - apply Csqrt_sq. - transitivity (Csqrt x * Csqrt x)%C; [ring|apply Csqrt_sq].
Qed.

Lemma cpow_loop_encl k : forall R X r x, cin R r -> cin X x -> cin (cpow_loop k R X) (r * Cpown x (Pos.to_nat k))%C.
Proof.
  induction k; intros R X r x HR HX; cbn [cpow_loop].
  - replace (r * Cpown x (Pos.to_nat k~1))%C with (r * x * Cpown (x * x)%C (Pos.to_nat k))%C.
    + apply IHk; now apply cin_mul.
    + rewrite Pos2Nat.inj_xI, Cpown_sq. replace (Datatypes.S (2 * Pos.to_nat k)) with (1 + (Pos.to_nat k + Pos.to_nat k))%nat by lia. rewrite !Cpown_add, Cpown_1. ring.
  - replace (r * Cpown x (Pos.to_nat k~0))%C with (r * Cpown (x * x)%C (Pos.to_nat k))%C.
    + apply IHk; auto; now apply cin_mul.
    + rewrite Pos2Nat.inj_xO, Cpown_sq. replace (2 * Pos.to_nat k)%nat with (Pos.to_nat k + Pos.to_nat k)%nat by lia. rewrite Cpown_add. ring.
  - change (Pos.to_nat 1) with 1%nat. rewrite Cpown_1. now apply cin_mul.
Qed.
Lemma cpowi_encl X n Q x : cpowi X n = Ok Q -> cin X x -> ((n < 0)%Z -> x <> RtoC 0) /\ cin Q (CpowZ x n).
Proof.
  intros H HX. destruct n as [|k|k]; cbn [cpowi CpowZ] in *.
  - ret H. split; [lia|apply cin_1].
  - ret H. split; [lia|]. rewrite <- (Cmult_1_l (Cpown _ _)). apply cpow_loop_encl; auto. apply cin_1.
  - pose proof (cpow_loop_encl k _ _ _ _ cin_1 HX) as L. rewrite Cmult_1_l in L.
    destruct (cSdiv_encl _ _ _ 1 _ H (proj1 (ok_s1 _ OK)) (proj2 (ok_s1 _ OK)) L) as [N A].
    split.
    + intros _ ->. apply N. destruct (Pos2Nat.is_succ k) as [m ->]. simpl. apply Cmult_0_l.
    + unfold Cdiv in A. now rewrite Cmult_1_l in A.
Qed.

Lemma cexp_encl X x Q : cexp S P f X = Ok Q -> cin X x -> cin Q (Cexp x).
Proof.
  intros H [X1 X2]. unfold cexp in H. inv H. inv H. inv H. ret H.
  split; cbn [re im fst snd Cexp]; apply isin_mul; auto; [eapply iexp_encl|eapply cos_encl|eapply iexp_encl|eapply sin_encl]; eauto.
Qed.
Lemma cpow_encl X Y Q x y : cpow S P f X Y = Ok Q -> cin X x -> cin Y y -> x <> RtoC 0 ->
  exists l, Cexp l = x /\ (cut X = false -> l = Clog x) /\ cin Q (Cexp (y * l)%C).
Proof.
  intros H HX HY N. unfold cpow in H. inv H.
  destruct (clog_encl _ _ _ K HX N) as [L|[C L]]; eexists; (split; [|split]).
  2: intros; reflexivity. now apply Cexp_Clog. eapply cexp_encl; eauto. now apply cin_mul.
  2: congruence. rewrite Cexp_2pi; now apply Cexp_Clog. eapply cexp_encl; eauto. now apply cin_mul.
Qed.
Lemma csin_encl X x Q : csin S P f X = Ok Q -> cin X x -> cin Q (Csin x).
Proof.
  intros H [X1 X2]. unfold csin in H. inv H. inv H. inv H. inv H. ret H. destruct x as [a b]. rewrite Csin_parts.
  apply cin_mk; apply isin_mul; auto; [eapply sin_encl|eapply icosh_encl|eapply cos_encl|eapply isinh_encl]; eauto.
Qed.
Lemma ccos_encl X x Q : ccos S P f X = Ok Q -> cin X x -> cin Q (Ccos x).
Proof.
  intros H [X1 X2]. unfold ccos in H. inv H. inv H. inv H. inv H. ret H. destruct x as [a b]. rewrite Ccos_parts.
  replace (- (sin a * sinh b)) with (- sin a * sinh b) by ring.
  apply cin_mk; apply isin_mul; auto; [eapply cos_encl|eapply icosh_encl|apply isin_neg; auto; eapply sin_encl|eapply isinh_encl]; eauto.
Qed.
Lemma csinh_encl X x Q : csinh S P f X = Ok Q -> cin X x -> cin Q (Csinh x).
Proof.
  intros H [X1 X2]. unfold csinh in H. inv H. inv H. inv H. inv H. ret H. destruct x as [a b]. rewrite Csinh_parts.
  apply cin_mk; apply isin_mul; auto; [eapply isinh_encl|eapply cos_encl|eapply icosh_encl|eapply sin_encl]; eauto.
Qed.
Lemma ccosh_encl X x Q : ccosh S P f X = Ok Q -> cin X x -> cin Q (Ccosh x).
Proof.
  intros H [X1 X2]. unfold ccosh in H. inv H. inv H. inv H. inv H. ret H. destruct x as [a b]. rewrite Ccosh_parts.
  apply cin_mk; apply isin_mul; auto; [eapply icosh_encl|eapply cos_encl|eapply isinh_encl|eapply sin_encl]; eauto.
Qed.
Lemma dbl_in X x : isin X x -> isin (iSmul (sint S 2) X) (2 * x).
Proof. intros. destruct (sint_ok OK 2); try lia. now apply isin_Smul. Qed.
Lemma ctan_encl X x Q : ctan S P f X = Ok Q -> cin X x -> Ccos x <> RtoC 0 /\ cin Q (Ctan x).
Proof.
  intros H [X1 X2]. unfold ctan in H. cbv zeta in H. inv H. inv H. inv H. inv H. inv H. inv H. ret H. destruct x as [a b]. cbn [fst snd] in *.
  apply dbl_in in X1, X2.
  assert (T : isin (iadd v v0) (cos (2 * a) + cosh (2 * b))) by (apply isin_add; auto; [eapply cos_encl|eapply icosh_encl]; eauto).
  destruct (fun h => isin_div OK _ _ _ (sin (2 * a)) _ K2 h T) as [N A]. { eapply sin_encl; eauto. }
  destruct (fun h => isin_div OK _ _ _ (sinh (2 * b)) _ K4 h T) as [_ B]. { eapply isinh_encl; eauto. }
  destruct (Ctan_parts a b N) as [M ->]. split; auto. now apply cin_mk.
Qed.
Lemma ctanh_encl X x Q : ctanh S P f X = Ok Q -> cin X x -> Ccosh x <> RtoC 0 /\ cin Q (Ctanh x).
Proof.
  intros H [X1 X2]. unfold ctanh in H. cbv zeta in H. inv H. inv H. inv H. inv H. inv H. inv H. ret H. destruct x as [a b]. cbn [fst snd] in *.
  apply dbl_in in X1, X2.
  assert (T : isin (iadd v v0) (cosh (2 * a) + cos (2 * b))) by (apply isin_add; auto; [eapply icosh_encl|eapply cos_encl]; eauto).
  destruct (fun h => isin_div OK _ _ _ (sinh (2 * a)) _ K2 h T) as [N A]. { eapply isinh_encl; eauto. }
  destruct (fun h => isin_div OK _ _ _ (sin (2 * b)) _ K4 h T) as [_ B]. { eapply sin_encl; eauto. }
  destruct (Ctanh_parts a b N) as [M ->]. split; auto. now apply cin_mk.
Qed.
Lemma casin_encl X x Q : casin S P f X = Ok Q -> cin X x -> exists w, cin Q w /\ Csin w = x.
Proof.
  intros H HX. unfold casin in H. inv H. inv H. ret H.
  destruct (csqrt_ex _ (RtoC 1 - x * x)%C _ K) as (s & S1 & S2). { apply cin_Ssub; auto using cin_mul; apply (ok_s1 _ OK). }
  assert (I : cin (cadd (cmul cxi X) v) (Ci * x + s)%C) by (apply cin_add; auto using cin_mul, cin_i).
  destruct (clog_ex _ _ _ K0 I) as (w & W1 & W2).
  { intros E. assert (K1 : ((Ci * x + s) * (s - Ci * x) = RtoC 1)%C) by (transitivity (s * s - (Ci * Ci) * x * x)%C; [ring|rewrite S2, Ci2; ring]).
    rewrite E, Cmult_0_l in K1. symmetry in K1. now apply C1_nz. }
  exists (- Ci * w)%C. split; [apply cin_mul; auto using cin_neg, cin_i|]. now apply (asin_alg x s).
Qed.
Lemma cacos_encl X x Q : cacos S P f X = Ok Q -> cin X x -> exists w, cin Q w /\ Ccos w = x.
Proof.
  intros H HX. unfold cacos in H. inv H. inv H. ret H.
  destruct (csqrt_ex _ (RtoC 1 - x * x)%C _ K) as (s & S1 & S2). { apply cin_Ssub; auto using cin_mul; apply (ok_s1 _ OK). }
  assert (I : cin (cadd X (cmul cxi v)) (x + Ci * s)%C) by (apply cin_add; auto using cin_mul, cin_i).
  destruct (clog_ex _ _ _ K0 I) as (w & W1 & W2).
  { intros E. assert (K1 : ((x + Ci * s) * (x - Ci * s) = RtoC 1)%C) by (transitivity (x * x - (Ci * Ci) * (s * s))%C; [ring|rewrite S2, Ci2; ring]).
    rewrite E, Cmult_0_l in K1. symmetry in K1. now apply C1_nz. }
  exists (- Ci * w)%C. split; [apply cin_mul; auto using cin_neg, cin_i|]. now apply (acos_alg x s).
Qed.
Lemma casinh_encl X x Q : casinh S P f X = Ok Q -> cin X x -> exists w, cin Q w /\ Csinh w = x.
Proof.
  intros H HX. unfold casinh in H. inv H.
  destruct (csqrt_ex _ (x * x + RtoC 1)%C _ K) as (s & S1 & S2). { apply cin_addS; auto using cin_mul; apply (ok_s1 _ OK). }
  assert (I : cin (cadd X v) (x + s)%C) by (apply cin_add; auto).
  destruct (clog_ex _ _ _ H I) as (w & W1 & W2).
  { intros E. assert (K1 : ((x + s) * (s - x) = RtoC 1)%C) by (transitivity (s * s - x * x)%C; [ring|rewrite S2; ring]).
    rewrite E, Cmult_0_l in K1. symmetry in K1. now apply C1_nz. }
  exists w. split; auto. now apply (asinh_alg x s).
Qed.
Lemma cacosh_encl X x Q : cacosh S P f X = Ok Q -> cin X x -> exists w, cin Q w /\ Ccosh w = x.
Proof.
  intros H HX. unfold cacosh in H. inv H.
  destruct (csqrt_ex _ (x * x - RtoC 1)%C _ K) as (s & S1 & S2). { apply cin_subS; auto using cin_mul; apply (ok_s1 _ OK). }
  assert (I : cin (cadd X v) (x + s)%C) by (apply cin_add; auto).
  destruct (clog_ex _ _ _ H I) as (w & W1 & W2).
  { intros E. assert (K1 : ((x + s) * (x - s) = RtoC 1)%C) by (transitivity (x * x - s * s)%C; [ring|rewrite S2; ring]).
    rewrite E, Cmult_0_l in K1. symmetry in K1. now apply C1_nz. }
  exists w. split; auto. now apply (acosh_alg x s).
Qed.
(* the points 1 and -1 (i and -i) are singular: there the argument of the logarithm is 0 or the division fails *)
Lemma catanh_encl X x Q : catanh S P f X = Ok Q -> cin X x -> x <> (- RtoC 1)%C ->
  exists w, cin Q w /\ Ccosh w <> RtoC 0 /\ Ctanh w = x.
Proof.
  intros H HX N. unfold catanh in H. inv H. inv H. ret H. destruct (ok_s1 _ OK) as [W1 V1]. destruct half_v as [HW HV].
  destruct (cdiv_encl _ _ _ (RtoC 1 + x)%C (RtoC 1 - x)%C K) as [M A]; auto using cin_Sadd, cin_Ssub.
  destruct (clog_ex _ _ _ K0 A) as (w & L1 & L2).
  { intros E. apply N. assert (Z : (RtoC 1 + x = RtoC 0)%C) by (transitivity ((RtoC 1 + x) / (RtoC 1 - x) * (RtoC 1 - x))%C; [field; auto|rewrite E; ring]).
    transitivity (RtoC 1 + x - RtoC 1)%C; [ring|rewrite Z; ring]. }
  exists (w / RtoC 2)%C. split; [|now apply atanh_alg].
  replace (w / RtoC 2)%C with (RtoC (/ 2) * w)%C. now apply cin_Smul. rewrite RtoC_inv by lra. field. apply C2_nz.
Qed.
Lemma catan_encl X x Q : catan S P f X = Ok Q -> cin X x -> x <> (- Ci)%C ->
  exists w, cin Q w /\ Ccos w <> RtoC 0 /\ Ctan w = x.
Proof.
  intros H HX N. unfold catan in H. inv H. inv H. ret H. destruct half_v as [HW HV].
  destruct (cdiv_encl _ _ _ (Ci + x)%C (Ci - x)%C K) as [M A]; auto using cin_add, cin_sub, cin_i.
  destruct (clog_ex _ _ _ K0 A) as (w & L1 & L2).
  { intros E. apply N. assert (Z : (Ci + x = RtoC 0)%C) by (transitivity ((Ci + x) / (Ci - x) * (Ci - x))%C; [field; auto|rewrite E; ring]).
    transitivity (Ci + x - Ci)%C; [ring|rewrite Z; ring]. }
  exists (Ci * (w / RtoC 2))%C. split; [|now apply atan_alg].
  replace (Ci * (w / RtoC 2))%C with (Ci * RtoC (/ 2) * w)%C. apply cin_mul; auto. apply cin_mulS; auto using cin_i. rewrite RtoC_inv by lra. field. apply C2_nz.
Qed.
End CplxProofs.
