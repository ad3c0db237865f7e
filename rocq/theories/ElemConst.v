(* The constants computed by series enclose pi, e and ln 2; pow(interval, interval) encloses. *)
From Coq Require Import Reals Lra Lia Psatz ZArith Bool Machin.
From Flocq Require Import Core.
From Verif Require Import Ext Scalar IntervalModel IntervalSpec IntervalProofs IntervalEncl IntervalSets IntervalDivPow IntervalMore ElemModel RealFun RealConst RealInv ElemGen ElemExp ElemLog.
Open Scope R_scope.

Section ElemConst.
Context {S : scal} (OK : scal_ok S).
Implicit Types X Q : iv S.
Ltac inv H := let a := fresh "T" in let E := fresh "E" in apply bind_ok in H as (a & E & H).

Lemma isin_z k : (Z.abs k <= 2 ^ 53)%Z -> isin (ipt (sint S k)) (IZR k).
Proof. intros. apply isin_pt; apply (sint_ok OK); auto. Qed.

Lemma ser_pi_encl f Q : ser_pi S f = Ok Q -> isin Q PI.
Proof.
  intros H. unfold ser_pi in H. inv H. inv H. inv H. inv H. injection H as <-.
  pose proof (isin_inv OK _ _ _ E (isin_z 5 ltac:(lia))) as K1. pose proof (isin_inv OK _ _ _ E1 (isin_z 239 ltac:(lia))) as K2.
  pose proof (atan_origin_ok OK _ _ _ _ K1 E0) as A1. pose proof (atan_origin_ok OK _ _ _ _ K2 E2) as A2.
  pose proof Machin_4_5_239 as M. replace PI with (16 * atan (1 / 5) - 4 * atan (1 / 239)).
  - destruct (sint_ok OK 16) as [W1 V1]; [lia|]. destruct (sint_ok OK 4) as [W2 V2]; [lia|].
    apply (isin_sub OK); apply (isin_Smul OK); auto.
  - replace (1 / 5) with (/ 5) by lra. replace (1 / 239) with (/ 239) by lra. lra.
Qed.

Lemma ser_e_loop_ok f : forall rem (n : nat) RR Y Q, (forall t, 0 <= t <= 1 -> isin rem (exp t)) ->
  isin RR (rsum (exp_term 1) (n + 1)) -> isin Y (exp_term 1 n) ->
  ser_e_loop S f rem (Z.of_nat n + 1) RR Y = Ok Q -> isin Q (exp 1).
Proof.
  induction f as [|f IH]; intros rem n RR Y Q HR HS HY H; simpl in H; [discriminate|].
  apply fuel_guard in H as [Hi H]; [|exact (Err EFuel)]. inv H.
  assert (I1 : isin T (exp_term 1 (n + 1))).
  { replace (n + 1)%nat with (Datatypes.S n) by lia. rewrite exp_term_S, Rmult_1_r.
    replace (INR (Datatypes.S n)) with (IZR (Z.of_nat n + 1)) by (rewrite S_INR, INR_IZR_INZ, plus_IZR; auto).
    eapply (isin_divi OK); [exact E|unfold intmax in Hi; lia|auto]. }
  destruct (slt _ _).
  - injection H as <-. destruct (exp_taylor 1 (n + 1)) as (t & Bt & ->).
    apply (isin_add OK); auto. apply (isin_mul OK); auto. apply HR. unfold btw in Bt. lra.
  - replace (Z.of_nat n + 1 + 1)%Z with (Z.of_nat (n + 1) + 1)%Z in H by lia.
    eapply (IH rem (n + 1)%nat); eauto.
    replace (n + 1 + 1)%nat with (Datatypes.S (n + 1)) by lia. cbn [rsum]. apply (isin_add OK); auto.
Qed.
(* rem is interval("1", "2.71828182845904524"): string conversion is outward, so it contains [1, e] *)
Lemma ser_e_encl f rem Q : isin rem 1 -> isin rem (exp 1) -> ser_e S f rem = Ok Q -> isin Q (exp 1).
Proof.
  intros H1 H2 H. eapply (ser_e_loop_ok f rem 0); eauto.
  - intros t Ht. destruct H1 as (A1 & A2 & A3 & A4), H2 as (B1 & B2 & B3 & B4). apply isin_ends; auto.
    + eapply lb_le; [exact A3|]. rewrite <- exp_0. apply exp_mono; lra.
    + eapply ub_le; [exact B4|]. apply exp_mono; lra.
  - simpl. unfold exp_term. simpl. replace (0 + 1 / 1) with 1 by field. apply isin_1; auto.
  - unfold exp_term. simpl. replace (1 / 1) with 1 by field. apply isin_1; auto.
Qed.

Lemma ser_ln2_loop_ok f : forall X v cinv (n : nat) RR XN XN2 Q,
  isin X v -> -1 < v -> (forall t, btw v t -> isin cinv (/ (1 + t))) ->
  isin RR (rsum (fun k => match k with O => 0 | Datatypes.S j => (-1) ^ j * v ^ k / INR k end) (n + 1)) ->
  isin XN ((-1) ^ (n + 1) * v ^ n) ->
  (forall t, btw v t -> isin XN2 ((-1) ^ (n + 1) * (v / (1 + t)) ^ n)) ->
  ser_ln2_loop S f X cinv (Z.of_nat n + 1) RR XN XN2 = Ok Q -> isin Q (ln (1 + v)).
Proof.
  induction f as [|f IH]; intros X v cinv n RR XN XN2 Q Ex Hv HC HS HN HN2 H; simpl in H; [discriminate|].
  apply fuel_guard in H as [Hi H]; [|exact (Err EFuel)].
  apply bind_ok in H as (T & HD & H).
  assert (NZ : INR (n + 1) = IZR (Z.of_nat n + 1)) by (rewrite INR_IZR_INZ; f_equal; lia).
  assert (J1 : isin (imul (ineg XN) X) ((-1) ^ (n + 1 + 1) * v ^ (n + 1))).
  { replace ((-1) ^ (n + 1 + 1) * v ^ (n + 1)) with (- ((-1) ^ (n + 1) * v ^ n) * v) by (rewrite !pow_add; simpl; ring).
    apply (isin_mul OK); auto. apply (isin_neg OK); auto. }
  assert (J2 : forall t, btw v t -> isin (imul (imul (ineg XN2) cinv) X) ((-1) ^ (n + 1 + 1) * (v / (1 + t)) ^ (n + 1))).
  { intros t Ht. replace ((-1) ^ (n + 1 + 1) * (v / (1 + t)) ^ (n + 1)) with (- ((-1) ^ (n + 1) * (v / (1 + t)) ^ n) * / (1 + t) * v)
      by (rewrite !(pow_add _ _ 1), !pow_1; unfold Rdiv; ring).
    apply (isin_mul OK); auto. apply (isin_mul OK); auto. apply (isin_neg OK); auto. }
  destruct (slt _ _).
  - injection H as <-. destruct (ln_taylor v (n + 1) Hv) as (t & Bt & E); [lia|]. rewrite E.
    apply (isin_add OK); auto. replace (n + 1 - 1)%nat with n by lia.
    rewrite NZ. eapply (isin_divi OK); [exact HD|unfold intmax in Hi; lia|].
    replace ((-1) ^ n) with ((-1) ^ (n + 1 + 1)) by (rewrite !pow_add; simpl; ring). auto.
  - apply bind_ok in H as (U & HU & H).
    replace (Z.of_nat n + 1 + 1)%Z with (Z.of_nat (n + 1) + 1)%Z in H by lia.
    eapply (IH X v cinv (n + 1)%nat); eauto.
    replace (n + 1 + 1)%nat with (Datatypes.S (n + 1)) by lia. cbn [rsum]. apply (isin_add OK); auto.
    replace (n + 1)%nat with (Datatypes.S n) at 1 by lia. cbv iota beta.
    rewrite NZ. eapply (isin_divi OK); [exact HU|unfold intmax in Hi; lia|].
    replace ((-1) ^ n * v ^ (n + 1)) with ((-1) ^ (n + 1 + 1) * v ^ (n + 1)) by (rewrite !(pow_add _ _ 1); simpl; ring). auto.
Qed.
Lemma ser_ln2_encl f Q : ser_ln2 S f = Ok Q -> isin Q (ln 2).
Proof.
  intros H. unfold ser_ln2 in H. inv H. inv H. inv H. inv H. injection H as <-.
  pose proof (sqrt2_isin OK _ E) as K1. destruct (isin_sqrt OK _ _ _ E0 K1) as [_ K2].
  set (q := sqrt (sqrt 2)) in *. pose proof s2pos as S2. assert (QP : 0 < q) by (apply sqrt_lt_R0; auto).
  assert (LQ : ln 2 = ln q * 4).
  { assert (ln (q * q) = ln 2 / 2) as LL by (unfold q; rewrite sqrt_sqrt by lra; apply ln_sqrt2). rewrite ln_mult in LL by auto. lra. }
  assert (K3 : isin (isubS T0 s1) (q - 1)) by (apply (isin_subS OK); auto; [apply (s1_wf OK)|apply (s1_v OK)]).
  destruct (sint_ok OK 4) as [W4 V4]; [lia|]. rewrite LQ. apply (isin_mulS OK); auto.
  replace q with (1 + (q - 1)) at 1 by ring.
  eapply (ser_ln2_loop_ok f _ (q - 1) T1 0); eauto.
  - lra.
  - intros t Ht. assert (isin (hullIS T0 s1) (1 + t)) as K4.
    { eapply (isin_hullIS OK _ s1 1 q); eauto; try apply s1_wf; try apply s1_v; auto. unfold btw in Ht. lra. }
    pose proof (isin_inv OK _ _ _ E1 K4) as K. replace (/ (1 + t)) with (1 / (1 + t)); auto. unfold Rdiv. ring.
  - simpl. rewrite Rplus_0_r. apply isin_0; auto.
  - simpl. replace (-1 * 1 * 1) with (-1) by ring. apply isin_m1; auto.
  - intros t Ht. simpl. replace (-1 * 1 * 1) with (-1) by ring. apply isin_m1; auto.
Qed.

(* pow(interval, interval) *)
Lemma ipowI_encl P (LE : exp_laws S P) (LL : log_laws S P) f X Y x y Q : ipowI S P f X Y = Ok Q -> isin X x -> isin Y y -> 0 < x ->
  isin Q (Rpower x y).
Proof.
  intros H HX HY HP. unfold ipowI in H. inv H. pose proof (ilog_encl OK P LL _ _ _ _ E HX HP) as K.
  unfold Rpower. eapply (iexp_encl OK P LE); eauto. apply (isin_mul OK); auto.
Qed.
End ElemConst.
