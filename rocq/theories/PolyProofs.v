(* Enclosure proofs for the models of kv/cardano-ferrari.hpp and kv/dka.hpp. *)
From Coq Require Import Reals Lra Lia Psatz ZArith Bool List.
From Coquelicot Require Import Complex.
From Verif Require Import Ext Scalar IntervalModel IntervalSpec IntervalProofs IntervalEncl IntervalSets IntervalDivPow IntervalMore ElemModel RealFun RealConst RealInv ElemGen ElemExp ElemLog ElemTrig ElemAtan2 CplxModel CplxReal CplxProofs PolyModel PolyReal.
Open Scope R_scope.

Section PolyProofs.
Context {S : scal} (OK : scal_ok S) (P : elemp S) (LE : exp_laws S P) (LL : log_laws S P) (LT : trig_laws S P).
Variable f : nat.
Local Notation cin := (@cin S).
Local Notation isin := (@isin S).
Ltac inv H := apply bind_ok in H; let a := fresh "v" in let K := fresh "K" in destruct H as (a & K & H).
Ltac ret H := injection H as <-.

(* ---- pow with exponent 1/3 ---- *)
Lemma clog_zero X L : clog S P f X = Ok L -> cin X (RtoC 0) -> exists M0, forall t, t <= M0 -> cin L (t, 0).
Proof.
  intros H HX. unfold clog in H. inv H. inv H. inv H. ret H. rename v into M, v0 into G, v1 into A.
  pose proof (cabs_encl OK _ _ _ K HX) as HM. rewrite Cmod_0 in HM.
  assert (HA : isin A 0). { destruct HX as [X1 X2]. eapply (iatan2_0 OK P LT f); eauto. pose proof PI_RGT_0; lra. }
  pose proof HM as (M1 & M2 & M3 & M4). unfold ilog in K0. destruct (slt (lo M) s0) eqn:C0; [discriminate|].
  pose proof K0 as K0'. inv K0. inv K0. injection K0 as K0.
  destruct (ok_s0 _ OK) as [W0 V0]. destruct (ok_pinf _ OK) as [WI VI].
  pose proof C0 as C0'. apply (slt_false OK) in C0; auto; [|intros N; rewrite N in M3; auto|congruence]. rewrite V0 in C0.
  assert (Z : sval (lo M) = XR 0). { destruct (sval (lo M)); simpl in *; try tauto. f_equal. lra. }
  assert (LO : sval v = Xm /\ swf v).
  { unfold log_point in K2. inv K2. assert (E1 : seqb (lo M) spinf = false).
    { destruct (seqb (lo M) spinf) eqn:E; auto. apply (ok_eq _ OK) in E; auto. rewrite Z, VI in E. simpl in E. tauto. }
    assert (E2 : seqb (lo M) s0 = true). { apply (ok_eq _ OK); auto. rewrite Z, V0. simpl. auto. }
    rewrite E1, E2 in K2. injection K2 as <-. destruct (ok_ninf _ OK); auto. }
  destruct LO as [LV LW].
  assert (MI : forall m, 0 <= m -> ub (sval (hi M)) m -> isin M m).
  { intros m Hm Um. apply isin_ends; auto. rewrite Z. simpl. lra. }
  assert (BIG : forall m, 0 < m -> ub (sval (hi M)) m -> isin G (ln m)).
  { intros m Hm Um. eapply (ilog_encl OK P LL f M m); eauto. unfold ilog. rewrite C0'. exact K0'. apply MI; auto; lra. }
  assert (E : exists M0, forall t, t <= M0 -> isin G t).
  { destruct (sval (hi M)) as [h| | |] eqn:EH; simpl in M4; try tauto.
    - destruct (Req_dec h 0) as [-> |NH].
      + destruct (ok_max _ OK) as (WM & mx & VM & PM). exists (- mx). intros t Ht. rewrite <- K0.
        assert (E1 : seqb (hi M) spinf = false).
        { destruct (seqb (hi M) spinf) eqn:E; auto. apply (ok_eq _ OK) in E; auto. rewrite EH, VI in E. simpl in E. tauto. }
        assert (E2 : seqb (hi M) s0 = true). { apply (ok_eq _ OK); auto. rewrite EH, V0. simpl. auto. }
        unfold log_point in K3. inv K3. rewrite E1, E2 in K3. injection K3 as <-.
        apply isin_ends; cbn [lo hi]; auto using (sneg_wf OK). rewrite LV. simpl. auto. rewrite (sneg_v OK), VM by auto. simpl. lra.
      + exists (ln h). intros t Ht. rewrite <- (ln_exp t). apply BIG. apply exp_pos. simpl. rewrite <- (exp_ln h) by lra.
        destruct Ht as [Ht| ->]; [left; now apply exp_increasing|lra].
    - exists 0. intros t _. rewrite <- (ln_exp t). apply BIG. apply exp_pos. simpl. auto. }
  destruct E as [M0 E]. exists M0. intros t Ht. split; cbn [re im fst snd]; auto.
Qed.
(* intervals are closed *)
Lemma isin_lim0 (X : iv S) (g : R -> R) : (forall eps, 0 < eps -> exists x, 0 <= x < eps /\ isin X x) -> isin X 0.
Proof.
  intros H. destruct (H 1 Rlt_0_1) as (x & Hx & (W1 & W2 & L & U)). apply isin_ends; auto.
  - destruct (sval (lo X)) as [l| | |] eqn:E; simpl in *; auto. destruct (Rle_dec l 0); auto. exfalso.
    destruct (H l ltac:(lra)) as (y & Hy & (_ & _ & L' & _)). rewrite E in L'. simpl in L'. lra.
  - eapply ub_le; eauto. lra.
Qed.
Lemma cpowI_zero X Y Q y : cpowI S P f X Y = Ok Q -> cin X (RtoC 0) -> isin Y y -> 0 < y -> cin Q (RtoC 0).
Proof.
  intros H HX HY Hy. unfold cpowI, cpow in H. inv H. destruct (clog_zero _ _ K HX) as [M0 HM].
  assert (E : forall t, t <= M0 -> cin Q (exp (y * t), 0)).
  { intros t Ht. pose proof (cin_mul OK _ _ _ _ (cin_cofI OK Y y HY) (HM t Ht)) as I.
    pose proof (cexp_encl OK P LE LT f _ _ _ H I) as J. replace ((exp (y * t), 0) : C) with (Cexp (RtoC y * (t, 0))%C); auto.
    unfold Cexp, Cmult, RtoC; cbn [fst snd]. replace (y * 0 + 0 * t) with 0 by ring. rewrite cos_0, sin_0. apply Ceq; [|ring].
    rewrite Rmult_1_r. f_equal. ring. }
  split; cbn [RtoC fst snd].
  - apply (isin_lim0 _ (fun x => x)). intros eps He. set (t := Rmin M0 (ln eps / y - 1)).
    exists (exp (y * t)). split; [|apply (E t), Rmin_l]. split; [left; apply exp_pos|].
    rewrite <- (exp_ln eps) at 1 by auto. apply exp_increasing. apply Rlt_le_trans with (y * (ln eps / y)).
    + apply Rmult_lt_compat_l; auto. unfold t. pose proof (Rmin_r M0 (ln eps / y - 1)). lra.
    + right. field. lra.
  - apply (E M0). lra.
Qed.
Lemma cbrt_ex X Y Q z : cpowI S P f X Y = Ok Q -> cin X z -> isin Y (/ 3) -> exists m, cin Q m /\ (m * m * m)%C = z.
Proof.
  intros H HX HY. destruct (Ceq_dec z (RtoC 0)) as [-> |N].
  - exists (RtoC 0). split; [|ring]. eapply cpowI_zero; eauto. lra.
  - destruct (cpow_encl OK P LE LL LT f _ _ _ z (RtoC (/ 3)) H HX (cin_cofI OK Y _ HY) N) as (l & E & _ & K).
    eexists. split; [exact K|]. rewrite <- !Cexp_plus. transitivity (Cexp l); auto. f_equal. rewrite RtoC_inv by lra.
    rewrite RtoC3. set (u := (RtoC 1 + RtoC 1 + RtoC 1)%C). assert (u <> RtoC 0) by (unfold u; rewrite <- RtoC3; apply num_nz; lra).
    transitivity (u * (/ u * l))%C; [unfold u; ring|]. field. auto.
Qed.

(* ---- selecting nn ---- *)
Definition cvalid (X : cx S) : Prop := ivalid (re X) /\ ivalid (im X).
Lemma cin_valid X z : cin X z -> cvalid X. Proof. intros [A B]. split; eapply isin_valid; eauto. Qed.
Lemma czero_in X : cvalid X -> (czero X = true <-> cin X (RtoC 0)).
Proof.
  intros [A B]. unfold czero. rewrite andb_true_iff, (zero_in_spec OK _ A), (zero_in_spec OK _ B). unfold cin, CplxProofs.cin. simpl. tauto.
Qed.
Lemma cin_hull_l X Y z : cin X z -> cvalid Y -> cin (mkcx (hull (re X) (re Y)) (hull (im X) (im Y))) z.
Proof. intros [A B] [V W]. split; cbn [re im]; apply (isin_hull_l OK); auto. Qed.
Lemma cin_hull_r X Y z : cvalid X -> cin Y z -> cin (mkcx (hull (re X) (re Y)) (hull (im X) (im Y))) z.
Proof. intros [V W] [A B]. split; cbn [re im]; apply (isin_hull_r OK); auto. Qed.
Lemma keep_old t h nt z : cin h z -> cvalid nt -> exists h', keep t (Some h) nt = Some h' /\ cin h' z.
Proof. intros H V. unfold keep. destruct (czero t); eexists; (split; [reflexivity|]); auto. now apply cin_hull_l. Qed.
Lemma keep_new t nn nt z : cin t (RtoC 0) -> cin nt z -> (forall h, nn = Some h -> cvalid h) -> exists h', keep t nn nt = Some h' /\ cin h' z.
Proof.
  intros T H V. unfold keep. rewrite (proj2 (czero_in t (cin_valid _ _ T)) T). destruct nn as [h|]; eexists; (split; [reflexivity|]); auto.
  apply cin_hull_r; auto.
Qed.
Lemma keep_valid t nn nt : cvalid nt -> (forall h, nn = Some h -> cvalid h) -> forall h, keep t nn nt = Some h -> cvalid h.
Proof.
  intros V N h H. unfold keep in H. destruct (czero t); auto. destruct nn as [g|]; injection H as <-; auto.
  destruct (N g eq_refl), V. split; cbn [re im]; apply (valid_hull OK); auto.
Qed.
Lemma pick_old cnt : forall M W Pb h nt nn m w n z, pick_nn cnt M W Pb (Some h) nt = Ok nn -> cin M m -> cin W w -> cin nt n ->
  cin h z -> exists h', nn = Some h' /\ cin h' z.
Proof.
  induction cnt; intros M W Pb h nt nn m w n z H HM HW HN Hz; cbn [pick_nn] in H. { ret H. eauto. }
  inv H. destruct (keep_old (cadd (cmul M nt) v) h nt z Hz (cin_valid _ _ HN)) as (h' & E & Hz'). rewrite E in H.
  eapply IHcnt with (m := m) (w := w) (n := (w * n)%C); eauto. apply (cin_mul OK); auto.
Qed.
Lemma n3 : swf (sint S 3) /\ sval (sint S 3) = XR 3. Proof. apply (sint_ok OK). lia. Qed.
Lemma pick_ok cnt : forall M W Pb o nt nn m w n p k, pick_nn cnt M W Pb o nt = Ok nn -> cin M m -> cin W w -> cin Pb p -> cin nt n ->
  (forall h, o = Some h -> cvalid h) -> (k < cnt)%nat -> (m * (Cpown w k * n) + p / RtoC 3 = RtoC 0)%C ->
  exists h, nn = Some h /\ cin h (Cpown w k * n)%C.
Proof.
  induction cnt; intros M W Pb o nt nn m w n p k H HM HW HP HN V Hk E; [lia|]. cbn [pick_nn] in H. inv H.
  destruct n3 as [W3 V3]. destruct (cdivS_encl OK _ _ _ _ _ K HP W3 V3) as [_ P3].
  destruct k as [|k].
  - cbn [Cpown] in *. rewrite Cmult_1_l in *.
    assert (T : cin (cadd (cmul M nt) v) (RtoC 0)). { rewrite <- E. apply (cin_add OK); auto. apply (cin_mul OK); auto. }
    destruct (keep_new _ o nt n T HN V) as (h & E1 & E2). rewrite E1 in H.
    eapply pick_old with (m := m) (w := w) (n := (w * n)%C); eauto. apply (cin_mul OK); auto.
  - replace (Cpown w (Datatypes.S k) * n)%C with (Cpown w k * (w * n))%C in * by (cbn [Cpown]; ring).
    eapply IHcnt with (m := m); eauto. apply (cin_mul OK); auto. eapply keep_valid; eauto. eapply cin_valid; eauto. lia.
Qed.

(* ---- Cardano ---- *)
Lemma divn X Q x k : cdivS X (sint S k) = Ok Q -> (Z.abs k <= 2 ^ 53)%Z -> cin X x -> cin Q (x / RtoC (IZR k))%C.
Proof. intros H B HX. destruct (sint_ok OK k B) as [W V]. now destruct (cdivS_encl OK _ _ _ _ _ H HX W V). Qed.
Lemma powc X Q x (n : positive) : cpowi X (Z.pos n) = Ok Q -> cin X x -> cin Q (Cpown x (Pos.to_nat n)).
Proof. intros H HX. now destruct (cpowi_encl OK _ _ _ _ H HX) as [_ K]. Qed.
Lemma smul X x k : (Z.abs k <= 2 ^ 53)%Z -> cin X x -> cin (cSmul (sint S k) X) (RtoC (IZR k) * x)%C.
Proof. intros B HX. destruct (sint_ok OK k B). now apply (cin_Smul OK). Qed.
Lemma muls X x k : (Z.abs k <= 2 ^ 53)%Z -> cin X x -> cin (cmulS X (sint S k)) (x * RtoC (IZR k))%C.
Proof. intros B HX. destruct (sint_ok OK k B). now apply (cin_mulS OK). Qed.
Lemma cin_eq X (x y : C) : cin X x -> x = y -> cin X y. Proof. now intros H <-. Qed.

Definition roots3 (c0 c1 c2 c3 x1 x2 x3 : C) : Prop := forall x,
  (c0 + c1 * x + c2 * (x * x) + c3 * (x * x * x) = c3 * ((x - x1) * ((x - x2) * (x - x3))))%C.
Definition omega : C := ((RtoC (-1) + Ci * RtoC (sqrt 3)) / RtoC 2)%C.
Lemma omega_eq : omega = (- 1 / 2, sqrt 3 / 2).
Proof. unfold omega, Cdiv, Cinv, Cmult, Cplus, Ci, RtoC; cbn [fst snd]. apply Ceq; field. Qed.
Lemma omega_root : (omega * omega + omega + RtoC 1 = RtoC 0)%C.
Proof.
  rewrite omega_eq. unfold Cmult, Cplus, RtoC; cbn [fst snd]. pose proof (sqrt_sqrt 3 ltac:(lra)) as E. apply Ceq; [|field].
  replace (-1 / 2 * (-1 / 2) - sqrt 3 / 2 * (sqrt 3 / 2) + -1 / 2 + 1) with ((3 - sqrt 3 * sqrt 3) / 4) by field. rewrite E. field.
Qed.
Theorem cardano_encl C0 C1 C2 C3 Q c0 c1 c2 c3 : cardano S P f (C0 :: C1 :: C2 :: C3 :: nil) = Ok (Some Q) ->
  cin C0 c0 -> cin C1 c1 -> cin C2 c2 -> cin C3 c3 ->
  c3 <> RtoC 0 /\ exists X1 X2 X3 x1 x2 x3, Q = X1 :: X2 :: X3 :: nil /\ cin X1 x1 /\ cin X2 x2 /\ cin X3 x3 /\ roots3 c0 c1 c2 c3 x1 x2 x3.
Proof.
  intros H H0 H1 H2 H3. cbn [cardano] in H. destruct (czero C3) eqn:Z3; [discriminate|].
  inv H. destruct (cdiv_encl OK _ _ _ _ _ K H2 H3) as [N3 Ha]. clear K. rename v into A. split; auto.
  inv H. destruct (cdiv_encl OK _ _ _ _ _ K H1 H3) as [_ Hb]. clear K. rename v into B.
  inv H. destruct (cdiv_encl OK _ _ _ _ _ K H0 H3) as [_ Hc]. clear K. rename v into CC.
  set (a := (c2 / c3)%C) in *. set (b := (c1 / c3)%C) in *. set (c := (c0 / c3)%C) in *.
  inv H. pose proof (powc _ _ _ 2 K Ha) as Ha2. clear K. inv H. pose proof (divn _ _ _ _ K ltac:(lia) Ha2) as Ht. clear K.
  set (p := (b - a * a / RtoC 3)%C).
  assert (Hp : cin (csub B v0) p). { apply (cin_eq _ _ _ (cin_sub OK _ _ _ _ Hb Ht)). unfold p. change (Pos.to_nat 2) with 2%nat. cbn [Cpown]. rewrite Cmult_1_r. reflexivity. }
  cbv zeta in H. set (PB := csub B v0) in *. clearbody PB. clear Ha2 Ht v v0.
  inv H. pose proof (powc _ _ _ 3 K Ha) as Ha3. clear K. inv H. pose proof (divn _ _ _ _ K ltac:(lia) (smul _ _ 2 ltac:(lia) Ha3)) as Ht1. clear K.
  inv H. pose proof (divn _ _ _ _ K ltac:(lia) (cin_mul OK _ _ _ _ Ha Hb)) as Ht2. clear K.
  set (q := (RtoC 2 * (a * a * a) / RtoC 27 - a * b / RtoC 3 + c)%C).
  assert (Hq : cin (cadd (csub v0 v1) CC) q).
  { apply (cin_eq _ _ _ (cin_add OK _ _ _ _ (cin_sub OK _ _ _ _ Ht1 Ht2) Hc)). unfold q. change (Pos.to_nat 3) with 3%nat. cbn [Cpown].
    rewrite Cmult_1_r, !Cmult_assoc. reflexivity. }
  set (QB := cadd (csub v0 v1) CC) in *. clearbody QB. clear Ha3 Ht1 Ht2 v v0 v1.
  inv H. destruct (isin_sqrt OK _ _ 3 K) as [_ Hs3]. { apply isin_pt; apply (sint_ok OK); lia. } clear K.
  inv H. assert (Hw : cin v0 omega).
  { apply (cin_eq _ _ _ (divn _ _ (-1, sqrt 3) 2 K ltac:(lia) ltac:(split; cbn [re im fst snd]; [apply isin_pt; apply (sint_ok OK); lia|auto]))).
    rewrite omega_eq. unfold Cdiv, Cinv, Cmult, RtoC; cbn [fst snd]. apply Ceq; field. }
  clear K Hs3 v. rename v0 into WB.
  inv H. pose proof (powc _ _ _ 2 K Hq) as Hq2. clear K. inv H. pose proof (divn _ _ _ _ K ltac:(lia) Hq2) as Hq4. clear K.
  inv H. pose proof (powc _ _ _ 3 K Hp) as Hp3. clear K. inv H. pose proof (divn _ _ _ _ K ltac:(lia) Hp3) as Hp27. clear K.
  inv H. destruct (csqrt_ex OK P LT f _ _ _ K (cin_add OK _ _ _ _ Hq4 Hp27)) as (t & Ht & Et). clear K.
  change (Pos.to_nat 2) with 2%nat in Et. change (Pos.to_nat 3) with 3%nat in Et. cbn [Cpown] in Et. rewrite !Cmult_1_r, Cmult_assoc in Et.
  clear Hq2 Hq4 Hp3 Hp27. rename v3 into TB. clear v v0 v1 v2.
  inv H. pose proof (divn _ _ _ _ K ltac:(lia) (cin_neg OK _ _ Hq)) as Hh. clear K. rename v into HB.
  inv H. assert (H3i : isin v (/ 3)).
  { destruct (isin_Sdiv OK _ _ _ 1 3 K) as [_ G]; try apply (ok_s1 _ OK). apply isin_pt; apply (sint_ok OK); lia. unfold Rdiv in G. now rewrite Rmult_1_l in G. }
  clear K. rename v into TH.
  inv H. destruct (cbrt_ex _ _ _ _ K (cin_add OK _ _ _ _ Hh Ht) H3i) as (m & Hm & Em). clear K. rename v into MB.
  inv H. destruct (cbrt_ex _ _ _ _ K (cin_sub OK _ _ _ _ Hh Ht) H3i) as (n & Hn & En). clear K. rename v into NB.
  inv H. destruct (partner omega m n p q t omega_root Et Em En) as (k & Hk & Ek).
  destruct (pick_ok 3 _ _ _ _ _ _ _ _ _ _ k K Hm Hw Hp Hn ltac:(discriminate) Hk Ek) as (nn & -> & Hnn). clear K. cbn [or0] in H.
  pose proof (cubes omega n q t omega_root En k) as En'. cbv zeta in En'. set (n' := (Cpown omega k * n)%C) in *. clearbody n'.
  inv H. pose proof (divn _ _ _ _ K ltac:(lia) Ha) as Ha3. clear K. rename v into A3.
  ret H. do 3 eexists. exists (m + n' - a / RtoC 3)%C, (omega * m + omega * omega * n' - a / RtoC 3)%C, (omega * omega * m + omega * n' - a / RtoC 3)%C.
  split; [reflexivity|]. split; [|split; [|split]].
  - apply (cin_sub OK); auto. apply (cin_add OK); auto.
  - apply (cin_sub OK); auto. apply (cin_add OK); repeat apply (cin_mul OK); auto.
  - apply (cin_sub OK); auto. apply (cin_add OK); repeat apply (cin_mul OK); auto.
  - intros x. pose proof (cardano_roots c0 c1 c2 c3 omega m n' t N3 omega_root Em En' Ek x) as R. fold a in R. rewrite <- R. cbn [peval]. ring.
Qed.
Theorem cardano_none l : cardano S P f l = Ok None -> length l <> 4%nat \/ exists c0 c1 c2 c3, l = c0 :: c1 :: c2 :: c3 :: nil /\ czero c3 = true.
Proof.
  destruct l as [|c0 [|c1 [|c2 [|c3 [|c4 l]]]]]; intros H; try (left; simpl; lia). cbn [cardano] in H.
  destruct (czero c3) eqn:Z. { right. eauto 8. } exfalso. repeat inv H. discriminate.
Qed.

(* ---- Ferrari ---- *)
Definition roots4 (c0 c1 c2 c3 c4 x1 x2 x3 x4 : C) : Prop := forall x,
  (c0 + c1 * x + c2 * (x * x) + c3 * (x * x * x) + c4 * (x * x * x * x) = c4 * (((x - x1) * (x - x2)) * ((x - x3) * (x - x4))))%C.
Theorem ferrari_encl C0 C1 C2 C3 C4 Q c0 c1 c2 c3 c4 : ferrari S P f (C0 :: C1 :: C2 :: C3 :: C4 :: nil) = Ok (Some Q) ->
  cin C0 c0 -> cin C1 c1 -> cin C2 c2 -> cin C3 c3 -> cin C4 c4 ->
  c4 <> RtoC 0 /\ exists X1 X2 X3 X4 x1 x2 x3 x4, Q = X1 :: X2 :: X3 :: X4 :: nil /\ cin X1 x1 /\ cin X2 x2 /\ cin X3 x3 /\ cin X4 x4 /\
  roots4 c0 c1 c2 c3 c4 x1 x2 x3 x4.
Proof.
  intros H H0 H1 H2 H3 H4. cbn [ferrari] in H. destruct (zero_in (re C4) && zero_in (im C3)) eqn:Z3; [discriminate|]. clear Z3.
  inv H. destruct (cdiv_encl OK _ _ _ _ _ K H3 H4) as [N4 Ha]. clear K. rename v into A. split; auto.
  inv H. destruct (cdiv_encl OK _ _ _ _ _ K H2 H4) as [_ Hb]. clear K. rename v into B.
  inv H. destruct (cdiv_encl OK _ _ _ _ _ K H1 H4) as [_ Hc]. clear K. rename v into CC.
  inv H. destruct (cdiv_encl OK _ _ _ _ _ K H0 H4) as [_ Hd]. clear K. rename v into D.
  set (a := (c3 / c4)%C) in *. set (b := (c2 / c4)%C) in *. set (c := (c1 / c4)%C) in *. set (d := (c0 / c4)%C) in *.
  inv H. pose proof (powc _ _ _ 2 K Ha) as Ha2. clear K. rename v into A2. change (Pos.to_nat 2) with 2%nat in Ha2. cbn [Cpown] in Ha2. rewrite Cmult_1_r in Ha2.
  inv H. pose proof (divn _ _ _ _ K ltac:(lia) (muls _ _ 3 ltac:(lia) Ha2)) as Ht. clear K.
  set (p := (b - a * a * RtoC 3 / RtoC 8)%C).
  assert (Hp : cin (csub B v) p) by exact (cin_sub OK _ _ _ _ Hb Ht).
  cbv zeta in H. set (PB := csub B v) in *. clearbody PB. clear Ht v.
  inv H. pose proof (divn _ _ _ _ K ltac:(lia) (cin_mul OK _ _ _ _ Hb Ha)) as Ht. clear K.
  inv H. pose proof (powc _ _ _ 3 K Ha) as Ha3. clear K. change (Pos.to_nat 3) with 3%nat in Ha3. cbn [Cpown] in Ha3. rewrite Cmult_1_r, Cmult_assoc in Ha3.
  inv H. pose proof (divn _ _ _ _ K ltac:(lia) Ha3) as Ht1. clear K.
  set (q := (c - b * a / RtoC 2 + a * a * a / RtoC 8)%C).
  assert (Hq : cin (cadd (csub CC v) v1) q) by exact (cin_add OK _ _ _ _ (cin_sub OK _ _ _ _ Hc Ht) Ht1).
  set (QB := cadd (csub CC v) v1) in *. clearbody QB. clear Ha3 Ht1 Ht v v0 v1.
  inv H. pose proof (divn _ _ _ _ K ltac:(lia) (cin_mul OK _ _ _ _ Hc Ha)) as Ht. clear K.
  inv H. pose proof (divn _ _ _ _ K ltac:(lia) (cin_mul OK _ _ _ _ Hb Ha2)) as Ht1. clear K.
  inv H. pose proof (powc _ _ _ 4 K Ha) as Ha4. clear K. change (Pos.to_nat 4) with 4%nat in Ha4. cbn [Cpown] in Ha4. rewrite Cmult_1_r, !Cmult_assoc in Ha4.
  inv H. pose proof (divn _ _ _ _ K ltac:(lia) (muls _ _ 3 ltac:(lia) Ha4)) as Ht2. clear K.
  set (r := (d - c * a / RtoC 4 + b * (a * a) / RtoC 16 - a * a * a * a * RtoC 3 / RtoC 256)%C).
  assert (Hr : cin (csub (cadd (csub D v) v0) v2) r) by exact (cin_sub OK _ _ _ _ (cin_add OK _ _ _ _ (cin_sub OK _ _ _ _ Hd Ht) Ht1) Ht2).
  set (RB := csub (cadd (csub D v) v0) v2) in *. clearbody RB. clear Ha4 Ht1 Ht Ht2 v v0 v1 v2.
  inv H. pose proof (divn _ _ _ _ K ltac:(lia) (cin_neg OK _ _ Hp)) as Hc2. clear K. rename v into C2'.
  inv H. pose proof (divn _ _ _ _ K ltac:(lia) (cin_mul OK _ _ _ _ Hr Hp)) as Ht. clear K.
  inv H. pose proof (powc _ _ _ 2 K Hq) as Hq2. clear K. change (Pos.to_nat 2) with 2%nat in Hq2. cbn [Cpown] in Hq2. rewrite Cmult_1_r in Hq2.
  inv H. pose proof (divn _ _ _ _ K ltac:(lia) Hq2) as Ht1. clear K.
  inv H. destruct v2 as [[|l0 co]|]; try discriminate.
  destruct (cardano_encl _ _ _ _ _ _ _ _ _ K (cin_sub OK _ _ _ _ Ht Ht1) (cin_neg OK _ _ Hr) Hc2 (cin_1 OK)) as (_ & X1 & X2 & X3 & l & x2 & x3 & E & Hl & _ & _ & R).
  injection E as -> ->. clear K. inv H. injection K as <-.
  assert (RES : (peval ((r * p / RtoC 2 - q * q / RtoC 8) :: (- r) :: (- p / RtoC 2) :: RtoC 1 :: nil) l = RtoC 0)%C).
  { specialize (R l). cbn [peval]. etransitivity; [|etransitivity; [exact R|]]; ring. }
  clear R Ht Ht1 Hq2 v v0 v1. rename X1 into LB.
  inv H. destruct (csqrt_ex OK P LT f _ _ _ K (cin_sub OK _ _ _ _ (smul _ _ 2 ltac:(lia) Hl) Hp)) as (m & Hm & Em). clear K. rename v into MB.
  inv H. pose proof (powc _ _ _ 2 K Hl) as Hl2. clear K. change (Pos.to_nat 2) with 2%nat in Hl2. cbn [Cpown] in Hl2. rewrite Cmult_1_r in Hl2. rename v into L2.
  inv H. destruct (csqrt_ex OK P LT f _ _ _ K (cin_sub OK _ _ _ _ Hl2 Hr)) as (n & Hn & En). clear K. rename v into NB.
  cbv zeta in H.
  assert (TST : forall nt n0, cin nt n0 -> cin (cadd (cmul (cSmul (sint S 2) MB) nt) QB) (RtoC 2 * m * n0 + q)%C).
  { intros nt n0 Hn0. apply (cin_add OK); auto. apply (cin_mul OK); auto. apply smul; [lia|auto]. }
  set (NN := or0 _) in H.
  assert (HN : exists n', cin NN n' /\ (n' * n' = l * l - r)%C /\ (RtoC 2 * m * n' + q = RtoC 0)%C).
  { destruct (resolvent l m n p q r RES Em En) as [E|E].
    - exists n. split; auto. unfold NN. destruct (keep_new (cadd (cmul (cSmul (sint S 2) MB) NB) QB) None NB n) as (h & E1 & E2); auto.
      { rewrite <- E. now apply TST. } { discriminate. }
      rewrite E1. destruct (keep_old (cadd (cmul (cSmul (sint S 2) MB) (cneg NB)) QB) h (cneg NB) n E2) as (h' & E3 & E4).
      { apply (cin_valid _ (- n)%C). apply (cin_neg OK); auto. } rewrite E3. auto.
    - exists (- n)%C. split; [|split; auto]. 2: { rewrite <- En. ring. }
      unfold NN. destruct (keep_new (cadd (cmul (cSmul (sint S 2) MB) (cneg NB)) QB) (keep (cadd (cmul (cSmul (sint S 2) MB) NB) QB) None NB) (cneg NB) (- n)%C) as (h & E1 & E2); auto.
      { rewrite <- E. apply TST. now apply (cin_neg OK). } { apply (cin_neg OK); auto. }
      { apply keep_valid. apply (cin_valid _ n); auto. discriminate. }
      rewrite E1. auto. }
  clearbody NN. destruct HN as (n' & Hn' & En' & Eq').
  inv H. pose proof (powc _ _ _ 2 K Hm) as Hm2. clear K. change (Pos.to_nat 2) with 2%nat in Hm2. cbn [Cpown] in Hm2. rewrite Cmult_1_r in Hm2. rename v into M2.
  inv H. destruct (csqrt_ex OK P LT f _ _ _ K (cin_sub OK _ _ _ _ Hm2 (smul _ _ 4 ltac:(lia) (cin_sub OK _ _ _ _ Hl Hn')))) as (s1 & Hs1 & Es1). clear K. rename v into S1.
  inv H. destruct (csqrt_ex OK P LT f _ _ _ K (cin_sub OK _ _ _ _ Hm2 (smul _ _ 4 ltac:(lia) (cin_add OK _ _ _ _ Hl Hn')))) as (s2 & Hs2 & Es2). clear K. rename v into S2.
  inv H. pose proof (divn _ _ _ _ K ltac:(lia) Ha) as Ha4. clear K. rename v into A4.
  inv H. pose proof (divn _ _ _ _ K ltac:(lia) (cin_add OK _ _ _ _ Hm Hs1)) as Hx0. clear K.
  inv H. pose proof (divn _ _ _ _ K ltac:(lia) (cin_sub OK _ _ _ _ Hm Hs1)) as Hx1. clear K.
  inv H. pose proof (divn _ _ _ _ K ltac:(lia) (cin_add OK _ _ _ _ (cin_neg OK _ _ Hm) Hs2)) as Hx2. clear K.
  inv H. pose proof (divn _ _ _ _ K ltac:(lia) (cin_sub OK _ _ _ _ (cin_neg OK _ _ Hm) Hs2)) as Hx3. clear K.
  ret H. do 8 eexists. split; [reflexivity|].
  split; [exact (cin_sub OK _ _ _ _ Hx0 Ha4)|]. split; [exact (cin_sub OK _ _ _ _ Hx1 Ha4)|].
  split; [exact (cin_sub OK _ _ _ _ Hx2 Ha4)|]. split; [exact (cin_sub OK _ _ _ _ Hx3 Ha4)|].
  intros x. pose proof (ferrari_roots c0 c1 c2 c3 c4 l m n' s1 s2 N4 Em En' Eq' Es1 Es2 x) as R. fold a in R. rewrite <- R. cbn [peval]. ring.
Qed.
End PolyProofs.
