(* Property theorems: lobachevsky_origin and lobachevsky_point (C106) and lobachevsky (C107) of lobachevsky.hpp, for every double back end, DEFINT_FAST = 0.
   is_lob (LobReal.v): minus the integral of log(2 sin t) from 0 to x for 0 <= x < pi, with period pi, odd.
   fits l c: the end of every step lies in (0, c] and the first step is at most 1 long (C92). *)
From Coq Require Import Reals ZArith Bool List Lra Lia Psatz Arith.
From Coquelicot Require Import Coquelicot.
From Flocq Require Import Core BinarySingleNaN.
From Verif Require Import Fp64 RDoubleHw ElemGen.
From Verif Require Import Ext Scalar IntervalModel IntervalSpec IntervalProofs IntervalEncl IntervalSets Backends Ex64 ElemModel Elem64 PropsElem.
From Verif Require Import ADModel ADReal ADInst PsaModel PsaExpr PsaInst PsaHist PropsPsa PropsPsaHist OdeModel OdeProofs DefintAuto SingModel SingReal SingAuto PropsSing PropsSingAuto SingLog PropsSingLog PropsPowPar PropsGamma PropsTri GammaProofs LobReal LobModel LobProofs.
Import List ListNotations.
Open Scope R_scope.

(* the function meant, at the points between -pi and pi *)
Theorem C106_meaning : forall x L L', is_lob x L -> is_lob x L' -> L = L'.
Proof. exact lob_unique. Qed.
Theorem C106_period : forall x L, is_lob x L -> is_lob (x + PI) L /\ is_lob (- x) (- L).
Proof. intros x L H. split; [exact (lob_per x L H)|exact (lob_neg_all x L H)]. Qed.
Theorem C106_euler : forall J, integral_from (fun t => ln (2 * sin t)) 0 (PI / 2) J -> J = 0.
Proof. exact euler. Qed.
Section C106.
Variables (b : backend) (fuel : nat) (root : bscal b -> nat -> bscal b) (lgc : nat -> bscal b) (order : Z) (n : nat).
Hypothesis OR : (1 <= order < 2 ^ 25)%Z.
Theorem C106_origin : forall (x : iv (bscal b)) c v l st st', isin x c -> 0 < c < PI ->
  lobachevsky_origin (bpar b) fuel root lgc order n false x st = (Ok (v, l), st') -> fits b l c ->
  exists I, integral_from (fun t => ln (2 * sin t)) 0 c I /\ isin v (- I).
Proof.
  intros x c v l st st' HX HC R HF. match type of R with lobachevsky_origin _ _ _ _ _ _ false x _ = _ => idtac end.
  destruct (origin_ok b fuel root lgc order n OR x c v l st st' HX HC R HF) as (L & HL & HV). exists (- L). split; [exact (lob_in c L HC HL)|now rewrite Ropp_involutive].
Qed.
(* the recursion subtracts pi while the lower end is at least the upper end of pi * 0.5 (followed); then the points of the argument lie between -pi and pi.
   The lines are those of the call for the negative points, and those of the call for the positive points *)
Theorem C106_point : forall g (x : iv (bscal b)) y v ls st st', lobachevsky_point (bpar b) fuel root lgc order n false g x st = (Ok (v, ls), st') ->
  followed b x ls -> isin x y -> exists L, is_lob y L /\ isin v L.
Proof.
  intros g x y v ls st st' R HF HY. match type of R with lobachevsky_point _ _ _ _ _ _ false g x _ = _ => idtac end. exact (point_followed b fuel root lgc order n OR g x y v ls st st' R HF HY).
Qed.
(* missing: the reduced arguments whose upper end is the one double between 5 pi/6, or 7 pi/6, and the upper end of its enclosure; the result is then the hull of
   the values at the ends, and nothing is known of its distance to the extremal value *)
Theorem C107_lobachevsky_partial : forall f g (x p16 x2 : iv (bscal b)) y L lw v tr st st', lob_pi16 (bpar b) = Ok p16 -> lob_reduced (bpar b) f x = Ok x2 ->
  is_fin (sval (lo x)) -> sval (lo x2) = XR lw -> isin x y -> is_lob y L ->
  lobachevsky (bpar b) fuel root lgc order n false f g x st = (Ok (v, tr), st') ->
  followed b p16 (nth 0 tr []) -> followed b (ipt (lo x2)) (nth 1 tr []) -> followed b (ipt (hi x2)) (nth 2 tr []) ->
  sval (hi x2) <> XR (5895198126690367 * bpow radix2 (-51)) -> sval (hi x2) <> XR (8253277377366514 * bpow radix2 (-51)) -> isin v L.
Proof.
  intros f g x p16 x2 y L lw v tr st st' EP ER FX EL HX HL R H0 H1 H2 N5 N7. match type of R with lobachevsky _ _ _ _ _ _ false f g x _ = _ => idtac end.
  exact (lob_two b fuel root lgc order n OR f g x p16 x2 y L lw v tr st st' EP ER FX EL HX HL R H0 H1 H2 N5 N7).
Qed.
End C106.
(* the extremal values *)
Theorem C107_extremal : forall M, is_lob (PI / 6) M -> forall x L, is_lob x L -> - M <= L <= M.
Proof. exact lob_max. Qed.

(* ---- lobachevsky_origin(1), order 1 ---- *)
Local Notation O_run fast := (lobachevsky_origin (S:=bscal BHw) (bpar BHw) 60%nat C98_root lgc1 1%Z 1%nat fast (qiv 1 0 1 0) (C78_st 1 false false [])).
Lemma O_runs : one_step_to 1 0 4 5 (-4) (fst (O_run true)) = true /\ one_step_to 1 0 4 10 (-4) (fst (O_run false)) = true.
Proof. split; vm_compute; reflexivity. Qed.
Lemma one_pi : 0 < 1 < PI.
Proof. pose proof PI2_3_2. lra. Qed.
Lemma q11 : isin (S:=bscal BHw) (qiv 1 0 1 0) 1.
Proof. qin. Qed.
Example C106_case : exists v l st' I, O_run false = (Ok (v, l), st') /\ fits BHw l 1 /\ integral_from (fun t => ln (2 * sin t)) 0 1 I /\ isin v (- I) /\ - (5 / 8) <= I <= - (1 / 4).
Proof.
  destruct O_runs as [_ R]. apply one_step_to_ok in R; [|unfold lit; lia..]. destruct R as (v & q & R & B & T1 & T2). destruct (O_run false) as [o st'] eqn:E. cbn [fst] in R. subst o.
  replace (dy 1 0) with 1 in * by (unfold dy; simpl; lra).
  assert (F : fits BHw [q] 1). { split; [intros p [<-|[]]; exists 1; split; [lra|exact T1]|]. intros x Hx. specialize (T2 x Hx). lra. }
  destruct (C106_origin BHw 60 C98_root lgc1 1 1 ltac:(lia) (qiv 1 0 1 0) 1 v [q] (C78_st 1 false false []) st' q11 one_pi E F) as (I & HI & HV).
  exists v, [q], st', I. split; [reflexivity|]. split; [exact F|]. split; [exact HI|]. split; [exact HV|]. apply B in HV. unfold dy in HV. simpl in HV. lra.
Qed.
(* sin t <= t - t^3/6 + t^5/120 *)
Lemma sin_5 t : 0 <= t -> 0 <= t - t * t * t / 6 + t * t * t * t * t / 120 - sin t.
Proof.
  revert t. apply (up_from_0 _ (fun t => 1 - t * t / 2 + t * t * t * t / 24 - cos t)); [intros y; auto_derive; auto; field|rewrite sin_0; lra|].
  apply (up_from_0 _ (fun t => - t + t * t * t / 6 + sin t)); [intros y; auto_derive; auto; field|rewrite cos_0; lra|].
  apply (up_from_0 _ (fun t => - 1 + t * t / 2 + cos t)); [intros y; auto_derive; auto; field|rewrite sin_0; lra|].
  apply (up_from_0 _ (fun t => t - sin t)); [intros y; auto_derive; auto; field|rewrite cos_0; lra|].
  intros y Hy. destruct (Req_dec y 0) as [->|N]; [rewrite sin_0; lra|]. pose proof (sin_lt_x y ltac:(lra)). lra.
Qed.
Lemma ln_sub1 x : 0 < x -> ln x <= x - 1.
Proof. intros Hx. pose proof (exp_ineq1_le (ln x)) as K. rewrite exp_ln in K by auto. lra. Qed.
Lemma ln2_up : ln 2 <= 74 / 100.
Proof.
  replace 2 with (9 / 8 * (9 / 8) * (9 / 8) * (9 / 8) * (9 / 8) * (65536 / 59049)) by lra. rewrite !ln_mult by lra. pose proof (ln_sub1 (9 / 8) ltac:(lra)). pose proof (ln_sub1 (65536 / 59049) ltac:(lra)). lra.
Qed.
Lemma lsin_up t : 0 < t <= 1 -> lsin t <= ln 2 + ln t - t * t / 6 + t * t * t * t / 120.
Proof.
  intros Ht. assert (S0 : 0 < sin t) by (apply sin_p; pose proof PI2_3_2; lra). pose proof (sin_5 t ltac:(lra)) as S5.
  assert (E : lsin t = ln 2 + ln t + ln (sin t / t)). { unfold lsin. rewrite <- !ln_mult; try lra; [|apply Rdiv_lt_0_compat; lra]. f_equal. field. lra. }
  rewrite E. pose proof (ln_sub1 (sin t / t) ltac:(apply Rdiv_lt_0_compat; lra)). assert (sin t / t <= 1 - t * t / 6 + t * t * t * t / 120); [|lra].
  apply Rmult_le_reg_r with t; [lra|]. unfold Rdiv at 1. rewrite Rmult_assoc, Rinv_l, Rmult_1_r by lra. lra.
Qed.
Lemma lsin_01 J : integral_from (fun t => ln (2 * sin t)) 0 1 J -> J <= - (313 / 1000).
Proof.
  intros HJ. destruct (Rle_or_lt J (- (313 / 1000))) as [|N]; auto. exfalso. destruct (HJ (1 / 10000) ltac:(lra)) as (d & Hd & A). destruct (wl_lim 0 (1 / 10000) ltac:(lra)) as (d2 & Hd2 & K).
  set (u := Rmin (Rmin d d2) (1 / 1000) / 2). pose proof (Rmin_l (Rmin d d2) (1 / 1000)). pose proof (Rmin_r (Rmin d d2) (1 / 1000)). pose proof (Rmin_l d d2). pose proof (Rmin_r d d2).
  assert (U0 : 0 < Rmin (Rmin d d2) (1 / 1000)) by (repeat apply Rmin_glb_lt; lra). assert (Hu : 0 < u < 1 / 1000) by (unfold u; lra).
  destruct (A u ltac:(unfold u; lra) ltac:(lra)) as (w & Iw & Lw). apply Rabs_def2 in Lw. specialize (K u ltac:(unfold u; lra)). unfold WL_ in K. simpl pow in K. simpl INR in K. apply Rabs_def2 in K. clearbody u.
  replace (- (u * 1 * (1 * ln u - 1) / (1 * 1))) with (- (u * ln u - u)) in K by field.
  set (W := fun t => t * ln 2 + (t * ln t - t) - t * t * t / 18 + t * t * t * t * t / 600).
  assert (IW : is_RInt (fun t => ln 2 + ln t - t * t / 6 + t * t * t * t / 120) u 1 (W 1 - W u)).
  { apply (is_RInt_derive W); intros t Ht; rewrite Rmin_left, Rmax_right in Ht by lra.
    - unfold W. auto_derive; [lra|]. field. lra.
    - apply (ex_derive_continuous (fun t => ln 2 + ln t - t * t / 6 + t * t * t * t / 120)). auto_derive. lra. }
  assert (w <= W 1 - W u). { apply (is_RInt_le lsin (fun t => ln 2 + ln t - t * t / 6 + t * t * t * t / 120) u 1); auto; [lra|]. intros t Ht. apply lsin_up. lra. }
  assert (UU : 0 <= u * u <= 1) by nra. assert (u * u * u <= 1 * u) by (apply Rmult_le_compat_r; lra). assert (0 <= u * u * u * u * u) by (repeat (apply Rmult_le_pos; [|lra]); lra). pose proof ln2_low. pose proof ln2_up. assert (0 <= u * ln 2) by (apply Rmult_le_pos; lra).
  unfold W in *. rewrite ln_1 in *. lra.
Qed.
(* the function has a value everywhere *)
Theorem C106_total : forall x, exists L, is_lob x L.
Proof.
  intros x. pose proof PI_RGT_0. destruct C106_case as (_ & _ & _ & I & _ & _ & HI & _). pose proof one_pi.
  assert (H6 : exists M, is_lob (PI / 6) M). { destruct (lsin_int 1 (PI / 6)) as [w Hw]; try lra. exists (- (I + w)). apply Lobp; [lra|]. apply (lsin_move 1 (PI / 6)); auto; lra. }
  destruct H6 as [M HM]. set (k := Zfloor (x / PI)). assert (E : x / PI * PI = x) by (field; lra). pose proof (Zfloor_lb (x / PI)) as L1. pose proof (Zfloor_ub (x / PI)) as L2. fold k in L1, L2.
  assert (B : 0 <= x - IZR k * PI < PI). { split; [enough (IZR k * PI <= x / PI * PI) by lra; apply Rmult_le_compat_r; lra|enough (x / PI * PI < (IZR k + 1) * PI) by lra; apply Rmult_lt_compat_r; lra]. }
  assert (HL : exists L, is_lob (x - IZR k * PI) L). { destruct (Req_dec (x - IZR k * PI) 0) as [Z|Z]; [exists 0; rewrite Z; apply Lob0|]. apply (lob_exists M HM). lra. }
  destruct HL as [L HL]. exists L. apply (lob_int _ _ (- k)) in HL. rewrite opp_IZR in HL. now replace (x - IZR k * PI - - IZR k * PI) with x in HL by ring.
Qed.
(* DEFINT_FAST = 1, the default *)
Theorem C106_fast_refuted : exists v l st' I, O_run true = (Ok (v, l), st') /\ fits BHw l 1 /\ integral_from (fun t => ln (2 * sin t)) 0 1 I /\ ~ isin v (- I).
Proof.
  destruct C106_case as (_ & _ & _ & I & _ & _ & HI & _). destruct O_runs as [R _]. apply one_step_to_ok in R; [|unfold lit; lia..]. destruct R as (v & q & R & B & T1 & T2). destruct (O_run true) as [o st'] eqn:E. cbn [fst] in R. subst o.
  replace (dy 1 0) with 1 in * by (unfold dy; simpl; lra). exists v, [q], st', I. split; [reflexivity|].
  split. { split; [intros p [<-|[]]; exists 1; split; [lra|exact T1]|]. intros x Hx. specialize (T2 x Hx). lra. }
  split; [exact HI|]. intros HV. apply B in HV. unfold dy in HV. simpl in HV. pose proof (lsin_01 I HI). lra.
Qed.
(* ---- lobachevsky_point(4), after one subtraction of pi, and lobachevsky on [7/2, 4], which contains 7 pi / 6; order 1 ---- *)
Local Notation Lines := (list (iv (bscal BHw) * iv (bscal BHw) * iv (bscal BHw))).
(* one call, one step, whose end contains X *)
Definition covers (X : iv (bscal BHw)) (ls : list Lines) : bool :=
  match ls with [[q]] => let t : iv (bscal BHw) := snd (fst q) in Bltb b0 (lo X : b64) && Bleb (lo t : b64) (lo X : b64) && Bleb (hi X : b64) (hi t : b64) && Bleb (hi t : b64) b1 | _ => false end.
Lemma covers_ok X ls : covers X ls = true -> forall z, isin X z -> traced BHw ls z.
Proof.
  unfold covers. destruct ls as [|[|q [|]] [|]]; try discriminate. intros H z (W1 & W2 & L & U). destruct q as [[a t] c]. cbn [fst snd] in H.
  apply andb_prop in H as [H H4]. apply andb_prop in H as [H H3]. apply andb_prop in H as [H1 H2].
  apply (ok_lt _ (bok BHw)) in H1; try exact Logic.I. apply (ok_le _ (bok BHw)) in H2, H3, H4; try exact Logic.I.
  assert (Z0 : @sval (bscal BHw) b0 = XR 0) by reflexivity. assert (Z1 : @sval (bscal BHw) b1 = XR 1) by apply b1_v. rewrite Z0 in H1. rewrite Z1 in H4. pose proof PI2_3_2.
  assert (HZ : 0 < z <= 1). { destruct (sval (lo X)), (sval (hi X)), (sval (hi t)); simpl in *; try tauto; lra. }
  split; [lra|]. split; [|lra]. intros _. cbn [last]. split.
  - intros p [<-|[]]. exists z. split; [lra|]. split; [exact Logic.I|]. split; [exact Logic.I|]. cbn [fst snd]. split; [destruct (sval (lo X)), (sval (lo t)); simpl in *; try tauto; lra|destruct (sval (hi X)), (sval (hi t)); simpl in *; try tauto; lra].
  - intros x (_ & _ & _ & X2). cbn [fst snd] in X2. destruct (sval (hi t)); simpl in *; try tauto; lra.
Qed.
Definition in_b (l u e : Z) (v : iv (bscal BHw)) : bool := Bleb (bdy l e) (lo v : b64) && Bleb (hi v : b64) (bdy u e).
Lemma in_b_ok l u e v : lit l e -> lit u e -> in_b l u e v = true -> forall x, isin v x -> dy l e <= x <= dy u e.
Proof.
  intros Ll Lu H. unfold in_b in H. apply andb_prop in H as [R1 R2]. apply (ok_le _ (bok BHw)) in R1, R2; try exact Logic.I. unfold lit in *. rewrite qv in R1 by lia. rewrite qv in R2 by lia.
  intros x (_ & _ & X1 & X2). unfold lb, ub in *. destruct (sval (lo v)), (sval (hi v)); simpl in *; unfold dy; try tauto; lra.
Qed.
Definition past_b (x : iv (bscal BHw)) : bool := sle (hi (imulS (c_pi (bpar BHw)) shalf)) (lo x).
Lemma covers_followed X ls : covers X ls && negb (past_b X) = true -> followed BHw X ls.
Proof. intros H. apply andb_prop in H as [H1 H2]. exists 0%nat. split; [lia|]. split; [simpl; unfold past; unfold past_b in H2; intros K; rewrite K in H2; discriminate|]. simpl. now apply covers_ok. Qed.
Local Notation X4 := (qiv 4 0 4 0 : iv (bscal BHw)).
Local Notation P_run := (lobachevsky_point (S:=bscal BHw) (bpar BHw) 60%nat C98_root lgc1 1%Z 1%nat false 3%nat X4 (C78_st 1 false false [])).
Definition pcheck (x : iv (bscal BHw)) (r : res (iv (bscal BHw) * list Lines)) : bool :=
  match r with Ok (v, ls) => in_b 3 5 (-3) v && past_b x && (covers (isub x (c_pi (bpar BHw))) ls && negb (past_b (isub x (c_pi (bpar BHw))))) | _ => false end.
Lemma P_runs : pcheck X4 (fst P_run) = true.
Proof. vm_compute. reflexivity. Qed.
Example C106_case_point : exists v ls st' L, P_run = (Ok (v, ls), st') /\ followed BHw X4 ls /\ is_lob 4 L /\ isin v L /\ 3 / 8 <= L <= 5 / 8.
Proof.
  pose proof P_runs as R. destruct P_run as [o st'] eqn:E. cbn [fst] in R. destruct o as [[v ls]|]; [|discriminate]. unfold pcheck in R. apply andb_prop in R as [R R3]. apply andb_prop in R as [R1 R2].
  assert (F : followed BHw X4 ls).
  { apply andb_prop in R3 as [R3 R4]. exists 1%nat. split; [intros j Hj; replace j with 0%nat by lia; exact R2|]. cbn [less_pi]. split; [unfold past; unfold past_b in R4; intros K; rewrite K in R4; discriminate|]. now apply covers_ok. }
  destruct (C106_point BHw 60 C98_root lgc1 1 1 ltac:(lia) 3 X4 4 v ls _ st' E F ltac:(qin)) as (L & HL & HV).
  exists v, ls, st', L. split; [reflexivity|]. split; [exact F|]. split; [exact HL|]. split; [exact HV|]. pose proof (in_b_ok 3 5 (-3) v ltac:(unfold lit; lia) ltac:(unfold lit; lia) R1 L HV) as B. unfold dy in B. simpl in B. lra.
Qed.
Local Notation X7 := (qiv 7 (-1) 4 0 : iv (bscal BHw)).
Local Notation L_run := (lobachevsky (S:=bscal BHw) (bpar BHw) 60%nat C98_root lgc1 1%Z 1%nat false 3%nat 3%nat X7 (C78_st 1 false false [])).
Definition lcheck (p r2 : res (iv (bscal BHw))) (r : res (iv (bscal BHw) * list (list Lines))) : bool :=
  match p, r2, r with
  | Ok p16, Ok x2, Ok (v, [a; c; d]) => in_b 3 5 (-3) v && (in_b 1 4 (-2) x2 && Bleb (bdy 1 (-2)) (lo x2 : b64) && Bleb (lo x2 : b64) b1) && isubset p16 x2 &&
    (covers p16 a && negb (past_b p16)) && (covers (ipt (lo x2)) c && negb (past_b (ipt (lo x2)))) && (covers (ipt (hi x2)) d && negb (past_b (ipt (hi x2))))
  | _, _, _ => false
  end.
Lemma L_runs : lcheck (lob_pi16 (bpar BHw)) (lob_reduced (bpar BHw) 3 X7) (fst L_run) = true.
Proof. vm_compute. reflexivity. Qed.
Example C107_case : forall y L, 7 / 2 <= y <= 4 -> is_lob y L -> exists v tr st', L_run = (Ok (v, tr), st') /\ isin v L /\ 3 / 8 <= L <= 5 / 8.
Proof.
  intros y L Hy HL. pose proof L_runs as R. destruct (lob_pi16 (bpar BHw)) as [p16|] eqn:EP; [|discriminate]. destruct (lob_reduced (bpar BHw) 3 X7) as [x2|] eqn:ER; [|discriminate].
  destruct L_run as [o st'] eqn:E. cbn [fst] in R. destruct o as [[v tr]|]; [|discriminate]. destruct tr as [|a [|c [|d [|w tr]]]]; [discriminate|discriminate|discriminate| |discriminate]. unfold lcheck in R.
  apply andb_prop in R as [R F3]. apply andb_prop in R as [R F2]. apply andb_prop in R as [R F1]. apply andb_prop in R as [R R3]. apply andb_prop in R as [R1 R2]. apply andb_prop in R2 as [R2 R5]. apply andb_prop in R2 as [R2 R4].
  apply covers_followed in F1, F2, F3. assert (X2 := in_b_ok 1 4 (-2) x2 ltac:(unfold lit; lia) ltac:(unfold lit; lia) R2). unfold dy in X2. simpl in X2.
  apply (ok_le _ (bok BHw)) in R4, R5; try exact Logic.I. assert (Z1 : @sval (bscal BHw) b1 = XR 1) by apply b1_v. rewrite Z1 in R5. rewrite (q_v 1 (-2) (1 / 4)) in R4; [|unfold lit; lia|unfold dy; simpl; lra].
  destruct (sval (lo x2)) as [lw| | |] eqn:EL; simpl in R4, R5; try tauto.
  assert (FQ : sval (lo X7) = XR (7 / 2)) by (apply q_v; [unfold lit; lia|unfold dy; simpl; lra]). assert (FX : is_fin (sval (lo X7))) by (rewrite FQ; exact Logic.I).
  pose proof PI2_3_2. pose proof PI_4.
  assert (FAR : forall m, 4503599627370496 <= m -> sval (hi x2) <> XR (m * bpow radix2 (-51))).
  { intros m Hm N. assert (U1 : 4503599627370496 * bpow radix2 (-51) = 2) by (replace 4503599627370496 with (bpow radix2 52) by (simpl; reflexivity); rewrite <- bpow_plus; reflexivity). assert (2 <= m * bpow radix2 (-51)) by (rewrite <- U1; apply Rmult_le_compat_r; [apply bpow_ge_0|exact Hm]).
    assert (HB : isin x2 (m * bpow radix2 (-51))) by (split; [exact Logic.I|]; split; [exact Logic.I|]; rewrite EL, N; simpl in *; lra). apply X2 in HB. simpl in *. lra. }
  assert (K : isin v L).
  { apply (C107_lobachevsky_partial BHw 60 C98_root lgc1 1 1 ltac:(lia) 3 3 X7 p16 x2 y L lw v [a; c; d] (C78_st 1 false false []) st'); auto; [qin| |].
    - intros N. apply (FAR 5895198126690367 ltac:(lra) N).
    - intros N. apply (FAR 8253277377366514 ltac:(lra) N). }
  exists v, [a; c; d], st'. split; [reflexivity|]. split; [exact K|]. pose proof (in_b_ok 3 5 (-3) v ltac:(unfold lit; lia) ltac:(unfold lit; lia) R1 L K) as B. unfold dy in B. simpl in B. lra.
Qed.
Definition Lob_all := (C106_total, C106_meaning, C106_period, C106_euler, C106_origin, C106_point, C106_fast_refuted, C106_case, C106_case_point, C107_lobachevsky_partial, C107_extremal, C107_case).
Print Assumptions Lob_all.
