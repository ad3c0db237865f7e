(* sin, cos, tan, atan, asin, acos enclose. *)
From Coq Require Import Reals Lra Lia Psatz ZArith Bool List.
From Flocq Require Import Core.
From Verif Require Import Ext Scalar IntervalModel IntervalSpec IntervalProofs IntervalEncl IntervalSets IntervalDivPow IntervalMore ElemModel RealFun RealConst RealInv ElemGen ElemExp ElemLog.
Open Scope R_scope.

Definition redn {S} (per X : iv S) : S := sfloor (nadd (ndiv (lo X) (lo per)) shalf).
Definition pi2 {S} (P : elemp S) := imulS (c_pi P) (sint S 2).
Definition pih {S} (P : elemp S) := imulS (c_pi P) shalf.

(* a narrow enclosure of c *)
Definition narrow {S : scal} (C : iv S) (c : R) : Prop :=
  swf (lo C) /\ swf (hi C) /\ exists a b, sval (lo C) = XR a /\ sval (hi C) = XR b /\ a <= c <= b /\ b - a <= bpow radix2 (-30).
Definition extrema {S} (P : elemp S) : list (iv S * R) :=
  (imulS (c_pi P) shalf, PI / 2) :: (imulS (c_pi P) (sdy 5 (-1)), 5 / 2 * PI) :: (imulS (ineg (c_pi P)) shalf, - PI / 2) ::
  (imulS (c_pi P) (sdy 3 (-1)), 3 / 2 * PI) :: (imulS (c_pi P) (sint S 2), 2 * PI) :: (ineg (c_pi P), - PI) :: (c_pi P, PI) ::
  (imulS (c_pi P) (sint S 3), 3 * PI) :: nil.

(* what the trigonometric functions need of T beyond scal_ok *)
Record trig_laws (S : scal) (P : elemp S) : Prop := mktrig_laws {
  tl_pi : isin (c_pi P) PI;
  tl_pihi : exists p, sval (hi (c_pi P)) = XR p /\ p <= 315 / 100;
  tl_pihhi : exists p, sval (hi (pih P)) = XR p;
  (* the multiple of the period subtracted is an integer *)
  tl_red : forall per X v, (per = pi2 P \/ per = c_pi P) -> swf (lo X) -> sval (lo X) = XR v ->
    swf (redn per X) /\ exists k, sval (redn per X) = XR (IZR k);
  tl_red_inf : forall per X, (per = pi2 P \/ per = c_pi P) -> swf (lo X) -> swf (hi X) -> sval (lo X) = Xm ->
    swf (lo (isub X (iSmul (redn per X) per))) /\ sval (lo (isub X (iSmul (redn per X) per))) = Xn;
  (* NaN never yields a result *)
  tl_nan : forall f x Q, sval x = Xn -> sin_point S P f (ipt x) <> Ok Q /\ cos_point S P f (ipt x) <> Ok Q;
  tl_width : forall (x y : S) l h, swf x -> swf y -> sval x = XR l -> sval y = XR h ->
    sle (hi (pi2 P)) (subd y x) = false -> h - l <= 13 / 2;
  (* the multiples of pi used in the extremum tests are narrow *)
  tl_narrow : forall C c, In (C, c) (extrema P) -> narrow C c;
  tl_grid : forall (x : S) v, swf x -> sval x = XR v -> 1 - bpow radix2 (-54) <= v -> 1 <= v;
  (* no value lies strictly between pi/2 and the upper end of its enclosure *)
  tl_adj : forall (x : S) v p, swf x -> sval x = XR v -> sval (hi (pih P)) = XR p -> v < p -> v < PI / 2;
  tl_sq2p1 : swf (sq2p1 S P) /\ exists v, sval (sq2p1 S P) = XR v /\ 0 < v;
  tl_sq2m1 : swf (sq2m1 S P) /\ exists v, sval (sq2m1 S P) = XR v /\ 0 < v < 1;
  tl_sq6d3 : swf (sq6d3 S P) /\ exists v, sval (sq6d3 S P) = XR v /\ / 2 <= v;
  tl_abs : forall (x : S) v, swf x -> sval x = XR v -> swf (sabs x) /\ sval (sabs x) = XR (Rabs v);
  tl_absm : forall e : S, swf e -> sval e = Xm -> swf (sabs e) /\ sval (sabs e) = Xp;
  tl_1mx : forall (x : S) v, swf x -> sval x = XR v -> / 2 <= v <= 1 -> swf (nsub s1 x) /\ sval (nsub s1 x) = XR (1 - v);
  tl_1px : forall (x : S) v, swf x -> sval x = XR v -> - 1 <= v <= - / 2 -> swf (nadd s1 x) /\ sval (nadd s1 x) = XR (1 + v)
}.

Section ElemTrig.
Context {S : scal} (OK : scal_ok S) (P : elemp S) (L : trig_laws S P).
Implicit Types X Q : iv S.
Ltac inv H := let a := fresh "T" in let E := fresh "E" in apply bind_ok in H as (a & E & H).

Lemma isin_halfr X x : isin X x -> isin (imulS X shalf) (x * / 2).
Proof. apply (isin_half OK). Qed.
Lemma isin_quartr X x : isin X x -> isin (imulS X (squart S)) (x * / 4).
Proof. intros. apply (isin_mulS OK); auto; apply (squart_ok OK). Qed.
Lemma isin_times X x k : (Z.abs k <= 2 ^ 53)%Z -> isin X x -> isin (imulS X (sint S k)) (x * IZR k).
Proof. intros. apply (isin_mulS OK); auto; apply (sint_ok OK); auto. Qed.
Notation PII := (tl_pi _ _ L).
Notation mPI := (isin_neg OK _ _ (tl_pi _ _ L)).

Lemma sin_point_ok f : forall X v Q, isin X v -> sin_point S P f X = Ok Q -> isin Q (sin v).
Proof.
  induction f as [|f IH]; intros X v Q HX H; simpl in H;
  repeat match type of H with (if ?c then _ else _) = _ => destruct c end; try discriminate;
  try (unfold rneg in H; inv H; injection H as <-);
  try match goal with
  | H : sin_origin _ _ _ = Ok _ |- isin (ineg _) _ => 
      rewrite <- (Ropp_involutive (sin v)); apply isin_neg; auto
  | H : cos_origin _ _ _ = Ok _ |- isin (ineg _) _ => 
      rewrite <- (Ropp_involutive (sin v)); apply isin_neg; auto
  end.
  all: try (rewrite <- neg_sin; eapply (sin_origin_ok OK); [|eassumption]; apply isin_add; auto; apply PII).
  all: try (replace (- sin v) with (cos (- PI * / 2 - v)) by
     (replace (- PI * / 2 - v) with (- (PI / 2 + v)) by lra; rewrite cos_neg, cos_plus, cos_PI2, sin_PI2; ring);
     eapply (cos_origin_ok OK); [|eassumption]; apply isin_sub; auto; apply isin_halfr, mPI).
  all: try (replace (- sin v) with (cos (v + PI * / 2)) by (rewrite cos_plus; replace (PI * / 2) with (PI / 2) by lra; rewrite cos_PI2, sin_PI2; ring);
     eapply (cos_origin_ok OK); [|eassumption]; apply isin_add; auto; apply isin_halfr, PII).
  all: try (rewrite <- sin_neg; eapply (sin_origin_ok OK); [|eassumption]; apply isin_neg; auto).
  all: try (eapply (sin_origin_ok OK); [|eassumption]; assumption).
  all: try (replace (sin v) with (cos (PI * / 2 - v)) by (rewrite <- (cos_shift v); f_equal; lra);
     eapply (cos_origin_ok OK); [|eassumption]; apply isin_sub; auto; apply isin_halfr, PII).
  all: try (replace (sin v) with (cos (v - PI * / 2)) by (rewrite <- (cos_shift v), <- cos_neg; f_equal; lra);
     eapply (cos_origin_ok OK); [|eassumption]; apply isin_sub; auto; apply isin_halfr, PII).
  all: try (rewrite <- sin_PI_x; eapply (sin_origin_ok OK); [|eassumption]; apply isin_sub; auto; apply PII).
  rewrite <- (sin_shiftZ v 1). eapply IH; [|exact H]. replace (v - 2 * 1 * PI) with (v - PI * 2) by ring.
  apply isin_sub; auto. apply isin_times; [lia|]. apply PII.
Qed.
Lemma cos_PI_x x : cos (PI - x) = - cos x.
Proof. rewrite cos_minus, cos_PI, sin_PI. ring. Qed.
Lemma cos_point_ok f : forall X v Q, isin X v -> cos_point S P f X = Ok Q -> isin Q (cos v).
Proof.
  induction f as [|f IH]; intros X v Q HX H; simpl in H;
  repeat match type of H with (if ?c then _ else _) = _ => destruct c end; try discriminate;
  try (unfold rneg in H; inv H; injection H as <-);
  try match goal with
  | H : sin_origin _ _ _ = Ok _ |- isin (ineg _) _ => 
      rewrite <- (Ropp_involutive (cos v)); apply isin_neg; auto
  | H : cos_origin _ _ _ = Ok _ |- isin (ineg _) _ => 
      rewrite <- (Ropp_involutive (cos v)); apply isin_neg; auto
  end.
  all: try (rewrite <- neg_cos; eapply (cos_origin_ok OK); [|eassumption]; apply isin_add; auto; apply PII).
  all: try (replace (- cos v) with (sin (- PI * / 2 - v)) by
     (replace (- PI * / 2 - v) with (- (PI / 2 + v)) by lra; rewrite sin_neg, sin_plus, cos_PI2, sin_PI2; ring);
     eapply (sin_origin_ok OK); [|eassumption]; apply isin_sub; auto; apply isin_halfr, mPI).
  all: try (replace (cos v) with (sin (v + PI * / 2)) by (rewrite sin_plus; replace (PI * / 2) with (PI / 2) by lra; rewrite cos_PI2, sin_PI2; ring);
     eapply (sin_origin_ok OK); [|eassumption]; apply isin_add; auto; apply isin_halfr, PII).
  all: try (rewrite <- cos_neg; eapply (cos_origin_ok OK); [|eassumption]; apply isin_neg; auto).
  all: try (eapply (cos_origin_ok OK); [|eassumption]; assumption).
  all: try (replace (cos v) with (sin (PI * / 2 - v)) by (rewrite <- (sin_shift v); f_equal; lra);
     eapply (sin_origin_ok OK); [|eassumption]; apply isin_sub; auto; apply isin_halfr, PII).
  all: try (replace (- cos v) with (sin (v - PI * / 2)) by (rewrite <- (sin_shift v), <- sin_neg; f_equal; lra);
     eapply (sin_origin_ok OK); [|eassumption]; apply isin_sub; auto; apply isin_halfr, PII).
  all: try (rewrite <- cos_PI_x; eapply (cos_origin_ok OK); [|eassumption]; apply isin_sub; auto; apply PII).
  rewrite <- (cos_shiftZ v 1). eapply IH; [|exact H]. replace (v - 2 * 1 * PI) with (v - PI * 2) by ring.
  apply isin_sub; auto. apply isin_times; [lia|]. apply PII.
Qed.

(* argument reduction *)
Lemma reduce_ok f (b : S) per T X x I2 : swf b -> is_fin (sval b) -> (per = pi2 P \/ per = c_pi P) -> isin per T ->
  isin X x -> is_fin (sval (lo X)) -> reduce S f b per X = Ok I2 ->
  sval (lo I2) = Xn \/
  exists k l, isin I2 (x - IZR k * T) /\ sval (lo I2) = XR l /\ (forall p, sval b = XR p -> - p < l < p).
Proof.
  intros WB FB HP HT. revert X x. 
  assert (EX : forall f X, swf (lo X) -> sval (lo X) = Xn -> reduce S f b per X = Ok I2 -> sval (lo I2) = Xn).
  { intros f0 X W E H. 
    assert (sle (lo X) (sneg b) || sle b (lo X) = false) as C.
    { apply orb_false_iff. split; apply not_true_is_false; intros C; apply (ok_le _ OK) in C; auto using sneg_wf; rewrite E in C; 
      try (destruct (sval b); simpl in *; tauto); destruct (sval (sneg b)); elim C. }
    destruct f0; simpl in H; rewrite C in H; injection H as <-; auto. }
  induction f as [|f IH]; intros X x HX FX H; pose proof HX as (A1 & A2 & A3 & A4);
  (destruct (sval (lo X)) as [l| | |] eqn:EL; try (elim FX; fail));
  assert (HE : sle (lo X) (sneg b) || sle b (lo X) = false -> X = I2 -> sval (lo I2) = Xn \/
     exists k l, isin I2 (x - IZR k * T) /\ sval (lo I2) = XR l /\ (forall p, sval b = XR p -> - p < l < p)).
  1,3: intros C <-; right; exists 0%Z, l; rewrite Rmult_0_l, Rminus_0_r; split; auto; split; auto;
     intros p EP; apply orb_false_iff in C as [C1 C2];
     apply (sle_false OK) in C1; auto using sneg_wf; try congruence; [|rewrite (sneg_v OK), EP by auto; discriminate];
     apply (sle_false OK) in C2; auto; try congruence;
     rewrite (sneg_v OK), EP, EL in * by auto; simpl in *; lra.
  - simpl in H. destruct (sle (lo X) (sneg b) || sle b (lo X)) eqn:C; [discriminate|]. injection H as H. auto.
  - simpl in H. destruct (sle (lo X) (sneg b) || sle b (lo X)) eqn:C; [|injection H as H; auto].
    destruct (tl_red _ _ L per X l HP A1 EL) as [WN (k & EN)]. fold (redn per X) in H.
    pose proof (isin_sub OK _ _ _ _ HX (isin_Smul OK _ _ _ _ WN EN HT)) as HX'.
    change (isub X (iSmul _ per)) with (isub X (iSmul (redn per X) per)) in H.
    set (X' := isub X (iSmul (redn per X) per)) in *. clearbody X'.
    pose proof HX' as (B1 & B2 & B3 & B4).
    destruct (sval (lo X')) as [l'| | |] eqn:EL'; simpl in B3; try tauto.
    + destruct (IH X' _ HX' ltac:(rewrite EL'; simpl; auto) H) as [N|(k' & l2 & I1 & I2' & I3)]; auto.
      right. exists (k + k')%Z, l2. split; auto. rewrite plus_IZR. replace (x - (IZR k + IZR k') * T) with (x - IZR k * T - IZR k' * T) by ring. auto.
    + left. 
      destruct f; simpl in H; 
      (assert (sle (lo X') (sneg b) = true) as C' by (apply (ok_le _ OK); auto using sneg_wf; rewrite EL', (sneg_v OK) by auto; destruct (sval b); simpl in *; tauto));
      rewrite C' in H; simpl in H; [discriminate|].
      fold (redn per X') in H. destruct (tl_red_inf _ _ L per X' HP B1 B2 EL') as [W3 E3]. eapply EX; eauto.
Qed.

Lemma isin_conv X p q r : isin X p -> isin X q -> p <= r <= q -> isin X r.
Proof. intros (A1&A2&A3&A4) (B1&B2&B3&B4) H. apply isin_ends; auto. eapply lb_le; [exact A3|lra]. eapply ub_le; [exact B4|lra]. Qed.
Lemma ext_mono t X v z : swf v -> is_fin (sval v) -> isin X z -> isin (ext_if S t X v) z.
Proof.
  intros W F H. unfold ext_if. destruct t; auto. destruct (sval v) as [w| | |] eqn:E; try (elim F; fail).
  eapply (isin_hullIS OK X v w z); eauto. lra.
Qed.
Lemma ext_add t X v w z : swf v -> sval v = XR w -> isin X z -> t = true -> isin (ext_if S t X v) w.
Proof. intros W E H ->. unfold ext_if. eapply (isin_hullIS OK X v w z); eauto. lra. Qed.

Notation eps := (bpow radix2 (-54)).
Lemma top_grid X g : isin X g -> 1 - eps <= g <= 1 -> isin X 1.
Proof.
  intros (A1&A2&A3&A4) H. apply isin_ends; auto. eapply lb_le; [exact A3|lra].
  destruct (sval (hi X)) as [v| | |] eqn:E; cbn [ub] in *; auto. apply (tl_grid _ _ L _ _ A2 E). lra.
Qed.
Lemma bot_grid X g : isin X g -> -1 <= g <= -1 + eps -> isin X (-1).
Proof.
  intros H HG. rewrite <- (Ropp_involutive (-1)), <- (isin_neg_iff OK); [|eapply isin_valid; eauto].
  replace (- (-1)) with 1 by ring. apply (top_grid _ (- g)); [apply isin_neg; auto|]. lra.
Qed.
Lemma near d : Rabs d <= bpow radix2 (-30) -> 1 - eps <= cos d <= 1.
Proof.
  intros H. split; [|apply COS_bound]. pose proof (cos_near d).
  assert (d * d <= bpow radix2 (-30) * bpow radix2 (-30)).
  { rewrite <- (Rabs_pos_eq (d * d)) by nra. rewrite Rabs_mult. pose proof (Rabs_pos d). apply Rmult_le_compat; auto. }
  rewrite <- bpow_plus in H1. simpl (-30 + -30)%Z in H1. simpl in H1 |- *. lra.
Qed.
(* an extremum c of the function inside [l, h] is caught by the subset test, or an endpoint is so
   close to c that its enclosure contains the extremal value *)
Lemma caught (C : iv S) c (I2 : iv S) l h : narrow C c -> swf (lo I2) -> swf (hi I2) -> sval (lo I2) = XR l -> sval (hi I2) = XR h -> l <= c <= h ->
  isubset C I2 = true \/ 1 - eps <= cos (l - c) <= 1 \/ 1 - eps <= cos (h - c) <= 1.
Proof.
  intros (W1 & W2 & a & b & EA & EB & AB & N) WL WH EL EH H.
  destruct (isubset C I2) eqn:Z; auto. right. unfold isubset in Z. apply andb_false_iff in Z as [Z|Z].
  - apply (sle_false OK) in Z; auto; try congruence. rewrite EA, EL in Z. simpl in Z.
    left. apply near. apply Rabs_le. lra.
  - apply (sle_false OK) in Z; auto; try congruence. rewrite EB, EH in Z. simpl in Z.
    right. apply near. apply Rabs_le. lra.
Qed.
Lemma m1_ok : swf (sneg (@s1 S)) /\ sval (sneg (@s1 S)) = XR (-1).
Proof. split; [apply sneg_wf, s1_wf; auto|]. rewrite (sneg_v OK), (s1_v OK) by (apply s1_wf; auto). simpl. f_equal; lra. Qed.
Lemma isin_pm1_hull z : -1 <= z <= 1 -> isin (hullSS (sneg (@s1 S)) s1) z.
Proof.
  intros H. destruct m1_ok as [W E]. apply (isin_hullSS OK _ _ (-1) 1); auto; try apply s1_wf; try apply s1_v; auto.
  unfold Rmin, Rmax. destruct (Rle_dec (-1) 1); lra.
Qed.
(* finite endpoints, from the test at the top *)
Lemma inf_end_fin X x : (forall e : S, swf e -> sval e = Xm -> swf (sabs e) /\ sval (sabs e) = Xp) ->
  isin X x -> inf_end S X = false -> is_fin (sval (lo X)).
Proof.
  intros HA (A1&A2&A3&A4) H. unfold inf_end in H. apply orb_false_iff in H as [H _].
  destruct (sval (lo X)) eqn:E; simpl in A3; try tauto. simpl; auto.
  exfalso. destruct (HA _ A1 E) as [W1 E1]. destruct (ok_pinf _ OK) as [W2 E2].
  assert (seqb (sabs (lo X)) spinf = true); [|congruence]. apply (ok_eq _ OK); auto. rewrite E1, E2. simpl. auto.
Qed.
(* the pair of bounds left after the reduction and the width test *)
Lemma reduced (X2 : iv S) y : isin X2 y -> forall l, sval (lo X2) = XR l ->
  sle (hi (pi2 P)) (lo (isubS (ipt (hi X2)) (lo X2))) = false ->
  exists h, sval (hi X2) = XR h /\ h - l <= 13 / 2 /\ l <= y <= h.
Proof.
  intros (A1&A2&A3&A4) l EL H. simpl in H.
  destruct (sval (hi X2)) as [h| | |] eqn:EH; simpl in A4; try tauto.
  - exists h. split; auto. split; [|rewrite EL in A3; simpl in A3; lra]. eapply (tl_width _ _ L (lo X2) (hi X2)); eauto.
  - exfalso. destruct (ok_subd _ OK (hi X2) (lo X2)) as [W D]; auto. rewrite EH, EL in D. simpl in D.
    assert (HI : isin (pi2 P) (PI * 2)) by (apply isin_times; [lia|apply PII]).
    destruct HI as (B1&B2&B3&B4).
    assert (sle (hi (pi2 P)) (subd (hi X2) (lo X2)) = true); [|congruence]. apply (ok_le _ OK); auto. rewrite D.
    destruct (sval (hi (pi2 P))); simpl in *; auto.
Qed.
Notation ABS := (tl_absm _ _ L).

Lemma pi_lt : PI < 315 / 100.
Proof. pose proof pi_bounds. unfold pi_hi in H. lra. Qed.
Lemma pi_gt : 314 / 100 < PI.
Proof. pose proof pi_bounds. unfold pi_lo in H. lra. Qed.

Lemma sin_encl f X x Q : isin_ S P f X = Ok Q -> isin X x -> isin Q (sin x).
Proof.
  intros H HX. unfold isin_ in H. destruct (inf_end S X) eqn:FE.
  { injection H as <-. apply isin_pm1_hull. apply SIN_bound. }
  pose proof (inf_end_fin _ _ ABS HX FE) as FX. inv H. fold (pi2 P) in E, H. rename T into I2.
  destruct (sle (hi (pi2 P)) (lo (isubS (ipt (hi I2)) (lo I2)))) eqn:WT.
  { injection H as <-. apply (isin_pm1 OK). apply SIN_bound. }
  destruct (tl_pihi _ _ L) as (ph & EPH & BPH). pose proof PII as (P1 & P2 & P3 & P4).
  assert (T2 : isin (pi2 P) (PI * 2)) by (apply isin_times; [lia|apply PII]).
  assert (FB : is_fin (sval (hi (c_pi P)))) by (rewrite EPH; simpl; auto).
  destruct (reduce_ok f (hi (c_pi P)) (pi2 P) (PI * 2) X x I2) as [N|(k & l & HI & EL & BL)]; auto.
  { inv H. exfalso. destruct (tl_nan _ _ L f _ T N) as [K _]. auto. }
  replace (sin x) with (sin (x - IZR k * (PI * 2))) by (rewrite <- (sin_shiftZ x k); f_equal; ring).
  set (y := x - IZR k * (PI * 2)) in *. clearbody y. specialize (BL _ EPH).
  destruct (reduced _ _ HI _ EL WT) as (h & EH & WH & LH).
  inv H. inv H. injection H as <-. rename T into a. rename T0 into b.
  pose proof HI as (I1 & I3 & _ & _).
  pose proof (sin_point_ok f _ _ _ (isin_pt _ _ I1 EL) E0) as HA.
  pose proof (sin_point_ok f _ _ _ (isin_pt _ _ I3 EH) E1) as HB.
  pose proof (isin_valid _ _ HA) as VA. pose proof (isin_valid _ _ HB) as VB.
  pose proof (s1_wf OK) as W1. pose proof (s1_v OK) as V1. destruct m1_ok as [Wm Vm].
  assert (F1 : is_fin (sval (@s1 S))) by (rewrite V1; simpl; auto).
  assert (Fm : is_fin (sval (sneg (@s1 S)))) by (rewrite Vm; simpl; auto).
  assert (H0a : isin (hull a b) (sin l)) by (apply isin_hull_l; auto).
  assert (H0b : isin (hull a b) (sin h)) by (apply isin_hull_r; auto).
  assert (A1 : isin a 1 -> isin (hull a b) 1) by (intros; apply isin_hull_l; auto).
  assert (B1 : isin b 1 -> isin (hull a b) 1) by (intros; apply isin_hull_r; auto).
  assert (A2 : isin a (-1) -> isin (hull a b) (-1)) by (intros; apply isin_hull_l; auto).
  assert (B2 : isin b (-1) -> isin (hull a b) (-1)) by (intros; apply isin_hull_r; auto).
  set (r0 := hull a b) in *. clearbody r0.
  set (t1 := isubset (imulS (c_pi P) shalf) I2) in *. set (t2 := isubset (imulS (c_pi P) (sdy 5 (-1))) I2) in *.
  set (t3 := isubset (imulS (ineg (c_pi P)) shalf) I2) in *. set (t4 := isubset (imulS (c_pi P) (sdy 3 (-1))) I2) in *.
  set (R := ext_if S t4 (ext_if S t3 (ext_if S t2 (ext_if S t1 r0 s1) s1) (sneg s1)) (sneg s1)).
  assert (MR : forall z, isin r0 z -> isin R z) by (intros; unfold R; repeat apply ext_mono; auto).
  pose proof (SIN_bound y) as SB. pose proof pi_lt. pose proof pi_gt.
  assert (UP : exists q, sin y <= q /\ isin R q).
  { destruct (cos_range (l - PI / 2) (h - PI / 2) (y - PI / 2) ltac:(lra)) as [K|[K|(j & K)]].
    - exists (sin l). split; [|apply MR; auto]. rewrite <- (cos_shift y), <- (cos_shift l), <- (cos_neg (PI / 2 - y)), <- (cos_neg (PI / 2 - l)).
      replace (- (PI / 2 - y)) with (y - PI / 2) by ring. replace (- (PI / 2 - l)) with (l - PI / 2) by ring. auto.
    - exists (sin h). split; [|apply MR; auto]. rewrite <- (cos_shift y), <- (cos_shift h), <- (cos_neg (PI / 2 - y)), <- (cos_neg (PI / 2 - h)).
      replace (- (PI / 2 - y)) with (y - PI / 2) by ring. replace (- (PI / 2 - h)) with (h - PI / 2) by ring. auto.
    - exists 1. split; [lra|].
      assert (SH : forall z, sin z = cos (z - (PI / 2 + 2 * IZR j * PI))).
      { intros z. rewrite <- (cos_shift z), <- cos_neg, <- (cos_shiftZ (- (PI / 2 - z)) j). f_equal. ring. }
      assert (J : (j = 0 \/ j = 1)%Z).
      { assert (-1 < IZR j) by nra. assert (IZR j < 2) by nra. apply lt_IZR in H1. apply lt_IZR in H2. lia. }
      rewrite SH in HA, HB.
      destruct J as [-> | ->].
      + destruct (caught (imulS (c_pi P) shalf) (PI / 2) I2 l h) as [T|[T|T]]; auto; try lra.
        { apply (tl_narrow _ _ L). simpl; auto. }
        * unfold R. do 3 (apply ext_mono; auto). apply (ext_add _ _ _ _ (sin l)); auto.
        * apply MR, A1. eapply top_grid; eauto. replace (PI / 2 + 2 * 0 * PI) with (PI / 2) by ring. auto.
        * apply MR, B1. eapply top_grid; eauto. replace (PI / 2 + 2 * 0 * PI) with (PI / 2) by ring. auto.
      + destruct (caught (imulS (c_pi P) (sdy 5 (-1))) (5 / 2 * PI) I2 l h) as [T|[T|T]]; auto; try lra.
        { apply (tl_narrow _ _ L). simpl; auto. }
        * unfold R. do 2 (apply ext_mono; auto). apply (ext_add _ _ _ _ (sin l)); auto. apply ext_mono; auto.
        * apply MR, A1. eapply top_grid; eauto. replace (PI / 2 + 2 * 1 * PI) with (5 / 2 * PI) by field. auto.
        * apply MR, B1. eapply top_grid; eauto. replace (PI / 2 + 2 * 1 * PI) with (5 / 2 * PI) by field. auto. }
  assert (DN : exists q, q <= sin y /\ isin R q).
  { assert (SH : forall z j, sin z = - cos (z - (- PI / 2 + 2 * IZR j * PI))).
    { intros z j. rewrite <- (Ropp_involutive (sin z)), <- sin_neg, <- (cos_shift (- z)). f_equal. 
      rewrite <- (cos_shiftZ (PI / 2 - - z) j). f_equal. field. }
    destruct (cos_range (l + PI / 2) (h + PI / 2) (y + PI / 2) ltac:(lra)) as [K|[K|(j & K)]].
    - exists (sin l). split; [|apply MR; auto]. rewrite (SH y 0%Z), (SH l 0%Z).
      replace (y - (- PI / 2 + 2 * 0 * PI)) with (y + PI / 2) by field. replace (l - (- PI / 2 + 2 * 0 * PI)) with (l + PI / 2) by field. lra.
    - exists (sin h). split; [|apply MR; auto]. rewrite (SH y 0%Z), (SH h 0%Z).
      replace (y - (- PI / 2 + 2 * 0 * PI)) with (y + PI / 2) by field. replace (h - (- PI / 2 + 2 * 0 * PI)) with (h + PI / 2) by field. lra.
    - exists (-1). split; [lra|].
      assert (J : (j = 0 \/ j = 1)%Z).
      { assert (-1 < IZR j) by nra. assert (IZR j < 2) by nra. apply lt_IZR in H1. apply lt_IZR in H2. lia. }
      rewrite (SH l j) in HA. rewrite (SH h j) in HB.
      destruct J as [-> | ->].
      + destruct (caught (imulS (ineg (c_pi P)) shalf) (- PI / 2) I2 l h) as [T|[T|T]]; auto; try lra.
        { apply (tl_narrow _ _ L). simpl; auto. }
        * unfold R. do 1 (apply ext_mono; auto). apply (ext_add _ _ _ _ (sin l)); auto. do 2 (apply ext_mono; auto).
        * apply MR, A2. eapply bot_grid; eauto. replace (- PI / 2 + 2 * 0 * PI) with (- PI / 2) by ring. lra.
        * apply MR, B2. eapply bot_grid; eauto. replace (- PI / 2 + 2 * 0 * PI) with (- PI / 2) by ring. lra.
      + destruct (caught (imulS (c_pi P) (sdy 3 (-1))) (3 / 2 * PI) I2 l h) as [T|[T|T]]; auto; try lra.
        { apply (tl_narrow _ _ L). simpl; auto 6. }
        * unfold R. apply (ext_add _ _ _ _ (sin l)); auto. do 3 (apply ext_mono; auto).
        * apply MR, A2. eapply bot_grid; eauto. replace (- PI / 2 + 2 * 1 * PI) with (3 / 2 * PI) by field. lra.
        * apply MR, B2. eapply bot_grid; eauto. replace (- PI / 2 + 2 * 1 * PI) with (3 / 2 * PI) by field. lra. }
  destruct UP as (qu & U1 & U2). destruct DN as (qd & D1 & D2).
  assert (IR : isin R (sin y)) by (apply (isin_conv _ qd qu); auto; lra).
  apply (isin_intersect OK); [eapply isin_valid; eauto| |].
  - eapply isin_valid. apply (isin_pm1 OK 0). lra.
  - split; auto. apply (isin_pm1 OK). auto.
Qed.

Lemma cos_encl f X x Q : icos S P f X = Ok Q -> isin X x -> isin Q (cos x).
Proof.
  intros H HX. unfold icos in H. destruct (inf_end S X) eqn:FE.
  { injection H as <-. apply isin_pm1_hull. apply COS_bound. }
  pose proof (inf_end_fin _ _ ABS HX FE) as FX. inv H. fold (pi2 P) in E, H. rename T into I2.
  destruct (sle (hi (pi2 P)) (lo (isubS (ipt (hi I2)) (lo I2)))) eqn:WT.
  { injection H as <-. apply (isin_pm1 OK). apply COS_bound. }
  destruct (tl_pihi _ _ L) as (ph & EPH & BPH). pose proof PII as (P1 & P2 & P3 & P4).
  assert (T2 : isin (pi2 P) (PI * 2)) by (apply isin_times; [lia|apply PII]).
  assert (FB : is_fin (sval (hi (c_pi P)))) by (rewrite EPH; simpl; auto).
  destruct (reduce_ok f (hi (c_pi P)) (pi2 P) (PI * 2) X x I2) as [N|(k & l & HI & EL & BL)]; auto.
  { inv H. exfalso. destruct (tl_nan _ _ L f _ T N) as [_ K]. auto. }
  replace (cos x) with (cos (x - IZR k * (PI * 2))) by (rewrite <- (cos_shiftZ x k); f_equal; ring).
  set (y := x - IZR k * (PI * 2)) in *. clearbody y. specialize (BL _ EPH).
  destruct (reduced _ _ HI _ EL WT) as (h & EH & WH & LH).
  inv H. inv H. injection H as <-. rename T into a. rename T0 into b.
  pose proof HI as (I1 & I3 & _ & _).
  pose proof (cos_point_ok f _ _ _ (isin_pt _ _ I1 EL) E0) as HA.
  pose proof (cos_point_ok f _ _ _ (isin_pt _ _ I3 EH) E1) as HB.
  pose proof (isin_valid _ _ HA) as VA. pose proof (isin_valid _ _ HB) as VB.
  pose proof (s1_wf OK) as W1. pose proof (s1_v OK) as V1. destruct m1_ok as [Wm Vm].
  assert (F1 : is_fin (sval (@s1 S))) by (rewrite V1; simpl; auto).
  assert (Fm : is_fin (sval (sneg (@s1 S)))) by (rewrite Vm; simpl; auto).
  assert (H0a : isin (hull a b) (cos l)) by (apply isin_hull_l; auto).
  assert (H0b : isin (hull a b) (cos h)) by (apply isin_hull_r; auto).
  assert (A1 : isin a 1 -> isin (hull a b) 1) by (intros; apply isin_hull_l; auto).
  assert (B1 : isin b 1 -> isin (hull a b) 1) by (intros; apply isin_hull_r; auto).
  assert (A2 : isin a (-1) -> isin (hull a b) (-1)) by (intros; apply isin_hull_l; auto).
  assert (B2 : isin b (-1) -> isin (hull a b) (-1)) by (intros; apply isin_hull_r; auto).
  set (r0 := hull a b) in *. clearbody r0.
  set (t1 := iin s0 I2) in *. set (t2 := isubset (pi2 P) I2) in *.
  set (t3 := isubset (ineg (c_pi P)) I2) in *. set (t4 := isubset (c_pi P) I2) in *.
  set (t5 := isubset (imulS (c_pi P) (sint S 3)) I2) in *.
  set (R := ext_if S t5 (ext_if S t4 (ext_if S t3 (ext_if S t2 (ext_if S t1 r0 s1) s1) (sneg s1)) (sneg s1)) (sneg s1)).
  assert (MR : forall z, isin r0 z -> isin R z) by (intros; unfold R; repeat apply ext_mono; auto).
  pose proof (COS_bound y) as SB. pose proof pi_lt. pose proof pi_gt.
  assert (UP : exists q, cos y <= q /\ isin R q).
  { destruct (cos_range l h y ltac:(lra)) as [K|[K|(j & K)]].
    - exists (cos l). auto.
    - exists (cos h). auto.
    - exists 1. split; [lra|].
      assert (SH : forall z, cos z = cos (z - 2 * IZR j * PI)) by (intros; rewrite cos_shiftZ; auto).
      assert (J : (j = 0 \/ j = 1)%Z).
      { assert (-1 < IZR j) by nra. assert (IZR j < 2) by nra. apply lt_IZR in H1. apply lt_IZR in H2. lia. }
      rewrite SH in HA, HB.
      destruct J as [-> | ->].
      + unfold R. do 4 (apply ext_mono; auto). apply (ext_add _ _ _ _ (cos l)); auto.
        unfold t1. apply (zero_in_spec OK I2); [eapply isin_valid; eauto|].
        apply isin_ends; auto; rewrite ?EL, ?EH; simpl; lra.
      + destruct (caught (pi2 P) (2 * PI) I2 l h) as [T|[T|T]]; auto; try lra.
        { apply (tl_narrow _ _ L). simpl; auto 10. }
        * unfold R. do 3 (apply ext_mono; auto). apply (ext_add _ _ _ _ (cos l)); auto. apply ext_mono; auto.
        * apply MR, A1. eapply top_grid; eauto. replace (2 * 1 * PI) with (2 * PI) by field. auto.
        * apply MR, B1. eapply top_grid; eauto. replace (2 * 1 * PI) with (2 * PI) by field. auto. }
  assert (DN : exists q, q <= cos y /\ isin R q).
  { assert (SH : forall z j, cos z = - cos (z - (- PI + 2 * IZR j * PI))).
    { intros z j. rewrite <- (cos_shiftZ (z - (- PI + 2 * IZR j * PI)) (- j)). rewrite opp_IZR.
      replace (z - (- PI + 2 * IZR j * PI) - 2 * - IZR j * PI) with (z + PI) by ring. rewrite neg_cos. ring. }
    destruct (cos_range (l + PI) (h + PI) (y + PI) ltac:(lra)) as [K|[K|(j & K)]].
    - exists (cos l). split; [|apply MR; auto]. rewrite !neg_cos in K. lra.
    - exists (cos h). split; [|apply MR; auto]. rewrite !neg_cos in K. lra.
    - exists (-1). split; [lra|].
      assert (J : (j = 0 \/ j = 1 \/ j = 2)%Z).
      { assert (-1 < IZR j) by nra. assert (IZR j < 3) by nra. apply lt_IZR in H1. apply lt_IZR in H2. lia. }
      rewrite (SH l j) in HA. rewrite (SH h j) in HB.
      destruct J as [-> | [-> | ->]].
      + destruct (caught (ineg (c_pi P)) (- PI) I2 l h) as [T|[T|T]]; auto; try lra.
        { apply (tl_narrow _ _ L). simpl; auto 10. }
        * unfold R. do 2 (apply ext_mono; auto). apply (ext_add _ _ _ _ (cos l)); auto. do 2 (apply ext_mono; auto).
        * apply MR, A2. eapply bot_grid; eauto. replace (- PI + 2 * 0 * PI) with (- PI) by ring. lra.
        * apply MR, B2. eapply bot_grid; eauto. replace (- PI + 2 * 0 * PI) with (- PI) by ring. lra.
      + destruct (caught (c_pi P) PI I2 l h) as [T|[T|T]]; auto; try lra.
        { apply (tl_narrow _ _ L). simpl; auto 10. }
        * unfold R. apply ext_mono; auto. apply (ext_add _ _ _ _ (cos l)); auto. do 3 (apply ext_mono; auto).
        * apply MR, A2. eapply bot_grid; eauto. replace (- PI + 2 * 1 * PI) with PI by ring. lra.
        * apply MR, B2. eapply bot_grid; eauto. replace (- PI + 2 * 1 * PI) with PI by ring. lra.
      + destruct (caught (imulS (c_pi P) (sint S 3)) (3 * PI) I2 l h) as [T|[T|T]]; auto; try lra.
        { apply (tl_narrow _ _ L). simpl; auto 10. }
        * unfold R. apply (ext_add _ _ _ _ (cos l)); auto. do 4 (apply ext_mono; auto).
        * apply MR, A2. eapply bot_grid; eauto. replace (- PI + 2 * 2 * PI) with (3 * PI) by ring. lra.
        * apply MR, B2. eapply bot_grid; eauto. replace (- PI + 2 * 2 * PI) with (3 * PI) by ring. lra. }
  destruct UP as (qu & U1 & U2). destruct DN as (qd & D1 & D2).
  assert (IR : isin R (cos y)) by (apply (isin_conv _ qd qu); auto; lra).
  apply (isin_intersect OK); [eapply isin_valid; eauto| |].
  - eapply isin_valid. apply (isin_pm1 OK 0). lra.
  - split; auto. apply (isin_pm1 OK). auto.
Qed.

(* tan *)
Lemma tan_shift x k : tan (x - IZR k * PI) = tan x.
Proof.
  assert (forall n z, sin (z + INR n * PI) = cos (INR n * PI) * sin z /\ cos (z + INR n * PI) = cos (INR n * PI) * cos z).
  { intros n z. assert (sin (INR n * PI) = 0). { rewrite INR_IZR_INZ. apply sin_eq_0_1. eauto. }
    rewrite sin_plus, cos_plus, H. split; ring. }
  assert (NZ : forall n, cos (INR n * PI) <> 0).
  { intros n E. assert (sin (INR n * PI) = 0). { rewrite INR_IZR_INZ. apply sin_eq_0_1. eauto. }
    pose proof (sin2_cos2 (INR n * PI)). unfold Rsqr in H1. rewrite E, H0 in H1. lra. }
  assert (G : forall n z, tan (z + INR n * PI) = tan z).
  { intros n z. unfold tan. destruct (H n z) as [-> ->]. pose proof (NZ n). unfold Rdiv.
    destruct (Req_dec (cos z) 0) as [Z|Z].
    - rewrite Z, Rmult_0_r. unfold tan. 
      replace (cos (INR n * PI) * sin z * / 0) with (cos (INR n * PI) * (sin z * / 0)) by ring.
      destruct (Req_dec (/ 0) 0) as [I0|I0]; [rewrite I0; ring|]. rewrite Rinv_0 in I0. lra.
    - field. auto. }
  destruct (Z_le_gt_dec 0 k) as [HK|HK].
  - rewrite <- (G (Z.to_nat k) (x - IZR k * PI)), INR_IZR_INZ, Z2Nat.id by auto. f_equal; ring.
  - rewrite <- (G (Z.to_nat (- k)) x), INR_IZR_INZ, Z2Nat.id, opp_IZR by lia. f_equal; ring.
Qed.

Lemma tan_point_ok f (x : S) v Q : swf x -> sval x = XR v -> tan_point S P f x = Ok Q -> isin Q (tan v).
Proof.
  intros W E H. unfold tan_point in H. inv H. inv H.
  pose proof (sin_point_ok f _ _ _ (isin_pt _ _ W E) E0). pose proof (cos_point_ok f _ _ _ (isin_pt _ _ W E) E1).
  eapply (isin_div OK); eauto.
Qed.
Lemma tan_mono a b : - (PI / 2) < a -> a <= b -> b < PI / 2 -> tan a <= tan b.
Proof. intros HA [H| ->] HB; [left; apply Ratan.tan_increasing; lra|lra]. Qed.
Lemma tan_encl f X x Q : itan S P f X = Ok Q -> isin X x -> isin Q (tan x).
Proof.
  intros H HX. unfold itan in H. destruct (inf_end S X) eqn:FE.
  { injection H as <-. unfold hullSS. destruct (ok_ninf _ OK) as [W1 E1]. destruct (ok_pinf _ OK) as [W2 E2].
    assert (slt (@sninf S) spinf = true) as -> by (apply (ok_lt _ OK); auto; rewrite E1, E2; simpl; auto). apply (isin_whole OK). }
  pose proof (inf_end_fin _ _ ABS HX FE) as FX. inv H. fold (pih P) in E, H. rename T into I2.
  destruct (sle (hi (pih P)) (hi I2)) eqn:WT. { injection H as <-. apply (isin_whole OK). }
  destruct (tl_pihhi _ _ L) as (ph & EPH). pose proof (isin_halfr _ _ PII) as HH. pose proof HH as (P1 & P2 & P3 & P4).
  fold (pih P) in HH, P1, P2, P3, P4.
  assert (FB : is_fin (sval (hi (pih P)))) by (rewrite EPH; simpl; auto).
  destruct (reduce_ok f (hi (pih P)) (c_pi P) PI X x I2) as [N|(k & l & HI & EL & BL)]; auto. apply PII.
  { exfalso. unfold by_ends in H. inv H. unfold tan_point in E0. inv E0. destruct (tl_nan _ _ L f _ T0 N) as [K _]. auto. }
  rewrite <- (tan_shift x k). set (y := x - IZR k * PI) in *. clearbody y. specialize (BL _ EPH).
  pose proof HI as (I1 & I3 & I4 & I5).
  assert (exists h, sval (hi I2) = XR h /\ h < ph /\ y <= h) as (h & EH & HH1 & HH2).
  { destruct (sval (hi I2)) as [h| | |] eqn:EH; simpl in I5; try tauto.
    - exists h. repeat split; auto. apply (sle_false OK) in WT; auto; try congruence. rewrite EPH, EH in WT. auto.
    - exfalso. assert (sle (hi (pih P)) (hi I2) = true); [|congruence]. apply (ok_le _ OK); auto. rewrite EPH, EH. simpl. auto. }
  rewrite EL in I4. simpl in I4.
  pose proof (tl_adj _ _ L _ _ _ I3 EH EPH HH1) as HU.
  assert (HL : - (PI / 2) < l).
  { assert (E3 : sval (sneg (lo I2)) = XR (- l)) by (rewrite (sneg_v OK), EL by auto; auto).
    pose proof (tl_adj _ _ L _ _ _ (sneg_wf OK _ I1) E3 EPH ltac:(lra)). lra. }
  unfold by_ends in H. inv H. inv H. injection H as <-.
  pose proof (tan_point_ok _ _ _ _ I1 EL E0). pose proof (tan_point_ok _ _ _ _ I3 EH E1).
  eapply isin_mk; eauto. split; apply tan_mono; lra.
Qed.

(* atan *)
Lemma atan_point_ok f (x : S) v Q : swf x -> sval x = XR v -> atan_point S P f x = Ok Q -> isin Q (atan v).
Proof.
  intros W E H. destruct (tl_sq2p1 _ _ L) as [Wp (p & Ep & Hp)]. destruct (tl_sq2m1 _ _ L) as [Wm (m & Em & Hm)].
  pose proof (isin_pt _ _ W E) as HX. pose proof (isin_1add OK _ _ HX) as HX1. pose proof (isin_1sub OK _ _ HX) as HX2.
  pose proof (isin_subS OK _ _ _ _ HX (s1_wf OK) (s1_v OK)) as HX3. pose proof (isin_addS OK _ _ _ _ HX (s1_wf OK) (s1_v OK)) as HX4.
  unfold atan_point in H.
  destruct (slt x (sneg (sq2p1 S P))) eqn:C1.
  { apply (ok_lt _ OK) in C1; auto using sneg_wf. rewrite E, (sneg_v OK), Ep in C1 by auto. simpl in C1.
    inv H. inv H. injection H as <-. pose proof (isin_inv OK _ _ _ E0 HX) as K.
    rewrite at1 by lra. apply isin_sub; auto. apply isin_halfr, mPI. eapply (atan_origin_ok OK); eauto. }
  destruct (slt x (sneg (sq2m1 S P))) eqn:C2.
  { apply (ok_lt _ OK) in C2; auto using sneg_wf. rewrite E, (sneg_v OK), Em in C2 by auto. simpl in C2.
    inv H. inv H. injection H as <-. destruct (isin_div OK _ _ _ _ _ E0 HX1 HX2) as [_ K].
    rewrite at2 by lra. apply isin_add; auto. apply isin_quartr, mPI. eapply (atan_origin_ok OK); eauto. }
  destruct (slt x (sq2m1 S P)) eqn:C3.
  { eapply (atan_origin_ok OK); eauto. }
  apply (slt_false OK) in C3; auto; try congruence. rewrite E, Em in C3. simpl in C3.
  destruct (slt x (sq2p1 S P)) eqn:C4.
  { inv H. inv H. injection H as <-. destruct (isin_div OK _ _ _ _ _ E0 HX3 HX4) as [_ K].
    rewrite at4 by lra. apply isin_add; auto. apply isin_quartr, PII. eapply (atan_origin_ok OK); eauto. }
  inv H. inv H. injection H as <-. pose proof (isin_inv OK _ _ _ E0 HX) as K.
  rewrite at5 by lra. apply isin_sub; auto. apply isin_halfr, PII. eapply (atan_origin_ok OK); eauto.
Qed.
Lemma inv_inf (x : S) Q : swf x -> sval x = Xp \/ sval x = Xm -> iSdiv s1 (ipt x) = Ok Q -> isin Q 0.
Proof.
  intros W E H. unfold iSdiv in H. destruct (slt s0 (lo (ipt x)) || slt (hi (ipt x)) s0); [|discriminate]. injection H as <-.
  assert (sle (@s0 S) s1 = true) as ->. { apply (ok_le _ OK); try apply s0_wf; try apply s1_wf; auto. rewrite (s0_v OK), (s1_v OK). simpl. lra. }
  simpl. pose proof (s1_wf OK).
  destruct (ok_divd _ OK s1 x) as [W1 D1]; auto; [destruct E as [-> | ->]; discriminate|].
  destruct (ok_divu _ OK s1 x) as [W2 D2]; auto; [destruct E as [-> | ->]; discriminate|].
  rewrite (s1_v OK) in D1, D2. apply isin_ends; simpl; auto.
  - apply xdown_lb. destruct E as [E|E]; rewrite E in D1; exact D1.
  - apply xup_ub. destruct E as [E|E]; rewrite E in D2; exact D2.
Qed.
Lemma atan_point_pinf f (x : S) Q : swf x -> sval x = Xp -> atan_point S P f x = Ok Q -> isin Q (PI / 2).
Proof.
  intros W E H. destruct (tl_sq2p1 _ _ L) as [Wp (p & Ep & Hp)]. destruct (tl_sq2m1 _ _ L) as [Wm (m & Em & Hm)].
  assert (F : forall y : S, swf y -> slt x y = false).
  { intros y Wy. apply not_true_is_false. intros C. apply (ok_lt _ OK) in C; auto. rewrite E in C. elim C. }
  unfold atan_point in H. rewrite !F in H by auto using sneg_wf.
  inv H. inv H. injection H as <-. pose proof (inv_inf _ _ W (or_introl E) E0) as K.
  pose proof (atan_origin_ok OK _ _ _ _ K E1) as K2. rewrite atan_0 in K2.
  replace (PI / 2) with (PI * / 2 - 0) by lra. apply isin_sub; auto. apply isin_halfr, PII.
Qed.
Lemma atan_point_ninf f (x : S) Q : swf x -> sval x = Xm -> atan_point S P f x = Ok Q -> isin Q (- PI / 2).
Proof.
  intros W E H. destruct (tl_sq2p1 _ _ L) as [Wp (p & Ep & Hp)].
  assert (slt x (sneg (sq2p1 S P)) = true) as C.
  { apply (ok_lt _ OK); auto using sneg_wf. rewrite E, (sneg_v OK), Ep by auto. simpl. auto. }
  unfold atan_point in H. rewrite C in H.
  inv H. inv H. injection H as <-. pose proof (inv_inf _ _ W (or_intror E) E0) as K.
  pose proof (atan_origin_ok OK _ _ _ _ K E1) as K2. rewrite atan_0 in K2.
  replace (- PI / 2) with (- PI * / 2 - 0) by lra. apply isin_sub; auto. apply isin_halfr, mPI.
Qed.
Lemma iatan_encl f X x Q : iatan S P f X = Ok Q -> isin X x -> isin Q (atan x).
Proof.
  intros H (A1 & A2 & A3 & A4). unfold iatan, by_ends in H. inv H. inv H. injection H as <-.
  pose proof (atan_lt_pih x) as BX.
  assert (exists z, isin T z /\ z <= atan x) as (z & Z1 & Z2).
  { destruct (sval (lo X)) as [v| | |] eqn:EL; simpl in A3; try tauto.
    - exists (atan v). split; [apply (atan_point_ok f (lo X)); auto|]. apply atan_mono; auto.
    - exists (- PI / 2). split; [apply (atan_point_ninf f (lo X)); auto|]. lra. }
  assert (exists z, isin T0 z /\ atan x <= z) as (z' & Z3 & Z4).
  { destruct (sval (hi X)) as [v| | |] eqn:EL; simpl in A4; try tauto.
    - exists (atan v). split; [apply (atan_point_ok f (hi X)); auto|]. apply atan_mono; auto.
    - exists (PI / 2). split; [apply (atan_point_pinf f (hi X)); auto|]. lra. }
  eapply isin_mk; eauto.
Qed.

(* asin, acos *)
Lemma unit_test (x : S) v : swf x -> sval x = XR v -> slt x (sneg s1) || slt s1 x = false -> -1 <= v <= 1.
Proof.
  intros W E H. apply orb_false_iff in H as [H1 H2]. destruct m1_ok as [Wm Vm].
  apply (slt_false OK) in H1; auto; try congruence. apply (slt_false OK) in H2; auto; try apply s1_wf; auto; try congruence; [|rewrite (s1_v OK); discriminate].
  rewrite Vm, E in H1. rewrite (s1_v OK), E in H2. simpl in *. lra.
Qed.
Lemma asin_arg_ok (x : S) v Q : swf x -> sval x = XR v -> -1 < v < 1 -> asin_arg S P x = Ok Q -> isin Q (v / sqrt (1 - v²)).
Proof.
  intros W E D H. unfold asin_arg in H. destruct (tl_sq6d3 _ _ L) as [W6 (c & E6 & H6)].
  pose proof (isin_pt _ _ W E) as HX. destruct (tl_abs _ _ L x v W E) as [WA EA].
  destruct (slt (sabs x) (sq6d3 S P)) eqn:C.
  - inv H. destruct (isin_sqrt OK _ _ _ E0 (isin_1sub OK _ _ (isin_sq OK _ _ W E))) as [_ K].
    eapply (isin_Sdiv OK); eauto.
  - apply (slt_false OK) in C; auto; try congruence. rewrite EA, E6 in C. simpl in C.
    destruct (slt s0 x) eqn:C2.
    + apply (ok_lt _ OK) in C2; auto; [|apply s0_wf; auto]. rewrite (s0_v OK), E in C2. simpl in C2.
      rewrite Rabs_pos_eq in C by lra. inv H. destruct (tl_1mx _ _ L x v W E ltac:(lra)) as [W1 E1].
      destruct (isin_sqrt OK _ _ _ E0 (isin_mulS OK _ _ _ _ (isin_1add OK _ _ HX) W1 E1)) as [_ K].
      replace ((1 + v) * (1 - v)) with (1 - v²) in K by (unfold Rsqr; ring). eapply (isin_Sdiv OK); eauto.
    + apply (slt_false OK) in C2; auto; try apply s0_wf; auto; try congruence; [|rewrite (s0_v OK); discriminate]. rewrite (s0_v OK), E in C2. simpl in C2.
      rewrite Rabs_left1 in C by lra. inv H. destruct (tl_1px _ _ L x v W E ltac:(lra)) as [W1 E1].
      destruct (isin_sqrt OK _ _ _ E0 (isin_Smul OK _ _ _ _ W1 E1 (isin_1sub OK _ _ HX))) as [_ K].
      replace ((1 + v) * (1 - v)) with (1 - v²) in K by (unfold Rsqr; ring). eapply (isin_Sdiv OK); eauto.
Qed.
Lemma asin_point_ok f (x : S) v Q : swf x -> sval x = XR v -> asin_point S P f x = Ok Q -> -1 <= v <= 1 /\ isin Q (asin v).
Proof.
  intros W E H. unfold asin_point in H. destruct (slt x (sneg s1) || slt s1 x) eqn:C; [discriminate|].
  pose proof (unit_test _ _ W E C) as D. split; auto. destruct m1_ok as [Wm Vm].
  destruct (seqb x s1) eqn:C1.
  { injection H as <-. apply (ok_eq _ OK) in C1; auto; [|apply s1_wf; auto]. rewrite (s1_v OK), E in C1. simpl in C1. subst v.
    rewrite asin_1. replace (PI / 2) with (PI * / 2) by lra. apply isin_halfr, PII. }
  destruct (seqb x (sneg s1)) eqn:C2.
  { injection H as <-. apply (ok_eq _ OK) in C2; auto. rewrite Vm, E in C2. simpl in C2. subst v.
    rewrite asin_m1. replace (PI / 2) with (PI * / 2) by lra. apply isin_neg; auto. apply isin_halfr, PII. }
  assert (v <> 1). { intros ->. assert (seqb x s1 = true); [|congruence]. apply (ok_eq _ OK); auto; [apply s1_wf; auto|]. rewrite E, (s1_v OK). simpl; auto. }
  assert (v <> -1). { intros ->. assert (seqb x (sneg s1) = true); [|congruence]. apply (ok_eq _ OK); auto. rewrite E, Vm. simpl; auto. }
  inv H. pose proof (asin_arg_ok _ _ _ W E ltac:(lra) E0) as K.
  rewrite asin_atan by lra. eapply iatan_encl; eauto.
Qed.
Lemma iasin_encl f X x Q : iasin S P f X = Ok Q -> isin X x -> -1 <= x <= 1 /\ isin Q (asin x).
Proof.
  intros H (A1 & A2 & A3 & A4). unfold iasin, by_ends in H. inv H. inv H. injection H as <-.
  destruct m1_ok as [Wm Vm].
  destruct (sval (lo X)) as [a| | |] eqn:EL; simpl in A3; try tauto.
  2: { exfalso. unfold asin_point in E. assert (slt (lo X) (sneg s1) = true) as C by (apply (ok_lt _ OK); auto; rewrite EL, Vm; simpl; auto). rewrite C in E. discriminate. }
  destruct (sval (hi X)) as [b| | |] eqn:EH; simpl in A4; try tauto.
  2: { exfalso. unfold asin_point in E0. assert (slt s1 (hi X) = true) as C by (apply (ok_lt _ OK); auto; [apply s1_wf; auto|]; rewrite EH, (s1_v OK); simpl; auto). rewrite C, orb_true_r in E0. discriminate. }
  destruct (asin_point_ok _ _ _ _ A1 EL E). destruct (asin_point_ok _ _ _ _ A2 EH E0). split; [lra|].
  eapply isin_mk; eauto. split; apply asin_mono; lra.
Qed.

Lemma pos_conn X x y : isin X x -> isin X y -> 0 < x -> (slt s0 (lo X) = true \/ slt (hi X) s0 = true) -> 0 < y.
Proof.
  intros (A1&A2&A3&A4) (B1&B2&B3&B4) HX [C|C]; apply (ok_lt _ OK) in C; auto; try apply s0_wf; auto; rewrite (s0_v OK) in C.
  - destruct (sval (lo X)); simpl in *; try tauto; lra.
  - destruct (sval (hi X)); simpl in *; try tauto; lra.
Qed.
Lemma idiv_sign X Y Q : idiv X Y = Ok Q -> slt s0 (lo Y) = true \/ slt (hi Y) s0 = true.
Proof. unfold idiv. destruct (slt s0 (lo Y)); auto. destruct (slt (hi Y) s0); auto. discriminate. Qed.
Lemma isdiv_sign (x : S) (Y : iv S) Q : iSdiv x Y = Ok Q -> slt s0 (lo Y) = true \/ slt (hi Y) s0 = true.
Proof. unfold iSdiv. destruct (slt s0 (lo Y)); auto. destruct (slt (hi Y) s0); auto. discriminate. Qed.
Lemma pih_m_ok f X x Q : isin X x -> pih_m_atan_point S P f X = Ok Q -> isin Q (PI / 2 - atan x).
Proof.
  intros HX H. destruct (tl_sq2p1 _ _ L) as [Wp (p & Ep & Hp)]. destruct (tl_sq2m1 _ _ L) as [Wm (m & Em & Hm)].
  pose proof HX as (A1 & A2 & A3 & A4). assert (NL : sval (lo X) <> Xn) by (destruct (sval (lo X)); simpl in A3; congruence || tauto).
  pose proof (isin_1add OK _ _ HX) as HX1. pose proof (isin_1sub OK _ _ HX) as HX2.
  pose proof (isin_subS OK _ _ _ _ HX (s1_wf OK) (s1_v OK)) as HX3. pose proof (isin_addS OK _ _ _ _ HX (s1_wf OK) (s1_v OK)) as HX4.
  unfold pih_m_atan_point in H.
  destruct (slt (lo X) (sneg (sq2p1 S P))) eqn:C1.
  { apply (ok_lt _ OK) in C1; auto using sneg_wf. rewrite (sneg_v OK), Ep in C1 by auto.
    inv H. inv H. injection H as <-. pose proof (isin_inv OK _ _ _ E HX) as K. pose proof (isdiv_sign _ _ _ E) as SG.
    assert (x < 0).
    { destruct SG as [C|C]; apply (ok_lt _ OK) in C; auto; try apply s0_wf; auto; rewrite (s0_v OK) in C.
      - destruct (sval (lo X)); simpl in *; try tauto; lra.
      - destruct (sval (hi X)); simpl in *; try tauto; lra. }
    replace (PI / 2 - atan x) with (PI + atan (1 / x)) by (rewrite (at1 x) by lra; lra). apply isin_add; auto. apply PII. eapply (atan_origin_ok OK); eauto. }
  destruct (slt (lo X) (sneg (sq2m1 S P))) eqn:C2.
  { apply (ok_lt _ OK) in C2; auto using sneg_wf. rewrite (sneg_v OK), Em in C2 by auto.
    inv H. inv H. injection H as <-. destruct (isin_div OK _ _ _ _ _ E HX1 HX2) as [_ K]. pose proof (idiv_sign _ _ _ E) as SG.
    assert (x < 1).
    { (* the lower endpoint, or any far point below x, makes 1 - X positive somewhere *)
      assert (exists z, isin X z /\ z < 1) as (z & Z1 & Z2).
      { destruct (sval (lo X)) as [l| | |] eqn:EL; simpl in C2, A3; try tauto.
        - exists l. split; [|lra]. apply isin_ends; auto. rewrite EL; simpl; lra. eapply ub_le; [exact A4|lra].
        - exists (Rmin x 0). split; [|eapply Rle_lt_trans; [apply Rmin_r|lra]]. apply isin_ends; auto. rewrite EL; simpl; auto.
          eapply ub_le; [exact A4|apply Rmin_l]. }
      pose proof (pos_conn _ _ _ (isin_1sub OK _ _ Z1) HX2 ltac:(lra) SG). lra. }
    destruct (ok_dy _ OK 3 (-2)) as [W3 E3]; try lia.
    replace (PI / 2 - atan x) with (PI * (3 * bpow radix2 (-2)) - atan ((1 + x) / (1 - x))) by (rewrite (at2 x) by lra; simpl; lra).
    apply isin_sub; auto. apply (isin_mulS OK); auto. apply PII. eapply (atan_origin_ok OK); eauto. }
  destruct (slt (lo X) (sq2m1 S P)) eqn:C3.
  { inv H. injection H as <-. replace (PI / 2) with (PI * / 2) by lra. apply isin_sub; auto. apply isin_halfr, PII. eapply (atan_origin_ok OK); eauto. }
  apply (slt_false OK) in C3; auto; try congruence. rewrite Em in C3.
  assert (0 < x). { destruct (sval (lo X)); simpl in *; try tauto; lra. }
  destruct (slt (lo X) (sq2p1 S P)) eqn:C4.
  { inv H. inv H. injection H as <-. destruct (isin_div OK _ _ _ _ _ E HX3 HX4) as [_ K].
    replace (PI / 2 - atan x) with (PI * / 4 - atan ((x - 1) / (x + 1))) by (rewrite (at4 x) by lra; lra).
    apply isin_sub; auto. apply isin_quartr, PII. eapply (atan_origin_ok OK); eauto. }
  inv H. pose proof (isin_inv OK _ _ _ E HX) as K.
  replace (PI / 2 - atan x) with (atan (1 / x)) by (rewrite (at5 x) by lra; lra). eapply (atan_origin_ok OK); eauto.
Qed.
Lemma acos_point_ok f (x : S) v Q : swf x -> sval x = XR v -> acos_point S P f x = Ok Q -> -1 <= v <= 1 /\ isin Q (acos v).
Proof.
  intros W E H. unfold acos_point in H. destruct (slt x (sneg s1) || slt s1 x) eqn:C; [discriminate|].
  pose proof (unit_test _ _ W E C) as D. split; auto. destruct m1_ok as [Wm Vm].
  destruct (seqb x s1) eqn:C1.
  { injection H as <-. apply (ok_eq _ OK) in C1; auto; [|apply s1_wf; auto]. rewrite (s1_v OK), E in C1. simpl in C1. subst v.
    rewrite acos_1. apply isin_0; auto. }
  destruct (seqb x (sneg s1)) eqn:C2.
  { injection H as <-. apply (ok_eq _ OK) in C2; auto. rewrite Vm, E in C2. simpl in C2. subst v.
    rewrite acos_m1. apply PII. }
  assert (v <> 1). { intros ->. assert (seqb x s1 = true); [|congruence]. apply (ok_eq _ OK); auto; [apply s1_wf; auto|]. rewrite E, (s1_v OK). simpl; auto. }
  assert (v <> -1). { intros ->. assert (seqb x (sneg s1) = true); [|congruence]. apply (ok_eq _ OK); auto. rewrite E, Vm. simpl; auto. }
  inv H. pose proof (asin_arg_ok _ _ _ W E ltac:(lra) E0) as K.
  rewrite acos_asin, asin_atan by lra. eapply pih_m_ok; eauto.
Qed.
Lemma iacos_encl f X x Q : iacos S P f X = Ok Q -> isin X x -> -1 <= x <= 1 /\ isin Q (acos x).
Proof.
  intros H (A1 & A2 & A3 & A4). unfold iacos in H. inv H. inv H. injection H as <-.
  destruct m1_ok as [Wm Vm].
  destruct (sval (lo X)) as [a| | |] eqn:EL; simpl in A3; try tauto.
  2: { exfalso. unfold acos_point in E0. assert (slt (lo X) (sneg s1) = true) as C by (apply (ok_lt _ OK); auto; rewrite EL, Vm; simpl; auto). rewrite C in E0. discriminate. }
  destruct (sval (hi X)) as [b| | |] eqn:EH; simpl in A4; try tauto.
  2: { exfalso. unfold acos_point in E. assert (slt s1 (hi X) = true) as C by (apply (ok_lt _ OK); auto; [apply s1_wf; auto|]; rewrite EH, (s1_v OK); simpl; auto). rewrite C, orb_true_r in E. discriminate. }
  destruct (acos_point_ok _ _ _ _ A2 EH E). destruct (acos_point_ok _ _ _ _ A1 EL E0). split; [lra|].
  eapply isin_mk; eauto. split; apply acos_mono; lra.
Qed.
End ElemTrig.
