(* The gamma function on the negative axis, log-convexity between two poles, and the minimum on the positive axis.  Reals only. *)
From Coq Require Import Reals ZArith Bool List Lra Lia Psatz Arith.
From Coquelicot Require Import Coquelicot.
From Verif Require Import SingReal GammaReal.
Open Scope R_scope.

(* Gamma(x) = Gamma(x + 1) / x; no value at 0, -1, -2, ... *)
Inductive is_Gamma : R -> R -> Prop :=
| Gpos x G : 0 < x -> is_gamma x G -> is_Gamma x G
| Gneg x G : x < 0 -> is_Gamma (x + 1) (x * G) -> is_Gamma x G.
Lemma Gamma_pos_inv x G : 0 < x -> is_Gamma x G -> is_gamma x G.
Proof. intros H K. inversion K; subst; auto. lra. Qed.
Lemma Gamma_neg_inv x G : x < 0 -> is_Gamma x G -> is_Gamma (x + 1) (x * G).
Proof. intros H K. inversion K; subst; auto. lra. Qed.
Lemma Gamma_not_zero G : ~ is_Gamma 0 G.
Proof. intros H. inversion H; lra. Qed.
Lemma Gamma_unique x G G' : is_Gamma x G -> is_Gamma x G' -> G = G'.
Proof.
  intros H. revert G'. induction H as [x G H K|x G H K IH]; intros G' H'.
  - apply (gamma_unique x); auto. now apply Gamma_pos_inv.
  - apply Gamma_neg_inv in H'; auto. apply IH in H'. apply Rmult_eq_reg_l with x; auto. lra.
Qed.
Lemma Gamma_nonzero x G : is_Gamma x G -> G <> 0.
Proof.
  intros H. induction H as [x G H K|x G H K IH].
  - pose proof (gamma_positive _ _ K). lra.
  - intros ->. apply IH. ring.
Qed.
(* x * (x + 1) * ... *)
Fixpoint prodf (x : R) (k : nat) : R := match k with O => 1 | Datatypes.S k' => x * prodf (x + 1) k' end.
Lemma Gamma_down k : forall x G, 0 < x + INR k -> prodf x k <> 0 -> is_gamma (x + INR k) G -> is_Gamma x (G / prodf x k).
Proof.
  induction k as [|k IH]; intros x G Hx N H.
  - simpl in *. rewrite Rplus_0_r in *. replace (G / 1) with G by field. now constructor.
  - rewrite S_INR in *. simpl in N. assert (N1 : x <> 0) by (intros ->; apply N; ring). assert (N2 : prodf (x + 1) k <> 0) by (intros E; apply N; rewrite E; ring).
    replace (x + (INR k + 1)) with (x + 1 + INR k) in * by ring. specialize (IH (x + 1) G Hx N2 H). cbn [prodf].
    replace (G / (x * prodf (x + 1) k)) with (G / prodf (x + 1) k / x) by (field; auto).
    destruct (Rlt_or_le 0 x) as [P|P].
    + apply Gpos; auto. apply gamma_pred; auto. apply Gamma_pos_inv in IH; auto. lra.
    + apply Gneg; [lra|]. replace (x * (G / prodf (x + 1) k / x)) with (G / prodf (x + 1) k) by (field; auto). exact IH.
Qed.
Lemma Gamma_prodf k : forall x G, is_Gamma x G -> prodf x k <> 0.
Proof.
  induction k as [|k IH]; intros x G H; [simpl; lra|]. cbn [prodf]. apply Rmult_integral_contrapositive.
  destruct H as [x G H K|x G H K].
  - split; [lra|]. apply (IH (x + 1) (x * G)). apply Gpos; [lra|]. now apply gamma_succ.
  - split; [lra|]. now apply (IH (x + 1) (x * G)).
Qed.
(* a value at every real that is not 0, -1, -2, ... *)
Lemma Gamma_exists x : (forall k : nat, x <> - INR k) -> exists G, is_Gamma x G.
Proof.
  intros N. assert (K : exists k, 0 < x + INR k). { destruct (nfloor_ex (Rabs x)) as [k Hk]; [apply Rabs_pos|]. exists (Datatypes.S k). rewrite S_INR. pose proof (Rle_abs (- x)). rewrite Rabs_Ropp in H. lra. }
  destruct K as [k Hk]. destruct (gamma_exists _ Hk) as [G HG]. exists (G / prodf x k). apply Gamma_down; auto.
  clear HG. assert (P : forall k x, (forall k : nat, x <> - INR k) -> prodf x k <> 0).
  { clear. induction k as [|k IH]; intros x N; [simpl; lra|]. cbn [prodf]. apply Rmult_integral_contrapositive. split.
    - intros ->. apply (N 0%nat). simpl. lra.
    - apply IH. intros j E. apply (N (Datatypes.S j)). rewrite S_INR. lra. }
  now apply P.
Qed.

(* ---- log-convexity ---- *)
Lemma gamma_weights al be a b m A B X : 0 <= al -> 0 <= be -> (forall t, gint m t <= al * gint a t + be * gint b t) ->
  is_gamma a A -> is_gamma b B -> is_gamma m X -> X <= al * A + be * B.
Proof.
  intros Hal Hbe HW HA HB HX. destruct (Rle_or_lt X (al * A + be * B)) as [|C]; auto. exfalso. set (e := (X - (al * A + be * B)) / (2 * (1 + al + be))). assert (He : 0 < e) by (unfold e; apply Rdiv_lt_0_compat; lra).
  assert (E0 : X - (al * A + be * B) = 2 * (1 + al + be) * e) by (unfold e; field; lra). clearbody e.
  destruct (HA e He) as (d1 & M1 & D1 & K1). destruct (HB e He) as (d2 & M2 & D2 & K2). destruct (HX e He) as (d3 & M3 & D3 & K3).
  set (u := Rmin d1 (Rmin d2 d3) / 2). set (v := Rmax u (Rmax M1 (Rmax M2 M3)) + 1).
  assert (U0 : 0 < Rmin d1 (Rmin d2 d3)) by (repeat apply Rmin_glb_lt; auto).
  pose proof (Rmin_l d1 (Rmin d2 d3)). pose proof (Rmin_r d1 (Rmin d2 d3)). pose proof (Rmin_l d2 d3). pose proof (Rmin_r d2 d3).
  pose proof (Rmax_l u (Rmax M1 (Rmax M2 M3))). pose proof (Rmax_r u (Rmax M1 (Rmax M2 M3))). pose proof (Rmax_l M1 (Rmax M2 M3)). pose proof (Rmax_r M1 (Rmax M2 M3)). pose proof (Rmax_l M2 M3). pose proof (Rmax_r M2 M3).
  destruct (K1 u v) as (wa & Ia & La); [unfold u; lra|unfold v; lra|]. destruct (K2 u v) as (wb & Ib & Lb); [unfold u; lra|unfold v; lra|]. destruct (K3 u v) as (wx & Ix & Lx); [unfold u; lra|unfold v; lra|].
  assert (W : wx <= al * wa + be * wb).
  { apply (is_RInt_le (gint m) (fun t => plus (Hierarchy.scal al (gint a t)) (Hierarchy.scal be (gint b t))) u v); [unfold v; lra|exact Ix| |].
    - apply (is_RInt_plus (V:=R_NormedModule)); apply (is_RInt_scal (V:=R_NormedModule)); auto.
    - intros t _. exact (HW t). }
  apply Rabs_def2 in La, Lb, Lx. assert (al * wa <= al * (A + e)) by (apply Rmult_le_compat_l; lra). assert (be * wb <= be * (B + e)) by (apply Rmult_le_compat_l; lra). nra.
Qed.
Lemma ln_le x y : 0 < x -> x <= y -> ln x <= ln y.
Proof. intros H [K|K]; [left; now apply ln_increasing|subst; lra]. Qed.
Lemma ln_le_back x y : 0 < x -> 0 < y -> ln x <= ln y -> x <= y.
Proof. intros H H' K. destruct (Rle_or_lt x y) as [|N]; auto. pose proof (ln_increasing y x H' N). lra. Qed.
Lemma gamma_logconvex l a b A B X : 0 <= l <= 1 -> is_gamma a A -> is_gamma b B -> is_gamma (l * a + (1 - l) * b) X -> ln X <= l * ln A + (1 - l) * ln B.
Proof.
  intros Hl HA HB HX. pose proof (gamma_positive _ _ HA) as PA. pose proof (gamma_positive _ _ HB) as PB. pose proof (gamma_positive _ _ HX) as PX.
  set (c := l * ln A + (1 - l) * ln B). rewrite <- (ln_exp c). apply ln_le; auto. pose proof (exp_pos c) as PC.
  assert (0 <= l / A) by (apply Rdiv_le_0_compat; lra). assert (0 <= (1 - l) / B) by (apply Rdiv_le_0_compat; lra).
  apply Rle_trans with (exp c * (l / A) * A + exp c * ((1 - l) / B) * B); [|right; field; lra].
  apply (gamma_weights _ _ a b (l * a + (1 - l) * b)); auto; try (apply Rmult_le_pos; auto; lra).
  intros t. unfold gint, Rpower.
  replace (exp ((l * a + (1 - l) * b - 1) * ln t)) with (exp c * exp (l * ((a - 1) * ln t - ln A) + (1 - l) * ((b - 1) * ln t - ln B))) by (rewrite <- exp_plus; f_equal; unfold c; ring).
  pose proof (exp_convex l ((a - 1) * ln t - ln A) ((b - 1) * ln t - ln B) Hl) as E.
  assert (F : forall u Z, 0 < Z -> exp (u - ln Z) = exp u / Z) by (intros u Z HZ; unfold Rminus; rewrite exp_plus, exp_Ropp, exp_ln; auto).
  rewrite (F ((a - 1) * ln t)), (F ((b - 1) * ln t)) in E by auto.
  apply Rle_trans with (exp c * (l * (exp ((a - 1) * ln t) / A) + (1 - l) * (exp ((b - 1) * ln t) / B)) * exp (- t)).
  - apply Rmult_le_compat_r; [left; apply exp_pos|]. now apply Rmult_le_compat_l; [lra|].
  - right. field. lra.
Qed.
(* on the same side of every pole *)
Definition cell (a b : R) : Prop := (0 < a /\ 0 < b) \/ exists z : Z, (z < 0)%Z /\ IZR z < a < IZR z + 1 /\ IZR z < b < IZR z + 1.
Lemma cell_sym a b : cell a b -> cell b a.
Proof. intros [[H K]|(z & H & K1 & K2)]; [left; auto|right; exists z; auto]. Qed.
Lemma cell_mid a b x : cell a b -> a <= x <= b -> cell a x.
Proof. intros [[H K]|(z & H & K1 & K2)] L; [left; lra|right; exists z; repeat split; auto; lra]. Qed.
Lemma cell_neg z a : (z < 0)%Z -> a < IZR z + 1 -> a < 0.
Proof. intros H K. assert (IZR z <= -1) by (apply IZR_le; lia). lra. Qed.
Lemma cell_up z a b : (z < 0)%Z -> IZR z < a < IZR z + 1 -> IZR z < b < IZR z + 1 -> cell (a + 1) (b + 1).
Proof.
  intros H K1 K2. destruct (Z.eq_dec z (-1)) as [->|N]; [left; lra|]. right. exists (z + 1)%Z. rewrite plus_IZR. repeat split; try lia; lra.
Qed.
Lemma cell_sign a b A B : is_Gamma a A -> is_Gamma b B -> cell a b -> 0 < A * B.
Proof.
  intros H. revert b B. induction H as [a A H K|a A H K IH]; intros b B HB C.
  - destruct C as [[_ C]|(z & Hz & K1 & K2)]; [|pose proof (cell_neg z a Hz ltac:(lra)); lra].
    apply Rmult_lt_0_compat; [apply (gamma_positive a); auto|]. apply (gamma_positive b). now apply Gamma_pos_inv.
  - destruct C as [[C _]|(z & Hz & K1 & K2)]; [lra|]. pose proof (cell_neg z b Hz ltac:(lra)) as Hb. apply Gamma_neg_inv in HB; auto.
    specialize (IH _ _ HB (cell_up z a b Hz K1 K2)). replace (a * A * (b * B)) with (a * b * (A * B)) in IH by ring. assert (0 < a * b) by nra. clear - IH H0. destruct (Rlt_or_le 0 (A * B)) as [|N]; auto. nra.
Qed.
Lemma ln_concave l a b : 0 <= l <= 1 -> 0 < a -> 0 < b -> l * ln a + (1 - l) * ln b <= ln (l * a + (1 - l) * b).
Proof.
  intros Hl Ha Hb. rewrite <- (ln_exp (l * ln a + (1 - l) * ln b)). apply ln_le; [apply exp_pos|]. pose proof (exp_convex l (ln a) (ln b) Hl) as E. now rewrite !exp_ln in E.
Qed.
Lemma Gamma_logconvex a A : is_Gamma a A -> forall l b B X, 0 <= l <= 1 -> cell a b -> is_Gamma b B -> is_Gamma (l * a + (1 - l) * b) X ->
  ln (Rabs X) <= l * ln (Rabs A) + (1 - l) * ln (Rabs B).
Proof.
  intros H. induction H as [a A H K|a A H K IH]; intros l b B X Hl C HB HX.
  - destruct C as [[_ C]|(z & Hz & K1 & K2)]; [|pose proof (cell_neg z a Hz ltac:(lra)); lra].
    apply Gamma_pos_inv in HB; auto. apply Gamma_pos_inv in HX; [|nra]. pose proof (gamma_positive _ _ K). pose proof (gamma_positive _ _ HB). pose proof (gamma_positive _ _ HX).
    rewrite !Rabs_right by lra. now apply (gamma_logconvex l a b).
  - destruct C as [[C _]|(z & Hz & K1 & K2)]; [lra|]. pose proof (cell_neg z b Hz ltac:(lra)) as Hb. set (m := l * a + (1 - l) * b) in *. assert (Hm : m < 0) by (unfold m; nra).
    pose proof (Gamma_nonzero _ _ HB) as NB. pose proof (Gamma_nonzero _ _ HX) as NX. assert (NA : A <> 0) by (apply (Gamma_nonzero a); now apply Gneg).
    apply Gamma_neg_inv in HB; auto. apply Gamma_neg_inv in HX; auto.
    specialize (IH l (b + 1) (b * B) (m * X) Hl (cell_up z a b Hz K1 K2) HB). replace (l * (a + 1) + (1 - l) * (b + 1)) with (m + 1) in IH by (unfold m; ring). specialize (IH HX).
    assert (LM : forall u V, u < 0 -> V <> 0 -> ln (Rabs (u * V)) = ln (- u) + ln (Rabs V)). { intros u V Hu HV. rewrite Rabs_mult, (Rabs_left u) by auto. apply ln_mult; [lra|]. now apply Rabs_pos_lt. }
    rewrite !LM in IH by auto. pose proof (ln_concave l (- a) (- b) Hl ltac:(lra) ltac:(lra)) as Q. replace (l * - a + (1 - l) * - b) with (- m) in Q by (unfold m; ring). lra.
Qed.
Lemma Gamma_upper l u x L U X : l <= x <= u -> cell l u -> is_Gamma l L -> is_Gamma u U -> is_Gamma x X -> Rabs X <= Rmax (Rabs L) (Rabs U).
Proof.
  intros H C HL HU HX. destruct (Req_dec l u) as [E|N].
  - assert (x = l) by lra. subst x. rewrite (Gamma_unique _ _ _ HX HL). apply Rmax_l.
  - destruct (conv_mid l u x ltac:(lra) H) as (m & Hm & ->). pose proof (Gamma_logconvex l L HL m u U X Hm C HU HX) as Q.
    pose proof (Rabs_pos_lt _ (Gamma_nonzero _ _ HX)). pose proof (Rabs_pos_lt _ (Gamma_nonzero _ _ HL)) as PL. pose proof (Rabs_pos_lt _ (Gamma_nonzero _ _ HU)) as PU.
    apply ln_le_back; auto; [apply Rlt_le_trans with (Rabs L); [auto|apply Rmax_l]|].
    assert (ln (Rabs L) <= ln (Rmax (Rabs L) (Rabs U))) by (apply ln_le; auto; apply Rmax_l). assert (ln (Rabs U) <= ln (Rmax (Rabs L) (Rabs U))) by (apply ln_le; auto; apply Rmax_r). nra.
Qed.
(* a lowest point between two poles *)
Definition lowest (c : R) : Prop := exists Gc, is_Gamma c Gc /\ forall y G, cell c y -> is_Gamma y G -> Rabs Gc <= Rabs G.
Lemma Gamma_mono c Gc l x L X : is_Gamma c Gc -> cell c l -> cell c x -> (c <= l <= x \/ x <= l <= c) -> is_Gamma l L -> is_Gamma x X -> Rabs Gc <= Rabs X -> Rabs L <= Rabs X.
Proof.
  intros HC C1 C2 H HL HX Hm. assert (K : Rabs L <= Rmax (Rabs Gc) (Rabs X)). { destruct H as [H|H]; [apply (Gamma_upper c x l); auto|rewrite Rmax_comm; apply (Gamma_upper x c l); auto; now apply cell_sym]. }
  rewrite Rmax_right in K by auto. exact K.
Qed.
Definition btw (p q r : R) : Prop := p <= r <= q \/ q <= r <= p.
Lemma abs_btw s p q r : 0 < s * p -> 0 < s * q -> 0 < s * r -> Rabs p <= Rabs r <= Rabs q -> btw p q r.
Proof.
  intros P Q R H. destruct (Rlt_or_le 0 s) as [S|S].
  - assert (0 < p) by nra. assert (0 < q) by nra. assert (0 < r) by nra. rewrite !Rabs_right in H by lra. left. lra.
  - assert (p < 0) by nra. assert (q < 0) by nra. assert (r < 0) by nra. rewrite !Rabs_left in H by lra. right. lra.
Qed.
(* the value between l and u lies between the value at c and one of the values at l and u, ... *)
Lemma Gamma_inside c Gc l u x L U X : is_Gamma c Gc -> (forall y G, cell c y -> is_Gamma y G -> Rabs Gc <= Rabs G) -> cell c l -> cell l u -> l <= x <= u ->
  is_Gamma l L -> is_Gamma u U -> is_Gamma x X -> Rabs Gc <= Rabs X <= Rmax (Rabs L) (Rabs U) /\ 0 < L * Gc /\ 0 < L * X /\ 0 < L * U /\ 0 < L * L.
Proof.
  intros HC Hm C1 C2 H HL HU HX. assert (CX : cell l x) by (apply (cell_mid l u); auto).
  assert (CC : cell c x). { destruct C1 as [C1|(z & Hz & K1 & K2)]; destruct CX as [CX|(z' & Hz' & K1' & K2')]; [left; lra|pose proof (cell_neg z' l Hz' ltac:(lra)); lra|pose proof (cell_neg z l Hz ltac:(lra)); lra|].
    assert (z < z' + 1)%Z by (apply lt_IZR; rewrite plus_IZR; lra). assert (z' < z + 1)%Z by (apply lt_IZR; rewrite plus_IZR; lra). assert (z' = z) by lia. subst z'. right. exists z. auto. }
  repeat split.
  - apply (Hm x); auto.
  - apply (Gamma_upper l u x); auto.
  - apply (cell_sign l c); auto. now apply cell_sym.
  - apply (cell_sign l x); auto.
  - apply (cell_sign l u); auto.
  - pose proof (Gamma_nonzero _ _ HL). nra.
Qed.
Lemma Gamma_between c Gc l u x L U X : is_Gamma c Gc -> (forall y G, cell c y -> is_Gamma y G -> Rabs Gc <= Rabs G) -> cell c l -> cell l u -> l <= x <= u ->
  is_Gamma l L -> is_Gamma u U -> is_Gamma x X -> (btw Gc L X \/ btw Gc U X) /\ (c < l \/ u < c -> btw L U X).
Proof.
  intros HC Hm C1 C2 H HL HU HX. destruct (Gamma_inside c Gc l u x L U X) as (B & S1 & S2 & S3 & S4); auto. split.
  - assert (M : Rmax (Rabs L) (Rabs U) = Rabs L \/ Rmax (Rabs L) (Rabs U) = Rabs U) by (unfold Rmax; destruct (Rle_dec (Rabs L) (Rabs U)); auto).
    destruct M as [M|M]; rewrite M in B; [left|right]; apply (abs_btw L); auto.
  - assert (CL : cell l c) by (now apply cell_sym).
    assert (T : forall y, cell l y -> cell c y). { intros y CX. destruct C1 as [C1|(z & Hz & K1 & K2)]; destruct CX as [CX|(z' & Hz' & K1' & K2')]; [left; lra|pose proof (cell_neg z' l Hz' ltac:(lra)); lra|pose proof (cell_neg z l Hz ltac:(lra)); lra|].
      assert (z < z' + 1)%Z by (apply lt_IZR; rewrite plus_IZR; lra). assert (z' < z + 1)%Z by (apply lt_IZR; rewrite plus_IZR; lra). assert (z' = z) by lia. subst z'. right. exists z. auto. }
    assert (CX : cell l x) by (apply (cell_mid l u); auto). assert (CU : cell x u). { destruct C2 as [C2|(z & Hz & K1 & K2)]; [left; lra|right; exists z; repeat split; auto; lra]. }
    pose proof (Hm u U (T u C2) HU). intros [O|O].
    + assert (Rabs L <= Rabs X) by (apply (Gamma_mono c Gc l x); auto; [left; lra|apply B]).
      assert (Rabs X <= Rabs U). { apply (Gamma_mono c Gc x u); auto; left; lra. } apply (abs_btw L); auto.
    + assert (Rabs U <= Rabs X) by (apply (Gamma_mono c Gc u x); auto; [right; lra|apply B]).
      assert (Rabs X <= Rabs L). { apply (Gamma_mono c Gc x l); auto; [right; lra|]. apply (Hm l); auto. } 
      destruct (abs_btw L U L X); auto; [right|left]; auto.
Qed.
Lemma ln_btw s p q r : 0 < s * p -> 0 < s * q -> 0 < s * r -> btw p q r -> btw (ln (Rabs p)) (ln (Rabs q)) (ln (Rabs r)).
Proof.
  intros P Q R B. destruct (Rlt_or_le 0 s) as [S|S].
  - assert (0 < p) by nra. assert (0 < q) by nra. assert (0 < r) by nra. rewrite !Rabs_right by lra. destruct B; [left|right]; split; apply ln_le; lra.
  - assert (p < 0) by nra. assert (q < 0) by nra. assert (r < 0) by nra. rewrite !Rabs_left by lra. destruct B; [right|left]; split; apply ln_le; lra.
Qed.
Lemma lGamma_between c Gc l u x L U X : is_Gamma c Gc -> (forall y G, cell c y -> is_Gamma y G -> Rabs Gc <= Rabs G) -> cell c l -> cell l u -> l <= x <= u ->
  is_Gamma l L -> is_Gamma u U -> is_Gamma x X -> let f G := ln (Rabs G) in (btw (f Gc) (f L) (f X) \/ btw (f Gc) (f U) (f X)) /\ (c < l \/ u < c -> btw (f L) (f U) (f X)).
Proof.
  intros HC Hm C1 C2 H HL HU HX f. destruct (Gamma_inside c Gc l u x L U X) as (_ & S1 & S2 & S3 & S4); auto.
  destruct (Gamma_between c Gc l u x L U X) as [B1 B2]; auto. split.
  - destruct B1 as [B1|B1]; [left|right]; apply (ln_btw L); auto.
  - intros O. apply (ln_btw L); auto.
Qed.

(* ---- the minimum on the positive axis ---- *)
Definition Gam (x : R) : R := iota (T:=R_CompleteSpace) (is_gamma x).
Lemma Gam_ok x : 0 < x -> is_gamma x (Gam x).
Proof. intros H. apply (iota_correct (V:=R_CompleteNormedModule) (is_gamma x)). destruct (gamma_exists x H) as [G HG]. exists G. split; auto. intros G' HG'. apply (gamma_unique x); auto. Qed.
Lemma gamma_two : is_gamma 2 1.
Proof. replace 2 with (1 + 1) by ring. replace 1 with (1 * 1) at 3 by ring. apply gamma_succ; [lra|]. exact gamma_one. Qed.
Lemma Gam_lip x y : 3 / 4 <= x -> x <= y -> y <= 5 / 2 -> Gam y - Gam x <= 2 * Gam 3 * (y - x) /\ Gam x - Gam y <= 4 * Gam (/ 2) * (y - x).
Proof.
  intros Hx Hxy Hy. pose proof (Gam_ok x ltac:(lra)) as GX. pose proof (Gam_ok y ltac:(lra)) as GY. pose proof (Gam_ok 3 ltac:(lra)) as G3. pose proof (Gam_ok (/ 2) ltac:(lra)) as GH.
  pose proof (gamma_positive _ _ GX). pose proof (gamma_positive _ _ GY). pose proof (gamma_positive _ _ G3). pose proof (gamma_positive _ _ GH). split.
  - set (l := (3 - y) / (3 - x)). assert (L : 0 <= l <= 1). { unfold l. split; [apply Rdiv_le_0_compat; lra|]. apply Rmult_le_reg_r with (3 - x); [lra|]. unfold Rdiv. rewrite Rmult_assoc, Rinv_l; lra. }
    assert (E : y = l * x + (1 - l) * 3) by (unfold l; field; lra). rewrite E in GY at 1. pose proof (gamma_convex l x 3 _ _ _ L GX G3 GY) as K.
    assert (Q : 1 - l <= 2 * (y - x)). { unfold l. replace (1 - (3 - y) / (3 - x)) with ((y - x) * / (3 - x)) by (field; lra). rewrite (Rmult_comm 2). apply Rmult_le_compat_l; [lra|]. rewrite <- (Rinv_inv 2). apply Rinv_le_contravar; lra. }
    clear E. clearbody l. nra.
  - set (l := (y - x) / (y - / 2)). assert (L : 0 <= l <= 1). { unfold l. split; [apply Rdiv_le_0_compat; lra|]. apply Rmult_le_reg_r with (y - / 2); [lra|]. unfold Rdiv. rewrite Rmult_assoc, Rinv_l; lra. }
    assert (E : x = l * / 2 + (1 - l) * y) by (unfold l; field; lra). rewrite E in GX at 1. pose proof (gamma_convex l (/ 2) y _ _ _ L GH GY GX) as K.
    assert (Q : l <= 4 * (y - x)). { unfold l, Rdiv. rewrite (Rmult_comm 4). apply Rmult_le_compat_l; [lra|]. rewrite <- (Rinv_inv 4). apply Rinv_le_contravar; lra. }
    clear E. clearbody l. nra.
Qed.
Lemma gamma_lowest : exists c, 1 <= c <= 2 /\ lowest c.
Proof.
  pose proof (gamma_positive _ _ (Gam_ok 3 ltac:(lra))) as P3. pose proof (gamma_positive _ _ (Gam_ok (/ 2) ltac:(lra))) as PH. set (K := 2 * Gam 3 + 4 * Gam (/ 2)).
  destruct (continuity_ab_min Gam 1 2 ltac:(lra)) as (c & Hm & Hc).
  - intros x Hx. intros eps He. exists (Rmin (/ 4) (eps / K)). assert (0 < K) by (unfold K; lra). split; [apply Rmin_glb_lt; [lra|apply Rdiv_lt_0_compat; auto]|].
    intros y [_ Hy]. simpl in *. unfold R_dist in *. pose proof (Rmin_l (/ 4) (eps / K)). pose proof (Rmin_r (/ 4) (eps / K)).
    assert (D1 : Rabs (y - x) < / 4) by lra. assert (D2 : Rabs (y - x) < eps / K) by lra. apply Rabs_def2 in D1.
    assert (D3 : K * Rabs (y - x) < eps). { apply (Rmult_lt_compat_l K) in D2; auto. replace (K * (eps / K)) with eps in D2 by (field; lra). exact D2. }
    destruct (Rle_or_lt x y) as [O|O].
    + rewrite (Rabs_right (y - x)) in D3 by lra. destruct (Gam_lip x y ltac:(lra) O ltac:(lra)). apply Rabs_def1; unfold K in *; nra.
    + rewrite (Rabs_left (y - x)) in D3 by lra. destruct (Gam_lip y x ltac:(lra) ltac:(lra) ltac:(lra)). apply Rabs_def1; unfold K in *; nra.
  - exists c. split; [exact Hc|]. exists (Gam c). pose proof (Gam_ok c ltac:(lra)) as GC. split; [apply Gpos; [lra|auto]|].
    assert (M : forall y G, 0 < y -> is_gamma y G -> Gam c <= G).
    { intros y G Hy HG. destruct (Rlt_or_le y 1) as [O|O].
      - apply Rle_trans with 1.
        + pose proof (Hm 1 ltac:(lra)) as Q. now rewrite (gamma_unique 1 (Gam 1) 1 (Gam_ok 1 ltac:(lra)) gamma_one) in Q.
        + destruct (Rle_or_lt 1 G) as [|N]; auto. exfalso. pose proof (conv_mid y 2 1 ltac:(lra) ltac:(lra)) as (l & Hl & E). pose proof gamma_one as G1. rewrite E in G1 at 1.
          pose proof (gamma_convex l y 2 _ _ _ Hl HG gamma_two G1). assert (l <> 0) by (intros ->; lra). nra.
      - destruct (Rle_or_lt y 2) as [O2|O2].
        + rewrite (gamma_unique y G (Gam y) HG (Gam_ok y Hy)). apply Hm. lra.
        + apply Rle_trans with 1.
          * pose proof (Hm 1 ltac:(lra)) as Q. now rewrite (gamma_unique 1 (Gam 1) 1 (Gam_ok 1 ltac:(lra)) gamma_one) in Q.
          * destruct (Rle_or_lt 1 G) as [|N]; auto. exfalso. pose proof (conv_mid 1 y 2 ltac:(lra) ltac:(lra)) as (l & Hl & E). pose proof gamma_two as G2. rewrite E in G2 at 1.
            pose proof (gamma_convex l 1 y _ _ _ Hl gamma_one HG G2). assert (l <> 1) by (intros ->; lra). nra. }
    intros y G C HG. destruct C as [[_ C]|(z & Hz & K1 & K2)]; [|pose proof (cell_neg z c Hz ltac:(lra)); lra].
    apply Gamma_pos_inv in HG; auto. pose proof (gamma_positive _ _ GC). pose proof (gamma_positive _ _ HG). rewrite !Rabs_right by lra. now apply (M y).
Qed.
