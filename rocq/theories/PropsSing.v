(* Property theorems: the fixed-step integrators of defint-singular.hpp (C87-C89), for every double back end and every expression. *)
From Coq Require Import Reals ZArith Bool List Lra Lia Psatz Arith.
From Coquelicot Require Import Coquelicot.
From Flocq Require Import Core BinarySingleNaN.
From Verif Require Import Fp64 RDoubleHw.
From Verif Require Import Ext Scalar IntervalModel IntervalSpec IntervalProofs IntervalEncl IntervalSets Backends Ex64 ElemModel PropsElem.
From Verif Require Import RealFun ADModel ADReal ADProofs ADInst PsaModel PsaReal PsaProofs PsaExpr PsaInt PsaUse PsaUseProofs PsaInst PropsPsa.
From Verif Require Import ElemConst SingReal SingModel SingProofs.
Import ListNotations.
Open Scope R_scope.

(* the integral of f from a to b as a limit at a, and as a limit at b *)
Definition integral_from (f : R -> R) (a b v : R) : Prop :=
  forall eps, 0 < eps -> exists d, 0 < d /\ forall x, a < x < a + d -> x <= b -> exists w, is_RInt f x b w /\ Rabs (w - v) < eps.
Definition integral_upto (f : R -> R) (a b v : R) : Prop :=
  forall eps, 0 < eps -> exists d, 0 < d /\ forall x, b - d < x < b -> a <= x -> exists w, is_RInt f a x w /\ Rabs (w - v) < eps.
(* |f(a + t)| <= M t^m for small t > 0 (t -> a - t on the other side) *)
Definition zero_order (m : Z) (f : R -> R) : Prop := exists M d, 0 < d /\ forall t, 0 < t < d -> Rabs (f t) <= M * t ^ Z.to_nat m.
(* a function written as the expression e *)
Notation fun_of e := (fun y : R => rval e (fun _ => y)).
Definition fun_ok (e : aexpr) : Prop := awf 1 e /\ plog e /\ noarc e = true.
Definition hull0 {b} (x : iv (bscal b)) : iv (bscal b) := hullSI (sdy 0 0) x.
Notation pwI b fuel := (ipowI (bscal b) (bpar b) fuel : IB b fuel -> IB b fuel -> res (IB b fuel)).
Notation h0 b fuel := (hull0 : IB b fuel -> IB b fuel).

Section Aux.
Variables (b : backend) (fuel : nat).
Lemma hull0_law (X : iv (bscal b)) x z : isin X x -> mix 0 x z -> isin (hull0 X) z.
Proof.
  intros HX M. unfold hull0. rewrite hullSI_eq. apply (isin_hull_law b (ipt (sdy 0 0)) X 0 x); auto.
  apply (rel0 (IB b fuel) _ (IOK b fuel)).
Qed.
Lemma pw_law (X Y Q : iv (bscal b)) x y : ipowI (bscal b) (bpar b) fuel X Y = Ok Q -> isin X x -> isin Y y -> 0 < x -> isin Q (Rpower x y).
Proof. exact (ipowI_encl (bok b) (bpar b) (bexp b) (blog b) fuel X Y x y Q). Qed.
End Aux.
Lemma upto_flip f a b v : improper (fun t => f (- t)) (- b) (- a) v -> integral_upto f a b v.
Proof.
  intros I eps Heps. destruct (I eps Heps) as (d & Hd & A). exists d. split; auto. intros x Hx Ha. destruct (A (- x)) as (w & Iw & L); try lra. exists w. split; auto.
  assert (J := is_RInt_comp_opp (fun t => f (- t)) x a w Iw). apply is_RInt_swap in J. apply is_RInt_opp in J.
  assert (E : opp (opp w) = w) by (unfold opp; simpl; ring). rewrite E in J. revert J. apply is_RInt_ext. intros y _. unfold opp; simpl. rewrite Ropp_involutive. rewrite Ropp_involutive. reflexivity.
Qed.

(* ---- C87 ---- *)
Theorem C87_power3 : forall b fuel st st' f g (start end_ power v : iv (bscal b)) order m a c p,
  (1 <= order < 2 ^ 52)%Z -> (0 <= m < order)%Z -> fun_ok f -> fun_ok g -> isin start a -> isin end_ c -> isin power p -> a < c -> -1 < p * IZR m ->
  zero_order m (fun t => fun_of f (a + t)) -> (forall y, a < y <= c -> 0 < fun_of f y) ->
  defint_power3 (h0 b fuel) (pwI b fuel) st (psafun (IB b fuel) f) (psafun (IB b fuel) g) start end_ order power m = (Ok v, st') ->
  (forall y, a <= y <= c -> adom f (fun _ => y) /\ adom g (fun _ => y)) /\
  exists I, integral_from (fun y => Rpower (fun_of f y) p * fun_of g y) a c I /\ isin v I.
Proof.
  intros b fuel st st' f g A E P v o m a c p [O1 O2] M (W1 & P1 & N1) (W2 & P2 & N2) Ha Hc Hp Hac Hq V FP H.
  exact (power3_ok (IB b fuel) _ (IOK b fuel) (isin_itv b fuel) _ (hull0_law b fuel) _ (fun X Y Q x y => pw_law b fuel X Y Q x y) st false f false g A E o P m v st' a c p O1 O2 M W1 P1 N1 W2 P2 N2 Ha Hc Hp Hac Hq V FP H).
Qed.
Theorem C87_power : forall b fuel st st' g (start end_ power v : iv (bscal b)) order a c p,
  (1 <= order < 2 ^ 52)%Z -> fun_ok g -> isin start a -> isin end_ c -> isin power p -> a < c -> -1 < p ->
  defint_power (h0 b fuel) (pwI b fuel) st (psafun (IB b fuel) g) start end_ order power = (Ok v, st') ->
  (forall y, a <= y <= c -> adom g (fun _ => y)) /\ exists I, integral_from (fun y => Rpower (y - a) p * fun_of g y) a c I /\ isin v I.
Proof.
  intros b fuel st st' g A E P v o a c p [O1 O2] (W2 & P2 & N2) Ha Hc Hp Hac Hq H.
  exact (power_ok (IB b fuel) _ (IOK b fuel) (isin_itv b fuel) _ (hull0_law b fuel) _ (fun X Y Q x y => pw_law b fuel X Y Q x y) st false g A E o P v st' a c p O1 O2 W2 P2 N2 Ha Hc Hp Hac Hq H).
Qed.
Definition one_e : aexpr := XCst 1 0.
Lemma one_ok : fun_ok one_e. Proof. split; [unfold one_e; simpl; unfold lit; lia|]. split; [exact Logic.I|reflexivity]. Qed.
Lemma one_v y : fun_of one_e y = 1. Proof. unfold one_e. simpl. apply dy_int. Qed.
Theorem C87_power2 : forall b fuel st st' f (start end_ power v : iv (bscal b)) order m a c p,
  (1 <= order < 2 ^ 52)%Z -> (0 <= m < order)%Z -> fun_ok f -> isin start a -> isin end_ c -> isin power p -> a < c -> -1 < p * IZR m ->
  zero_order m (fun t => fun_of f (a + t)) -> (forall y, a < y <= c -> 0 < fun_of f y) ->
  defint_power2 (h0 b fuel) (pwI b fuel) st (psafun (IB b fuel) f) start end_ order power m = (Ok v, st') ->
  (forall y, a <= y <= c -> adom f (fun _ => y)) /\ exists I, integral_from (fun y => Rpower (fun_of f y) p) a c I /\ isin v I.
Proof.
  intros b fuel st st' f A E P v o m a c p O M F Ha Hc Hp Hac Hq V FP H.
  destruct (C87_power3 b fuel st st' f one_e A E P v o m a c p O M F one_ok Ha Hc Hp Hac Hq V FP H) as (D & I & HI & HV). split; [intros y Hy; now apply D|].
  exists I. split; auto. revert HI. apply improper_ext. intros t _. rewrite one_v. apply Rmult_1_r.
Qed.
(* singular at the right end *)
Theorem C87_power3_r : forall b fuel st st' f g (start end_ power v : iv (bscal b)) order m a c p,
  (1 <= order < 2 ^ 52)%Z -> (0 <= m < order)%Z -> fun_ok f -> fun_ok g -> isin start a -> isin end_ c -> isin power p -> a < c -> -1 < p * IZR m ->
  zero_order m (fun t => fun_of f (c - t)) -> (forall y, a <= y < c -> 0 < fun_of f y) ->
  defint_power3_r (h0 b fuel) (pwI b fuel) st (psafun (IB b fuel) f) (psafun (IB b fuel) g) start end_ order power m = (Ok v, st') ->
  (forall y, a <= y <= c -> adom f (fun _ => y) /\ adom g (fun _ => y)) /\
  exists I, integral_upto (fun y => Rpower (fun_of f y) p * fun_of g y) a c I /\ isin v I.
Proof.
  intros b fuel st st' f g A E P v o m a c p [O1 O2] M (W1 & P1 & N1) (W2 & P2 & N2) Ha Hc Hp Hac Hq V FP H.
  pose proof (bk_neg _ _ (IOK b fuel) _ _ Ha) as Ha'. pose proof (bk_neg _ _ (IOK b fuel) _ _ Hc) as Hc'.
  destruct (power3_ok (IB b fuel) _ (IOK b fuel) (isin_itv b fuel) _ (hull0_law b fuel) _ (fun X Y Q x y => pw_law b fuel X Y Q x y) st true f true g (bneg (E : IB b fuel)) (bneg (A : IB b fuel)) o P m v st' (- c) (- a) p O1 O2 M W1 P1 N1 W2 P2 N2 Hc' Ha' Hp ltac:(lra) Hq) as (D & I & HI & HV).
  - destruct V as (K & d & Hd & V). exists K, d. split; auto. intros t Ht. unfold sg. replace (- (- c + t)) with (c - t) by ring. now apply V.
  - intros y Hy. apply FP. unfold sg. lra.
  - exact H.
  - split. { intros y Hy. specialize (D (- y) ltac:(lra)). unfold sg in D. now rewrite Ropp_involutive in D. }
    exists I. split; auto. now apply upto_flip.
Qed.
Theorem C87_power_r : forall b fuel st st' g (start end_ power v : iv (bscal b)) order a c p,
  (1 <= order < 2 ^ 52)%Z -> fun_ok g -> isin start a -> isin end_ c -> isin power p -> a < c -> -1 < p ->
  defint_power_r (h0 b fuel) (pwI b fuel) st (psafun (IB b fuel) g) start end_ order power = (Ok v, st') ->
  (forall y, a <= y <= c -> adom g (fun _ => y)) /\ exists I, integral_upto (fun y => Rpower (c - y) p * fun_of g y) a c I /\ isin v I.
Proof.
  intros b fuel st st' g A E P v o a c p [O1 O2] (W2 & P2 & N2) Ha Hc Hp Hac Hq H.
  pose proof (bk_neg _ _ (IOK b fuel) _ _ Ha) as Ha'. pose proof (bk_neg _ _ (IOK b fuel) _ _ Hc) as Hc'.
  destruct (power_ok (IB b fuel) _ (IOK b fuel) (isin_itv b fuel) _ (hull0_law b fuel) _ (fun X Y Q x y => pw_law b fuel X Y Q x y) st true g (bneg (E : IB b fuel)) (bneg (A : IB b fuel)) o P v st' (- c) (- a) p O1 O2 W2 P2 N2 Hc' Ha' Hp ltac:(lra) Hq) as (D & I & HI & HV); [exact H|].
  split. { intros y Hy. specialize (D (- y) ltac:(lra)). unfold sg in D. now rewrite Ropp_involutive in D. }
  exists I. split; auto. apply upto_flip. revert HI. apply improper_ext. intros t _. unfold sg. f_equal. f_equal. ring.
Qed.
Theorem C87_power2_r : forall b fuel st st' f (start end_ power v : iv (bscal b)) order m a c p,
  (1 <= order < 2 ^ 52)%Z -> (0 <= m < order)%Z -> fun_ok f -> isin start a -> isin end_ c -> isin power p -> a < c -> -1 < p * IZR m ->
  zero_order m (fun t => fun_of f (c - t)) -> (forall y, a <= y < c -> 0 < fun_of f y) ->
  defint_power2_r (h0 b fuel) (pwI b fuel) st (psafun (IB b fuel) f) start end_ order power m = (Ok v, st') ->
  (forall y, a <= y <= c -> adom f (fun _ => y)) /\ exists I, integral_upto (fun y => Rpower (fun_of f y) p) a c I /\ isin v I.
Proof.
  intros b fuel st st' f A E P v o m a c p O M F Ha Hc Hp Hac Hq V FP H.
  destruct (C87_power3_r b fuel st st' f one_e A E P v o m a c p O M F one_ok Ha Hc Hp Hac Hq V FP H) as (D & I & HI & HV). split; [intros y Hy; now apply D|].
  exists I. split; auto. intros eps He. destruct (HI eps He) as (d & Hd & K). exists d. split; auto. intros x X1 X2. destruct (K x X1 X2) as (w & Iw & L). exists w. split; auto.
  revert Iw. apply is_RInt_ext. intros t _. rewrite one_v. apply Rmult_1_r.
Qed.
(* x + x^2, 1 + x and sqrt as weights over [0, 1/2] *)
Definition sq_e : aexpr := XAdd (XVar 0) (XMul (XVar 0) (XVar 0)).
Definition lin_e : aexpr := XSc SOaddr 1 0 (XVar 0).
Definition within (l u : Z) (e : Z) (r : res (iv (bscal BHw))) : bool := match r with Ok r => Bleb (bdy l e) (lo r : b64) && Bleb (hi r : b64) (bdy u e) | _ => false end.
Lemma zero_order_sq : zero_order 1 (fun t => fun_of sq_e (0 + t)).
Proof.
  exists 2, 1. split; [lra|]. intros t Ht. simpl. rewrite Rabs_pos_eq by nra. nra.
Qed.
Example C87_case : fun_ok sq_e /\ fun_ok lin_e /\ zero_order 1 (fun t => fun_of sq_e (0 + t)) /\ (forall y, 0 < y <= / 2 -> 0 < fun_of sq_e y) /\
  within 20 23 (-6) (fst (defint_power3 (h0 BHw 60) (pwI BHw 60) C60_st (psafun (IB BHw 60) sq_e) (psafun (IB BHw 60) lin_e) (qiv 0 0 0 0) (qiv 1 (-1) 1 (-1)) 3 (qiv 1 (-1) 1 (-1)) 1)) = true /\
  within 18 19 (-6) (fst (defint_power (h0 BHw 60) (pwI BHw 60) C60_st (psafun (IB BHw 60) lin_e) (qiv 1 0 1 0) (qiv 3 (-1) 3 (-1)) 3 (qiv 1 0 1 0))) = true.
Proof.
  split; [split; [simpl; repeat split; lia|split; [simpl; intuition discriminate|reflexivity]]|].
  split; [split; [simpl; unfold lit; repeat split; lia|split; [exact Logic.I|reflexivity]]|].
  split; [exact zero_order_sq|]. split; [intros y Hy; simpl; nra|]. split; vm_compute; reflexivity.
Qed.
(* power*multiplicity <= -1: the integral of x^(-3/2) from 0 to 1 does not exist, and a bounded interval is returned *)
Local Notation div_run := (defint_power (h0 BHw 60) (pwI BHw 60) C60_st (psafun (IB BHw 60) one_e) (qiv 0 0 0 0) (qiv 1 0 1 0) 1 (qiv (-3) (-1) (-3) (-1))).
Theorem C87_divergent_refuted : exists v st', div_run = (Ok v, st') /\ is_fin (sval (lo (v : iv D_hw))) /\ is_fin (sval (hi (v : iv D_hw))) /\
  ~ exists I, integral_from (fun y => Rpower (y - 0) (-3 / 2) * fun_of one_e y) 0 1 I.
Proof.
  assert (R : within (-3) (-1) 0 (fst div_run) && match fst div_run with Ok r => Bleb (lo r : b64) (hi r : b64) | _ => false end = true) by (vm_compute; reflexivity).
  destruct div_run as [[v|] st'] eqn:E; [|discriminate R]. clear E. exists v, st'. split; [reflexivity|]. apply and_assoc. split.
  - cbn [fst] in R. unfold within in R. apply andb_prop in R as [R R3]. apply andb_prop in R as [R1 R2]. apply (ok_le _ (bok BHw)) in R1, R2, R3; try exact Logic.I. change (bscal BHw) with D_hw in * .
    rewrite qv in R1, R2 by lia. destruct (sval (lo (v : iv D_hw))), (sval (hi (v : iv D_hw))); simpl in *; tauto.
  - clear R v. intros (I & H). destruct (H 1 ltac:(lra)) as (d & Hd & K).
    set (M := Rabs I + 4). assert (M0 : 4 <= M) by (unfold M; pose proof (Rabs_pos I); lra).
    set (x := Rmin (d / 2) (/ M * / M)). assert (IM : 0 < / M) by (apply Rinv_0_lt_compat; lra). assert (IM1 : / M <= / 4) by (apply Rinv_le_contravar; lra).
    assert (X : 0 < x < d). { unfold x. split; [apply Rmin_glb_lt; [lra|nra]|]. pose proof (Rmin_l (d / 2) (/ M * / M)). lra. }
    assert (X1 : x <= / M * / M) by (apply Rmin_r). assert (X2 : x <= 1) by nra.
    destruct (K x ltac:(lra) X2) as (w & Iw & L).
    assert (J : is_RInt (fun y => Rpower (y - 0) (-3 / 2) * fun_of one_e y) x 1 (minus (-2 * Rpower 1 (-1 / 2)) (-2 * Rpower x (-1 / 2)))).
    { apply (is_RInt_derive (fun t => -2 * Rpower t (-1 / 2)) (fun y => Rpower (y - 0) (-3 / 2) * fun_of one_e y)); intros t Ht; rewrite Rmin_left, Rmax_right in Ht by lra.
      - rewrite one_v, Rminus_0_r, Rmult_1_r. replace (-3 / 2) with (-1 / 2 + Ropp 1) by lra. rewrite Rpower_plus, Rpower_Ropp, Rpower_1 by lra. unfold Rpower. auto_derive; [lra|]. field. lra.
      - apply (continuous_ext (fun y => Rpower (y - 0) (-3 / 2))); [intros; rewrite one_v; symmetry; apply Rmult_1_r|].
        apply (ex_derive_continuous (fun y => Rpower (y - 0) (-3 / 2))). unfold Rpower. auto_derive. lra. }
    assert (EW : w = minus (-2 * Rpower 1 (-1 / 2)) (-2 * Rpower x (-1 / 2))) by (rewrite <- (is_RInt_unique _ _ _ _ Iw); now apply is_RInt_unique).
    assert (P1 : Rpower 1 (-1 / 2) = 1) by (unfold Rpower; rewrite ln_1, Rmult_0_r; apply exp_0). unfold minus, plus, opp in EW. simpl in EW. rewrite P1 in EW.
    assert (PX : M <= Rpower x (-1 / 2)).
    { replace M with (Rpower (/ M * / M) (-1 / 2)).
      - replace (-1 / 2) with (Ropp (1 / 2)) by lra. rewrite !Rpower_Ropp. apply Rinv_le_contravar; [apply exp_pos|]. apply Rle_Rpower_l; lra.
      - assert (E2 : / M * / M = Rpower M (-2)). { replace (-2) with (Ropp (1 + 1)) by lra. rewrite Rpower_Ropp, Rpower_plus, Rpower_1 by lra. field. lra. }
        rewrite E2, Rpower_mult. replace (-2 * (-1 / 2)) with 1 by lra. apply Rpower_1. lra. }
    unfold M in PX. pose proof (Rle_abs I). pose proof (Rabs_pos I). pose proof (Rle_abs (w - I)). change (@eq R w (-2 * 1 + - (-2 * Rpower x (-1 / 2)))) in EW. lra.
Qed.

(* ---- C88 ---- *)
(* PARTIAL: intervals of length at most 1; longer ones are refuted below *)
Theorem C88_log3_partial : forall b fuel st st' f g (start end_ v : iv (bscal b)) order m a c,
  (1 <= order < 2 ^ 25)%Z -> (0 <= m <= 2 ^ 50)%Z -> fun_ok f -> fun_ok g -> isin start a -> isin end_ c -> a < c <= a + 1 ->
  zero_order m (fun t => fun_of f (a + t)) -> (forall y, a < y <= c -> 0 < fun_of f y) ->
  defint_log3 (h0 b fuel) st (psafun (IB b fuel) f) (psafun (IB b fuel) g) start end_ order m = (Ok v, st') ->
  (forall y, a <= y <= c -> adom f (fun _ => y) /\ adom g (fun _ => y)) /\
  exists I, integral_from (fun y => ln (fun_of f y) * fun_of g y) a c I /\ isin v I.
Proof.
  intros b fuel st st' f g A E v o m a c [O1 O2] M (W1 & P1 & N1) (W2 & P2 & N2) Ha Hc Hac V FP H.
  exact (log3_ok (IB b fuel) _ (IOK b fuel) (isin_itv b fuel) _ (hull0_law b fuel) st false f false g A E o m v st' a c O1 O2 M W1 P1 N1 W2 P2 N2 Ha Hc Hac V FP H).
Qed.
Theorem C88_log_partial : forall b fuel st st' g (start end_ v : iv (bscal b)) order a c,
  (1 <= order < 2 ^ 25)%Z -> fun_ok g -> isin start a -> isin end_ c -> a < c <= a + 1 ->
  defint_log (h0 b fuel) st (psafun (IB b fuel) g) start end_ order = (Ok v, st') ->
  (forall y, a <= y <= c -> adom g (fun _ => y)) /\ exists I, integral_from (fun y => ln (y - a) * fun_of g y) a c I /\ isin v I.
Proof.
  intros b fuel st st' g A E v o a c [O1 O2] (W2 & P2 & N2) Ha Hc Hac H.
  exact (log_ok (IB b fuel) _ (IOK b fuel) (isin_itv b fuel) _ (hull0_law b fuel) st false g A E o v st' a c O1 O2 W2 P2 N2 Ha Hc Hac H).
Qed.
Theorem C88_log2_partial : forall b fuel st st' f (start end_ v : iv (bscal b)) order m a c,
  (1 <= order < 2 ^ 25)%Z -> (0 <= m <= 2 ^ 50)%Z -> fun_ok f -> isin start a -> isin end_ c -> a < c <= a + 1 ->
  zero_order m (fun t => fun_of f (a + t)) -> (forall y, a < y <= c -> 0 < fun_of f y) ->
  defint_log2 (h0 b fuel) st (psafun (IB b fuel) f) start end_ order m = (Ok v, st') ->
  (forall y, a <= y <= c -> adom f (fun _ => y)) /\ exists I, integral_from (fun y => ln (fun_of f y)) a c I /\ isin v I.
Proof.
  intros b fuel st st' f A E v o m a c O M F Ha Hc Hac V FP H.
  destruct (C88_log3_partial b fuel st st' f one_e A E v o m a c O M F one_ok Ha Hc Hac V FP H) as (D & I & HI & HV). split; [intros y Hy; now apply D|].
  exists I. split; auto. revert HI. apply improper_ext. intros t _. rewrite one_v. apply Rmult_1_r.
Qed.
Theorem C88_log3_r_partial : forall b fuel st st' f g (start end_ v : iv (bscal b)) order m a c,
  (1 <= order < 2 ^ 25)%Z -> (0 <= m <= 2 ^ 50)%Z -> fun_ok f -> fun_ok g -> isin start a -> isin end_ c -> a < c <= a + 1 ->
  zero_order m (fun t => fun_of f (c - t)) -> (forall y, a <= y < c -> 0 < fun_of f y) ->
  defint_log3_r (h0 b fuel) st (psafun (IB b fuel) f) (psafun (IB b fuel) g) start end_ order m = (Ok v, st') ->
  (forall y, a <= y <= c -> adom f (fun _ => y) /\ adom g (fun _ => y)) /\
  exists I, integral_upto (fun y => ln (fun_of f y) * fun_of g y) a c I /\ isin v I.
Proof.
  intros b fuel st st' f g A E v o m a c [O1 O2] M (W1 & P1 & N1) (W2 & P2 & N2) Ha Hc Hac V FP H.
  pose proof (bk_neg _ _ (IOK b fuel) _ _ Ha) as Ha'. pose proof (bk_neg _ _ (IOK b fuel) _ _ Hc) as Hc'.
  destruct (log3_ok (IB b fuel) _ (IOK b fuel) (isin_itv b fuel) _ (hull0_law b fuel) st true f true g (bneg (E : IB b fuel)) (bneg (A : IB b fuel)) o m v st' (- c) (- a) O1 O2 M W1 P1 N1 W2 P2 N2 Hc' Ha' ltac:(lra)) as (D & I & HI & HV).
  - destruct V as (K & d & Hd & V). exists K, d. split; auto. intros t Ht. unfold sg. replace (- (- c + t)) with (c - t) by ring. now apply V.
  - intros y Hy. apply FP. unfold sg. lra.
  - exact H.
  - split. { intros y Hy. specialize (D (- y) ltac:(lra)). unfold sg in D. now rewrite Ropp_involutive in D. }
    exists I. split; auto. now apply upto_flip.
Qed.
Theorem C88_log_r_partial : forall b fuel st st' g (start end_ v : iv (bscal b)) order a c,
  (1 <= order < 2 ^ 25)%Z -> fun_ok g -> isin start a -> isin end_ c -> a < c <= a + 1 ->
  defint_log_r (h0 b fuel) st (psafun (IB b fuel) g) start end_ order = (Ok v, st') ->
  (forall y, a <= y <= c -> adom g (fun _ => y)) /\ exists I, integral_upto (fun y => ln (c - y) * fun_of g y) a c I /\ isin v I.
Proof.
  intros b fuel st st' g A E v o a c [O1 O2] (W2 & P2 & N2) Ha Hc Hac H.
  pose proof (bk_neg _ _ (IOK b fuel) _ _ Ha) as Ha'. pose proof (bk_neg _ _ (IOK b fuel) _ _ Hc) as Hc'.
  destruct (log_ok (IB b fuel) _ (IOK b fuel) (isin_itv b fuel) _ (hull0_law b fuel) st true g (bneg (E : IB b fuel)) (bneg (A : IB b fuel)) o v st' (- c) (- a) O1 O2 W2 P2 N2 Hc' Ha' ltac:(lra)) as (D & I & HI & HV); [exact H|].
  split. { intros y Hy. specialize (D (- y) ltac:(lra)). unfold sg in D. now rewrite Ropp_involutive in D. }
  exists I. split; auto. apply upto_flip. revert HI. apply improper_ext. intros t _. unfold sg. f_equal. f_equal. ring.
Qed.
Theorem C88_log2_r_partial : forall b fuel st st' f (start end_ v : iv (bscal b)) order m a c,
  (1 <= order < 2 ^ 25)%Z -> (0 <= m <= 2 ^ 50)%Z -> fun_ok f -> isin start a -> isin end_ c -> a < c <= a + 1 ->
  zero_order m (fun t => fun_of f (c - t)) -> (forall y, a <= y < c -> 0 < fun_of f y) ->
  defint_log2_r (h0 b fuel) st (psafun (IB b fuel) f) start end_ order m = (Ok v, st') ->
  (forall y, a <= y <= c -> adom f (fun _ => y)) /\ exists I, integral_upto (fun y => ln (fun_of f y)) a c I /\ isin v I.
Proof.
  intros b fuel st st' f A E v o m a c O M F Ha Hc Hac V FP H.
  destruct (C88_log3_r_partial b fuel st st' f one_e A E v o m a c O M F one_ok Ha Hc Hac V FP H) as (D & I & HI & HV). split; [intros y Hy; now apply D|].
  exists I. split; auto. intros eps He. destruct (HI eps He) as (d & Hd & K). exists d. split; auto. intros x X1 X2. destruct (K x X1 X2) as (w & Iw & L). exists w. split; auto.
  revert Iw. apply is_RInt_ext. intros t _. rewrite one_v. apply Rmult_1_r.
Qed.
(* log(x + x^2)*(1 + x) over [0, 1/2], log(x - 1)*(1 + x) over [1, 2] *)
Example C88_case :
  within (-72) (-36) (-6) (fst (defint_log3 (h0 BHw 60) C60_st (psafun (IB BHw 60) sq_e) (psafun (IB BHw 60) lin_e) (qiv 0 0 0 0) (qiv 1 (-1) 1 (-1)) 3 1)) = true /\
  within (-145) (-143) (-6) (fst (defint_log (h0 BHw 60) C60_st (psafun (IB BHw 60) lin_e) (qiv 1 0 1 0) (qiv 2 0 2 0) 3)) = true.
Proof. split; vm_compute; reflexivity. Qed.
(* log(x)*x^2 over [0, 13/8] with order 1: the weight log x changes its sign at 1; all the other hypotheses of C88_log_partial hold *)
Local Notation long_run := (defint_log (h0 BHw 60) C60_st (psafun (IB BHw 60) C60_e) (qiv 0 0 0 0) (qiv 13 (-3) 13 (-3)) 1).
Theorem C88_long_step_refuted : exists v st' I, fun_ok C60_e /\ isin (qiv 0 0 0 0 : iv D_hw) 0 /\ isin (qiv 13 (-3) 13 (-3) : iv D_hw) (13 / 8) /\
  long_run = (Ok v, st') /\ integral_from (fun y => ln (y - 0) * fun_of C60_e y) 0 (13 / 8) I /\ ~ isin (v : iv D_hw) I.
Proof.
  assert (R : within (-64) 1 (-5) (fst long_run) = true) by (vm_compute; reflexivity).
  destruct long_run as [[v|] st'] eqn:E; [|discriminate R]. clear E. cbn [fst] in R. unfold within in R. apply andb_prop in R as [_ R].
  set (W := fun t => t ^ 3 * (3 * ln t - 1) / 9). exists v, st', (W (13 / 8)).
  split; [split; [simpl; repeat split; lia|split; [exact (conj Logic.I Logic.I)|reflexivity]]|].
  split; [qin|]. split; [qin|]. split; [reflexivity|]. split.
  - intros eps He. destruct (wl_lim 2 eps He) as (d & Hd & K). exists d. split; auto. intros x Hx X2. exists (minus (W (13 / 8)) (W x)). split.
    + apply (is_RInt_derive W (fun y => ln (y - 0) * fun_of C60_e y)); intros t Ht; rewrite Rmin_left, Rmax_right in Ht by lra.
      * simpl rval. unfold W. auto_derive; [lra|]. rewrite Rminus_0_r. field. lra.
      * simpl rval. apply (ex_derive_continuous (fun y => ln (y - 0) * (y * y))). auto_derive. lra.
    + unfold minus, plus, opp; simpl. replace (W (13 / 8) + - W x - W (13 / 8)) with (- W x) by ring. specialize (K x ltac:(lra)). unfold WL_ in K.
      replace (- W x) with (- (x ^ 3 * (INR 3 * ln x - 1) / (INR 3 * INR 3))); auto. unfold W. simpl INR. field.
  - assert (L : 1 - 8 / 13 <= ln (13 / 8)).
    { pose proof (exp_ineq1_le (ln (/ (13 / 8)))) as X. rewrite exp_ln in X by lra. rewrite ln_Rinv in X by lra. lra. }
    assert (WL : / 20 < W (13 / 8)) by (unfold W; lra).
    intros (_ & _ & _ & U). apply (ok_le _ (bok BHw)) in R; try exact Logic.I. change (bscal BHw) with D_hw in * . rewrite qv in R by lia.
    set (z := W (13 / 8)) in *. clearbody z. destruct (sval (hi (v : iv D_hw))); simpl in *; try tauto. lra.
Qed.

(* ---- C89 ---- *)
Theorem C89_singular : forall b fuel st st' f (start end_ v : iv (bscal b)) order a c,
  (1 <= order < 2 ^ 52)%Z -> fun_ok f -> isin start a -> isin end_ c -> a < c ->
  defint_singular (h0 b fuel) st (psafun (IB b fuel) f) start end_ order = (Ok v, st') -> exists I, integral_from (fun_of f) a c I /\ isin v I.
Proof.
  intros b fuel st st' f A E v o a c [O1 O2] (W & P & N) Ha Hc Hac H.
  exact (singular_ok (IB b fuel) _ (IOK b fuel) (isin_itv b fuel) _ (hull0_law b fuel) st false f A E o v st' a c O1 O2 W P N Ha Hc Hac H).
Qed.
(* removable singularities: div_tn(f(x), m) and div_reduce(f(x), g(x), m) *)
Theorem C89_div_tn : forall b fuel st st' f m (start end_ v : iv (bscal b)) order a c,
  (1 <= order < 2 ^ 52)%Z -> (0 <= m < order)%Z -> fun_ok f -> isin start a -> isin end_ c -> a < c -> zero_order m (fun t => fun_of f (a + t)) ->
  defint_singular (h0 b fuel) st (cut (psafun (IB b fuel) f) m) start end_ order = (Ok v, st') ->
  exists I, integral_from (fun y => fun_of f y / (y - a) ^ Z.to_nat m) a c I /\ isin v I.
Proof.
  intros b fuel st st' f m A E v o a c [O1 O2] M (W & P & N) Ha Hc Hac V H.
  exact (singular_cut_ok (IB b fuel) _ (IOK b fuel) (isin_itv b fuel) _ (hull0_law b fuel) st false f m A E o v st' a c O1 O2 M W P N Ha Hc Hac V H).
Qed.
Theorem C89_div_reduce : forall b fuel st st' f g m (start end_ v : iv (bscal b)) order a c,
  (1 <= order < 2 ^ 52)%Z -> (0 <= m < order)%Z -> fun_ok f -> fun_ok g -> isin start a -> isin end_ c -> a < c ->
  zero_order m (fun t => fun_of f (a + t)) -> zero_order m (fun t => fun_of g (a + t)) ->
  defint_singular (h0 b fuel) st (reduced (psafun (IB b fuel) f) (psafun (IB b fuel) g) m) start end_ order = (Ok v, st') ->
  (forall y, a < y <= c -> fun_of g y <> 0) /\ exists I, integral_from (fun y => fun_of f y / fun_of g y) a c I /\ isin v I.
Proof.
  intros b fuel st st' f g m A E v o a c [O1 O2] M (W & P & N) (W2 & P2 & N2) Ha Hc Hac V V2 H.
  exact (singular_reduced_ok (IB b fuel) _ (IOK b fuel) (isin_itv b fuel) _ (hull0_law b fuel) st false f false g m A E o v st' a c O1 O2 M W P N W2 P2 N2 Ha Hc Hac V V2 H).
Qed.
Theorem C89_div_reduce_r : forall b fuel st st' f g m (start end_ v : iv (bscal b)) order a c,
  (1 <= order < 2 ^ 52)%Z -> (0 <= m < order)%Z -> fun_ok f -> fun_ok g -> isin start a -> isin end_ c -> a < c ->
  zero_order m (fun t => fun_of f (c - t)) -> zero_order m (fun t => fun_of g (c - t)) ->
  defint_singular_r (h0 b fuel) st (reduced (psafun (IB b fuel) f) (psafun (IB b fuel) g) m) start end_ order = (Ok v, st') ->
  (forall y, a <= y < c -> fun_of g y <> 0) /\ exists I, integral_upto (fun y => fun_of f y / fun_of g y) a c I /\ isin v I.
Proof.
  intros b fuel st st' f g m A E v o a c [O1 O2] M (W & P & N) (W2 & P2 & N2) Ha Hc Hac V V2 H.
  pose proof (bk_neg _ _ (IOK b fuel) _ _ Ha) as Ha'. pose proof (bk_neg _ _ (IOK b fuel) _ _ Hc) as Hc'.
  assert (FL : forall e, zero_order m (fun t => fun_of e (c - t)) -> vanish (Z.to_nat m) (fun t => rval e (fun _ => sg true (- c + t)))).
  { intros e (K & d & Hd & X). exists K, d. split; auto. intros t Ht. unfold sg. replace (- (- c + t)) with (c - t) by ring. now apply X. }
  destruct (singular_reduced_ok (IB b fuel) _ (IOK b fuel) (isin_itv b fuel) _ (hull0_law b fuel) st true f true g m (bneg (E : IB b fuel)) (bneg (A : IB b fuel)) o v st' (- c) (- a) O1 O2 M W P N W2 P2 N2 Hc' Ha' ltac:(lra) (FL f V) (FL g V2) H) as (D & I & HI & HV).
  split. { intros y Hy. specialize (D (- y) ltac:(lra)). unfold sg in D. now rewrite Ropp_involutive in D. }
  exists I. split; auto. now apply upto_flip.
Qed.
Theorem C89_singular_r : forall b fuel st st' f (start end_ v : iv (bscal b)) order a c,
  (1 <= order < 2 ^ 52)%Z -> fun_ok f -> isin start a -> isin end_ c -> a < c ->
  defint_singular_r (h0 b fuel) st (psafun (IB b fuel) f) start end_ order = (Ok v, st') -> exists I, integral_upto (fun_of f) a c I /\ isin v I.
Proof.
  intros b fuel st st' f A E v o a c [O1 O2] (W & P & N) Ha Hc Hac H.
  pose proof (bk_neg _ _ (IOK b fuel) _ _ Ha) as Ha'. pose proof (bk_neg _ _ (IOK b fuel) _ _ Hc) as Hc'.
  destruct (singular_ok (IB b fuel) _ (IOK b fuel) (isin_itv b fuel) _ (hull0_law b fuel) st true f (bneg (E : IB b fuel)) (bneg (A : IB b fuel)) o v st' (- c) (- a) O1 O2 W P N Hc' Ha' ltac:(lra) H) as (I & HI & HV).
  exists I. split; auto. now apply upto_flip.
Qed.
(* (x + x^2)/x over [0, 1/2] in both ways; the integral is 5/8 *)
Example C89_case : fun_ok (XVar 0) /\ zero_order 1 (fun t => fun_of (XVar 0) (0 + t)) /\
  within 39 41 (-6) (fst (defint_singular (h0 BHw 60) C60_st (cut (psafun (IB BHw 60) sq_e) 1) (qiv 0 0 0 0) (qiv 1 (-1) 1 (-1)) 3)) = true /\
  within 39 41 (-6) (fst (defint_singular (h0 BHw 60) C60_st (reduced (psafun (IB BHw 60) sq_e) (psafun (IB BHw 60) (XVar 0)) 1) (qiv 0 0 0 0) (qiv 1 (-1) 1 (-1)) 3)) = true.
Proof.
  split; [split; [simpl; lia|split; [exact Logic.I|reflexivity]]|]. split; [exists 1, 1; split; [lra|]; intros t Ht; simpl; rewrite Rabs_pos_eq; lra|].
  split; vm_compute; reflexivity.
Qed.
(* the three integrators from a state of psa *)
Inductive sing_call (B : base) := KPower (f g : fn B) (start end_ power : B) (order m : Z) | KLog (f g : fn B) (start end_ : B) (order m : Z) | KSing (f : fn B) (start end_ : B) (order : Z).
Definition sing_do {B : base} (hl : B -> B) pw (st : gst B) (k : sing_call B) : res B * gst B :=
  match k with
  | KPower f g s e p o m => defint_power3 hl pw st f g s e o p m
  | KLog f g s e o m => defint_log3 hl st f g s e o m
  | KSing f s e o => defint_singular hl st f s e o
  end.
(* the result does not depend on the state of psa; on return mode (0 or 1) and history flags are restored, the domain is not; an exception leaves mode 2 and no history *)
Theorem C89_state : forall (B : base) (hl : B -> B) pw k (st st2 : gst B),
  fst (sing_do hl pw st k) = fst (sing_do hl pw st2 k) /\
  (forall v st', sing_do hl pw st k = (Ok v, st') -> ((g_mode st = 0 \/ g_mode st = 1)%Z -> g_mode st' = g_mode st) /\ g_uh st' = g_uh st /\ g_rh st' = g_rh st) /\
  (forall e st', sing_do hl pw st k = (Err e, st') -> g_mode st' = 2%Z /\ g_uh st' = false /\ g_rh st' = false).
Proof.
  assert (K : forall (B : base) (hl : B -> B) A E run (st st2 : gst B), fst (with_state hl st A E run) = fst (with_state hl st2 A E run) /\
    (forall v st', with_state hl st A E run = (Ok v, st') -> ((g_mode st = 0 \/ g_mode st = 1)%Z -> g_mode st' = g_mode st) /\ g_uh st' = g_uh st /\ g_rh st' = g_rh st) /\
    (forall e st', with_state hl st A E run = (Err e, st') -> g_mode st' = 2%Z /\ g_uh st' = false /\ g_rh st' = false)).
  { intros B hl A E run st st2. unfold with_state. destruct (run _ _); split; try reflexivity; split; intros v st' H; try discriminate H; injection H as <- <-; cbn [g_mode g_uh g_rh]; auto.
    split; auto. intros [-> | ->]; reflexivity. }
  intros B hl pw k st st2. destruct k; apply K.
Qed.
(* mode 2 does not survive: it comes back as 1 *)
Theorem C89_mode_refuted : exists v st', defint_singular (h0 BHw 60) (mkgst (B:=IB BHw 60) 2 false false (qiv 0 0 1 0 : iv D_hw)) (psafun (IB BHw 60) one_e) (qiv 0 0 0 0) (qiv 1 0 1 0) 1 = (Ok v, st') /\ g_mode st' <> 2%Z.
Proof.
  set (r := defint_singular _ _ _ _ _ _). assert (R : (match fst r with Ok _ => true | _ => false end) && (g_mode (snd r) =? 1)%Z = true) by (vm_compute; reflexivity).
  destruct r as [[v|] st']; [|discriminate R]. exists v, st'. split; [reflexivity|]. cbn [fst snd andb] in R. apply Z.eqb_eq in R. rewrite R. discriminate.
Qed.
Definition Sing_all := (C87_power3, C87_power, C87_power2, C87_power3_r, C87_power_r, C87_power2_r, C87_divergent_refuted,
  C88_log3_partial, C88_log_partial, C88_log2_partial, C88_log3_r_partial, C88_log_r_partial, C88_log2_r_partial, C88_long_step_refuted,
  C89_singular, C89_div_tn, C89_div_reduce, C89_div_reduce_r, C89_singular_r, C89_state, C89_mode_refuted).
Print Assumptions Sing_all.
