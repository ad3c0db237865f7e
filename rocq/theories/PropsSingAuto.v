(* Property theorems: the singular integrators with step size control (C90, C91), for every double back end and every expression. *)
From Coq Require Import Reals ZArith Bool List Lra Lia Psatz Arith.
From Coquelicot Require Import Coquelicot.
From Flocq Require Import Core BinarySingleNaN.
From Verif Require Import Fp64 RDoubleHw.
From Verif Require Import Ext Scalar IntervalModel IntervalSpec IntervalProofs IntervalEncl IntervalSets Backends Ex64 ElemModel PropsElem.
From Verif Require Import RealFun ADModel ADReal ADProofs ADInst PsaModel PsaReal PsaProofs PsaExpr PsaInt PsaUse PsaUseProofs PsaInst PropsPsa.
From Verif Require Import ElemConst SingReal SingModel SingProofs PropsSing PsaHist OdeModel DefintAuto PropsPsaHist SingAuto SingAutoProofs.
Import ListNotations.
Open Scope R_scope.

(* what is returned: the interval and the lines printed, (start, end, step) of every step; each end contains a point of (a, c] *)
Notation out b := (iv (bscal b) * list (iv (bscal b) * iv (bscal b) * iv (bscal b)))%type.
Definition steps_in {b} (l : list (iv (bscal b) * iv (bscal b) * iv (bscal b))) (a c : R) : Prop := forall q, In q l -> exists x, a < x <= c /\ isin (snd (fst q)) x.
(* C library functions and the bound on the number of steps *)
Section C90.
Variables (b : backend) (fuel : nat) (root : bscal b -> nat -> bscal b) (proot : bscal b -> bscal b -> nat -> bscal b) (n : nat).
Notation pw := (ipowI (bscal b) (bpar b) fuel).
Theorem C90_power3_autostep : forall h f g (start end_ power v : iv (bscal b)) order m eps st l st' a c p,
  (1 <= order < 2 ^ 52)%Z -> (0 <= m < order)%Z -> fun_ok f -> fun_ok g -> fun_ok h -> isin start a -> isin end_ c -> isin power p -> a < c -> -1 < p * IZR m ->
  zero_order m (fun t => fun_of f (a + t)) -> (forall y, a < y <= c -> 0 < fun_of f y) -> (forall y, a < y <= c -> fun_of h y = Rpower (fun_of f y) p * fun_of g y) ->
  defint_power3_autostep (bpar b) fuel root proot pw n false h (hobj f) (hobj g) start end_ order power m eps st = (Ok (v, l), st') -> steps_in l a c ->
  exists I, integral_from (fun y => Rpower (fun_of f y) p * fun_of g y) a c I /\ isin v I.
Proof.
  intros h f g A E P v o m eps st l st' a c p [O1 O2] M (W1 & P1 & N1) (W2 & P2 & N2) (W3 & P3 & N3) Ha Hc Hp Hac Hq V FP HH R HL.
  destruct (p3_off b fuel root proot _ _ _ _ n h A E o P m eps st v l st' (pure_obj f) (pure_obj g) O1 R) as (t1 & z & EZ & RR & RL).
  destruct (finish b fuel root (fun y => Rpower (fun_of f y) p * fun_of g y) (fun _ => True) h n false A t1 E z v l o eps a c O1 O2 W3 P3 N3 Hac Hc HH HL) as (b0 & _ & _ & _ & J & HJ & HV); eauto.
  intros b0 Hb0 Ht. split; [exact Logic.I|].
  destruct (power3_gen (IB b fuel) _ (IOK b fuel) (isin_itv b fuel) _ (s0_law b fuel) _ (fun X Y Q x y => pw_law b fuel X Y Q x y) false false f false g A t1 o P m z a b0 p O1 O2 M W1 P1 N1 W2 P2 N2 Ha Ht Hp) as (_ & I & HI); [lra|exact Hq|exact V| |exact EZ|eauto].
  intros y Hy. apply (FP y). lra.
Qed.
Theorem C90_power_autostep : forall h g (start end_ power v : iv (bscal b)) order eps st l st' a c p,
  (1 <= order < 2 ^ 52)%Z -> fun_ok g -> fun_ok h -> isin start a -> isin end_ c -> isin power p -> a < c -> -1 < p ->
  (forall y, a < y <= c -> fun_of h y = Rpower (y - a) p * fun_of g y) ->
  defint_power_autostep (bpar b) fuel root proot pw n false h (hobj g) start end_ order power eps st = (Ok (v, l), st') -> steps_in l a c ->
  exists I, integral_from (fun y => Rpower (y - a) p * fun_of g y) a c I /\ isin v I.
Proof.
  intros h g A E P v o eps st l st' a c p [O1 O2] (W2 & P2 & N2) (W3 & P3 & N3) Ha Hc Hp Hac Hq HH R HL.
  unfold defint_power_autostep in R. match type of R with defint_power3_autostep _ _ _ _ _ _ _ _ hDx _ _ _ _ _ 1 _ _ = _ => idtac end.
  destruct (p3_off b fuel root proot _ _ _ _ n h A E o P 1 eps st v l st' pure_x (pure_obj g) O1 R) as (t1 & z & EZ & RR & RL).
  destruct (finish b fuel root (fun y => Rpower (y - a) p * fun_of g y) (fun _ => True) h n false A t1 E z v l o eps a c O1 O2 W3 P3 N3 Hac Hc HH HL) as (b0 & _ & _ & _ & J & HJ & HV); eauto.
  intros b0 Hb0 Ht. split; [exact Logic.I|].
  destruct (power_gen (IB b fuel) _ (IOK b fuel) (isin_itv b fuel) _ (s0_law b fuel) _ (fun X Y Q x y => pw_law b fuel X Y Q x y) false false g A t1 o P z a b0 p O1 O2 W2 P2 N2 Ha Ht Hp) as (_ & I & HI); [lra|exact Hq|exact EZ|eauto].
Qed.
Theorem C90_power2_autostep : forall h f (start end_ power v : iv (bscal b)) order m eps st l st' a c p,
  (1 <= order < 2 ^ 52)%Z -> (0 <= m < order)%Z -> fun_ok f -> fun_ok h -> isin start a -> isin end_ c -> isin power p -> a < c -> -1 < p * IZR m ->
  zero_order m (fun t => fun_of f (a + t)) -> (forall y, a < y <= c -> 0 < fun_of f y) -> (forall y, a < y <= c -> fun_of h y = Rpower (fun_of f y) p) ->
  defint_power2_autostep (bpar b) fuel root proot pw n false h (hobj f) start end_ order power m eps st = (Ok (v, l), st') -> steps_in l a c ->
  exists I, integral_from (fun y => Rpower (fun_of f y) p) a c I /\ isin v I.
Proof.
  intros h f A E P v o m eps st l st' a c p O M F H Ha Hc Hp Hac Hq V FP HH R HL.
  unfold defint_power2_autostep in R. match type of R with defint_power3_autostep _ _ _ _ _ _ _ _ _ hD1 _ _ _ _ m _ _ = _ => idtac end.
  destruct (C90_power3_autostep h f one_e A E P v o m eps st l st' a c p O M F one_ok H Ha Hc Hp Hac Hq V FP) as (I & HI & HV); [|exact R|exact HL|].
  - intros y Hy. rewrite one_v, Rmult_1_r. now apply HH.
  - exists I. split; auto. revert HI. apply improper_ext. intros t _. rewrite one_v. apply Rmult_1_r.
Qed.

Theorem C91_singular_autostep : forall fast h f (start end_ v : iv (bscal b)) order eps st l st' a c,
  (2 <= order < 2 ^ 52)%Z -> fun_ok f -> fun_ok h -> isin start a -> isin end_ c -> (forall y, fun_of h y = fun_of f y) ->
  defint_singular_autostep (bpar b) fuel root n fast h (hobj f) start end_ order eps st = (Ok (v, l), st') -> (forall q, In q l -> exists x, isin (snd (fst q)) x) ->
  exists I, is_RInt (fun_of f) a c I /\ isin v I.
Proof.
  intros fast h f A E v o eps st l st' a c [O1 O2] (W & P & N) (W3 & P3 & N3) Ha Hc HH R HL.
  exact (sing_plain b fuel root f n fast h A E o eps st v l st' a c O1 O2 W P N W3 P3 N3 Ha Hc HH R HL).
Qed.
Theorem C91_div_tn : forall fast h f m (start end_ v : iv (bscal b)) order eps st l st' a c,
  (2 <= order < 2 ^ 52)%Z -> (0 <= m < order - 1)%Z -> fun_ok f -> fun_ok h -> isin start a -> isin end_ c -> a < c -> zero_order m (fun t => fun_of f (a + t)) ->
  (forall y, a < y <= c -> fun_of h y = fun_of f y / (y - a) ^ Z.to_nat m) ->
  defint_singular_autostep (bpar b) fuel root n fast h (hcut (hobj f) m) start end_ order eps st = (Ok (v, l), st') -> steps_in l a c ->
  exists I, integral_from (fun y => fun_of f y / (y - a) ^ Z.to_nat m) a c I /\ isin v I.
Proof.
  intros fast h f m A E v o eps st l st' a c [O1 O2] M (W & P & N) (W3 & P3 & N3) Ha Hc Hac V HH R HL.
  destruct (sing_cut b fuel root f m n fast h A E o eps st v l st' a c O1 O2 M W P N W3 P3 N3 Ha Hc Hac V HH R HL) as (_ & _ & _ & _ & J). exact J.
Qed.
(* without history *)
Theorem C91_div_reduce : forall h f g m (start end_ v : iv (bscal b)) order eps st l st' a c,
  (2 <= order < 2 ^ 52)%Z -> (0 <= m < order - 1)%Z -> fun_ok f -> fun_ok g -> fun_ok h -> isin start a -> isin end_ c -> a < c ->
  zero_order m (fun t => fun_of f (a + t)) -> zero_order m (fun t => fun_of g (a + t)) -> (forall y, a < y <= c -> fun_of h y = fun_of f y / fun_of g y) ->
  defint_singular_autostep (bpar b) fuel root n false h (hreduced (hobj f) (hobj g) m) start end_ order eps st = (Ok (v, l), st') -> steps_in l a c ->
  exists I, integral_from (fun y => fun_of f y / fun_of g y) a c I /\ isin v I.
Proof.
  intros h f g m A E v o eps st l st' a c [O1 O2] M (W1 & P1 & N1) (W2 & P2 & N2) (W3 & P3 & N3) Ha Hc Hac V V2 HH R HL.
  destruct (sing_off b fuel root _ _ n h A E o eps st v l st' (pure_reduced _ _ _ _ m (pure_obj f) (pure_obj g)) O1 R) as (t1 & z & EZ & RR & RL).
  destruct (finish b fuel root (fun y => fun_of f y / fun_of g y) (fun _ => True) h n false A t1 E z v l o eps a c ltac:(lia) O2 W3 P3 N3 Hac Hc HH HL) as (b0 & _ & _ & _ & J & HJ & HV); eauto.
  intros b0 Hb0 Ht. split; [exact Logic.I|]. destruct (as_fixed b fuel (mkgst 1 false false (A : bT (IB b fuel))) _ A t1 z (o - 1) EZ) as [w EF].
  destruct (singular_reduced_ok (IB b fuel) _ (IOK b fuel) (isin_itv b fuel) _ (s0_law b fuel) _ false f false g m A t1 (o - 1) z w a b0 ltac:(lia) ltac:(lia) ltac:(lia) W1 P1 N1 W2 P2 N2 Ha Ht ltac:(lra) V V2 EF) as (_ & I & HI & HV). exists I. auto.
Qed.
Theorem C91_div_tn_mul : forall h f g m (start end_ v : iv (bscal b)) order eps st l st' a c,
  (2 <= order < 2 ^ 52)%Z -> (0 <= m < order - 1)%Z -> fun_ok f -> fun_ok g -> fun_ok h -> isin start a -> isin end_ c -> a < c ->
  zero_order m (fun t => fun_of f (a + t)) -> (forall y, a < y <= c -> fun_of h y = fun_of f y / (y - a) ^ Z.to_nat m * fun_of g y) ->
  defint_singular_autostep (bpar b) fuel root n false h (hcutmul (hobj f) (hobj g) m) start end_ order eps st = (Ok (v, l), st') -> steps_in l a c ->
  exists I, integral_from (fun y => fun_of f y / (y - a) ^ Z.to_nat m * fun_of g y) a c I /\ isin v I.
Proof.
  intros h f g m A E v o eps st l st' a c [O1 O2] M (W1 & P1 & N1) (W2 & P2 & N2) (W3 & P3 & N3) Ha Hc Hac V HH R HL.
  destruct (sing_off b fuel root _ _ n h A E o eps st v l st' (pure_cutmul _ _ _ _ m (pure_obj f) (pure_obj g)) O1 R) as (t1 & z & EZ & RR & RL).
  destruct (finish b fuel root (fun y => fun_of f y / (y - a) ^ Z.to_nat m * fun_of g y) (fun _ => True) h n false A t1 E z v l o eps a c ltac:(lia) O2 W3 P3 N3 Hac Hc HH HL) as (b0 & _ & _ & _ & J & HJ & HV); eauto.
  intros b0 Hb0 Ht. split; [exact Logic.I|]. destruct (as_fixed b fuel (mkgst 1 false false (A : bT (IB b fuel))) _ A t1 z (o - 1) EZ) as [w EF].
  exact (cutmul_run b fuel _ (s0_law b fuel) f g m _ A t1 z (o - 1) w a b0 ltac:(lia) ltac:(lia) ltac:(lia) W1 P1 N1 W2 P2 N2 Ha Ht ltac:(lra) V EF).
Qed.
End C90.

(* ---- the default, DEFINT_FAST == 1: div_tn followed by a product loses the remainder ---- *)
(* x + x^3, 1 + 2x, their products *)
Definition cub_e : aexpr := XAdd (XVar 0) (XMul (XVar 0) (XMul (XVar 0) (XVar 0))).
Definition lin2_e : aexpr := XAdd lin_e (XVar 0).
Definition wit_e : aexpr := XMul (XAdd (XCst 1 0) (XMul (XVar 0) (XVar 0))) lin2_e.
Definition cub2_e : aexpr := XMul cub_e cub_e.
(* any pow of the C library with pow(1, y) == 1 *)
Definition unit_root (r : bscal BHw -> nat -> bscal BHw) : bscal BHw -> nat -> bscal BHw := fun m k => if seqb m (sdy 1 0) then sdy 1 0 else r m k.
Local Notation at0 := (qiv 0 0 0 0 : iv (bscal BHw)).
Local Notation athalf := (qiv 1 (-1) 1 (-1) : iv (bscal BHw)).
(* one step, ending in 1/2, and the result between l/2^-e and u/2^-e *)
Definition one_step (l u e : Z) (r : res (out BHw)) : bool :=
  match r with Ok (v, [(_, t, _)]) => Bleb (bdy l e) (lo v : b64) && Bleb (hi v : b64) (bdy u e) && (Bleb (lo t : b64) (bdy 1 (-1)) && Bleb (bdy 1 (-1)) (hi t : b64)) | _ => false end.
Lemma one_step_ok l u e r : lit l e -> lit u e -> one_step l u e r = true -> exists v ls, r = Ok (v, ls) /\ steps_in ls 0 (/ 2) /\ forall x, isin v x -> dy l e <= x <= dy u e.
Proof.
  intros Ll Lu. unfold one_step. destruct r as [[v ls]|]; [|discriminate]. destruct ls as [|[[a t] s] [|]]; try discriminate. intros H. exists v, [(a, t, s)]. split; [reflexivity|].
  apply andb_prop in H as [H H2]. apply andb_prop in H as [R1 R2]. apply andb_prop in H2 as [R3 R4].
  apply (ok_le _ (bok BHw)) in R1, R2, R3, R4; try exact Logic.I. change (bscal BHw) with D_hw in *.
  assert (EH : dy 1 (-1) = / 2) by (unfold dy; simpl; lra).
  unfold lit in *. rewrite qv in R1 by lia. rewrite qv in R2 by lia. rewrite qv in R3, R4 by lia.
  split.
  - intros q [<-|[]]. exists (/ 2). split; [lra|]. cbn [fst snd]. rewrite <- EH. split; [exact Logic.I|]. split; [exact Logic.I|].
    unfold lb, ub, dy. revert R3 R4. change (bscal BHw) with D_hw. generalize (@sval D_hw (lo t)), (@sval D_hw (hi t)). intros [] []; cbn [xle]; intros; repeat split; try tauto; try lra.
  - intros x (_ & _ & X1 & X2). unfold lb, ub in *. destruct (sval (lo v)), (sval (hi v)); simpl in *; unfold dy; try tauto; lra.
Qed.
Lemma cub_v y : fun_of cub_e y = y + y * (y * y). Proof. reflexivity. Qed.
Lemma lin2_v y : fun_of lin2_e y = 1 + 2 * y. Proof. simpl. rewrite dy_int. ring. Qed.
Lemma wit_v y : fun_of wit_e y = (1 + y * y) * (1 + 2 * y). Proof. simpl. rewrite !dy_int. ring. Qed.
Lemma cub_ok : fun_ok cub_e. Proof. split; [simpl; repeat split; lia|split; [simpl; tauto|reflexivity]]. Qed.
Lemma lin2_ok : fun_ok lin2_e. Proof. split; [simpl; unfold lit; repeat split; lia|split; [simpl; tauto|reflexivity]]. Qed.
Lemma wit_ok : fun_ok wit_e. Proof. split; [simpl; unfold lit; repeat split; lia|split; [simpl; tauto|reflexivity]]. Qed.
Lemma cub2_ok : fun_ok cub2_e. Proof. split; [simpl; repeat split; lia|split; [simpl; tauto|reflexivity]]. Qed.
Lemma cub_zero : zero_order 1 (fun t => fun_of cub_e (0 + t)).
Proof. exists 2, 1. split; [lra|]. intros t Ht. rewrite cub_v, Rplus_0_l. change (t ^ Z.to_nat 1) with (t ^ 1). rewrite Rabs_pos_eq by nra. nra. Qed.
(* the integral is the difference of an antiderivative *)
Lemma from_prim (f F : R -> R) I c : 0 < c -> (forall t, 0 < t <= c -> is_derive F t (f t)) -> (forall t, 0 < t <= c -> continuous f t) -> continuous F 0 -> integral_from f 0 c I -> I = F c - F 0.
Proof.
  intros Hc D C C0 H. destruct (Req_dec I (F c - F 0)) as [|N]; auto. exfalso. set (e := Rabs (I - (F c - F 0)) / 4). assert (He : 0 < e) by (unfold e; assert (0 < Rabs (I - (F c - F 0))) by (apply Rabs_pos_lt; lra); lra).
  destruct (H e He) as (d & Hd & K). destruct (proj1 (filterlim_locally _ _) C0 (mkposreal e He)) as (d2 & K2).
  set (x := Rmin (d / 2) (Rmin (d2 / 2) c)). pose proof (cond_pos d2) as P2.
  assert (X0 : 0 < x) by (unfold x; repeat apply Rmin_glb_lt; lra). assert (X1 : x <= d / 2) by apply Rmin_l.
  assert (X2 : x <= d2 / 2) by (eapply Rle_trans; [apply Rmin_r|apply Rmin_l]). assert (X3 : x <= c) by (eapply Rle_trans; [apply Rmin_r|apply Rmin_r]).
  destruct (K x ltac:(lra) X3) as (w & IW & LW).
  assert (J : is_RInt f x c (minus (F c) (F x))). { apply (is_RInt_derive F f); intros t Ht; rewrite Rmin_left, Rmax_right in Ht by lra; [apply D|apply C]; lra. }
  assert (E : w = F c - F x) by (rewrite <- (is_RInt_unique _ _ _ _ IW); exact (is_RInt_unique _ _ _ _ J)). subst w.
  assert (B2 : Rabs (F x - F 0) < e). { apply (K2 x). unfold ball; simpl. unfold AbsRing_ball; simpl. unfold abs, minus, plus, opp; simpl. rewrite Rabs_pos_eq by lra. lra. }
  assert (T : Rabs (I - (F c - F 0)) <= Rabs (F c - F x - I) + Rabs (F x - F 0)).
  { rewrite <- (Rabs_Ropp (F c - F x - I)), <- (Rabs_Ropp (F x - F 0)). eapply Rle_trans; [|apply Rabs_triang]. right. f_equal. ring. }
  unfold e in *. lra.
Qed.
Local Notation sing_run r fast := (defint_singular_autostep (S:=bscal BHw) (bpar BHw) 60 (unit_root r) 1 fast wit_e (hcutmul (hobj cub_e) (hobj lin2_e) 1) at0 athalf 3 (sdy 1 0) (C78_st 1 false false [])).
Local Notation pow_run r pr fast := (defint_power2_autostep (S:=bscal BHw) (bpar BHw) 60 (unit_root r) (fun p => unit_root (pr p)) (ipowI (bscal BHw) (bpar BHw) 60) 1 fast cub2_e (hobj cub_e) at0 athalf 2 (qiv 2 0 2 0) 1 (sdy 1 0) (C78_st 1 false false [])).
Lemma sing_runs r : one_step 12 13 (-4) (fst (sing_run r true)) && one_step 12 14 (-4) (fst (sing_run r false)) = true.
Proof. vm_compute. reflexivity. Qed.
Lemma pow_runs r pr : one_step 2 3 (-6) (fst (pow_run r pr true)) && one_step 2 5 (-6) (fst (pow_run r pr false)) = true.
Proof. vm_compute. reflexivity. Qed.
Lemma wit_int I : integral_from (fun y => fun_of cub_e y / (y - 0) ^ Z.to_nat 1 * fun_of lin2_e y) 0 (/ 2) I -> I = 79 / 96.
Proof.
  intros H. rewrite (from_prim _ (fun t => t + t * t + t * t * t / 3 + t * t * t * t / 2) I (/ 2) ltac:(lra)) with (4 := H); [field| | |].
  - intros t Ht. change (Z.to_nat 1) with 1%nat. rewrite cub_v, lin2_v. auto_derive; [exact Logic.I|]. field. lra.
  - intros t Ht. apply (continuous_ext (fun y => (y + y * (y * y)) / (y - 0) ^ 1 * (1 + 2 * y))); [intros; rewrite lin2_v; reflexivity|]. apply (ex_derive_continuous (V:=R_NormedModule)). auto_derive. lra.
  - apply (ex_derive_continuous (V:=R_NormedModule)). auto_derive. exact Logic.I.
Qed.
Lemma cub_int I : integral_from (fun y => Rpower (fun_of cub_e y) 2) 0 (/ 2) I -> I = 1 / 24 + 1 / 80 + 1 / 896.
Proof.
  intros H. assert (E : forall t, 0 < t -> Rpower (fun_of cub_e t) 2 = (t + t * (t * t)) * (t + t * (t * t))).
  { intros t Ht. rewrite cub_v. replace 2 with (INR 2) by (simpl; lra). rewrite Rpower_pow by nra. ring. }
  rewrite (from_prim _ (fun t => t * t * t / 3 + 2 / 5 * (t * t * t * t * t) + t * t * t * t * t * t * t / 7) I (/ 2) ltac:(lra)) with (4 := H); [field| | |].
  - intros t Ht. rewrite E by lra. auto_derive; [exact Logic.I|]. field.
  - intros t Ht. apply (continuous_ext (fun y => Rpower (y + y * (y * y)) 2)); [intros; reflexivity|]. apply (ex_derive_continuous (V:=R_NormedModule)). unfold Rpower. auto_derive. nra.
  - apply (ex_derive_continuous (V:=R_NormedModule)). auto_derive. exact Logic.I.
Qed.
Theorem C91_fast_refuted : forall r, fun_ok cub_e /\ fun_ok lin2_e /\ fun_ok wit_e /\ zero_order 1 (fun t => fun_of cub_e (0 + t)) /\
  (forall y, 0 < y <= / 2 -> fun_of wit_e y = fun_of cub_e y / (y - 0) ^ Z.to_nat 1 * fun_of lin2_e y) /\
  exists v l st', sing_run r true = (Ok (v, l), st') /\ steps_in l 0 (/ 2) /\
  ~ exists I, integral_from (fun y => fun_of cub_e y / (y - 0) ^ Z.to_nat 1 * fun_of lin2_e y) 0 (/ 2) I /\ isin v I.
Proof.
  intros r. split; [exact cub_ok|]. split; [exact lin2_ok|]. split; [exact wit_ok|]. split; [exact cub_zero|]. split.
  { intros y Hy. change (Z.to_nat 1) with 1%nat. rewrite wit_v, cub_v, lin2_v. field. lra. }
  destruct (andb_prop _ _ (sing_runs r)) as [R _]. apply one_step_ok in R; [|unfold lit; lia|unfold lit; lia]. destruct R as (v & l & R & SI & B). destruct (sing_run r true) as [q st']. cbn [fst] in R. subst q.
  exists v, l, st'. split; [reflexivity|]. split; [exact SI|]. intros (I & HI & HV). apply wit_int in HI. subst I. apply B in HV. unfold dy in HV. simpl in HV. lra.
Qed.
Theorem C90_fast_refuted : forall r pr, fun_ok cub_e /\ fun_ok cub2_e /\ zero_order 1 (fun t => fun_of cub_e (0 + t)) /\ (forall y, 0 < y <= / 2 -> 0 < fun_of cub_e y) /\
  (forall y, 0 < y <= / 2 -> fun_of cub2_e y = Rpower (fun_of cub_e y) 2) /\
  exists v l st', pow_run r pr true = (Ok (v, l), st') /\ steps_in l 0 (/ 2) /\
  ~ exists I, integral_from (fun y => Rpower (fun_of cub_e y) 2) 0 (/ 2) I /\ isin v I.
Proof.
  intros r pr. split; [exact cub_ok|]. split; [exact cub2_ok|]. split; [exact cub_zero|]. split; [intros y Hy; rewrite cub_v; nra|]. split.
  { intros y Hy. rewrite cub_v. replace 2 with (INR 2) by (simpl; lra). rewrite Rpower_pow by nra. simpl. ring. }
  destruct (andb_prop _ _ (pow_runs r pr)) as [R _]. apply one_step_ok in R; [|unfold lit; lia|unfold lit; lia]. destruct R as (v & l & R & SI & B). destruct (pow_run r pr true) as [q st']. cbn [fst] in R. subst q.
  exists v, l, st'. split; [reflexivity|]. split; [exact SI|]. intros (I & HI & HV). apply cub_int in HI. subst I. apply B in HV. unfold dy in HV. simpl in HV. lra.
Qed.
(* the same calls with DEFINT_FAST == 0: the theorems apply and the integral is found *)
Example C90_case : forall r pr, exists v l st', pow_run r pr false = (Ok (v, l), st') /\ isin v (1 / 24 + 1 / 80 + 1 / 896).
Proof.
  intros r pr. destruct (C90_fast_refuted r pr) as (F & H & Z & P & E & _). destruct (andb_prop _ _ (pow_runs r pr)) as [_ R]. apply one_step_ok in R; [|unfold lit; lia|unfold lit; lia]. destruct R as (v & l & R & SI & _).
  destruct (pow_run r pr false) as [q st'] eqn:ER. cbn [fst] in R. subst q. exists v, l, st'. split; [reflexivity|].
  destruct (C90_power2_autostep BHw 60 (unit_root r) (fun p => unit_root (pr p)) 1 cub2_e cub_e at0 athalf (qiv 2 0 2 0) v 2 1 (sdy 1 0) (C78_st 1 false false []) l st' 0 (/ 2) 2) as (I & HI & HV); auto; try lia; try lra; try qin.
  apply cub_int in HI. now subst I.
Qed.
Example C91_case : forall r, exists v l st', sing_run r false = (Ok (v, l), st') /\ isin v (79 / 96).
Proof.
  intros r. destruct (C91_fast_refuted r) as (F & G & H & Z & E & _). destruct (andb_prop _ _ (sing_runs r)) as [_ R]. apply one_step_ok in R; [|unfold lit; lia|unfold lit; lia]. destruct R as (v & l & R & SI & _).
  destruct (sing_run r false) as [q st'] eqn:ER. cbn [fst] in R. subst q. exists v, l, st'. split; [reflexivity|].
  destruct (C91_div_tn_mul BHw 60 (unit_root r) 1 wit_e cub_e lin2_e 1 at0 athalf v 3 (sdy 1 0) (C78_st 1 false false []) l st' 0 (/ 2)) as (I & HI & HV); auto; try lia; try lra; try qin.
  apply wit_int in HI. now subst I.
Qed.
Definition SingAuto_all := (C90_power3_autostep, C90_power_autostep, C90_power2_autostep, C90_fast_refuted, C91_singular_autostep, C91_div_tn, C91_div_reduce, C91_div_tn_mul, C91_fast_refuted, C90_case, C91_case).
Print Assumptions SingAuto_all.
