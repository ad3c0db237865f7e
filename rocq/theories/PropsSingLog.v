(* Property theorems: the logarithmic integrators with step size control (C92) and the right-hand versions of all the integrators with step
   size control (C93), for every double back end and every expression. *)
From Coq Require Import Reals ZArith Bool List Lra Lia Psatz Arith.
From Coquelicot Require Import Coquelicot.
From Flocq Require Import Core BinarySingleNaN.
From Verif Require Import Fp64 RDoubleHw.
From Verif Require Import Ext Scalar IntervalModel IntervalSpec IntervalProofs IntervalEncl IntervalSets Backends Ex64 ElemModel PropsElem.
From Verif Require Import RealFun ADModel ADReal ADProofs ADInst PsaModel PsaReal PsaProofs PsaExpr PsaInt PsaUse PsaUseProofs PsaInst PropsPsa.
From Verif Require Import ElemConst SingReal SingModel SingProofs PropsSing PsaHist OdeModel DefintAuto PropsPsaHist SingAuto SingAutoProofs PropsSingAuto SingLog SingLogProofs.
Import ListNotations.
Open Scope R_scope.

(* the end of the first step is at most a + 1 *)
Definition short_first {b} (l : list (iv (bscal b) * iv (bscal b) * iv (bscal b))) (a : R) : Prop :=
  match l with q :: _ => forall x, isin (snd (fst q)) x -> x <= a + 1 | [] => True end.
Lemma rev_obj {B : base} e : hRev (B:=B) (hobj e) = hobj (arev e).
Proof.
  apply FunctionalExtensionality.functional_extensionality. intros x. unfold hRev, hobj. induction e; simpl; try reflexivity; rewrite <- ?IHe, <- ?IHe1, <- ?IHe2; reflexivity.
Qed.
Lemma arev_ok e : fun_ok e -> fun_ok (arev e).
Proof. intros (W & P & N). split; [now apply arev_wf|]. split; [now apply arev_plog|now rewrite arev_noarc]. Qed.
Lemma arev_zero e m c : zero_order m (fun t => fun_of e (c - t)) -> zero_order m (fun t => fun_of (arev e) (- c + t)).
Proof. intros (M & d & Hd & K). exists M, d. split; auto. intros t Ht. rewrite arev_rval. replace (- (- c + t)) with (c - t) by ring. now apply K. Qed.
Lemma flip_from f g a c v : (forall t, g t = f (- t)) -> integral_from g (- c) (- a) v -> integral_upto f a c v.
Proof. intros E H. apply upto_flip. revert H. apply improper_ext. intros t _. apply E. Qed.

Section C92.
Variables (b : backend) (fuel : nat) (root : bscal b -> nat -> bscal b) (proot : bscal b -> bscal b -> nat -> bscal b) (lgc : nat -> bscal b) (n : nat).
Notation pw := (ipowI (bscal b) (bpar b) fuel).
Lemma log_any (isx : bool) ef eg h (f : hfn (IB b fuel)) (start end_ v : iv (bscal b)) order m eps st l st' a c : (1 <= order < 2 ^ 25)%Z -> (0 <= m <= 2 ^ 50)%Z -> (isx = true -> m = 1%Z) ->
  fun_ok ef -> fun_ok eg -> fun_ok h -> pure f (if isx then Defint_x else psafun (IB b fuel) ef) -> isin start a -> isin end_ c -> a < c ->
  let F := fun y => if isx then y - a else fun_of ef y in
  zero_order m (fun t => F (a + t)) -> (forall y, a < y <= c -> 0 < F y) -> (forall y, a < y <= c -> fun_of h y = ln (F y) * fun_of eg y) ->
  defint_log3_autostep (bpar b) fuel root lgc n false h f (hobj eg) start end_ order m eps st = (Ok (v, l), st') -> steps_in l a c -> short_first l a ->
  exists I, integral_from (fun y => ln (F y) * fun_of eg y) a c I /\ isin v I.
Proof.
  intros [O1 O2] M MX (W1 & P1 & N1) (W2 & P2 & N2) (W3 & P3 & N3) HP Ha Hc Hac F V FP HH R HL HS.
  destruct (log3_off b fuel root lgc f (hobj eg) _ _ HP (pure_obj eg) order m O1 ltac:(lia) n h start end_ eps st v l st' a Ha R) as (t1 & x & z & HX & T & RR & RL).
  destruct (finish b fuel root (fun y => ln (F y) * fun_of eg y) (fun _ => True) h n false start t1 end_ z v l order eps a c O1 ltac:(lia) W3 P3 N3 Hac Hc HH HL) as (b0 & _ & _ & _ & J & HJ & HV); eauto.
  intros b0 Hb0 Ht. split; [exact Logic.I|]. destruct RL as [rest EL]. rewrite EL in HS. cbn [short_first fst snd] in HS. specialize (HS b0 Ht).
  destruct T as (xa & fx & Z & lz & gx & q & J & xb & gx' & y & lx & E1 & E2 & E3 & E4 & E5 & E6 & E7 & E8 & E9 & E10 & E11 & E12).
  apply (turn_ok (IB b fuel) _ (IOK b fuel) (isin_itv b fuel) isx false ef false eg (hullSI s0 (isub t1 start)) x xa fx Z lz gx q J xb gx' y lx (isub t1 start) order m z a b0); auto; try lia; try lra.
  - exact (bk_sub _ _ (IOK b fuel) t1 start b0 a Ht Ha).
  - intros u Hu. apply (hull_dom b fuel t1 start a b0); auto. unfold mix. lra.
  - intros y0 Hy. change (0 < F y0). apply FP. destruct Hy as [H1 H2]. destruct Hb0 as [H3 H4]. split; [exact H1|exact (Rle_trans _ _ _ H2 H4)].
Qed.
(* without history; the first step at most 1 long *)
Theorem C92_log3_autostep_partial : forall h f g (start end_ v : iv (bscal b)) order m eps st l st' a c,
  (1 <= order < 2 ^ 25)%Z -> (0 <= m <= 2 ^ 50)%Z -> fun_ok f -> fun_ok g -> fun_ok h -> isin start a -> isin end_ c -> a < c ->
  zero_order m (fun t => fun_of f (a + t)) -> (forall y, a < y <= c -> 0 < fun_of f y) -> (forall y, a < y <= c -> fun_of h y = ln (fun_of f y) * fun_of g y) ->
  defint_log3_autostep (bpar b) fuel root lgc n false h (hobj f) (hobj g) start end_ order m eps st = (Ok (v, l), st') -> steps_in l a c -> short_first l a ->
  exists I, integral_from (fun y => ln (fun_of f y) * fun_of g y) a c I /\ isin v I.
Proof.
  intros h f g A E v o m eps st l st' a c O M F G H Ha Hc Hac V FP HH R HL HS.
  exact (log_any false f g h (hobj f) A E v o m eps st l st' a c O M ltac:(discriminate) F G H (pure_obj f) Ha Hc Hac V FP HH R HL HS).
Qed.
Theorem C92_log_autostep_partial : forall h g (start end_ v : iv (bscal b)) order eps st l st' a c,
  (1 <= order < 2 ^ 25)%Z -> fun_ok g -> fun_ok h -> isin start a -> isin end_ c -> a < c -> (forall y, a < y <= c -> fun_of h y = ln (y - a) * fun_of g y) ->
  defint_log_autostep (bpar b) fuel root lgc n false h (hobj g) start end_ order eps st = (Ok (v, l), st') -> steps_in l a c -> short_first l a ->
  exists I, integral_from (fun y => ln (y - a) * fun_of g y) a c I /\ isin v I.
Proof.
  intros h g A E v o eps st l st' a c O G H Ha Hc Hac HH R HL HS.
  unfold defint_log_autostep in R. match type of R with defint_log3_autostep _ _ _ _ _ _ _ hDx _ _ _ _ 1 _ _ = _ => idtac end.
  apply (log_any true one_e g h hDx A E v o 1 eps st l st' a c O ltac:(lia) ltac:(auto) one_ok G H pure_x Ha Hc Hac); auto.
  - exists 1, 1. split; [lra|]. intros t Ht. replace (a + t - a) with t by ring. rewrite Rabs_pos_eq by lra. change (Z.to_nat 1) with 1%nat. lra.
  - intros y Hy. lra.
Qed.
Theorem C92_log2_autostep_partial : forall h f (start end_ v : iv (bscal b)) order m eps st l st' a c,
  (1 <= order < 2 ^ 25)%Z -> (0 <= m <= 2 ^ 50)%Z -> fun_ok f -> fun_ok h -> isin start a -> isin end_ c -> a < c ->
  zero_order m (fun t => fun_of f (a + t)) -> (forall y, a < y <= c -> 0 < fun_of f y) -> (forall y, a < y <= c -> fun_of h y = ln (fun_of f y)) ->
  defint_log2_autostep (bpar b) fuel root lgc n false h (hobj f) start end_ order m eps st = (Ok (v, l), st') -> steps_in l a c -> short_first l a ->
  exists I, integral_from (fun y => ln (fun_of f y)) a c I /\ isin v I.
Proof.
  intros h f A E v o m eps st l st' a c O M F H Ha Hc Hac V FP HH R HL HS.
  unfold defint_log2_autostep in R. match type of R with defint_log3_autostep _ _ _ _ _ _ _ _ hD1 _ _ _ m _ _ = _ => idtac end.
  destruct (C92_log3_autostep_partial h f one_e A E v o m eps st l st' a c O M F one_ok H Ha Hc Hac V FP) as (I & HI & HV); auto.
  - intros y Hy. rewrite one_v, Rmult_1_r. now apply HH.
  - exists I. split; auto. revert HI. apply improper_ext. intros t _. rewrite one_v. apply Rmult_1_r.
Qed.

(* ---- singular at the right end: the run is that of -x from -end to -start, and so are the lines printed ---- *)
Definition steps_in_r (l : list (iv (bscal b) * iv (bscal b) * iv (bscal b))) (a c : R) : Prop := forall q, In q l -> exists x, a <= x < c /\ isin (snd (fst q)) (- x).
Definition short_first_r (l : list (iv (bscal b) * iv (bscal b) * iv (bscal b))) (c : R) : Prop :=
  match l with q :: _ => forall x, isin (snd (fst q)) (- x) -> c - 1 <= x | [] => True end.
Lemma steps_flip l a c : steps_in_r l a c -> steps_in l (- c) (- a).
Proof. intros H q Hq. destruct (H q Hq) as (x & X & K). exists (- x). split; [lra|exact K]. Qed.
Lemma short_flip l c : short_first_r l c -> short_first l (- c).
Proof. destruct l as [|q l]; auto. cbn. intros H x Hx. specialize (H (- x)). rewrite Ropp_involutive in H. specialize (H Hx). lra. Qed.
Ltac flip Ha Hc := pose proof (bk_neg _ _ (IOK b fuel) _ _ Ha) as Ha'; pose proof (bk_neg _ _ (IOK b fuel) _ _ Hc) as Hc'.
Theorem C93_power3_autostep_r : forall h f g (start end_ power v : iv (bscal b)) order m eps st l st' a c p,
  (1 <= order < 2 ^ 52)%Z -> (0 <= m < order)%Z -> fun_ok f -> fun_ok g -> fun_ok h -> isin start a -> isin end_ c -> isin power p -> a < c -> -1 < p * IZR m ->
  zero_order m (fun t => fun_of f (c - t)) -> (forall y, a <= y < c -> 0 < fun_of f y) -> (forall y, a <= y < c -> fun_of h y = Rpower (fun_of f y) p * fun_of g y) ->
  defint_power3_autostep_r (bpar b) fuel root proot pw n false h (hobj f) (hobj g) start end_ order power m eps st = (Ok (v, l), st') -> steps_in_r l a c ->
  exists I, integral_upto (fun y => Rpower (fun_of f y) p * fun_of g y) a c I /\ isin v I.
Proof.
  intros h f g A E P v o m eps st l st' a c p O M F G H Ha Hc Hp Hac Hq V FP HH R HL. unfold defint_power3_autostep_r in R. rewrite !rev_obj in R. match type of R with defint_power3_autostep _ _ _ _ _ _ _ (arev h) (hobj (arev f)) (hobj (arev g)) (ineg E) (ineg A) o P m _ _ = _ => idtac end. flip Ha Hc.
  destruct (C90_power3_autostep b fuel root proot n (arev h) (arev f) (arev g) (ineg E) (ineg A) P v o m eps st l st' (- c) (- a) p) as (I & HI & HV); auto using arev_ok, arev_zero, steps_flip; try lra.
  - intros y Hy. rewrite arev_rval. apply FP. lra.
  - intros y Hy. rewrite !arev_rval. apply HH. lra.
  - exists I. split; auto. revert HI. apply flip_from. intros t. now rewrite !arev_rval.
Qed.
Theorem C93_power_autostep_r : forall h g (start end_ power v : iv (bscal b)) order eps st l st' a c p,
  (1 <= order < 2 ^ 52)%Z -> fun_ok g -> fun_ok h -> isin start a -> isin end_ c -> isin power p -> a < c -> -1 < p ->
  (forall y, a <= y < c -> fun_of h y = Rpower (c - y) p * fun_of g y) ->
  defint_power_autostep_r (bpar b) fuel root proot pw n false h (hobj g) start end_ order power eps st = (Ok (v, l), st') -> steps_in_r l a c ->
  exists I, integral_upto (fun y => Rpower (c - y) p * fun_of g y) a c I /\ isin v I.
Proof.
  intros h g A E P v o eps st l st' a c p O G H Ha Hc Hp Hac Hq HH R HL. unfold defint_power_autostep_r in R. rewrite !rev_obj in R. match type of R with defint_power3_autostep _ _ _ _ _ _ _ (arev h) hDx (hobj (arev g)) (ineg E) (ineg A) o P 1 _ _ = _ => idtac end. flip Ha Hc.
  destruct (C90_power_autostep b fuel root proot n (arev h) (arev g) (ineg E) (ineg A) P v o eps st l st' (- c) (- a) p) as (I & HI & HV); auto using arev_ok, steps_flip; try lra.
  - intros y Hy. rewrite !arev_rval, HH by lra. do 2 f_equal. ring.
  - exists I. split; auto. revert HI. apply flip_from. intros t. rewrite !arev_rval. do 2 f_equal. ring.
Qed.
Theorem C93_power2_autostep_r : forall h f (start end_ power v : iv (bscal b)) order m eps st l st' a c p,
  (1 <= order < 2 ^ 52)%Z -> (0 <= m < order)%Z -> fun_ok f -> fun_ok h -> isin start a -> isin end_ c -> isin power p -> a < c -> -1 < p * IZR m ->
  zero_order m (fun t => fun_of f (c - t)) -> (forall y, a <= y < c -> 0 < fun_of f y) -> (forall y, a <= y < c -> fun_of h y = Rpower (fun_of f y) p) ->
  defint_power2_autostep_r (bpar b) fuel root proot pw n false h (hobj f) start end_ order power m eps st = (Ok (v, l), st') -> steps_in_r l a c ->
  exists I, integral_upto (fun y => Rpower (fun_of f y) p) a c I /\ isin v I.
Proof.
  intros h f A E P v o m eps st l st' a c p O M F H Ha Hc Hp Hac Hq V FP HH R HL. unfold defint_power2_autostep_r in R. rewrite !rev_obj in R. match type of R with defint_power3_autostep _ _ _ _ _ _ _ (arev h) (hobj (arev f)) hD1 (ineg E) (ineg A) o P m _ _ = _ => idtac end. flip Ha Hc.
  destruct (C90_power2_autostep b fuel root proot n (arev h) (arev f) (ineg E) (ineg A) P v o m eps st l st' (- c) (- a) p) as (I & HI & HV); auto using arev_ok, arev_zero, steps_flip; try lra.
  - intros y Hy. rewrite arev_rval. apply FP. lra.
  - intros y Hy. rewrite !arev_rval. apply HH. lra.
  - exists I. split; auto. revert HI. apply flip_from. intros t. now rewrite !arev_rval.
Qed.
Theorem C93_log3_autostep_r_partial : forall h f g (start end_ v : iv (bscal b)) order m eps st l st' a c,
  (1 <= order < 2 ^ 25)%Z -> (0 <= m <= 2 ^ 50)%Z -> fun_ok f -> fun_ok g -> fun_ok h -> isin start a -> isin end_ c -> a < c ->
  zero_order m (fun t => fun_of f (c - t)) -> (forall y, a <= y < c -> 0 < fun_of f y) -> (forall y, a <= y < c -> fun_of h y = ln (fun_of f y) * fun_of g y) ->
  defint_log3_autostep_r (bpar b) fuel root lgc n false h (hobj f) (hobj g) start end_ order m eps st = (Ok (v, l), st') -> steps_in_r l a c -> short_first_r l c ->
  exists I, integral_upto (fun y => ln (fun_of f y) * fun_of g y) a c I /\ isin v I.
Proof.
  intros h f g A E v o m eps st l st' a c O M F G H Ha Hc Hac V FP HH R HL HS. unfold defint_log3_autostep_r in R. rewrite !rev_obj in R. match type of R with defint_log3_autostep _ _ _ _ _ _ (arev h) (hobj (arev f)) (hobj (arev g)) (ineg E) (ineg A) o m _ _ = _ => idtac end. flip Ha Hc.
  destruct (C92_log3_autostep_partial (arev h) (arev f) (arev g) (ineg E) (ineg A) v o m eps st l st' (- c) (- a)) as (I & HI & HV); auto using arev_ok, arev_zero, steps_flip, short_flip; try lra.
  - intros y Hy. rewrite arev_rval. apply FP. lra.
  - intros y Hy. rewrite !arev_rval. apply HH. lra.
  - exists I. split; auto. revert HI. apply flip_from. intros t. now rewrite !arev_rval.
Qed.
Theorem C93_log_autostep_r_partial : forall h g (start end_ v : iv (bscal b)) order eps st l st' a c,
  (1 <= order < 2 ^ 25)%Z -> fun_ok g -> fun_ok h -> isin start a -> isin end_ c -> a < c -> (forall y, a <= y < c -> fun_of h y = ln (c - y) * fun_of g y) ->
  defint_log_autostep_r (bpar b) fuel root lgc n false h (hobj g) start end_ order eps st = (Ok (v, l), st') -> steps_in_r l a c -> short_first_r l c ->
  exists I, integral_upto (fun y => ln (c - y) * fun_of g y) a c I /\ isin v I.
Proof.
  intros h g A E v o eps st l st' a c O G H Ha Hc Hac HH R HL HS. unfold defint_log_autostep_r in R. rewrite !rev_obj in R. match type of R with defint_log3_autostep _ _ _ _ _ _ (arev h) hDx (hobj (arev g)) (ineg E) (ineg A) o 1 _ _ = _ => idtac end. flip Ha Hc.
  destruct (C92_log_autostep_partial (arev h) (arev g) (ineg E) (ineg A) v o eps st l st' (- c) (- a)) as (I & HI & HV); auto using arev_ok, steps_flip, short_flip; try lra.
  - intros y Hy. rewrite !arev_rval, HH by lra. do 2 f_equal. ring.
  - exists I. split; auto. revert HI. apply flip_from. intros t. rewrite !arev_rval. do 2 f_equal. ring.
Qed.
Theorem C93_log2_autostep_r_partial : forall h f (start end_ v : iv (bscal b)) order m eps st l st' a c,
  (1 <= order < 2 ^ 25)%Z -> (0 <= m <= 2 ^ 50)%Z -> fun_ok f -> fun_ok h -> isin start a -> isin end_ c -> a < c ->
  zero_order m (fun t => fun_of f (c - t)) -> (forall y, a <= y < c -> 0 < fun_of f y) -> (forall y, a <= y < c -> fun_of h y = ln (fun_of f y)) ->
  defint_log2_autostep_r (bpar b) fuel root lgc n false h (hobj f) start end_ order m eps st = (Ok (v, l), st') -> steps_in_r l a c -> short_first_r l c ->
  exists I, integral_upto (fun y => ln (fun_of f y)) a c I /\ isin v I.
Proof.
  intros h f A E v o m eps st l st' a c O M F H Ha Hc Hac V FP HH R HL HS. unfold defint_log2_autostep_r in R. rewrite !rev_obj in R. match type of R with defint_log3_autostep _ _ _ _ _ _ (arev h) (hobj (arev f)) hD1 (ineg E) (ineg A) o m _ _ = _ => idtac end. flip Ha Hc.
  destruct (C92_log2_autostep_partial (arev h) (arev f) (ineg E) (ineg A) v o m eps st l st' (- c) (- a)) as (I & HI & HV); auto using arev_ok, arev_zero, steps_flip, short_flip; try lra.
  - intros y Hy. rewrite arev_rval. apply FP. lra.
  - intros y Hy. rewrite !arev_rval. apply HH. lra.
  - exists I. split; auto. revert HI. apply flip_from. intros t. now rewrite !arev_rval.
Qed.
(* with and without history *)
Theorem C93_singular_autostep_r : forall fast h f (start end_ v : iv (bscal b)) order eps st l st' a c,
  (2 <= order < 2 ^ 52)%Z -> fun_ok f -> fun_ok h -> isin start a -> isin end_ c -> (forall y, fun_of h y = fun_of f y) ->
  defint_singular_autostep_r (bpar b) fuel root n fast h (hobj f) start end_ order eps st = (Ok (v, l), st') -> (forall q, In q l -> exists x, isin (snd (fst q)) x) ->
  exists I, is_RInt (fun_of f) a c I /\ isin v I.
Proof.
  intros fast h f A E v o eps st l st' a c O F H Ha Hc HH R HL. unfold defint_singular_autostep_r in R. rewrite !rev_obj in R. flip Ha Hc.
  destruct (C91_singular_autostep b fuel root n fast (arev h) (arev f) (ineg E) (ineg A) v o eps st l st' (- c) (- a)) as (I & HI & HV); auto using arev_ok.
  { intros y. rewrite !arev_rval. apply HH. }
  exists I. split; auto. assert (J := is_RInt_comp_opp _ _ _ _ HI). apply is_RInt_swap in J. apply is_RInt_opp in J.
  replace I with (opp (opp I)) by (unfold opp; simpl; ring). revert J. apply is_RInt_ext. intros t _. rewrite arev_rval. unfold opp; simpl. now rewrite !Ropp_involutive.
Qed.
Theorem C93_div_tn_r : forall fast h f m (start end_ v : iv (bscal b)) order eps st l st' a c,
  (2 <= order < 2 ^ 52)%Z -> (0 <= m < order - 1)%Z -> fun_ok f -> fun_ok h -> isin start a -> isin end_ c -> a < c -> zero_order m (fun t => fun_of f (c - t)) ->
  (forall y, a <= y < c -> fun_of h y = fun_of f y / (c - y) ^ Z.to_nat m) ->
  defint_singular_autostep_r (bpar b) fuel root n fast h (hcut (hobj f) m) start end_ order eps st = (Ok (v, l), st') -> steps_in_r l a c ->
  exists I, integral_upto (fun y => fun_of f y / (c - y) ^ Z.to_nat m) a c I /\ isin v I.
Proof.
  intros fast h f m A E v o eps st l st' a c O M F H Ha Hc Hac V HH R HL. unfold defint_singular_autostep_r in R.
  change (hRev (hcut (hobj f) m)) with (hcut (hRev (B:=IB b fuel) (hobj f)) m) in R. rewrite rev_obj in R. flip Ha Hc.
  destruct (C91_div_tn b fuel root n fast (arev h) (arev f) m (ineg E) (ineg A) v o eps st l st' (- c) (- a)) as (I & HI & HV); auto using arev_ok, arev_zero, steps_flip; try lra.
  - intros y Hy. rewrite !arev_rval, HH by lra. do 2 f_equal. ring.
  - exists I. split; auto. revert HI. apply flip_from. intros t. rewrite !arev_rval. do 2 f_equal. ring.
Qed.
(* without history *)
Theorem C93_div_reduce_r : forall h f g m (start end_ v : iv (bscal b)) order eps st l st' a c,
  (2 <= order < 2 ^ 52)%Z -> (0 <= m < order - 1)%Z -> fun_ok f -> fun_ok g -> fun_ok h -> isin start a -> isin end_ c -> a < c ->
  zero_order m (fun t => fun_of f (c - t)) -> zero_order m (fun t => fun_of g (c - t)) -> (forall y, a <= y < c -> fun_of h y = fun_of f y / fun_of g y) ->
  defint_singular_autostep_r (bpar b) fuel root n false h (hreduced (hobj f) (hobj g) m) start end_ order eps st = (Ok (v, l), st') -> steps_in_r l a c ->
  exists I, integral_upto (fun y => fun_of f y / fun_of g y) a c I /\ isin v I.
Proof.
  intros h f g m A E v o eps st l st' a c O M F G H Ha Hc Hac V V2 HH R HL. unfold defint_singular_autostep_r in R.
  change (hRev (hreduced (hobj f) (hobj g) m)) with (hreduced (hRev (B:=IB b fuel) (hobj f)) (hRev (hobj g)) m) in R. rewrite !rev_obj in R. flip Ha Hc.
  destruct (C91_div_reduce b fuel root n (arev h) (arev f) (arev g) m (ineg E) (ineg A) v o eps st l st' (- c) (- a)) as (I & HI & HV); auto using arev_ok, arev_zero, steps_flip; try lra.
  - intros y Hy. rewrite !arev_rval, HH by lra. reflexivity.
  - exists I. split; auto. revert HI. apply flip_from. intros t. now rewrite !arev_rval.
Qed.
Theorem C93_div_tn_mul_r : forall h f g m (start end_ v : iv (bscal b)) order eps st l st' a c,
  (2 <= order < 2 ^ 52)%Z -> (0 <= m < order - 1)%Z -> fun_ok f -> fun_ok g -> fun_ok h -> isin start a -> isin end_ c -> a < c ->
  zero_order m (fun t => fun_of f (c - t)) -> (forall y, a <= y < c -> fun_of h y = fun_of f y / (c - y) ^ Z.to_nat m * fun_of g y) ->
  defint_singular_autostep_r (bpar b) fuel root n false h (hcutmul (hobj f) (hobj g) m) start end_ order eps st = (Ok (v, l), st') -> steps_in_r l a c ->
  exists I, integral_upto (fun y => fun_of f y / (c - y) ^ Z.to_nat m * fun_of g y) a c I /\ isin v I.
Proof.
  intros h f g m A E v o eps st l st' a c O M F G H Ha Hc Hac V HH R HL. unfold defint_singular_autostep_r in R.
  change (hRev (hcutmul (hobj f) (hobj g) m)) with (hcutmul (hRev (B:=IB b fuel) (hobj f)) (hRev (hobj g)) m) in R. rewrite !rev_obj in R. flip Ha Hc.
  destruct (C91_div_tn_mul b fuel root n (arev h) (arev f) (arev g) m (ineg E) (ineg A) v o eps st l st' (- c) (- a)) as (I & HI & HV); auto using arev_ok, arev_zero, steps_flip; try lra.
  - intros y Hy. rewrite !arev_rval, HH by lra. do 3 f_equal. ring.
  - exists I. split; auto. revert HI. apply flip_from. intros t. rewrite !arev_rval. do 3 f_equal. ring.
Qed.
End C92.

(* ---- runs; (i+1)*log(0.1)-1 correctly rounded for i = 1, the only value used ---- *)
Definition lgc1 : nat -> bscal BHw := fun _ => sdy (-6310984209629211) (-50).
Local Notation at0 := (qiv 0 0 0 0 : iv (bscal BHw)).
Local Notation at1 := (qiv 1 0 1 0 : iv (bscal BHw)).
(* log(x + x^3) and log(x)*x^2 away from 0 *)
Definition lcub_e : aexpr := XFun Alog cub_e.
Definition lsq_e : aexpr := XMul (XFun Alog (XVar 0)) (XMul (XVar 0) (XVar 0)).
Local Notation log_run r fast := (defint_log2_autostep (S:=bscal BHw) (bpar BHw) 60 (unit_root r) lgc1 1 fast lcub_e (hobj cub_e) at0 at1 1 1 (sdy 1 0) (C78_st 1 false false [])).
Local Notation long_run r := (defint_log_autostep (S:=bscal BHw) (bpar BHw) 60 (unit_root r) lgc1 1 false lsq_e (hobj C60_e) at0 (qiv 13 (-3) 13 (-3)) 1 (sdy 1 0) (C78_st 1 false false [])).
Local Notation right_run r := (defint_log2_autostep_r (S:=bscal BHw) (bpar BHw) 60 (unit_root r) lgc1 1 false (arev lcub_e) (hobj (arev cub_e)) (ineg at1) at0 1 1 (sdy 1 0) (C78_st 1 false false [])).
(* one step, ending in c, and the result between l/2^-e and u/2^-e *)
Definition one_step_to (c d : Z) (l u e : Z) (r : res (out BHw)) : bool :=
  match r with Ok (v, [(_, t, _)]) => Bleb (bdy l e) (lo v : b64) && Bleb (hi v : b64) (bdy u e) && (Bleb (lo t : b64) (bdy c d) && Bleb (bdy c d) (hi t : b64) && Bleb (hi t : b64) (bdy c d)) | _ => false end.
Lemma one_step_to_ok c d l u e r : lit c d -> lit l e -> lit u e -> one_step_to c d l u e r = true -> exists v q, r = Ok (v, [q]) /\ (forall x, isin v x -> dy l e <= x <= dy u e) /\ isin (snd (fst q)) (dy c d) /\ (forall x, isin (snd (fst q)) x -> x <= dy c d).
Proof.
  intros Lc Ll Lu. unfold one_step_to. destruct r as [[v ls]|]; [|discriminate]. destruct ls as [|[[a t] s] [|]]; try discriminate. intros H. exists v, (a, t, s). split; [reflexivity|].
  apply andb_prop in H as [H H2]. apply andb_prop in H as [R1 R2]. apply andb_prop in H2 as [H2 R5]. apply andb_prop in H2 as [R3 R4].
  apply (ok_le _ (bok BHw)) in R1, R2, R3, R4, R5; try exact Logic.I. change (bscal BHw) with D_hw in *.
  unfold lit in *. rewrite qv in R1 by lia. rewrite qv in R2 by lia. rewrite qv in R3, R4, R5 by lia. cbn [fst snd].
  split; [|split].
  - intros x (_ & _ & X1 & X2). unfold lb, ub in *. destruct (sval (lo v)), (sval (hi v)); simpl in *; unfold dy; try tauto; lra.
  - split; [exact Logic.I|]. split; [exact Logic.I|].
    unfold lb, ub, dy. revert R3 R4. change (bscal BHw) with D_hw. generalize (@sval D_hw (lo t)), (@sval D_hw (hi t)). intros [] []; cbn [xle]; intros; repeat split; try tauto; try lra.
  - intros x (_ & _ & X1 & X2). unfold lb, ub in *. destruct (sval (lo t)), (sval (hi t)); simpl in *; unfold dy; try tauto; lra.
Qed.
Lemma log_runs r : one_step_to 1 0 (-4) (-4) (-2) (fst (log_run r true)) && one_step_to 1 0 (-5) (-2) (-2) (fst (log_run r false)) = true.
Proof. vm_compute. reflexivity. Qed.
Lemma long_runs r : one_step_to 13 (-3) (-2) 1 (-5) (fst (long_run r)) = true.
Proof. vm_compute. reflexivity. Qed.
Lemma right_runs r : one_step_to 1 0 (-5) (-2) (-2) (fst (right_run r)) = true.
Proof. vm_compute. reflexivity. Qed.
Lemma ln_low x : 0 < x -> 1 - / x <= ln x.
Proof. intros Hx. pose proof (exp_ineq1_le (ln (/ x))) as X. rewrite exp_ln in X by now apply Rinv_0_lt_compat. rewrite ln_Rinv in X by auto. lra. Qed.
Lemma ln2_low : 11 / 18 <= ln 2.
Proof.
  replace 2 with (4 / 3 * (4 / 3) * (9 / 8)) by lra. rewrite !ln_mult by lra. pose proof (ln_low (4 / 3) ltac:(lra)). pose proof (ln_low (9 / 8) ltac:(lra)).
  replace (/ (4 / 3)) with (3 / 4) in * by lra. replace (/ (9 / 8)) with (8 / 9) in * by lra. lra.
Qed.
(* the integral of log(x + x^3) from 0 to 1 *)
Definition Lcub : R := ln 2 + PI / 2 - 3.
Lemma lcub_int : integral_from (fun y => ln (fun_of cub_e y)) 0 1 Lcub.
Proof.
  set (W := fun t => t * ln t - t + (t * ln (1 + t * t) - 2 * t + 2 * atan t)).
  assert (C : continuous (fun t => t * ln (1 + t * t) - 2 * t + 2 * atan t) 0).
  { apply (ex_derive_continuous (V:=R_NormedModule)). auto_derive. lra. }
  intros eps He. destruct (wl_lim 0 (eps / 2) ltac:(lra)) as (d & Hd & K). destruct (proj1 (filterlim_locally _ _) C (mkposreal (eps / 2) ltac:(lra))) as (d2 & K2). pose proof (cond_pos d2) as P2.
  exists (Rmin d d2). split; [now apply Rmin_glb_lt|]. intros x Hx X2. assert (x < d /\ x < d2) as [D1 D2] by (split; eapply Rlt_le_trans; [apply Hx| |apply Hx|]; rewrite Rplus_0_l; [apply Rmin_l|apply Rmin_r]).
  exists (minus (W 1) (W x)). split.
  - apply (is_RInt_derive W (fun y => ln (fun_of cub_e y))); intros t Ht; rewrite Rmin_left, Rmax_right in Ht by lra.
    + rewrite cub_v. replace (t + t * (t * t)) with (t * (1 + t * t)) by ring. rewrite ln_mult by nra. unfold W. auto_derive; [nra|]. field. nra.
    + apply (continuous_ext (fun y => ln (y + y * (y * y)))); [intros; reflexivity|]. apply (ex_derive_continuous (fun y => ln (y + y * (y * y)))). auto_derive. nra.
  - specialize (K x ltac:(lra)). unfold WL_ in K. assert (B2 : Rabs ((x * ln (1 + x * x) - 2 * x + 2 * atan x) - (0 * ln (1 + 0 * 0) - 2 * 0 + 2 * atan 0)) < eps / 2).
    { apply (K2 x). unfold ball; simpl. unfold AbsRing_ball; simpl. unfold abs, minus, plus, opp; simpl. rewrite Rabs_pos_eq by lra. lra. }
    rewrite atan_0 in B2. replace (0 * ln (1 + 0 * 0) - 2 * 0 + 2 * 0) with 0 in B2 by ring.
    replace (minus (W 1) (W x) - Lcub) with (- (x ^ 1 * (INR 1 * ln x - 1) / (INR 1 * INR 1)) + - ((x * ln (1 + x * x) - 2 * x + 2 * atan x) - 0)).
    + eapply Rle_lt_trans; [apply Rabs_triang|]. rewrite (Rabs_Ropp (_ - 0)). simpl pow in *. simpl INR in *. lra.
    + unfold minus, plus, opp, W, Lcub; simpl. rewrite ln_1, atan_1. replace (1 + 1 * 1) with 2 by ring. field.
Qed.
Lemma lcub_hyps : fun_ok cub_e /\ fun_ok lcub_e /\ zero_order 1 (fun t => fun_of cub_e (0 + t)) /\ (forall y, 0 < y <= 1 -> 0 < fun_of cub_e y) /\ (forall y, 0 < y <= 1 -> fun_of lcub_e y = ln (fun_of cub_e y)).
Proof.
  split; [exact cub_ok|]. split; [split; [simpl; repeat split; lia|split; [simpl; intuition discriminate|reflexivity]]|]. split; [exact cub_zero|]. split; [intros y Hy; rewrite cub_v; nra|reflexivity].
Qed.
(* the default, DEFINT_FAST == 1: log of div_tn(f(x), 1) loses the remainder, and [-1, -1] is returned *)
Theorem C92_fast_refuted : forall r, fun_ok cub_e /\ fun_ok lcub_e /\ zero_order 1 (fun t => fun_of cub_e (0 + t)) /\ (forall y, 0 < y <= 1 -> 0 < fun_of cub_e y) /\
  (forall y, 0 < y <= 1 -> fun_of lcub_e y = ln (fun_of cub_e y)) /\
  exists v l st' I, log_run r true = (Ok (v, l), st') /\ steps_in l 0 1 /\ short_first l 0 /\ integral_from (fun y => ln (fun_of cub_e y)) 0 1 I /\ ~ isin v I.
Proof.
  intros r. destruct lcub_hyps as (H1 & H2 & H3 & H4 & H5). do 5 (split; [assumption|]).
  destruct (andb_prop _ _ (log_runs r)) as [R _]. apply one_step_to_ok in R; [|unfold lit; lia..]. destruct R as (v & q & R & B & T1 & T2). destruct (log_run r true) as [o st']. cbn [fst] in R. subst o.
  replace (dy 1 0) with 1 in * by (unfold dy; simpl; lra).
  exists v, [q], st', Lcub. split; [reflexivity|]. split; [intros p [<-|[]]; exists 1; split; [lra|exact T1]|]. split; [intros x Hx; specialize (T2 x Hx); lra|]. split; [exact lcub_int|].
  intros HV. apply B in HV. unfold dy, Lcub in HV. simpl in HV. pose proof ln2_low. pose proof PI2_3_2. lra.
Qed.
Lemma sq_int : integral_from (fun y => ln (y - 0) * fun_of C60_e y) 0 (13 / 8) ((13 / 8) ^ 3 * (3 * ln (13 / 8) - 1) / 9).
Proof.
  set (W := fun t => t ^ 3 * (3 * ln t - 1) / 9). change (integral_from (fun y => ln (y - 0) * fun_of C60_e y) 0 (13 / 8) (W (13 / 8))).
  intros eps He. destruct (wl_lim 2 eps He) as (d & Hd & K). exists d. split; auto. intros x Hx X2. exists (minus (W (13 / 8)) (W x)). split.
  - apply (is_RInt_derive W (fun y => ln (y - 0) * fun_of C60_e y)); intros t Ht; rewrite Rmin_left, Rmax_right in Ht by lra.
    + simpl rval. unfold W. auto_derive; [lra|]. rewrite Rminus_0_r. field. lra.
    + simpl rval. apply (ex_derive_continuous (fun y => ln (y - 0) * (y * y))). auto_derive. lra.
  - unfold minus, plus, opp; simpl. replace (W (13 / 8) + - W x - W (13 / 8)) with (- W x) by ring. specialize (K x ltac:(lra)). unfold WL_ in K.
    replace (- W x) with (- (x ^ 3 * (INR 3 * ln x - 1) / (INR 3 * INR 3))); auto. unfold W. simpl INR. field.
Qed.
(* a step longer than 1 *)
Theorem C92_long_step_refuted : forall r, fun_ok C60_e /\ fun_ok lsq_e /\ (forall y, 0 < y <= 13 / 8 -> fun_of lsq_e y = ln (y - 0) * fun_of C60_e y) /\
  exists v l st' I, long_run r = (Ok (v, l), st') /\ steps_in l 0 (13 / 8) /\ integral_from (fun y => ln (y - 0) * fun_of C60_e y) 0 (13 / 8) I /\ ~ isin v I.
Proof.
  intros r. split; [split; [simpl; repeat split; lia|split; [exact (conj Logic.I Logic.I)|reflexivity]]|]. split; [split; [simpl; repeat split; lia|split; [simpl; intuition discriminate|reflexivity]]|].
  split; [intros y Hy; simpl; rewrite Rminus_0_r; reflexivity|].
  pose proof (long_runs r) as R. apply one_step_to_ok in R; [|unfold lit; lia..]. destruct R as (v & q & R & B & T1 & _). destruct (long_run r) as [o st']. cbn [fst] in R. subst o.
  replace (dy 13 (-3)) with (13 / 8) in * by (unfold dy; simpl; lra).
  set (W := fun t => t ^ 3 * (3 * ln t - 1) / 9).
  exists v, [q], st', (W (13 / 8)). split; [reflexivity|]. split; [intros p [<-|[]]; exists (13 / 8); split; [lra|exact T1]|]. split; [exact sq_int|].
  intros HV. apply B in HV. unfold dy in HV. simpl in HV. pose proof (ln_low (13 / 8) ltac:(lra)). replace (/ (13 / 8)) with (8 / 13) in * by lra. unfold W in HV. lra.
Qed.
(* the same call with DEFINT_FAST == 0: the theorem applies *)
Example C92_case : forall r, exists v l st' I, log_run r false = (Ok (v, l), st') /\ integral_from (fun y => ln (fun_of cub_e y)) 0 1 I /\ isin v I /\ (forall x, isin v x -> - 5 / 4 <= x <= - 1 / 2).
Proof.
  intros r. destruct lcub_hyps as (H1 & H2 & H3 & H4 & H5).
  destruct (andb_prop _ _ (log_runs r)) as [_ R]. apply one_step_to_ok in R; [|unfold lit; lia..]. destruct R as (v & q & R & B & T1 & T2). destruct (log_run r false) as [o st'] eqn:E. cbn [fst] in R. subst o.
  replace (dy 1 0) with 1 in * by (unfold dy; simpl; lra).
  destruct (C92_log2_autostep_partial BHw 60 (unit_root r) lgc1 1 lcub_e cub_e at0 at1 v 1 1 (sdy 1 0) (C78_st 1 false false []) [q] st' 0 1) as (I & HI & HV); auto; try lia; try lra; try qin.
  - intros p [<-|[]]. exists 1. split; [lra|exact T1].
  - intros x Hx. specialize (T2 x Hx). lra.
  - exists v, [q], st', I. split; [reflexivity|]. split; auto. split; auto. intros x Hx. apply B in Hx. unfold dy in Hx. simpl in Hx. lra.
Qed.
(* log(-x - x^3) from -1 to 0 *)
Example C93_case : forall r, exists v l st' I, right_run r = (Ok (v, l), st') /\ integral_upto (fun y => ln (fun_of (arev cub_e) y)) (-1) 0 I /\ isin v I /\ (forall x, isin v x -> - 5 / 4 <= x <= - 1 / 2).
Proof.
  intros r. destruct lcub_hyps as (H1 & H2 & (M & d & Hd & H3) & H4 & H5).
  pose proof (right_runs r) as R. apply one_step_to_ok in R; [|unfold lit; lia..]. destruct R as (v & q & R & B & T1 & T2). destruct (right_run r) as [o st'] eqn:E. cbn [fst] in R. subst o.
  replace (dy 1 0) with 1 in * by (unfold dy; simpl; lra).
  destruct (C93_log2_autostep_r_partial BHw 60 (unit_root r) lgc1 1 (arev lcub_e) (arev cub_e) (ineg at1) at0 v 1 1 (sdy 1 0) (C78_st 1 false false []) [q] st' (-1) 0) as (I & HI & HV); auto using arev_ok; try lia; try lra; try qin.
  - apply (bk_neg _ _ (IOK BHw 60) at1 1). qin.
  - exists M, d. split; auto. intros t Ht. rewrite arev_rval. replace (- (0 - t)) with (0 + t) by ring. now apply H3.
  - intros y Hy. rewrite arev_rval. apply H4. lra.
  - intros p [<-|[]]. exists (-1). split; [lra|]. replace (- -1) with 1 by ring. exact T1.
  - intros x Hx. specialize (T2 (- x) Hx). lra.
  - exists v, [q], st', I. split; [reflexivity|]. split; auto. split; auto. intros x Hx. apply B in Hx. unfold dy in Hx. simpl in Hx. lra.
Qed.
Definition SingLog_all := (C92_log3_autostep_partial, C92_log_autostep_partial, C92_log2_autostep_partial, C92_fast_refuted, C92_long_step_refuted, C92_case,
  C93_power3_autostep_r, C93_power_autostep_r, C93_power2_autostep_r, C93_log3_autostep_r_partial, C93_log_autostep_r_partial, C93_log2_autostep_r_partial,
  C93_singular_autostep_r, C93_div_tn_r, C93_div_reduce_r, C93_div_tn_mul_r, C93_case).
Print Assumptions SingLog_all.
