(* Proofs about the model of the singular integrators with step size control. *)
From Coq Require Import Reals ZArith Bool List Lra Lia Psatz Arith.
From Coquelicot Require Import Coquelicot.
From Verif Require Import Ext Scalar IntervalModel IntervalSpec IntervalProofs IntervalEncl IntervalSets Backends ElemModel PropsElem.
From Verif Require Import RealFun RealConst ADModel ADReal ADProofs ADInst PsaModel PsaReal PsaProofs PsaExpr PsaInt PsaUse PsaUseProofs PsaInst PsaHist PsaHistProofs PsaHistRep PsaHistKeep.
From Verif Require Import OdeModel OdeIndep OdeHist OdeProofs DefintAuto DefintAutoProofs SingReal SingModel SingProofs SingAuto.
Import List ListNotations.
Open Scope R_scope.

(* ---- function objects without history ---- *)
Definition pure {B : base} (f : hfn B) (p : fn B) : Prop := forall x, sim B (f x) (fun m D => p m D x) /\ keep B (f x).
Lemma pure_obj {B : base} e : pure (B:=B) (hobj e) (psafun B e).
Proof. intros x. split; [exact (sim_eval B (fun _ => x) e)|apply keep_eval]. Qed.
Lemma pure_x {B : base} : pure (B:=B) hDx Defint_x.
Proof. intros x. split; [exact (sim_lift B (Ok x))|apply keep_lift]. Qed.
Lemma pure_1 {B : base} : pure (B:=B) hD1 Defint_1.
Proof. intros x. split; [exact (sim_lift B (Ok [t1]))|apply keep_lift]. Qed.
Lemma pure_rev {B : base} (f : hfn B) p : pure f p -> pure (hRev f) (Defint_Reverse p).
Proof. intros H x. exact (H (ps_neg x)). Qed.
Lemma pure_cut {B : base} (f : hfn B) p n : pure f p -> pure (hcut f n) (cut p n).
Proof.
  intros H x. split; [|apply keep_bind; [apply H|intros; apply keep_lift]].
  exact (sim_bind B (f x) (fun m D => p m D x) (fun q => hlift (div_tn q n)) (fun _ _ q => div_tn q n) (proj1 (H x)) (fun q => sim_lift B (div_tn q n))).
Qed.
Lemma pure_reduced {B : base} (f g : hfn B) p q n : pure f p -> pure g q -> pure (hreduced f g n) (reduced p q n).
Proof.
  intros H K x. split.
  - unfold hreduced, reduced, div_reduce. apply (sim_bind B (f x) (fun m D => p m D x) _ (fun m D a => do b <- q m D x; do nx <- div_tn a n; do ny <- div_tn b n; ps_div m D nx ny) (proj1 (H x))). intros a.
    apply (sim_bind B (g x) (fun m D => q m D x) _ (fun m D b => do nx <- div_tn a n; do ny <- div_tn b n; ps_div m D nx ny) (proj1 (K x))). intros b.
    apply (sim_bind B _ (fun _ _ => div_tn a n) _ (fun m D nx => do ny <- div_tn b n; ps_div m D nx ny) (sim_lift B _)). intros nx.
    apply (sim_bind B _ (fun _ _ => div_tn b n) _ (fun m D ny => ps_div m D nx ny) (sim_lift B _)). intros ny. apply sim_div.
  - apply keep_bind; [apply H|]. intros. apply keep_bind; [apply K|]. intros. apply keep_bind; [apply keep_lift|]. intros. apply keep_bind; [apply keep_lift|]. intros. apply keep_div.
Qed.
Definition cutmul {B : base} (f g : fn B) (n : Z) : fn B := fun m D x => do p <- f m D x; do d <- div_tn p n; do q <- g m D x; ps_mul m D d q.
Lemma pure_cutmul {B : base} (f g : hfn B) p q n : pure f p -> pure g q -> pure (hcutmul f g n) (cutmul p q n).
Proof.
  intros H K x. split.
  - unfold hcutmul, cutmul. apply (sim_bind B (f x) (fun m D => p m D x) _ (fun m D a => do d <- div_tn a n; do b <- q m D x; ps_mul m D d b) (proj1 (H x))). intros a.
    apply (sim_bind B _ (fun _ _ => div_tn a n) _ (fun m D d => do b <- q m D x; ps_mul m D d b) (sim_lift B _)). intros d.
    apply (sim_bind B (g x) (fun m D => q m D x) _ (fun m D b => ps_mul m D d b) (proj1 (K x))). intros b. apply sim_mul.
  - apply keep_bind; [apply H|]. intros. apply keep_bind; [apply keep_lift|]. intros. apply keep_bind; [apply K|]. intros. apply keep_mul.
Qed.
Section Auto.
Variables (b : backend) (fuel : nat).
Notation S_ := (bscal b).
Notation B := (Ibase (bpar b) fuel).
Notation I := (iv S_).
Notation rel := (@isin S_).
Notation P := (bpar b).
Variable root : S_ -> nat -> S_.
Variable proot : S_ -> S_ -> nat -> S_.
Notation bpow := (ipowI S_ P fuel).

Section Loop.
Variable inv : pst B -> Prop.
Variable body : hM B (list (bT B)).
Hypothesis ID : forall s D, inv s -> inv (set_dom D s).
Hypothesis IO : forall s y s', inv s -> body s = (Ok y, s') -> inv s'.
Hypothesis IE : forall s e s', inv s -> body s = (Err e, s') -> inv (set_uh false s').
Lemma loop_ok post rt (start end_ : I) eps f : forall radius restart resized st z t1 step flag st', inv st ->
  sa_loop P fuel body post rt start end_ eps f radius restart resized st = (Ok (z, t1, step, flag), st') ->
  step = isub t1 start /\ (flag = true -> t1 = end_) /\
  exists s1 y, inv s1 /\ p_dom s1 = (hullSI s0 step : bT B) /\ fst (body s1) = Ok y /\ post y step = Ok z.
Proof.
  induction f; intros radius restart resized st z t1 step flag st' HI E; cbn [sa_loop] in E; [discriminate E|].
  destruct (au_next start end_ radius resized) as [[[[t1' radius'] flag'] resized'] step'] eqn:EN. destruct (next_spec b _ _ _ _ _ _ _ _ _ EN) as [ES EF]. clear EN.
  unfold hbind at 1 in E. unfold hmod in E. set (s1 := set_dom (hullSI s0 step' : bT B) st) in E. assert (H1 : inv s1) by (now apply ID).
  destruct (body s1) as [[y|er] s2] eqn:EY.
  - destruct (post y step') as [z'|er] eqn:EP; [|discriminate E]. destruct resized'.
    + injection E as <- <- <- <- <-. split; auto. split; auto. exists s1, y. rewrite EY. auto.
    + apply IHf in E; auto. now apply (IO s1 y).
  - destruct er; try discriminate E. destruct (restart <? restart_max)%nat; [|discriminate E]. apply IHf in E; auto. now apply (IE s1 EDomain).
Qed.
End Loop.
(* mode 2, no history *)
Definition off (s : pst B) : Prop := p_mode s = 2%Z /\ p_uh s = false.
Lemma off_loop body pb post rt (start end_ : I) eps f radius restart resized st z t1 step flag st' : sim B body pb -> keep B body -> off st ->
  sa_loop P fuel body post rt start end_ eps f radius restart resized st = (Ok (z, t1, step, flag), st') ->
  step = isub t1 start /\ (flag = true -> t1 = end_) /\ exists y, pb 2%Z (hullSI s0 step : bT B) = Ok y /\ post y step = Ok z.
Proof.
  intros HS HK HO E. edestruct (loop_ok off body) as (E1 & E2 & s1 & y & [M U] & D1 & Y1 & Z1); [| | |exact HO|exact E|].
  - intros s D HD. exact HD.
  - intros s y s' [M U] EY. destruct (HS s U) as [_ SE]. rewrite EY in SE. destruct (SE y eq_refl) as (A1 & _ & A3 & _). cbn [snd] in *. split; congruence.
  - intros s er s' [M U] EY. destruct (HK s) as [K _]. rewrite EY in K. cbn [snd] in K. split; [cbn [set_uh p_mode]; congruence|reflexivity].
  - split; auto. split; auto. exists y. split; auto. destruct (HS s1 U) as [SE _]. rewrite SE, M, D1 in Y1. exact Y1.
Qed.
(* what a return without DEFINT_FAST means *)
Lemma off_run n h o first p1 rad0 body pb post rt (start end_ : I) order eps st v l st' : (1 <= o)%Z ->
  (forall x, sim B (first x) (fun m D => p1 m D x)) -> (forall x, sim B (body x) (fun m D => pb m D x) /\ keep B (body x)) ->
  sa_run P fuel root n false (hobj h) o first rad0 body post rt start end_ order eps st = (Ok (v, l), st') ->
  exists t1 y z, (forall D, (do x <- ps_setorder (B:=B) 2 D [(start : bT B); PsaModel.t1] o; pb 2%Z (hullSI s0 (isub t1 start) : bT B) x) = Ok y) /\ post y (isub t1 start) = Ok z /\
  ((t1 = end_ /\ v = z) \/ exists s1 r l1 s2, defint_autostep P fuel root h n false t1 end_ order eps s1 = (Ok (r, l1), s2) /\ v = iadd z r /\ (forall q, In q l1 -> In q l)) /\
  exists rest, l = (start, t1, isub t1 start) :: rest.
Proof.
  intros O1 SF SB E. unfold sa_run in E. apply hb_ok in E as (u0 & s1 & M1 & E). unfold hmod in M1. injection M1 as _ <-.
  apply hb_ok in E as (x & s2 & EX & E). unfold hget, hlift in EX. injection EX as EX <-.
  apply hb_ok in E as (u1 & s3 & M2 & E). unfold hmod in M2. injection M2 as _ <-.
  set (s3 := set_mode 1 (set_rh false (set_uh false st))) in E.
  apply hb_ok in E as (y1 & s4 & EY & E). assert (U4 : p_uh s4 = false). { destruct (SF x s3 eq_refl) as [_ SE]. rewrite EY in SE. destruct (SE y1 eq_refl) as (_ & _ & A3 & _). exact A3. }
  apply hb_ok in E as (y2 & s5 & EO & E). unfold hget, hlift in EO. injection EO as EO <-.
  apply hb_ok in E as (rd & s5 & ER & E). unfold hlift in ER. injection ER as ER <-.
  apply hb_ok in E as (u2 & s6 & M3 & E). unfold hmod in M3. injection M3 as _ <-.
  apply hb_ok in E as (q & s7 & EL & E). destruct q as [[[z t1] step] flag].
  destruct (SB x) as [SB1 SB2].
  destruct (off_loop _ _ _ _ _ _ _ _ _ _ _ _ z t1 step flag s7 SB1 SB2 (conj eq_refl U4 : off (set_mode 2 s4)) EL) as (E1 & E2 & y & YB & ZB). subst step.
  apply hb_ok in E as (u3 & s8 & M4 & E). unfold hmod in M4. injection M4 as _ <-.
  exists t1, y, z. split. { intros D. rewrite (setorder_id B _ _ _ _ O1) in EX. rewrite (setorder_id B _ _ _ _ O1). apply oki in EX. subst x. exact YB. }
  split; [exact ZB|]. destruct flag.
  - unfold hret, hlift in E. injection E as <- <- <-. split; [left; auto|]. exists []. reflexivity.
  - apply hb_ok in E as (r & s9 & EA & E). unfold hret, hlift in E. injection E as <- <- <-. split; [|exists (snd r); reflexivity].
    right. destruct r as [r l1]. exists (ode_leave P fuel st s7), r, l1, s9. split; auto. split; auto. intros q Hq. now right.
Qed.
(* the part up to t1, and the rest *)
Lemma glue (F : R -> R) h n fast (t1 end_ z r : I) l1 order eps s1 s2 a b0 c I1 : (1 <= order)%Z -> (order < 2 ^ 52)%Z -> awf 1 h -> plog h -> noarc h = true ->
  a < b0 <= c -> isin t1 b0 -> isin end_ c -> improper F a b0 I1 -> isin z I1 -> (forall y, a < y <= c -> rval h (fun _ => y) = F y) ->
  defint_autostep P fuel root h n fast t1 end_ order eps s1 = (Ok (r, l1), s2) -> (forall q, In q l1 -> exists x, isin (snd (fst q)) x) ->
  (forall y, b0 <= y <= c -> adom h (fun _ => y)) /\ exists J, improper F a c J /\ isin (iadd z r) J.
Proof.
  intros O1 O2 W PL NA AB Ht Hc HI Hz HF E HL. destruct (autostep_ok b fuel root h n fast t1 end_ order eps s1 r l1 s2 b0 c W PL NA O1 O2 E HL Ht Hc) as (D & w & IW & Hw).
  split. { intros y Hy. apply D. unfold mix. left. lra. } exists (I1 + w). split; [|exact (bk_add _ _ (IOK b fuel) _ _ _ _ Hz Hw)].
  assert (IW' : is_RInt F b0 c w). { apply (is_RInt_ext (fun y => rval h (fun _ => y))); auto. intros t Ht'. apply HF. rewrite Rmin_left, Rmax_right in Ht' by lra. lra. }
  intros eps' He. destruct (HI eps' He) as (d & Hd & K). exists (Rmin d (b0 - a)). split; [apply Rmin_glb_lt; lra|]. intros x Hx Hxc.
  pose proof (Rmin_l d (b0 - a)). pose proof (Rmin_r d (b0 - a)).
  destruct (K x) as (w0 & IW0 & L); [lra|lra|]. exists (w0 + w). split; [|replace (w0 + w - (I1 + w)) with (w0 - I1) by ring; auto].
  apply (is_RInt_Chasles F x b0 c w0 w IW0 IW').
Qed.
Lemma finish (F : R -> R) (Q : R -> Prop) h n fast (start t1 end_ z v : I) l order eps a c : (1 <= order)%Z -> (order < 2 ^ 52)%Z -> awf 1 h -> plog h -> noarc h = true -> a < c -> isin end_ c ->
  (forall y, a < y <= c -> rval h (fun _ => y) = F y) -> (forall q, In q l -> exists x, a < x <= c /\ isin (snd (fst q)) x) ->
  (forall b0, a < b0 <= c -> isin t1 b0 -> Q b0 /\ exists I1, improper F a b0 I1 /\ isin z I1) ->
  ((t1 = end_ /\ v = z) \/ exists s1 r l1 s2, defint_autostep P fuel root h n fast t1 end_ order eps s1 = (Ok (r, l1), s2) /\ v = iadd z r /\ (forall q, In q l1 -> In q l)) ->
  (exists rest, l = (start, t1, isub t1 start) :: rest) ->
  exists b0, a < b0 <= c /\ Q b0 /\ (forall y, b0 < y <= c -> adom h (fun _ => y)) /\ exists J, improper F a c J /\ isin v J.
Proof.
  intros O1 O2 W PL NA AC Hc HF HL H1 [[-> ->]|(s1 & r & l1 & s2 & E & -> & HI)] [rest EL].
  - destruct (H1 c ltac:(lra) Hc) as (HQ & J & HJ). exists c. repeat split; auto; try lra. intros y Hy. lra. exists J. exact HJ.
  - destruct (HL (start, t1, isub t1 start)) as (b0 & B0 & Ht); [rewrite EL; now left|]. cbn [fst snd] in Ht. destruct (H1 b0 B0 Ht) as (HQ & I1 & HI1 & HZ1).
    destruct (glue F h n fast t1 end_ z r l1 order eps s1 s2 a b0 c I1) as (D & J & HJ & HV); auto.
    + intros q Hq. destruct (HL q (HI q Hq)) as (x & _ & Hx). eauto.
    + exists b0. repeat split; auto; try lra. intros y Hy. apply D. lra. exists J. auto.
Qed.

(* ---- defint_power3_autostep, defint_power_autostep ---- *)
Lemma body_pure (f g : hfn B) pf pg power mult : pure f pf -> pure g pg -> forall x, sim B (pw_body P fuel f g power mult x)
  (fun m D => do fx <- pf m D x; do d <- div_tn fx mult; do p <- ps_pow m D d [power : bT B]; do gx <- pg m D x; ps_mul m D p gx) /\ keep B (pw_body P fuel f g power mult x).
Proof.
  intros H K x. split.
  - unfold pw_body. apply (sim_bind B (f x) (fun m D => pf m D x) _ (fun m D fx => do d <- div_tn fx mult; do p <- ps_pow m D d [power : bT B]; do gx <- pg m D x; ps_mul m D p gx) (proj1 (H x))). intros fx.
    apply (sim_bind B _ (fun _ _ => div_tn fx mult) _ (fun m D d => do p <- ps_pow m D d [power : bT B]; do gx <- pg m D x; ps_mul m D p gx) (sim_lift B _)). intros d.
    apply (sim_bind B _ (fun m D => ps_pow m D d [power : bT B]) _ (fun m D p => do gx <- pg m D x; ps_mul m D p gx) (sim_pow B _ _)). intros p.
    apply (sim_bind B (g x) (fun m D => pg m D x) _ (fun m D gx => ps_mul m D p gx) (proj1 (K x))). intros gx. apply sim_mul.
  - apply keep_bind; [apply H|]. intros. apply keep_bind; [apply keep_lift|]. intros. apply keep_bind; [unfold hps_pow; apply keep_bind; [apply keep_log|]; intros; apply keep_bind; [apply keep_mul|]; intros; apply keep_exp|]. intros. apply keep_bind; [apply K|]. intros. apply keep_mul.
Qed.
Notation h0_ := (fun x : bT B => hullSI s0 (x : I) : bT B).
Lemma p3_off (f g : hfn B) pf pg n h (start end_ : I) order power mult eps st v l st' : pure f pf -> pure g pg -> (1 <= order)%Z ->
  defint_power3_autostep P fuel root proot bpow n false h f g start end_ order power mult eps st = (Ok (v, l), st') ->
  exists t1 z, p3run B bpow false (hullSI s0 (isub t1 start) : bT B) pf pg (start : bT B) (isub t1 start : bT B) order (power : bT B) mult = Ok (z : bT B) /\
  ((t1 = end_ /\ v = z) \/ exists s1 r l1 s2, defint_autostep P fuel root h n false t1 end_ order eps s1 = (Ok (r, l1), s2) /\ v = iadd z r /\ (forall q, In q l1 -> In q l)) /\
  exists rest, l = (start, t1, isub t1 start) :: rest.
Proof.
  intros H K O1 E. unfold defint_power3_autostep, power3_autostep in E. apply (off_run n h order _ _ _ _ _ _ _ start end_ order eps st v l st' O1 (fun x => proj1 (body_pure f g pf pg power mult H K x)) (body_pure f g pf pg power mult H K)) in E.
  destruct E as (t1 & y & z & EY & EZ & R & L). exists t1, z. split; [|auto]. unfold p3run. specialize (EY (hullSI s0 (isub t1 start) : bT B)). cbv beta in EY.
  apply bind_ok in EY as (x & Ex & EY). apply bind_ok in EY as (fx & Ef & EY). apply bind_ok in EY as (d & Ed & EY). apply bind_ok in EY as (p & Ep & EY). apply bind_ok in EY as (gx & Eg & EY).
  rewrite Ex. cbn [bind]. rewrite Ef. cbn [bind]. rewrite Ed. cbn [bind]. rewrite Ep. cbn [bind]. rewrite Eg. cbn [bind]. rewrite EY. cbn [bind]. exact EZ.
Qed.
(* ---- defint_singular_autostep ---- *)
Lemma sbody_pure (f : hfn B) pf : pure f pf -> forall x, sim B (sg_body P fuel f x) (fun m D => do y <- pf m D x; ps_integrate y) /\ keep B (sg_body P fuel f x).
Proof.
  intros H x. split; [|apply keep_bind; [apply H|intros; apply keep_lift]]. unfold sg_body.
  exact (sim_bind B (f x) (fun m D => pf m D x) _ (fun m D y => ps_integrate y) (proj1 (H x)) (fun y => sim_lift B (ps_integrate y))).
Qed.
Lemma sing_off (f : hfn B) pf n h (start end_ : I) order eps st v l st' : pure f pf -> (2 <= order)%Z ->
  defint_singular_autostep P fuel root n false h f start end_ order eps st = (Ok (v, l), st') ->
  exists t1 z, singular_run (B:=B) (hullSI s0 (isub t1 start) : bT B) pf (start : bT B) (isub t1 start : bT B) (order - 1) = Ok (z : bT B) /\
  ((t1 = end_ /\ v = z) \/ exists s1 r l1 s2, defint_autostep P fuel root h n false t1 end_ order eps s1 = (Ok (r, l1), s2) /\ v = iadd z r /\ (forall q, In q l1 -> In q l)) /\
  exists rest, l = (start, t1, isub t1 start) :: rest.
Proof.
  intros H O1 E. unfold defint_singular_autostep in E. apply (off_run n h (order - 1) _ _ _ _ _ _ _ start end_ order eps st v l st' ltac:(lia) (fun x => proj1 (sbody_pure f pf H x)) (sbody_pure f pf H)) in E.
  destruct E as (t1 & y & z & EY & EZ & R & L). exists t1, z. split; [|auto]. unfold singular_run. specialize (EY (hullSI s0 (isub t1 start) : bT B)). cbv beta in EY.
  apply bind_ok in EY as (x & Ex & EY). apply bind_ok in EY as (fx & Ef & EY).
  rewrite Ex. cbn [bind]. rewrite Ef. cbn [bind]. rewrite EY. cbn [bind]. exact EZ.
Qed.
(* ---- an expression followed by k, with or without history ---- *)
Definition after (e : aexpr) (k : list (bT B) -> res (list (bT B))) : hfn B := fun x => dh p <- hobj e x; hlift (k p).
Lemma after_pure e k : pure (after e k) (fun m D x => do p <- psafun B e m D x; k p).
Proof.
  intros x. split; [|apply keep_bind; [apply keep_eval|intros; apply keep_lift]].
  exact (sim_bind B (hobj e x) (fun m D => psafun B e m D x) _ (fun _ _ q => k q) (proj1 (pure_obj e x)) (fun q => sim_lift B (k q))).
Qed.
Lemma after_run e k n fast h (start end_ : I) order eps st v l st' a : (2 <= order)%Z -> (order < 2 ^ 52)%Z -> awf 1 e -> plog e -> noarc e = true -> isin start a ->
  defint_singular_autostep P fuel root n fast h (after e k) start end_ order eps st = (Ok (v, l), st') ->
  let s := Z.to_nat order in let x := (start : bT B) :: PsaModel.t1 :: repeat t0 (s - 2) in
  exists t1 y q J w1 w2, hok B rel e [] s a w1 /\ p_dom w1 = (hullSI s0 (isub t1 start) : bT B) /\ hpseval (fun _ => x) e w1 = (Ok y, w2) /\ k y = Ok q /\ ps_integrate (B:=B) q = Ok J /\
  let z := ps_eval (B:=B) J (isub t1 start : bT B) in
  ((t1 = end_ /\ v = z) \/ exists s1 r l1 s2, defint_autostep P fuel root h n fast t1 end_ order eps s1 = (Ok (r, l1), s2) /\ v = iadd z r /\ (forall q, In q l1 -> In q l)) /\
  exists rest, l = (start, t1, isub t1 start) :: rest.
Proof.
  intros O1 O2 W PL NA Ha E s x0. assert (L2 : (2 <= s)%nat) by (unfold s; lia). assert (LM : (Z.of_nat s <= 2 ^ 52)%Z) by (unfold s; lia).
  unfold defint_singular_autostep, sa_run in E. apply hb_ok in E as (u0 & s1 & M1 & E). unfold hmod in M1. injection M1 as _ <-.
  apply hb_ok in E as (x & s2 & EX & E). unfold hget, hlift in EX. injection EX as EX <-.
  rewrite (setorder_id B) in EX by lia. replace (Z.to_nat (order - 1) - 1)%nat with (s - 2)%nat in EX by (unfold s; lia). apply oki in EX. subst x. cbn [app] in E. fold x0 in E.
  apply hb_ok in E as (u1 & s3 & M2 & E). unfold hmod in M2. injection M2 as _ <-.
  set (s3 := set_mode 1 _) in E. apply hb_ok in E as (y1 & s4 & EY & E). unfold sg_body at 1 in EY. apply hb_ok in EY as (y0' & s4' & EY & EJ). unfold hlift in EJ. injection EJ as EJ <-.
  unfold after at 1 in EY. apply hb_ok in EY as (y0 & s4 & EY & EK). unfold hlift in EK. injection EK as EK <-.
  assert (F1 : p_mode s3 = 1%Z /\ p_uh s3 = false /\ (fast = true -> p_rh s3 = true /\ p_hist s3 = [])) by (unfold s3; destruct fast; repeat split; auto; discriminate).
  destruct F1 as (F1 & F2 & F3).
  destruct (first_plain B rel (IOK b fuel) e W PL NA s L2 LM start a s3 y0 s4 Ha F1 F2 EY) as (G1 & G2 & G3 & G4).
  apply hb_ok in E as (y2 & s5 & EO & E). unfold hget, hlift in EO. injection EO as EO <-.
  apply hb_ok in E as (rd & s5 & ER & E). unfold hlift in ER. injection ER as ER <-.
  apply hb_ok in E as (u2 & s6 & M3 & E). unfold hmod in M3. injection M3 as _ <-. set (s6 := set_mode 2 _) in E.
  apply hb_ok in E as (q & s7 & EL & E). destruct q as [[[z t1] step] flag].
  assert (HO : hok B rel e [] s a s6).
  { split; [reflexivity|]. unfold s6. destruct fast; cbn [set_mode set_uh p_uh p_rh p_hist]; [|intros C; rewrite G2 in C; discriminate C]. intros _. destruct (F3 eq_refl) as [F4 F5]. split; [rewrite G3; exact F4|]. exists s. split; auto. }
  edestruct (loop_ok (hok B rel e [] s a) (sg_body P fuel (after e k) x0)) as (E1 & E2 & w1 & J & HO1 & D1 & Y1 & Z1); [| | |exact HO|exact EL|].
  { intros w D HD. exact HD. }
  { intros w y w' HD EB. unfold sg_body in EB. apply hb_ok in EB as (p' & w2 & EP & EB). unfold hlift in EB. injection EB as _ <-. unfold after in EP. apply hb_ok in EP as (p & w3 & EP & EB). unfold hlift in EB. injection EB as _ <-.
    exact (proj1 (keep_plain B rel (IOK b fuel) e W PL NA s L2 start a w p w3 Ha HD EP)). }
  { intros w er w' HD EB. destruct (sbody_pure (after e k) _ (after_pure e k) x0) as [_ [K _]%(fun K => K w)]. rewrite EB in K. cbn [snd] in K.
    split; [cbn [set_uh p_mode]; rewrite K; exact (proj1 HD)|intros C; discriminate C]. }
  unfold sg_body, after, hbind in Y1. destruct (hobj e x0 w1) as [[y|er] w2] eqn:EP; [|discriminate Y1]. unfold hlift in Y1. destruct (k y) as [q|] eqn:EQ; [|discriminate Y1]. cbn [fst] in Y1. injection Z1 as <-. subst step.
  exists t1, y, q, J, w1, w2. do 5 (split; [assumption|]). cbv zeta.
  apply hb_ok in E as (u3 & s8 & M4 & E). unfold hmod in M4. injection M4 as _ <-. destruct flag.
  - unfold hret, hlift in E. injection E as <- <- <-. split; [left; split; auto|]. exists []. reflexivity.
  - apply hb_ok in E as (r & s9 & EA & E). unfold hret, hlift in E. injection E as <- <- <-. split; [|exists (snd r); reflexivity].
    right. destruct r as [r l1]. exists (ode_leave P fuel st s7), r, l1, s9. split; auto. split; auto. intros q' Hq. now right.
Qed.
Lemma hbind_ret {A} (m : hM B A) st : (dh p <- m; hlift (Ok p)) st = m st.
Proof. unfold hbind, hlift. destruct (m st) as [[x|er] st']; reflexivity. Qed.
Lemma sing_ext (f f' : hfn B) n fast h (start end_ : I) order eps st : (forall x s, f x s = f' x s) ->
  defint_singular_autostep P fuel root n fast h f start end_ order eps st = defint_singular_autostep P fuel root n fast h f' start end_ order eps st.
Proof.
  intros H. replace f' with f; [reflexivity|]. apply FunctionalExtensionality.functional_extensionality. intros x. apply FunctionalExtensionality.functional_extensionality. apply H.
Qed.
Lemma s0_law (X : bT B) x z : rel X x -> mix 0 x z -> rel (hullSI s0 (X : I)) z.
Proof. intros HX M. change (hullSI s0 (X : I)) with (hull (ipt s0) (X : I)). apply (isin_hull_law b (ipt s0) X 0 x); auto. exact (zero_in_ b). Qed.
Lemma hull_dom (t1 start : I) a b0 u : isin start a -> isin t1 b0 -> mix 0 (b0 - a) u -> isin (hullSI s0 (isub t1 start)) u.
Proof.
  intros Ha Hb Hu. change (hullSI s0 (isub t1 start)) with (hull (ipt s0) (isub t1 start)). apply (isin_hull_law b (ipt s0) (isub t1 start) 0 (b0 - a)); auto; [exact (zero_in_ b)|].
  exact (bk_sub _ _ (IOK b fuel) t1 start b0 a Hb Ha).
Qed.
Lemma sing_plain e n fast h (start end_ : I) order eps st v l st' a c : (2 <= order)%Z -> (order < 2 ^ 52)%Z -> awf 1 e -> plog e -> noarc e = true -> awf 1 h -> plog h -> noarc h = true ->
  isin start a -> isin end_ c -> (forall y, rval h (fun _ => y) = rval e (fun _ => y)) ->
  defint_singular_autostep P fuel root n fast h (hobj e) start end_ order eps st = (Ok (v, l), st') -> (forall q, In q l -> exists x, isin (snd (fst q)) x) ->
  exists J, is_RInt (fun y => rval e (fun _ => y)) a c J /\ isin v J.
Proof.
  intros O1 O2 W PL NA W' PL' NA' Ha Hc HH E HL. rewrite (sing_ext _ (after e (fun p => Ok p))) in E by (intros; symmetry; apply hbind_ret).
  destruct (after_run e _ n fast h start end_ order eps st v l st' a O1 O2 W PL NA Ha E) as (t1 & y & q & J & w1 & w2 & HO & D1 & EP & EQ & EJ & R & [rest EL]). apply oki in EQ. subst q.
  set (s := Z.to_nat order) in *. assert (L2 : (2 <= s)%nat) by (unfold s; lia). assert (LM : (Z.of_nat s <= 2 ^ 52)%Z) by (unfold s; lia).
  assert (PC : forall b0, isin t1 b0 -> exists w, is_RInt (fun y => rval e (fun _ => y)) a b0 w /\ isin (ps_eval (B:=B) J (isub t1 start : bT B)) w).
  { intros b0 Hb. assert (HS : isin (isub t1 start) (b0 - a)) by exact (bk_sub _ _ (IOK b fuel) t1 start b0 a Hb Ha).
    destruct (piece_plain B rel (IOK b fuel) (isin_itv b fuel) e W PL NA s L2 LM start (isub t1 start) a (b0 - a) w1 y w2 J Ha HO HS) as (w & IV & RV); auto.
    { intros u Hu. rewrite D1. now apply (hull_dom t1 start a b0 u). }
    replace (a + (b0 - a)) with b0 in * by ring. exists w. auto. }
  destruct R as [[-> ->]|(s1 & r & l1 & s2 & EA & -> & HI)]; [auto|].
  destruct (HL (start, t1, isub t1 start)) as [b0 Hb]; [rewrite EL; now left|]. cbn [fst snd] in Hb. destruct (PC b0 Hb) as (w & IW & RW).
  destruct (autostep_ok b fuel root h n fast t1 end_ order eps s1 r l1 s2 b0 c W' PL' NA' ltac:(lia) O2 EA) as (_ & w' & IW' & RW'); auto.
  exists (w + w'). split; [|exact (bk_add _ _ (IOK b fuel) _ _ _ _ RW RW')]. apply (is_RInt_Chasles _ a b0 c w w' IW). revert IW'. apply is_RInt_ext. intros t _. apply HH.
Qed.
(* div_tn(f(x), m) *)
Lemma sing_cut e m n fast h (start end_ : I) order eps st v l st' a c : (2 <= order)%Z -> (order < 2 ^ 52)%Z -> (0 <= m < order - 1)%Z -> awf 1 e -> plog e -> noarc e = true -> awf 1 h -> plog h -> noarc h = true ->
  isin start a -> isin end_ c -> a < c -> vanish (Z.to_nat m) (fun t => rval e (fun _ => a + t)) ->
  (forall y, a < y <= c -> rval h (fun _ => y) = rval e (fun _ => y) / (y - a) ^ Z.to_nat m) ->
  defint_singular_autostep P fuel root n fast h (hcut (hobj e) m) start end_ order eps st = (Ok (v, l), st') -> (forall q, In q l -> exists x, a < x <= c /\ isin (snd (fst q)) x) ->
  exists b0, a < b0 <= c /\ (forall y, a <= y <= b0 -> adom e (fun _ => y)) /\ (forall y, b0 < y <= c -> adom h (fun _ => y)) /\
  exists J, improper (fun y => rval e (fun _ => y) / (y - a) ^ Z.to_nat m) a c J /\ isin v J.
Proof.
  intros O1 O2 M1 W PL NA W' PL' NA' Ha Hc AC V HH E HL. 
  destruct (after_run e (fun p => div_tn p m) n fast h start end_ order eps st v l st' a O1 O2 W PL NA Ha E) as (t1 & y & q & J & w1 & w2 & HO & D1 & EP & EQ & EJ & R & REST).
  set (s := Z.to_nat order) in *. assert (L2 : (2 <= s)%nat) by (unfold s; lia). assert (LM : (Z.of_nat s <= 2 ^ 52)%Z) by (unfold s; lia).
  apply (finish (fun y => rval e (fun _ => y) / (y - a) ^ Z.to_nat m) (fun b0 => forall y, a <= y <= b0 -> adom e (fun _ => y)) h n fast start t1 end_ (ps_eval (B:=B) J (isub t1 start : bT B)) v l order eps a c); auto; [lia|].
  intros b0 Hb0 Hb. assert (HS : isin (isub t1 start) (b0 - a)) by exact (bk_sub _ _ (IOK b fuel) t1 start b0 a Hb Ha).
  assert (DM : forall u, 0 <= u <= b0 - a -> rel (p_dom w1) u). { intros u Hu. rewrite D1. apply (hull_dom t1 start a b0 u); auto. unfold mix. left. lra. }
  assert (K : forall u, 0 <= u <= b0 - a -> adom e (fun _ => a + u) /\ Rep B rel (Some (u, true)) s y (fun t => rval e (fun _ => a + t))).
  { intros u Hu. apply (second_rep B rel (IOK b fuel) (isin_itv b fuel) e W PL NA s L2 LM start a w1 u y w2 Ha HO); auto. apply DM. lra. }
  split. { intros z Hz. replace z with (a + (z - a)) by ring. apply K. lra. }
  destruct (shift_rep B rel (IOK b fuel) s y q (fun t => rval e (fun _ => a + t)) m (b0 - a) L2 ltac:(unfold s; lia) ltac:(lra)) as (H & HN & _ & HR); auto.
  { intros u Hu. split; [now apply K|]. apply (rval_continuous 1 e (fun u _ => a + u)); auto; [|apply K; auto]. intros i Hi. apply (continuous_plus (fun _ => a) (fun u => u)); [apply continuous_const|apply continuous_id]. }
  destruct (int_ok B rel (IOK b fuel) (isin_itv b fuel) s q J H (isub t1 start) (b0 - a) ltac:(lia) LM ltac:(lra) HS HR EJ) as (w & IW & RW). exists w. split; auto.
  cut (improper (fun y => rval e (fun _ => y) / (y - a) ^ Z.to_nat m) (0 + a) (b0 - a + a) w). { replace (0 + a) with a by ring. now replace (b0 - a + a) with b0 by ring. }
  apply (improper_ext (fun y => H (y - a))); [|now apply improper_shift].
  intros t Ht. rewrite HN by lra. replace (a + (t - a)) with t by ring. reflexivity.
Qed.
(* div_tn(f(x), m) * g(x) *)
Lemma cutmul_run (hull0 : bT B -> bT B) (HULL0 : forall (X : bT B) x z, rel X x -> mix 0 x z -> rel (hull0 X) z) ef eg m st (start end_ v : bT B) order st' a c : (1 <= order)%Z -> (order < 2 ^ 52)%Z -> (0 <= m < order)%Z ->
  awf 1 ef -> plog ef -> noarc ef = true -> awf 1 eg -> plog eg -> noarc eg = true -> rel start a -> rel end_ c -> a < c -> vanish (Z.to_nat m) (fun t => rval ef (fun _ => a + t)) ->
  defint_singular hull0 st (cutmul (psafun B ef) (psafun B eg) m) start end_ order = (Ok v, st') ->
  exists I, improper (fun y => rval ef (fun _ => y) / (y - a) ^ Z.to_nat m * rval eg (fun _ => y)) a c I /\ rel v I.
Proof.
  intros O1 O2 M1 Wf Pf Nf Wg Pg Ng Ha Hc AC V. apply (sing_core B rel (IOK b fuel) (isin_itv b fuel) hull0 HULL0 _ _ st start end_ order v st' a c O1 O2 Ha Hc AC).
  intros D x Y h Eh HD HX E. unfold cutmul in E. apply bind_ok in E as (p & Ep & E). apply bind_ok in E as (d & Ed & E). apply bind_ok in E as (q & Eq & E).
  destruct (obj_cut B rel (IOK b fuel) (isin_itv b fuel) false ef D x d m order a h O1 O2 M1 Wf Pf Nf ltac:(lra) HD HX V) as (H & HN & HR); [unfold cut, obj; now rewrite Ep|].
  pose proof (obj_rep B rel (IOK b fuel) (isin_itv b fuel) false false eg x D (S (Z.to_nat order)) a h q ltac:(lia) ltac:(lia) Wg Pg Ng ltac:(lra) HD (HX false) Eq) as RG. unfold sg in *.
  exists (fun t => H t * rval eg (fun _ => a + t)). split.
  - intros u Hu. rewrite HN by lra. replace (a + u - a) with u by ring. reflexivity.
  - intros u Hu. split.
    + apply (mul_rep B rel (IOK b fuel) (isin_itv b fuel) (S (Z.to_nat order)) d q Y H (fun t => rval eg (fun _ => a + t)) D h ltac:(lia) ltac:(lia) HD); auto; intros; [now apply HR|now apply RG].
    + apply (continuous_mult H (fun t => rval eg (fun _ => a + t))); [now apply HR|now apply RG].
Qed.
(* the run seen as a call of the function with fixed step *)
Lemma as_fixed st f (start t1 z : I) o : singular_run (B:=B) (hullSI s0 (isub t1 start) : bT B) f (start : bT B) (isub t1 start : bT B) o = Ok (z : bT B) ->
  exists st', defint_singular (fun x : bT B => hullSI s0 (x : I) : bT B) st f (start : bT B) (t1 : bT B) o = (Ok (z : bT B), st').
Proof. intros E. unfold defint_singular, with_state. change (bsub (t1 : bT B) (start : bT B)) with (isub t1 start : bT B). rewrite E. eauto. Qed.
End Auto.
