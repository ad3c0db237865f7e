(* Proofs about TriModel.v, for every double back end. *)
From Coq Require Import Reals ZArith Bool List Lra Lia Psatz Arith.
From Coquelicot Require Import Coquelicot.
From Flocq Require Import Core BinarySingleNaN.
From Verif Require Import Fp64 RDoubleHw.
From Verif Require Import Ext Scalar IntervalModel IntervalSpec IntervalProofs IntervalEncl IntervalSets Backends Ex64 ElemModel ElemExp ElemLog ElemConst Elem64 PropsElem.
From Verif Require Import RealFun ADModel ADReal ADProofs ADInst PsaModel PsaReal PsaProofs PsaExpr PsaUse PsaUseProofs PsaInst PsaHist PsaHistProofs PsaHistRep PsaHistKeep PropsPsa PsaInt.
From Verif Require Import OdeModel OdeProofs OdeHist OdeIndep PropsPsaHist DefintAuto DefintAutoProofs PropsDefint PropsBessel SingReal SingModel SingProofs PropsSing SingAuto SingAutoProofs PropsSingAuto PowEnv PropsPowPar GammaReal GammaProofs TriReal TriModel.
Import List ListNotations.
Open Scope R_scope.

(* ---- function objects without history ---- *)
Definition divcut {B : base} (g f : fn B) (n : Z) : fn B := fun m D x => do p <- g m D x; do q <- f m D x; do d <- div_tn q n; ps_div m D p d.
Lemma pure_divcut {B : base} (g f : hfn B) q p n : pure g q -> pure f p -> pure (hdivcut g f n) (divcut q p n).
Proof.
  intros K H x. split.
  - unfold hdivcut, divcut. apply (sim_bind B (g x) (fun m D => q m D x) _ (fun m D a => do c <- p m D x; do d <- div_tn c n; ps_div m D a d) (proj1 (K x))). intros a.
    apply (sim_bind B (f x) (fun m D => p m D x) _ (fun m D c => do d <- div_tn c n; ps_div m D a d) (proj1 (H x))). intros c.
    apply (sim_bind B _ (fun _ _ => div_tn c n) _ (fun m D d => ps_div m D a d) (sim_lift B _)). intros d. apply sim_div.
  - apply keep_bind; [apply K|]. intros. apply keep_bind; [apply H|]. intros. apply keep_bind; [apply keep_lift|]. intros. apply keep_div.
Qed.
Definition parfun {B : base} (cs : list B) (e : aexpr) : fn B := fun m D x => pseval m D (penv cs x) e.
Lemma pure_par {B : base} (cs : list B) e : pure (pobj cs e) (parfun cs e).
Proof. intros x. split; [exact (sim_eval B (penv cs x) e)|apply keep_eval]. Qed.

Section Run.
Variables (b : backend) (fuel : nat).
Notation S_ := (bscal b).
Notation B := (Ibase (bpar b) fuel).
Notation I := (iv S_).
Notation rel := (@isin S_).
Notation P := (bpar b).
Variable root : S_ -> nat -> S_.
(* what a return without DEFINT_FAST means *)
Lemma off_gen n (h : hfn B) o first p1 rad0 body pb post rt (start end_ : I) order eps st v l st' : (1 <= o)%Z ->
  (forall x, sim B (first x) (fun m D => p1 m D x)) -> (forall x, sim B (body x) (fun m D => pb m D x) /\ keep B (body x)) ->
  sa_run P fuel root n false h o first rad0 body post rt start end_ order eps st = (Ok (v, l), st') ->
  exists t1 y z, (forall D, (do x <- ps_setorder (B:=B) 2 D [(start : bT B); PsaModel.t1] o; pb 2%Z (hullSI s0 (isub t1 start) : bT B) x) = Ok y) /\ post y (isub t1 start) = Ok z /\
  ((t1 = end_ /\ v = z) \/ exists s1 r l1 s2, autostep P fuel root h n false t1 end_ order eps s1 = (Ok (r, l1), s2) /\ v = iadd z r /\ (forall q, In q l1 -> In q l)) /\
  exists rest, l = (start, t1, isub t1 start) :: rest.
Proof.
  intros O1 SF SB E. unfold sa_run in E. apply hb_ok in E as (u0 & s1 & M1 & E). unfold hmod in M1. injection M1 as _ <-.
  apply hb_ok in E as (x & s2 & EX & E). unfold hget, hlift in EX. injection EX as EX <-.
  apply hb_ok in E as (u1 & s3 & M2 & E). unfold hmod in M2. injection M2 as _ <-.
  set (s3 := set_mode 1 (set_rh false (set_uh false st))) in E.
  apply hb_ok in E as (y1 & s4 & EY & E). assert (U4 : p_uh s4 = false). { destruct (SF x s3 eq_refl) as [_ SE]. rewrite EY in SE. destruct (SE y1 eq_refl) as (_ & _ & A3 & _). exact A3. }
  apply hb_ok in E as (y2 & s5 & EO & E). unfold hget, hlift in EO. injection EO as EO <-.
  apply hb_ok in E as (rd & s5 & ER & E). unfold hlift in ER. injection ER as ER <-.
  apply hb_ok in E as (u2 & s6 & M3 & E). unfold hmod in M3. injection M3 as _ <-.
  apply hb_ok in E as (q & s7 & EL & E). destruct q as [[[z t1] step] flag].
  destruct (SB x) as [SB1 SB2].
  destruct (off_loop b fuel _ _ _ _ _ _ _ _ _ _ _ _ z t1 step flag s7 SB1 SB2 (conj eq_refl U4 : off b fuel (set_mode 2 s4)) EL) as (E1 & E2 & y & YB & ZB). subst step.
  apply hb_ok in E as (u3 & s8 & M4 & E). unfold hmod in M4. injection M4 as _ <-.
  exists t1, y, z. split. { intros D. rewrite (setorder_id B _ _ _ _ O1) in EX. rewrite (setorder_id B _ _ _ _ O1). apply oki in EX. subst x. exact YB. }
  split; [exact ZB|]. destruct flag.
  - unfold hret, hlift in E. injection E as <- <- <-. split; [left; auto|]. exists []. reflexivity.
  - apply hb_ok in E as (r & s9 & EA & E). unfold hret, hlift in E. injection E as <- <- <-. split; [|exists (snd r); reflexivity].
    right. destruct r as [r l1]. exists (ode_leave P fuel st s7), r, l1, s9. split; auto. split; auto. intros q Hq. now right.
Qed.
Lemma sing_gen (f : hfn B) pf n (h : hfn B) (start end_ : I) order eps st v l st' : pure f pf -> (2 <= order)%Z ->
  singular_autostep P fuel root order n false h f start end_ eps st = (Ok (v, l), st') ->
  exists t1 z, singular_run (B:=B) (hullSI s0 (isub t1 start) : bT B) pf (start : bT B) (isub t1 start : bT B) (order - 1) = Ok (z : bT B) /\
  ((t1 = end_ /\ v = z) \/ exists s1 r l1 s2, autostep P fuel root h n false t1 end_ order eps s1 = (Ok (r, l1), s2) /\ v = iadd z r /\ (forall q, In q l1 -> In q l)) /\
  exists rest, l = (start, t1, isub t1 start) :: rest.
Proof.
  intros H O1 E. unfold singular_autostep in E. apply (off_gen n h (order - 1) _ _ _ _ _ _ _ start end_ order eps st v l st' ltac:(lia) (fun x => proj1 (sbody_pure b fuel f pf H x)) (sbody_pure b fuel f pf H)) in E.
  destruct E as (t1 & y & z & EY & EZ & R & L). exists t1, z. split; [|auto]. unfold singular_run. specialize (EY (hullSI s0 (isub t1 start) : bT B)). cbv beta in EY.
  apply bind_ok in EY as (x & Ex & EY). apply bind_ok in EY as (fx & Ef & EY).
  rewrite Ex. cbn [bind]. rewrite Ef. cbn [bind]. rewrite EY. cbn [bind]. exact EZ.
Qed.
(* an expression with data members *)
Lemma par_rep j e (cs : list I) ys (x : list (bT B)) (D : bT B) s a h Y : Forall2 isin cs ys -> awf (S (length cs)) e -> plogv isc (cvar ys 0) e -> noarc e = true -> (2 <= s)%nat -> (Z.of_nat s <= 2 ^ 52)%Z -> 0 < h ->
  (forall u, 0 <= u <= h -> rel D u) -> (forall u, 0 <= u <= h -> length x = s /\ Rep B rel (Some (u, j)) s x (fun t => a + t)) -> parfun (cs : list (bT B)) e 2%Z D x = Ok Y ->
  forall u, 0 <= u <= h -> adom e (cvar ys (a + u)) /\ Rep B rel (Some (u, j)) s Y (fun t => rval e (cvar ys (a + t))) /\ continuous (fun t => rval e (cvar ys (a + t))) u.
Proof.
  intros CS W PL NA L2 LM Hh HD HX E u Hu. destruct (HX u Hu) as [LX RX]. unfold parfun in E.
  assert (KC : forall i t t', (i < S (length cs))%nat -> isc i = true -> cvar ys t i = cvar ys t' i) by (intros i t t' Hi C; exact (cvar_const B rel cs ys CS s L2 i t t' Hi C)).
  destruct (pseval_okv B rel (IOK b fuel) isc (cvar ys 0) (Some (u, j)) 2 D s (S (length cs)) (penv (cs : list (bT B)) x) (fun t => cvar ys (a + t)) e Y) as [DD RY]; auto.
  - simpl. split; auto. split; [auto|]. split; [apply HD; lra|apply (itv_cvx B rel (isin_itv b fuel))].
  - intros i Hi. pose proof (cs_at B rel cs ys CS s L2 i Hi) as K. destruct i as [|k]; [split; auto|]. destruct K as (c & y & E1 & E2 & R). unfold penv. rewrite E1. cbn [isc]. split; [reflexivity|].
    assert (EF : (fun t => cvar ys (a + t) (S k)) = (fun _ => y)) by (apply FunctionalExtensionality.functional_extensionality; intros t; unfold cvar; now apply nth_error_nth). rewrite EF. apply Rep_cst; auto; lia.
  - split; [exact (proj1 DD)|]. split; auto. apply (rval_continuous (S (length cs)) e (fun u => cvar ys (a + u))); auto; [|exact (proj1 DD)]. intros i Hi.
    destruct i as [|k]; [|apply (continuous_ext (fun _ => cvar ys 0 (S k))); [intros t; now apply KC|apply continuous_const]]. unfold cvar.
    apply (continuous_plus (fun _ => a) (fun u => u)); [apply continuous_const|apply continuous_id].
Qed.
(* g(x) / div_tn(f(x), m), all with data members *)
Theorem divcut_par_ok eh ef eg (ch cf cg : list I) yh yf yg m n (start end_ : I) order eps st v l st' a c :
  Forall2 isin ch yh -> awf (S (length ch)) eh -> plogv isc (cvar yh 0) eh -> noarc eh = true ->
  Forall2 isin cf yf -> awf (S (length cf)) ef -> plogv isc (cvar yf 0) ef -> noarc ef = true ->
  Forall2 isin cg yg -> awf (S (length cg)) eg -> plogv isc (cvar yg 0) eg -> noarc eg = true ->
  (2 <= order)%Z -> (order < 2 ^ 52)%Z -> (0 <= m < order - 1)%Z -> isin start a -> isin end_ c -> a < c -> vanish (Z.to_nat m) (fun t => rval ef (cvar yf (a + t))) ->
  let F := fun y => rval eg (cvar yg y) / (rval ef (cvar yf y) / (y - a) ^ Z.to_nat m) in
  (forall y, a < y <= c -> rval eh (cvar yh y) = F y) ->
  singular_autostep P fuel root order n false (pobj (ch : list (bT B)) eh) (hdivcut (pobj (cg : list (bT B)) eg) (pobj (cf : list (bT B)) ef) m) start end_ eps st = (Ok (v, l), st') ->
  (forall q, In q l -> exists x, a < x <= c /\ isin (snd (fst q)) x) ->
  exists J, improper F a c J /\ isin v J.
Proof.
  intros Ch Wh Ph Nh Cf Wf Pf Nf Cg Wg Pg Ng O1 O2 M1 Ha Hc AC V F HF E HL.
  destruct (sing_gen _ _ n _ start end_ order eps st v l st' (pure_divcut _ _ _ _ m (pure_par (cg : list (bT B)) eg) (pure_par (cf : list (bT B)) ef)) O1 E) as (t1 & z & EZ & R & [rest EL]).
  assert (PC : forall b0, a < b0 -> isin t1 b0 -> exists J, improper F a b0 J /\ isin z J).
  { intros b0 AB Hb. destruct (as_fixed b fuel (mkgst 1 false false (start : bT (IB b fuel))) _ start t1 z (order - 1) EZ) as [w EF].
    revert EF. apply (sing_core B rel (IOK b fuel) (isin_itv b fuel) _ (s0_law b fuel) _ F _ _ _ _ _ _ a b0); auto; try lia.
    intros D x Y h Eh HD HX ED. unfold divcut in ED. apply bind_ok in ED as (p & Ep & ED). apply bind_ok in ED as (q & Eq & ED). apply bind_ok in ED as (d & Ed & ED).
    set (s := S (Z.to_nat (order - 1))) in *. assert (L2 : (2 <= s)%nat) by (unfold s; lia). assert (LM : (Z.of_nat s <= 2 ^ 52)%Z) by (unfold s; lia).
    pose proof (par_rep false eg cg yg x D s a h p Cg Wg Pg Ng L2 LM ltac:(lra) HD (HX false) Ep) as RG.
    pose proof (par_rep true ef cf yf x D s a h q Cf Wf Pf Nf L2 LM ltac:(lra) HD (HX true) Eq) as RF.
    destruct (shift_rep B rel (IOK b fuel) s q d _ m h L2 ltac:(unfold s; lia) ltac:(lra) (fun u Hu => proj2 (RF u Hu)) V Ed) as (H & HN & _ & HR).
    assert (RD : forall u, 0 <= u <= h -> H u <> 0 /\ Rep B rel (Some (u, false)) s Y (fun t => rval eg (cvar yg (a + t)) / H t)).
    { intros u Hu. destruct (Rep_div B rel (IOK b fuel) (Some (u, false)) 2 D s ltac:(lia) LM (md B rel (isin_itv b fuel) u D h Hu HD) p d Y (fun t => rval eg (cvar yg (a + t))) H ED) as [NZ RY]; [now apply RG|now apply HR|]. split; auto. exact (proj1 NZ). }
    exists (fun t => rval eg (cvar yg (a + t)) / H t). split.
    - intros u Hu. unfold F. rewrite HN by lra. replace (a + u - a) with u by ring. reflexivity.
    - intros u Hu. destruct (RD u Hu) as [NZ RY]. split; auto. apply (continuous_mult (fun t => rval eg (cvar yg (a + t))) (fun t => / H t)); [now apply RG|].
      apply (continuous_comp H Rinv); [now apply HR|]. apply (ex_derive_continuous Rinv). auto_derive. auto. }
  destruct R as [[-> ->]|(s1 & r & l1 & s2 & EA & -> & HI)]; [now apply PC|].
  destruct (HL (start, t1, isub t1 start)) as (b0 & B0 & Ht); [rewrite EL; now left|]. cbn [fst snd] in Ht. destruct (PC b0 (proj1 B0) Ht) as (I1 & HI1 & HZ1).
  destruct (autostep_par_ok b fuel root eh ch yh n false t1 end_ order eps s1 r l1 s2 b0 c Ch Wh Ph Nh ltac:(lia) O2 EA) as (_ & w & IW & Hw); auto.
  { intros q Hq'. destruct (HL q (HI q Hq')) as (x & _ & Hx). eauto. }
  exists (I1 + w). split; [|exact (bk_add _ _ (IOK b fuel) _ _ _ _ HZ1 Hw)]. apply (improper_glue _ a b0 c); auto.
  apply (is_RInt_ext (fun y => rval eh (cvar yh y))); auto. intros t Ht'. apply HF. rewrite Rmin_left, Rmax_right in Ht' by lra. lra.
Qed.
End Run.

Lemma den_vanish : vanish 1 (fun t => rval tri_den_e (cvar [] (0 + t))).
Proof.
  exists 1, 1. split; [lra|]. intros t Ht. simpl. rewrite Rplus_0_l. unfold dy. simpl. replace (1 * 1 - exp (- t)) with (1 - exp (- t)) by ring. pose proof (den_pos t ltac:(lra)). rewrite Rabs_pos_eq by lra.
  pose proof (exp_ineq1 (- t) ltac:(lra)). lra.
Qed.
Section T.
Variables (b : backend) (fuel : nat) (root : bscal b -> nat -> bscal b).
Variables (toint : bscal b -> Z) (th : bscal b) (t : R) (order : Z) (n : nat).
Notation I := (iv (bscal b)).
Hypothesis TO : forall (s : bscal b) z, sval s = XR (IZR z) -> (Z.abs z < 2 ^ 31)%Z -> toint s = z.
Hypothesis OR : (3 <= order < 2 ^ 52)%Z.
Hypothesis ET : sval th = XR t.
Hypothesis T0 : 0 < t.
Notation tplus := (trigamma_plus (bpar b) fuel root th order n false).
Notation tpt := (trigamma_point (bpar b) fuel root toint th order n false).
Lemma tplus_ok X x v l st st' : isin X x -> 0 < x -> tplus X st = (Ok (v, l), st') -> steps_in l 0 t -> exists G, is_trigamma x G /\ isin v G.
Proof.
  clear TO. intros HX H R HL. unfold trigamma_plus in R. apply hb_ok in R as (r & s2 & R1 & R). apply hb_ok in R as (e & s3 & R2 & R). unfold hlift in R2. injection R2 as R2 <-.
  apply hb_ok in R as (f & s4 & R3 & R). unfold hlift in R3. injection R3 as R3 <-. apply hb_ok in R as (q & s5 & R4 & R). unfold hlift in R4. injection R4 as R4 <-.
  unfold hret, hlift in R. injection R as <- <- <-. destruct r as [r lr]. cbn [fst snd] in *. unfold trigamma_0 in R1. rewrite obj_nil in R1.
  match type of R1 with singular_autostep _ _ _ _ _ _ (pobj [ineg X] trigamma_e) (hdivcut (pobj [ineg X] tri_num_e) (pobj [] tri_den_e) 1) (ipt s0) (ipt th) _ _ = _ => idtac end.
  assert (HT : isin (ipt th) t) by (apply isin_pt; auto using wfb). destruct (ok_s1 _ (bscal_ok b)) as [W1 V1].
  destruct (divcut_par_ok b fuel root trigamma_e tri_den_e tri_num_e [ineg X] [] [ineg X] [- x] [] [- x] 1 n (ipt s0) (ipt th) order (sdy 1 (-52)) st r lr s2 0 t) as (J & HJ & HV); auto; try lia.
  - constructor; [now apply (isin_neg (bscal_ok b))|constructor].
  - simpl. unfold lit. repeat split; lia.
  - simpl. intuition discriminate.
  - simpl. unfold lit. repeat split; lia.
  - simpl. intuition discriminate.
  - constructor; [now apply (isin_neg (bscal_ok b))|constructor].
  - simpl. lia.
  - simpl. intuition discriminate.
  - exact (zero_in_ b).
  - exact den_vanish.
  - intros y Hy. simpl. rewrite Rminus_0_r, Rmult_1_r. reflexivity.
  - destruct (ttail_ok x t T0 H) as (L & HT2 & HLb).
    exists (J + L). split.
    + apply (tri_split x t); auto. revert HJ. apply improper_ext. intros y Hy. simpl. rewrite Rminus_0_r, Rmult_1_r. unfold dy. simpl. replace (1 * 1 - exp (- y)) with (1 - exp (- y)) by ring.
      unfold tint. replace (- x * y) with (- (x * y)) by ring. pose proof (den_pos y ltac:(lra)). field. lra.
    + apply (isin_add (bscal_ok b)); auto.
      pose proof (isin_mul (bscal_ok b) _ _ _ _ HT HX) as HM.
      pose proof (iexp_encl (bok b) (bpar b) (bexp b) fuel _ _ _ R2 (isin_neg (bscal_ok b) _ _ HM)) as HE.
      pose proof (iexp_encl (bok b) (bpar b) (bexp b) fuel _ _ _ R3 (isin_neg (bscal_ok b) _ _ HT)) as HF.
      destruct (isin_div (bscal_ok b) _ _ _ _ _ R4 (isin_mul (bscal_ok b) _ _ _ _ HE (isin_addS (bscal_ok b) _ _ _ _ HM W1 V1)) (isin_mul (bscal_ok b) _ _ _ _ (isin_mul (bscal_ok b) _ _ _ _ HX HX) (isin_Ssub (bscal_ok b) _ _ _ _ W1 V1 HF))) as [_ HQ].
      apply (s0_law b fuel q _ L HQ). unfold mix. left. split; [apply HLb|]. destruct HLb as [_ HU]. eapply Rle_trans; [exact HU|]. right. unfold tprim. pose proof (den_pos t T0). rewrite (Rmult_comm x t). field. lra.
Qed.
Lemma inv_sq_ok (X q : I) x i : isin X x -> (Z.abs i <= 2 ^ 53)%Z -> inv_sq X i = Ok q -> x - IZR i <> 0 /\ isin q (/ ((x - IZR i) * (x - IZR i))).
Proof.
  intros HX Hi E. unfold inv_sq in E. pose proof (sub_int b X x i HX Hi) as HD. destruct (ok_s1 _ (bscal_ok b)) as [W1 V1].
  destruct (isin_Sdiv (bscal_ok b) _ _ _ _ _ E W1 V1 (isin_mul (bscal_ok b) _ _ _ _ HD HD)) as [N HQ]. split; [intros Z; apply N; rewrite Z; ring|]. unfold Rdiv in HQ. now rewrite Rmult_1_l in HQ.
Qed.
Lemma tp_up_ok (X : I) x k : isin X x -> forall r R q, (Z.of_nat k <= 2 ^ 53)%Z -> INR k < x -> isin r R -> is_trigamma (x - INR k) R -> tp_up X k r = Ok q -> exists G, is_trigamma x G /\ isin q G.
Proof.
  intros HX. induction k as [|k IH]; intros r R q K H Hr HG E.
  - simpl in *. injection E as <-. rewrite Rminus_0_r in HG. exists R. auto.
  - cbn [tp_up] in E. apply bind_ok in E as (d & Ed & E). destruct (inv_sq_ok X d x (Z.of_nat (S k)) HX ltac:(lia) Ed) as [_ HD]. rewrite <- INR_IZR_INZ in HD. rewrite S_INR in *.
    apply (IH (isub r d) (R - / ((x - (INR k + 1)) * (x - (INR k + 1)))) q ltac:(lia) ltac:(lra)); auto; [now apply (isin_sub (bscal_ok b))|].
    replace (x - INR k) with (x - (INR k + 1) + 1) by ring. apply (proj1 (trigamma_shift (x - (INR k + 1)) R ltac:(lra))). exact HG.
Qed.
(* 1 / x^2 + 1 / (x + 1)^2 + ... *)
Fixpoint sumsq (x : R) (k : nat) : R := match k with O => 0 | Datatypes.S k' => / (x * x) + sumsq (x + 1) k' end.
Fixpoint nopole (x : R) (k : nat) : Prop := match k with O => True | Datatypes.S k' => x <> 0 /\ nopole (x + 1) k' end.
Lemma Trigamma_down k : forall x G, nopole x k -> is_Trigamma (x + INR k) G -> is_Trigamma x (G + sumsq x k).
Proof.
  induction k as [|k IH]; intros x G N H.
  - simpl in *. now rewrite Rplus_0_r in *.
  - destruct N as [N1 N2]. rewrite S_INR in H. replace (x + (INR k + 1)) with (x + 1 + INR k) in H by ring. specialize (IH (x + 1) G N2 H). cbn [sumsq].
    replace (G + (/ (x * x) + sumsq (x + 1) k)) with (G + sumsq (x + 1) k + / (x * x)) by ring. now apply Trigamma_step.
Qed.
Lemma tp_down_ok (X : I) x k : isin X x -> forall i r R q, (Z.abs i + Z.of_nat k <= 2 ^ 53)%Z -> isin r R -> tp_down X k i r = Ok q ->
  nopole (x - IZR i) k /\ isin q (R + sumsq (x - IZR i) k).
Proof.
  intros HX. induction k as [|k IH]; intros i r R q K Hr E.
  - simpl in *. injection E as <-. split; auto. now rewrite Rplus_0_r.
  - cbn [tp_down] in E. apply bind_ok in E as (d & Ed & E). destruct (inv_sq_ok X d x i HX ltac:(lia) Ed) as [N HD].
    destruct (IH (i - 1)%Z _ _ q ltac:(lia) (isin_add (bscal_ok b) _ _ _ _ Hr HD) E) as [N' HQ].
    rewrite minus_IZR in N', HQ. replace (x - (IZR i - 1)) with (x - IZR i + 1) in N', HQ by ring. cbn [nopole sumsq]. split; auto. now rewrite <- Rplus_assoc.
Qed.
Lemma tpt_ok X x z v l st st' : isin X x -> floor_of b X z -> (Z.abs z < 2 ^ 31 - 1)%Z -> tpt X st = (Ok (v, l), st') -> steps_in l 0 t -> exists G, is_Trigamma x G /\ isin v G.
Proof.
  intros HX HF HZ R HL. pose proof (floor_le b X x z HF HX) as H0. pose proof (floor_v b X z HF) as V. unfold trigamma_point in R.
  destruct (ok_s1 _ (bscal_ok b)) as [W1 V1]. destruct (seqb (sfloor (lo X)) s1) eqn:E.
  - apply (ok_eq _ (bscal_ok b)) in E; auto using wfb. rewrite V, V1 in E. simpl in E. destruct (tplus_ok X x v l st st') as (G & HG & HV); auto; [lra|]. exists G. split; auto. apply Tpos; auto. lra.
  - destruct (nsub_int b _ _ V ltac:(lia)) as [W2 V2]. apply hb_ok in R as (r & s2 & R1 & R). destruct r as [r lr]. cbn [fst snd] in *.
    pose proof (isin_subS (bscal_ok b) _ _ _ _ HX W2 V2) as HX2. apply hb_ok in R as (q & s3 & R3 & R). unfold hlift in R3. injection R3 as R3 <-. unfold hret, hlift in R.
    destruct (slt s1 (sfloor (lo X))) eqn:C.
    + injection R as <- <- <-. destruct (tplus_ok _ _ r lr st s2 HX2) as (G & HG & HV); auto. { rewrite minus_IZR. lra. }
      apply (ok_lt _ (bscal_ok b)) in C; auto using wfb. rewrite V, V1 in C. simpl in C. apply lt_IZR in C.
      rewrite (TO _ (z - 1) V2) in R3 by lia. assert (EN : INR (Z.to_nat (z - 1)) = IZR (z - 1)) by (rewrite INR_IZR_INZ, Z2Nat.id by lia; reflexivity).
      destruct (tp_up_ok X x (Z.to_nat (z - 1)) HX r G q) as (G' & HG' & HV'); auto.
      * rewrite Z2Nat.id by lia. lia.
      * rewrite EN, minus_IZR. lra.
      * now rewrite EN.
      * exists G'. split; auto. apply Tpos; auto. apply IZR_lt in C. lra.
    + injection R as <- <- <-. destruct (tplus_ok _ _ r lr st s2 HX2) as (G & HG & HV); auto. { rewrite minus_IZR. lra. }
      assert (ZL : (z <= 0)%Z). { assert (~ (1 < z)%Z) as N1. { intros Q. assert (slt s1 (sfloor (lo X)) = true); [|congruence]. apply (ok_lt _ (bscal_ok b)); auto using wfb. rewrite V, V1. simpl. now apply IZR_lt. }
        assert (z <> 1)%Z as N2. { intros ->. assert (seqb (sfloor (lo X)) s1 = true); [|congruence]. apply (ok_eq _ (bscal_ok b)); auto using wfb. rewrite V, V1. simpl. reflexivity. } lia. }
      rewrite (TO _ z V) in R3 by lia.
      assert (EN : INR (Z.to_nat (1 - z)) = 1 - IZR z) by (rewrite INR_IZR_INZ, Z2Nat.id, minus_IZR by lia; reflexivity).
      destruct (tp_down_ok X x (Z.to_nat (1 - z)) HX 0 r G q) as [N HQ]; auto. { rewrite Z2Nat.id by lia. lia. }
      rewrite Rminus_0_r in N, HQ. exists (G + sumsq x (Z.to_nat (1 - z))). split; auto. apply Trigamma_down; auto. rewrite EN. rewrite minus_IZR in HG. replace (x + (1 - IZR z)) with (x - (IZR z - 1)) by ring. apply Tpos; auto. lra.
Qed.
End T.
