(* An expression evaluated twice with a history list, for any series as variables; the first step of defint_power_autostep as such an
   expression. *)
From Coq Require Import Reals ZArith Bool List Lra Lia Psatz Arith.
From Coquelicot Require Import Coquelicot.
From Verif Require Import Ext Scalar IntervalModel IntervalSpec IntervalProofs IntervalEncl IntervalSets Backends ElemModel PropsElem.
From Verif Require Import RealFun RealConst ADModel ADReal ADProofs ADInst PsaModel PsaReal PsaProofs PsaExpr PsaInt PsaUse PsaUseProofs PsaInst PsaHist PsaHistProofs PsaHistRep PsaHistKeep.
From Verif Require Import ElemConst OdeModel OdeIndep OdeHist OdeProofs DefintAuto DefintAutoProofs SingReal SingModel SingProofs SingAuto SingAutoProofs.
Import List ListNotations.
Open Scope R_scope.

Section Env.
Variable B : base.
Variable rel : B -> R -> Prop.
Hypothesis OK : base_ok B rel.
Hypothesis CVX : rel_itv B rel.
Variable e : aexpr.
Variables (n : nat) (vc : nat -> bool) (x0 : nat -> R) (env : nat -> list B) (x : R -> nat -> R).
Hypothesis W : awf n e.
Hypothesis PL : plogv vc x0 e.
Hypothesis NA : noarc e = true.
Variable s : nat.
Hypothesis L2 : (2 <= s)%nat.
Hypothesis LM : (Z.of_nat s <= 2 ^ 52)%Z.
Hypothesis HE : forall k i, (i < n)%nat -> RL B rel k s (vc i) (fun t => x t i) (env i).
Hypothesis HK : forall i, (i < n)%nat -> LR B rel s (vc i) (fun t => x t i) (env i).
Hypothesis HX : forall i t, (i < n)%nat -> vc i = true -> x t i = x0 i.
Definition hokv (st : pst B) : Prop := p_mode st = 2%Z /\
  (p_uh st = true -> p_rh st = true /\ exists so, (so = (s - 1)%nat \/ so = s) /\ Forall2 (hc B rel s so) (trc vc e x so) (p_hist st)).
Lemma first_env st y st' : p_mode st = 1%Z -> p_uh st = false -> hpseval env e st = (Ok y, st') ->
  p_mode st' = 1%Z /\ p_uh st' = false /\ p_rh st' = p_rh st /\ (p_rh st = true -> p_hist st = [] -> Forall2 (hc B rel s s) (trc vc e x s) (p_hist st')).
Proof.
  intros M U E.
  destruct (HT_evalv B rel OK vc x0 None 1 (p_dom st) s ltac:(lia) LM eq_refl Logic.I n env x e W NA PL ltac:(intros; lia) (HE None) HX st [] (p_hist st) y st' M eq_refl eq_refl) as (_ & M' & _ & U' & R' & A1 & H1 & H2); [now rewrite U|exact E|].
  split; auto. split; [congruence|]. split; auto. intros R1 RH. rewrite R1 in H2. rewrite H1, RH. simpl app. revert H2. apply F2_imp. intros. now apply (hv_hcs B rel s L2).
Qed.
Lemma second_env st u y st' : hokv st -> rel (p_dom st) u -> rel (p_dom st) 0 -> hpseval env e st = (Ok y, st') ->
  adom e (x u) /\ Rep B rel (Some (u, true)) s y (fun t => rval e (x t)).
Proof.
  intros [M HU] Du D0 E.
  assert (G : exists so A0 rest, (so = (s - 1)%nat \/ (so = s /\ 2 = 2)%Z) /\ p_hist st = A0 ++ rest /\ (p_uh st = true -> rest = []) /\ (if p_uh st then (2 <= s)%nat /\ Forall2 (hc B rel s so) (trc vc e x so) A0 else A0 = [])).
  { destruct (p_uh st).
    - destruct (HU eq_refl) as (_ & so & ES & F). exists so, (p_hist st), []. rewrite app_nil_r. split; [tauto|auto].
    - exists (s - 1)%nat, [], (p_hist st). split; [auto|]. split; [reflexivity|]. split; [discriminate|reflexivity]. }
  destruct G as (so & A0 & rest & ES & HH & HR & HU').
  destruct (HG_evalv B rel OK (Some (u, true)) 2 (p_dom st) s ltac:(lia) LM) with (so := so) (vc := vc) (x0 := x0) (n := n) (env := env) (x := x) (e := e) (st := st) (A0 := A0) (rest := rest) (a := y) (st' := st')
    as ([[RY _] EY] & _); auto.
  { simpl. split; auto. split; auto. split; auto. exact (itv_cvx B rel CVX). }
  { intros; lia. }
  split; [apply adiff_dom; exact (proj1 EY)|exact RY].
Qed.
Lemma keep_env st y st' : hokv st -> hpseval env e st = (Ok y, st') -> hokv st'.
Proof.
  intros [M HU] E. destruct (p_uh st) eqn:U.
  - destruct (HU eq_refl) as (R1 & so & ES & F).
    destruct (KG_evalv B rel OK s L2 so ES vc x0 n env x e W NA PL HK HX) with (st := st) (A0 := p_hist st) (rest := @nil (list B)) (a := y) (st' := st') as (_ & M' & _ & U' & R' & A1 & H1 & H2); auto.
    { now rewrite app_nil_r. }
    split; auto. intros _. split; [congruence|]. exists (s - 1)%nat. split; auto. rewrite R1 in H2. rewrite H1. simpl app. revert H2. apply F2_imp. intros. now apply hv_hc.
  - pose proof (proj2 (sim_eval B env e st U)) as SE. rewrite E in SE. destruct (SE y eq_refl) as (N1 & _ & N2 & _). cbn [snd] in *.
    rewrite U in N2. split; [congruence|]. intros C. rewrite N2 in C. discriminate C.
Qed.
End Env.
(* only the variables below n matter *)
Lemma pfreev_ext n vc vc' e : awf n e -> (forall i, (i < n)%nat -> vc i = vc' i) -> pfreev vc e = pfreev vc' e.
Proof. intros W H. induction e; cbn [pfreev awf] in *; auto; try (destruct W as [W1 W2]); rewrite ?IHe1, ?IHe2 by auto; auto; try (apply IHe; tauto). now rewrite IHe. Qed.
Lemma plogv_ext n vc vc' x x' e : awf n e -> (forall i, (i < n)%nat -> vc i = vc' i /\ x i = x' i) -> plogv vc x e -> plogv vc' x' e.
Proof.
  intros W H. assert (HV : forall i, (i < n)%nat -> vc i = vc' i) by (intros; now apply H). assert (HX : forall i, (i < n)%nat -> x i = x' i) by (intros; now apply H).
  induction e; cbn [plogv awf] in *; auto; try tauto.
  - destruct W as [W1 W2]. intros (P1 & P2 & P3). rewrite <- (pfreev_ext n vc vc' e1 W1 HV), <- (rval_ext n e1 x x' W1 HX). auto.
  - intros (P1 & P2). rewrite <- (pfreev_ext n vc vc' e W HV), <- (rval_ext n e x x' W HX). auto.
Qed.
Lemma adom_ext n e x y : awf n e -> (forall i, (i < n)%nat -> x i = y i) -> adom e x -> adom e y.
Proof.
  intros W H. induction e; cbn [adom awf] in *; try tauto.
  - destruct W as [W1 W2]. rewrite (rval_ext n e2 x y W2 H). tauto.
  - destruct W as [W1 W2]. rewrite (rval_ext n e0 x y W2 H). tauto.
  - destruct W as [W1 W2]. rewrite (rval_ext n e x y W1 H). tauto.
  - destruct W as [W1 W2]. rewrite (rval_ext n e1 x y W1 H). tauto.
  - rewrite (rval_ext n e x y W H). tauto.
Qed.
Lemma hpseval_ext {B : base} n (env env' : nat -> list B) e : awf n e -> (forall i, (i < n)%nat -> env i = env' i) -> hpseval env e = hpseval env' e.
Proof.
  intros W H. induction e; cbn [hpseval awf] in *; auto; try (destruct W as [W1 W2]).
  all: rewrite ?IHe1, ?IHe2, ?IHe by auto; auto. now rewrite H.
Qed.

(* div_tn(x, 1) for x = T + t *)
Lemma cut_id {B : base} (T : B) s : (2 <= s)%nat -> exists d, div_tn (T :: t1 :: repeat t0 (s - 2)) 1 = Ok d /\ length d = s /\ at_ d 0 = t1 /\ forall i, (0 < i)%nat -> at_ d i = t0.
Proof.
  intros L. unfold div_tn. cbn [length]. rewrite repeat_length. destruct (Z.ltb_spec 1 0); [lia|]. destruct (Z.ltb_spec (Z.of_nat (S (S (s - 2)))) 1); [lia|]. cbn [orb].
  eexists. split; [reflexivity|]. change (Z.to_nat 1) with 1%nat. cbn [skipn repeat app]. split; [cbn [length]; rewrite app_length, repeat_length; cbn [length]; lia|]. split; [reflexivity|].
  intros [|i] Hi; [lia|]. unfold at_. cbn [nth app]. change (repeat t0 (s - 2) ++ [t0]) with (repeat (t0 (B:=B)) (s - 2) ++ repeat t0 1). rewrite <- repeat_app.
  destruct (Nat.lt_ge_cases i (s - 2 + 1)) as [H1|H1]; [now apply nth_repeat|]. apply nth_overflow. now rewrite repeat_length.
Qed.
Section PwExpr.
Variable B : base.
Variable rel : B -> R -> Prop.
Hypothesis OK : base_ok B rel.
Variable g : aexpr.
Variables (cs : list B) (ys : list R) (power : B) (p : R).
Hypothesis CS : Forall2 rel cs ys.
Hypothesis CP : rel power p.
Hypothesis W : awf (S (length cs)) g.
Hypothesis PL : plogv isc (cvar ys 0) g.
Hypothesis NA : noarc g = true.
Variable s : nat.
Hypothesis L2 : (2 <= s)%nat.
Hypothesis LM : (Z.of_nat s <= 2 ^ 52)%Z.
Notation k := (length cs).
Variables (T : B) (a0 : R) (d : list B).
Hypothesis HT : rel T a0.
Hypothesis LD : length d = s.
Hypothesis D0 : at_ d 0 = t1.
Hypothesis D1 : forall i, (0 < i)%nat -> at_ d i = t0.
Notation xx := (T :: t1 :: repeat t0 (s - 2)).
(* pow(d, power) * g: the variable k + 2 is d, k + 1 is power *)
Definition pwe : aexpr := XMul (XPow (XVar (S (S k))) (XVar (S k))) g.
Definition pwenv (i : nat) : list B := if Nat.eqb i (S (S k)) then d else penv (cs ++ [power]) xx i.
Definition pwx (t : R) (i : nat) : R := if Nat.eqb i (S (S k)) then 1 else cvar (ys ++ [p]) (a0 + t) i.
Definition pwc (i : nat) : bool := isc i && negb (Nat.eqb i (S (S k))).
Lemma pwenv_2 : pwenv (S (S k)) = d.
Proof. unfold pwenv. now rewrite Nat.eqb_refl. Qed.
Lemma pwenv_1 : pwenv (S k) = [power].
Proof. unfold pwenv. destruct (Nat.eqb_spec (S k) (S (S k))); [clear - e; lia|]. unfold penv. rewrite nth_error_app2, Nat.sub_diag by apply le_n. reflexivity. Qed.
Lemma pwenv_g i : (i < S k)%nat -> pwenv i = penv cs xx i.
Proof. intros Hi. unfold pwenv. destruct (Nat.eqb_spec i (S (S k))); [clear - Hi e; lia|]. destruct i as [|j]; [reflexivity|]. unfold penv. rewrite nth_error_app1 by (clear - Hi; lia). reflexivity. Qed.
Lemma CS' : Forall2 rel (cs ++ [power]) (ys ++ [p]).
Proof. apply Forall2_app; auto. Qed.
Lemma len' : length (cs ++ [power]) = S k.
Proof. rewrite app_length. simpl. lia. Qed.
Lemma lens : length ys = k.
Proof. revert CS. clear. intros F. induction F; simpl; congruence. Qed.
Lemma d_coef : coef B rel d (delta 1).
Proof. intros [|i] Hi; [rewrite D0; apply (rel1 B rel OK)|rewrite D1 by lia; apply (rel0 B rel OK)]. Qed.
Lemma pw_HE kk i : (i < S (S (S k)))%nat -> RL B rel kk s (pwc i) (fun t => pwx t i) (pwenv i).
Proof.
  intros Hi. unfold pwc, pwx, pwenv. destruct (Nat.eqb_spec i (S (S k))) as [->|N].
  - cbn [isc negb andb]. split; [|exact LD]. split; [now right|]. exists (delta 1). split; [apply d_coef|]. split; [|apply Q_cst; lia]. intros [|j] Hj; [rewrite LD in Hj; lia|reflexivity].
  - rewrite andb_true_r. apply (env_RL B rel OK (cs ++ [power]) (ys ++ [p]) CS' s L2 LM kk T a0 i HT). rewrite len'. lia.
Qed.
Definition pwx0 (i : nat) : R := if Nat.eqb i (S (S k)) then 1 else cvar (ys ++ [p]) 0 i.
Lemma pw_HX i t : (i < S (S (S k)))%nat -> pwc i = true -> pwx t i = pwx0 i.
Proof.
  intros Hi C. unfold pwc in C. apply andb_prop in C as [C1 C2]. unfold pwx, pwx0. destruct (Nat.eqb_spec i (S (S k))) as [->|N]; [reflexivity|].
  apply (cvar_const B rel (cs ++ [power]) (ys ++ [p]) CS' s L2); auto. rewrite len'. lia.
Qed.
Lemma pw_HK i : (i < S (S (S k)))%nat -> LR B rel s (pwc i) (fun t => pwx t i) (pwenv i).
Proof.
  intros Hi. unfold pwc, pwx, pwenv. destruct (Nat.eqb_spec i (S (S k))) as [->|N].
  - cbn [isc negb andb]. split; [exact LD|]. exists (delta 1). split.
    + rewrite jet_bigO. apply (bigO_ext _ (fun t => pe (delta 1) s t - pe (delta 1) (s - 1) t) _ 1); [lra| |apply bigO_pe_diff; lia].
      intros t _. assert (E : pe (delta 1) s t = 1); [|rewrite E; ring]. rewrite (pe_more _ 1 s); [unfold pe; simpl; ring| |lia]. intros [|j] Hj; [lia|reflexivity].
    + intros j Hj. apply d_coef. rewrite LD. lia.
  - rewrite andb_true_r. pose proof (cs_at B rel (cs ++ [power]) (ys ++ [p]) CS' s L2 i ltac:(rewrite len'; lia)) as KC.
    destruct i as [|ii]; [|destruct KC as (c & y0 & E1 & E2 & RC); unfold penv, cvar; rewrite E1; cbn [isc LR]; split; [exists c; split; [reflexivity|now rewrite (nth_error_nth _ _ _ E2)]|intros t; now rewrite !(nth_error_nth _ _ _ E2)]].
    cbn [isc LR penv cvar]. split; [simpl; rewrite repeat_length; lia|]. exists (idc a0). split.
    + rewrite jet_bigO. apply (bigO_ext _ (fun t => pe (idc a0) s t - pe (idc a0) (s - 1) t) _ 1); [lra|intros t _; rewrite (pe_idc a0 s) by lia; ring|]. apply bigO_pe_diff. lia.
    + intros j Hj. apply (idc_coef B rel OK T a0 (s - 2) HT). rewrite app_length, repeat_length. simpl. lia.
Qed.
Lemma pwx_g t i : (i < S k)%nat -> pwx t i = cvar ys (a0 + t) i.
Proof.
  intros Hi. unfold pwx. destruct (Nat.eqb_spec i (S (S k))); [lia|]. destruct i as [|j]; [reflexivity|]. unfold cvar. pose proof lens. apply app_nth1. lia.
Qed.
Lemma pwe_plog : plogv pwc pwx0 pwe.
Proof.
  cbn [plogv pwe pfreev]. split; [|].
  - split; [exact Logic.I|]. split; [exact Logic.I|]. unfold pwc. rewrite Nat.eqb_refl. cbn [negb]. rewrite andb_false_r. discriminate.
  - apply (plogv_ext (S k) isc _ (cvar ys 0)); auto. intros i Hi. unfold pwc, pwx0. destruct (Nat.eqb_spec i (S (S k))); [lia|]. cbn [negb]. rewrite andb_true_r. split; [reflexivity|].
    destruct i as [|j]; [reflexivity|]. unfold cvar. pose proof lens. symmetry. apply app_nth1. lia.
Qed.
Lemma pwe_val t : rval pwe (pwx t) = rval g (cvar ys (a0 + t)).
Proof.
  assert (E1 : pwx t (S (S k)) = 1) by (unfold pwx; now rewrite Nat.eqb_refl). cbn [rval pwe]. rewrite (rval_ext (S k) g (pwx t) (cvar ys (a0 + t)) W (pwx_g t)), E1. unfold Rpower. rewrite ln_1, Rmult_0_r, exp_0. ring.
Qed.
Lemma pwe_dom t : adom pwe (pwx t) -> adom g (cvar ys (a0 + t)).
Proof. cbn [adom pwe]. intros [_ H]. apply (adom_ext (S k) g (pwx t)); auto. intros i Hi. now apply pwx_g. Qed.
Lemma pwe_wf : awf (S (S (S k))) pwe.
Proof.
  cbn [awf pwe]. split; [split; lia|]. revert W. generalize g. intros e. induction e; cbn [awf]; intuition; lia.
Qed.
Lemma pwe_noarc : noarc pwe = true.
Proof. exact NA. Qed.
End PwExpr.

Section Run.
Variables (b : backend) (fuel : nat).
Notation S_ := (bscal b).
Notation B := (Ibase (bpar b) fuel).
Notation I := (iv S_).
Notation rel := (@isin S_).
Notation P := (bpar b).
Variable root : S_ -> nat -> S_.
Variable proot : S_ -> S_ -> nat -> S_.
Notation bpow := (ipowI S_ P fuel).
Variables (h : hfn B) (g : aexpr) (cs : list I) (ys : list R) (power : I) (p : R).
Hypothesis CS : Forall2 rel cs ys.
Hypothesis CP : rel power p.
Hypothesis W : awf (S (length cs)) g.
Hypothesis PL : plogv isc (cvar ys 0) g.
Hypothesis NA : noarc g = true.
Notation G := (fun y : R => rval g (cvar ys y)).
Notation gobj := (pobj (cs : list (bT B)) g).
Lemma body_eq (T : I) s d st : (2 <= s)%nat -> div_tn (B:=B) ((T : bT B) :: t1 :: repeat t0 (s - 2)) 1 = Ok d ->
  pw_body P fuel hDx gobj power 1 ((T : bT B) :: t1 :: repeat t0 (s - 2)) st = hpseval (pwenv B cs power s (T : bT B) d) (pwe B g cs) st.
Proof.
  intros L ED. unfold pw_body, hDx, pwe. cbn [hpseval]. unfold hbind at 1. unfold hret, hlift at 1. rewrite ED.
  unfold hbind at 1. unfold hlift at 1. 
  pose proof (pwenv_2 B cs power s (T : bT B) d) as E1. pose proof (pwenv_1 B cs power s (T : bT B) d) as E2.
  rewrite (hpseval_ext (S (length cs)) (pwenv B cs power s (T : bT B) d) (penv (cs : list (bT B)) ((T : bT B) :: t1 :: repeat t0 (s - 2))) g W).
  - unfold hbind. unfold hret, hlift. cbn [hpseval]. unfold hret, hlift. rewrite E1, E2. reflexivity.
  - intros i Hi. exact (pwenv_g B cs power s (T : bT B) d i Hi).
Qed.
Notation hkv a0 s := (hokv B rel (pwe B g cs) (pwc B cs) (pwx B cs ys p a0) s).
Lemma pw_run n fast (start end_ : I) order eps st v l st' a : (1 <= order)%Z -> (order < 2 ^ 52)%Z -> isin start a ->
  power_autostep P fuel root proot bpow n fast h gobj start end_ order power eps st = (Ok (v, l), st') ->
  let s := Datatypes.S (Z.to_nat order) in
  exists t1 y z d w1 w2, length d = s /\ at_ (B:=B) d 0 = PsaModel.t1 /\ (forall i, (0 < i)%nat -> at_ (B:=B) d i = t0) /\
  hkv a s w1 /\ p_dom w1 = (hullSI s0 (isub t1 start) : bT B) /\ hpseval (pwenv B cs power s (start : bT B) d) (pwe B g cs) w1 = (Ok y, w2) /\
  pw_post P fuel bpow power 1 y (isub t1 start) = Ok z /\
  ((t1 = end_ /\ v = z) \/ exists s1 r l1 s2, autostep P fuel root h n fast t1 end_ order eps s1 = (Ok (r, l1), s2) /\ v = iadd z r /\ (forall q, In q l1 -> In q l)) /\
  exists rest, l = (start, t1, isub t1 start) :: rest.
Proof.
  intros O1 O2 Ha E s. assert (L2 : (2 <= s)%nat) by (unfold s; lia). assert (LM : (Z.of_nat s <= 2 ^ 52)%Z) by (unfold s; lia).
  destruct (cut_id (B:=B) (start : bT B) s L2) as (d & ED & LD & D0 & D1).
  set (x0 := (start : bT B) :: PsaModel.t1 :: repeat t0 (s - 2)) in *.
  assert (BE : forall w, pw_body P fuel hDx gobj power 1 x0 w = hpseval (pwenv B cs power s (start : bT B) d) (pwe B g cs) w) by (intros w; exact (body_eq start s d w L2 ED)).
  pose proof (pwe_wf B g cs W s L2 d LD) as W'.
  pose proof (pwe_plog B rel g cs ys p CS W PL s L2 d LD) as PL'.
  pose proof (pw_HE B rel (IOK b fuel) cs ys power p CS CP s L2 LM (start : bT B) a d Ha LD D0 D1) as HE.
  pose proof (pw_HK B rel (IOK b fuel) cs ys power p CS CP s L2 (start : bT B) a d Ha LD D0 D1) as HK.
  pose proof (pw_HX B rel cs ys power p CS CP s L2 a d LD) as HX.
  unfold power_autostep, power3_autostep, sa_run in E. apply hb_ok in E as (u0 & s1 & M1 & E). unfold hmod in M1. injection M1 as _ <-.
  apply hb_ok in E as (x & s2 & EX & E). unfold hget, hlift in EX. injection EX as EX <-.
  rewrite (setorder_id B) in EX by lia. replace (Z.to_nat order - 1)%nat with (s - 2)%nat in EX by (unfold s; lia). apply oki in EX. subst x. cbn [app] in E. fold x0 in E.
  apply hb_ok in E as (u1 & s3 & M2 & E). unfold hmod in M2. injection M2 as _ <-.
  set (s3 := set_mode 1 _) in E. apply hb_ok in E as (y1 & s4 & EY & E). rewrite BE in EY.
  assert (F1 : p_mode s3 = 1%Z /\ p_uh s3 = false /\ (fast = true -> p_rh s3 = true /\ p_hist s3 = [])) by (unfold s3; destruct fast; repeat split; auto; discriminate).
  destruct F1 as (F1 & F2 & F3).
  destruct (first_env B rel (IOK b fuel) (pwe B g cs) (S (S (S (length cs)))) (pwc B cs) (pwx0 B cs ys p) (pwenv B cs power s (start : bT B) d) (pwx B cs ys p a) W' PL' NA s L2 LM HE HX s3 y1 s4 F1 F2 EY) as (G1 & G2 & G3 & G4).
  apply hb_ok in E as (y2 & s5 & EO & E). unfold hget, hlift in EO. injection EO as EO <-.
  apply hb_ok in E as (rd & s5 & ER & E). unfold hlift in ER. injection ER as ER <-.
  apply hb_ok in E as (u2 & s6 & M3 & E). unfold hmod in M3. injection M3 as _ <-. set (s6 := set_mode 2 _) in E.
  apply hb_ok in E as (q & s7 & EL & E). destruct q as [[[z t1] step] flag].
  assert (HO : hkv a s s6).
  { split; [reflexivity|]. unfold s6. destruct fast; cbn [set_mode set_uh p_uh p_rh p_hist]; [|intros C; rewrite G2 in C; discriminate C]. intros _. destruct (F3 eq_refl) as [F4 F5]. split; [rewrite G3; exact F4|]. exists s. split; auto. }
  edestruct (loop_ok b fuel (hkv a s) (pw_body P fuel hDx gobj power 1 x0)) as (E1 & E2 & w1 & y & HO1 & D2 & Y1 & Z1); [| | |exact HO|exact EL|].
  { intros w D HD. exact HD. }
  { intros w y w' HD EB. rewrite BE in EB.
    exact (keep_env B rel (IOK b fuel) (pwe B g cs) (S (S (S (length cs)))) (pwc B cs) (pwx0 B cs ys p) (pwenv B cs power s (start : bT B) d) (pwx B cs ys p a) W' PL' NA s L2 HK HX w y w' HD EB). }
  { intros w er w' HD EB. rewrite BE in EB. destruct (keep_eval B (pwenv B cs power s (start : bT B) d) (pwe B g cs) w) as [K _]. rewrite EB in K. cbn [snd] in K.
    split; [cbn [set_uh p_mode]; rewrite K; exact (proj1 HD)|intros C; discriminate C]. }
  rewrite BE in Y1. destruct (hpseval (pwenv B cs power s (start : bT B) d) (pwe B g cs) w1) as [o w2] eqn:EP. cbn [fst] in Y1. subst o. subst step.
  exists t1, y, z, d, w1, w2. do 3 (split; [assumption|]). do 4 (split; [assumption|]).
  apply hb_ok in E as (u3 & s8 & M4 & E). unfold hmod in M4. injection M4 as _ <-. destruct flag.
  - unfold hret, hlift in E. injection E as <- <- <-. split; [left; split; auto|]. exists []. reflexivity.
  - apply hb_ok in E as (r & s9 & EA & E). unfold hret, hlift in E. injection E as <- <- <-. split; [|exists (snd r); reflexivity].
    right. destruct r as [r l1]. exists (ode_leave P fuel st s7), r, l1, s9. split; auto. split; auto. intros q' Hq. now right.
Qed.
Lemma pw_piece s order (start t1 : I) a b0 d w1 w2 y z : s = Datatypes.S (Z.to_nat order) -> (1 <= order)%Z -> (order < 2 ^ 52)%Z -> isin start a -> isin t1 b0 -> a < b0 -> -1 < p ->
  length d = s -> at_ (B:=B) d 0 = PsaModel.t1 -> (forall i, (0 < i)%nat -> at_ (B:=B) d i = t0) -> hkv a s w1 -> p_dom w1 = (hullSI s0 (isub t1 start) : bT B) ->
  hpseval (pwenv B cs power s (start : bT B) d) (pwe B g cs) w1 = (Ok y, w2) -> pw_post P fuel bpow power 1 y (isub t1 start) = Ok z ->
  (forall u, a <= u <= b0 -> adom g (cvar ys u)) /\ exists J, improper (fun u => Rpower (u - a) p * G u) a b0 J /\ isin z J.
Proof.
  intros Es O1 O2 Ha Hb AB Hp LD D0 D1 HO HD E EP. assert (L2 : (2 <= s)%nat) by lia. assert (LM : (Z.of_nat s <= 2 ^ 52)%Z) by lia.
  pose proof (pwe_wf B g cs W s L2 d LD) as W'.
  pose proof (pwe_plog B rel g cs ys p CS W PL s L2 d LD) as PL'.
  pose proof (pw_HE B rel (IOK b fuel) cs ys power p CS CP s L2 LM (start : bT B) a d Ha LD D0 D1) as HE.
  pose proof (pw_HX B rel cs ys power p CS CP s L2 a d LD) as HX.
  set (h0 := b0 - a). assert (Hh : 0 < h0) by (unfold h0; lra). assert (HS : isin (isub t1 start) h0) by exact (bk_sub _ _ (IOK b fuel) t1 start b0 a Hb Ha).
  assert (DM : forall u, 0 <= u <= h0 -> rel (p_dom w1) u). { intros u Hu. rewrite HD. apply (hull_dom b fuel t1 start a b0 u); auto. unfold mix. left. exact Hu. }
  set (phi := fun t => G (a + t)).
  assert (K : forall u, 0 <= u <= h0 -> adom g (cvar ys (a + u)) /\ Rep B rel (Some (u, false)) s y phi).
  { intros u Hu. destruct (second_env B rel (IOK b fuel) (isin_itv b fuel) (pwe B g cs) (S (S (S (length cs)))) (pwc B cs) (pwx0 B cs ys p) (pwenv B cs power s (start : bT B) d) (pwx B cs ys p a) W' PL' NA s L2 LM HE HX w1 u y w2 HO) as [K1 K2]; auto.
    { apply DM. lra. }
    split; [exact (pwe_dom B rel g cs ys p CS W s L2 a d LD u K1)|]. apply (Rep_weak B rel) in K2. revert K2. apply (Rep_pt B rel). exact (pwe_val B rel g cs ys p CS W s L2 a d LD u). }
  split. { intros u Hu. replace u with (a + (u - a)) by ring. apply K. unfold h0. lra. }
  assert (CT : forall u, 0 <= u <= h0 -> continuous phi u).
  { intros u Hu. apply (rval_continuous (S (length cs)) g (fun u => cvar ys (a + u))); auto; [|apply K; auto]. intros i Hi.
    destruct i as [|j]; [|apply (continuous_ext (fun _ => cvar ys 0 (S j))); [intros t; symmetry; now apply (cvar_const B rel cs ys CS s L2)|apply continuous_const]]. unfold cvar.
    apply (continuous_plus (fun _ => a) (fun u => u)); [apply continuous_const|apply continuous_id]. }
  destruct (rep_coefs B rel (isin_itv b fuel) s y phi h0 ltac:(lia) Hh (fun u Hu => proj2 (K u Hu))) as [IT RC].
  destruct (pow_exists p h0 phi Hp Hh CT) as [J HJ]. destruct (pow_coef _ h0 _ _ _ J Hp Hh IT RC HJ) as (c & C & EV).
  exists J. split.
  - replace a with (0 + a) by ring. replace b0 with (h0 + a) by (unfold h0; ring).
    apply (improper_ext (fun y => Rpower (y - a) p * phi (y - a))); [|exact (improper_shift (fun t => Rpower t p * phi t) 0 h0 J a HJ)].
    intros t Ht. unfold phi. replace (a + (t - a)) with t by ring. replace (0 + a) with a by ring. reflexivity.
  - unfold pw_post in EP. apply bind_ok in EP as (tx & Etx & Elo).
    assert (L1 : lit 1 0) by (apply lit_int; lia).
    assert (TP : isin (baddS (b:=B) (bmulS (b:=B) power 1 0) 1 0) (p + 1)).
    { pose proof (bk_mulS _ _ (IOK b fuel) power p 1 0%Z L1 CP) as T. pose proof (bk_addS _ _ (IOK b fuel) _ _ 1 0%Z L1 T) as T'. rewrite !dy_int, Rmult_1_r in T'. exact T'. }
    pose proof (pw_loop_ok B rel (IOK b fuel) (isub t1 start) h0 HS Hh y c (p + 1) _ tx t0 0 z ltac:(lra) C TP (ipowI_encl (bok b) (bpar b) (bexp b) (blog b) fuel _ _ h0 (p + 1) _ Etx HS TP Hh) (rel0 B rel (IOK b fuel)) Elo) as K'.
    rewrite Rplus_0_l, <- EV in K'. exact K'.
Qed.
End Run.

(* the integral from a: the part up to t1, and the rest, whose integrand has data members *)
Section All.
Variables (b : backend) (fuel : nat).
Notation S_ := (bscal b).
Notation B := (Ibase (bpar b) fuel).
Notation I := (iv S_).
Notation P := (bpar b).
Variable root : S_ -> nat -> S_.
Variable proot : S_ -> S_ -> nat -> S_.
Lemma improper_glue F a b0 c I1 w : a < b0 <= c -> improper F a b0 I1 -> is_RInt F b0 c w -> improper F a c (I1 + w).
Proof.
  intros AB HI IW eps' He. destruct (HI eps' He) as (d & Hd & K). exists (Rmin d (b0 - a)). split; [apply Rmin_glb_lt; lra|]. intros x Hx Hxc.
  pose proof (Rmin_l d (b0 - a)). pose proof (Rmin_r d (b0 - a)).
  destruct (K x) as (w0 & IW0 & L); [lra|lra|]. exists (w0 + w). split; [|replace (w0 + w - (I1 + w)) with (w0 - I1) by ring; auto].
  apply (is_RInt_Chasles F x b0 c w0 w IW0 IW).
Qed.
Theorem power_par_ok eh g (ch cg : list I) yh yg n fast (start end_ : I) order power p eps st v l st' a c :
  Forall2 isin ch yh -> awf (S (length ch)) eh -> plogv isc (cvar yh 0) eh -> noarc eh = true ->
  Forall2 isin cg yg -> awf (S (length cg)) g -> plogv isc (cvar yg 0) g -> noarc g = true ->
  (1 <= order)%Z -> (order < 2 ^ 52)%Z -> isin start a -> isin end_ c -> isin power p -> a < c -> -1 < p ->
  (forall y, a < y <= c -> rval eh (cvar yh y) = Rpower (y - a) p * rval g (cvar yg y)) ->
  power_autostep P fuel root proot (ipowI S_ P fuel) n fast (pobj (ch : list (bT B)) eh) (pobj (cg : list (bT B)) g) start end_ order power eps st = (Ok (v, l), st') ->
  (forall q, In q l -> exists x, a < x <= c /\ isin (snd (fst q)) x) ->
  exists b0, a < b0 <= c /\ (forall y, a <= y <= b0 -> adom g (cvar yg y)) /\ (forall y, b0 < y <= c -> adom eh (cvar yh y)) /\
  exists J, improper (fun y => Rpower (y - a) p * rval g (cvar yg y)) a c J /\ isin v J.
Proof.
  intros Ch Wh Ph Nh Cg Wg Pg Ng O1 O2 Ha Hc Hp AC Hq HF E HL.
  destruct (pw_run b fuel root proot (pobj (ch : list (bT B)) eh) g cg yg power p Cg Hp Wg Pg Ng n fast start end_ order eps st v l st' a O1 O2 Ha E) as (t1 & y & z & d & w1 & w2 & LD & D0 & D1 & HO & DM & EY & EZ & R & [rest EL]).
  assert (PC : forall b0, a < b0 -> isin t1 b0 -> (forall u, a <= u <= b0 -> adom g (cvar yg u)) /\ exists J, improper (fun u => Rpower (u - a) p * rval g (cvar yg u)) a b0 J /\ isin z J).
  { intros b0 H1 H2. exact (pw_piece b fuel g cg yg power p Cg Hp Wg Pg Ng _ order start t1 a b0 d w1 w2 y z eq_refl O1 O2 Ha H2 H1 Hq LD D0 D1 HO DM EY EZ). }
  destruct R as [[-> ->]|(s1 & r & l1 & s2 & EA & -> & HI)].
  - destruct (PC c AC Hc) as (K & J & HJ). exists c. split; [lra|]. split; auto. split; [intros; lra|]. eauto.
  - destruct (HL (start, t1, isub t1 start)) as (b0 & B0 & Ht); [rewrite EL; now left|]. cbn [fst snd] in Ht. destruct (PC b0 (proj1 B0) Ht) as (K & I1 & HI1 & HZ1).
    destruct (autostep_par_ok b fuel root eh ch yh n fast t1 end_ order eps s1 r l1 s2 b0 c Ch Wh Ph Nh O1 O2 EA) as (D & w & IW & Hw); auto.
    { intros q Hq'. destruct (HL q (HI q Hq')) as (x & _ & Hx). eauto. }
    exists b0. split; auto. split; auto. split. { intros u Hu. apply D. unfold mix. left. lra. }
    exists (I1 + w). split; [|exact (bk_add _ _ (IOK b fuel) _ _ _ _ HZ1 Hw)]. apply (improper_glue _ a b0 c); auto.
    apply (is_RInt_ext (fun y => rval eh (cvar yh y))); auto. intros t Ht'. apply HF. rewrite Rmin_left, Rmax_right in Ht' by lra. lra.
Qed.
End All.
