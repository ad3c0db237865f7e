(* Proofs about the model of defint_log3_autostep and of the right-hand versions with step size control. *)
From Coq Require Import Reals ZArith Bool List Lra Lia Psatz Arith.
From Coquelicot Require Import Coquelicot.
From Verif Require Import Ext Scalar IntervalModel IntervalSpec IntervalProofs IntervalEncl IntervalSets Backends ElemModel PropsElem.
From Verif Require Import RealFun RealConst ADModel ADReal ADProofs ADInst PsaModel PsaReal PsaProofs PsaExpr PsaInt PsaUse PsaUseProofs PsaInst PsaHist PsaHistProofs PsaHistRep PsaHistKeep.
From Verif Require Import OdeModel OdeIndep OdeHist OdeProofs DefintAuto DefintAutoProofs SingReal SingModel SingProofs SingAuto SingAutoProofs SingLog.
Import List ListNotations.
Open Scope R_scope.

(* ---- -x for x in an expression ---- *)
Lemma arev_rval e x : rval (arev e) (fun _ => x) = rval e (fun _ => - x).
Proof. induction e; simpl; congruence. Qed.
Lemma arev_dom e x : adom (arev e) (fun _ => x) <-> adom e (fun _ => - x).
Proof. induction e; simpl; rewrite ?arev_rval; tauto. Qed.
Lemma arev_wf n e : awf n e -> awf n (arev e).
Proof. induction e; simpl; tauto. Qed.
Lemma arev_free e : pfree (arev e) = pfree e.
Proof. induction e; simpl; congruence. Qed.
Lemma arev_noarc e : noarc (arev e) = noarc e.
Proof. induction e; simpl; congruence. Qed.
Lemma arev_plog e : plog e -> plog (arev e).
Proof.
  induction e; simpl; rewrite ?arev_free; try tauto.
  - intros (A1 & A2 & A3). repeat split; auto. intros H. rewrite arev_rval, (pfree_const _ H _ (fun _ => 0)); auto.
  - intros (A1 & A2). split; auto. intros F H. rewrite arev_rval, (pfree_const _ H _ (fun _ => 0)); auto.
Qed.

Section Id.
Variable B : base.
Variable rel : B -> R -> Prop.
Hypothesis OK : base_ok B rel.
Hypothesis CVX : rel_itv B rel.
Notation Rep := (Rep B rel).
Notation coef := (coef B rel).
(* the series a + t *)
Definition idx (a : R) (x : list B) : Prop := (2 <= length x)%nat /\ coef x (idc a).
Lemma idx_start start a : rel start a -> idx a [start; t1].
Proof. intros H. split; [simpl; lia|]. exact (idc_coef B rel OK start a 0 H). Qed.
Lemma horner_idc D n : rel D 0 -> forall p c, coef p c -> length p = S n -> rel (hornerT p D) (c O).
Proof.
  intros HD. induction n as [|n IH]; intros p c C L; destruct p as [|b [|b' p]]; try discriminate L.
  - apply (C O). simpl. lia.
  - apply coef_cons in C as [C0 C]. cbn [hornerT]. replace (c O) with (c 1%nat * 0 + c O) by ring. apply (bk_add _ _ OK); auto. apply (bk_mul _ _ OK); auto. apply (IH (b' :: p) (fun i => c (S i)) C). simpl in *. lia.
Qed.
Lemma idx_setorder m D a x n y : (1 <= n)%Z -> rel D 0 -> idx a x -> ps_setorder m D x n = Ok y -> idx a y /\ length y = S (Z.to_nat n).
Proof.
  intros N HD [L C] E. unfold ps_setorder in E. destruct (Z.ltb_spec n 0); [lia|]. destruct (Nat.leb_spec (length x) (Z.to_nat n + 1)); apply oki in E; subst y.
  - assert (LY : length (x ++ repeat t0 (Z.to_nat n + 1 - length x)) = S (Z.to_nat n)) by (rewrite app_length, repeat_length; lia). split; auto. split; [lia|].
    intros i Hi. unfold at_. destruct (Nat.lt_ge_cases i (length x)); [rewrite app_nth1 by auto; now apply C|]. rewrite app_nth2, nth_repeat by auto. destruct i as [|[|i]]; [lia|lia|]. apply (rel0 B rel OK).
  - assert (LF : length (firstn (Z.to_nat n) x) = Z.to_nat n) by (rewrite firstn_length; lia).
    split; [|rewrite app_length, LF; simpl; lia]. split; [rewrite app_length, LF; simpl; lia|].
    intros i Hi. rewrite app_length, LF in Hi. simpl in Hi. unfold at_. destruct (Nat.lt_ge_cases i (Z.to_nat n)) as [H1|H1].
    + rewrite app_nth1 by lia. specialize (C i ltac:(lia)). unfold at_ in C. rewrite <- (firstn_skipn (Z.to_nat n) x), app_nth1 in C by lia. exact C.
    + replace i with (Z.to_nat n) by lia. rewrite app_nth2, LF, Nat.sub_diag by lia. cbn [nth]. destruct (m =? 1)%Z; [apply C; lia|].
      pose proof (horner_idc D (length x - Z.to_nat n - 1) HD (skipn (Z.to_nat n) x) (fun i => idc a (Z.to_nat n + i)%nat)) as K. cbv beta in K. rewrite Nat.add_0_r in K. apply K; [|rewrite skipn_length; lia].
      intros j Hj. rewrite skipn_length in Hj. specialize (C (Z.to_nat n + j)%nat ltac:(lia)). unfold at_ in *. rewrite <- (firstn_skipn (Z.to_nat n) x), app_nth2, LF in C by lia.
      now replace (Z.to_nat n + j - Z.to_nat n)%nat with j in C by lia.
Qed.
Lemma idx_rep k a x s : idx a x -> length x = s -> Rep k s x (fun t => a + t).
Proof.
  intros [L C] <-. split; [now right|]. exists (idc a). split; auto. split; [intros [|[|i]] Hi; simpl in *; auto; lia|].
  assert (EX : forall t, a + t = pe (idc a) (length x) t) by (intros; now rewrite pe_idc by lia).
  assert (J : jet (length x) (fun t => a + t) (idc a)).
  { rewrite jet_bigO. apply (bigO_ext _ (fun _ => 0) _ 1); [lra| |apply bigO_zero]. intros t _. rewrite pe_idc by lia. ring. }
  destruct k; [|exact J]. split; [apply EX|]. intros _. apply (jet_weak (length x)); auto. apply Jo_le.
Qed.
Lemma idx_div a x Z s : idx a x -> length x = s -> div_tn x 1 = Ok Z -> length Z = s /\ forall u, Rep (Some (u, false)) s Z (fun _ => 1).
Proof.
  intros [L C] <- EZ. destruct (div_tn_at _ _ _ _ EZ) as (_ & _ & LZ & A). split; auto. intros u. split; [now right|].
  exists (fun i => idc a (S i)). split; [|split; [|split; [|discriminate]]].
  - intros i Hi. rewrite A. change (Z.to_nat 1 + i)%nat with (S i). destruct (Nat.lt_ge_cases (S i) (length x)) as [H|H]; [now apply C|].
    unfold at_. rewrite nth_overflow by auto. destruct i as [|i]; [lia|]. apply (rel0 B rel OK).
  - intros [|i] Hi; [lia|reflexivity].
  - cbn [fst]. rewrite (pe_more _ 1); [unfold pe; simpl; ring| |lia]. intros [|i] Hi; [lia|reflexivity].
Qed.
(* one turn of the loop; f is the function object, or Defint_x *)
Lemma turn_ok (isx : bool) rf ef rg eg D x xa fx Z l gx q J xb gx' y lx step order m v a c : (1 <= order)%Z -> (order < 2 ^ 25)%Z -> (0 <= m <= 2 ^ 50)%Z -> (isx = true -> m = 1%Z) ->
  awf 1 ef -> plog ef -> noarc ef = true -> awf 1 eg -> plog eg -> noarc eg = true -> rel step (c - a) -> a < c <= a + 1 -> (forall u, 0 <= u <= c - a -> rel D u) ->
  let F := fun y => if isx then y - a else rval ef (fun _ => sg rf y) in let G := fun y => rval eg (fun _ => sg rg y) in
  vanish (Z.to_nat m) (fun t => F (a + t)) -> (forall y, a < y <= c -> 0 < F y) -> idx a x ->
  ps_setorder 2 D x (order + m) = Ok xa -> (if isx then Defint_x else obj B rf ef) 2%Z D xa = Ok fx -> div_tn fx m = Ok Z -> ps_log 2 D Z = Ok l -> obj B rg eg 2%Z D xa = Ok gx -> ps_mul 2 D l gx = Ok q -> ps_integrate q = Ok J ->
  ps_setorder 2 D xa order = Ok xb -> obj B rg eg 2%Z D xb = Ok gx' -> ps_sc SOmulr m 0 2 D gx' = Ok y -> bfun Alog step = Ok lx -> lg_loop step lx step y 0 (ps_eval J step) = Ok v ->
  exists I, improper (fun y => ln (F y) * G y) a c I /\ rel v I.
Proof.
  intros O1 O2 M1 MX Wf Pf Nf Wg Pg Ng Hs Hac HD F G V FP HX Ea Ef EZ El Eg Eq EJ Eb Eg' Ey Elx E. set (h := c - a) in *. assert (Hh : 0 < h <= 1) by (unfold h; lra).
  destruct (idx_setorder 2 D a x (order + m) xa ltac:(lia) (HD 0 ltac:(lra)) HX Ea) as [XA LA]. destruct (idx_setorder 2 D a xa order xb ltac:(lia) (HD 0 ltac:(lra)) XA Eb) as [XB LB].
  set (s := S (Z.to_nat (order + m))) in *. assert (S2 : (2 <= s)%nat) by (unfold s; lia). assert (S3 : (Z.of_nat s <= 2 ^ 52)%Z) by (unfold s; lia).
  pose proof (obj_rep B rel OK CVX false rg eg xa D s a h gx S2 S3 Wg Pg Ng (proj1 Hh) HD (fun u _ => conj LA (idx_rep _ a xa s XA LA)) Eg) as RG.
  pose proof (obj_rep B rel OK CVX false rg eg xb D (S (Z.to_nat order)) a h gx' ltac:(lia) ltac:(lia) Wg Pg Ng (proj1 Hh) HD (fun u _ => conj LB (idx_rep _ a xb _ XB LB)) Eg') as RG'.
  destruct isx.
  - specialize (MX eq_refl). subst m. unfold Defint_x in Ef. apply oki in Ef. subst fx. destruct (idx_div a xa Z s XA LA EZ) as [LZ RZ].
    destruct (lg_core B rel OK CVX s order 1 D Z (fun _ => 1) gx gx' (fun t => G (a + t)) l q J y y lx step h v) as (I & HI & HV); auto; try lia; try lra.
    + intros u Hu. split; [apply RZ|apply continuous_const].
    + intros u Hu. lra.
    + intros u Hu. exact (proj2 (RG u Hu)).
    + intros u Hu. apply (RG' u Hu).
    + exists I. split; auto. replace a with (0 + a) by ring. replace c with (h + a) by (unfold h; ring).
      apply (improper_ext (fun y => (1 * ln (y - a) + ln 1) * G (a + (y - a)))).
      * intros t Ht. replace (a + (t - a)) with t by ring. unfold F. rewrite ln_1. ring.
      * apply (improper_shift (fun t => (1 * ln t + ln 1) * G (a + t))). exact HI.
  - pose proof (obj_rep B rel OK CVX true rf ef xa D s a h fx S2 S3 Wf Pf Nf (proj1 Hh) HD (fun u _ => conj LA (idx_rep _ a xa s XA LA)) Ef) as RF.
    destruct (shift_rep B rel OK s fx Z (fun t => F (a + t)) m h S2 ltac:(unfold s; lia) (proj1 Hh)) as (H & HN & H1 & HR); auto.
    { intros u Hu. destruct (RF u Hu) as (_ & R & C). split; auto. }
    assert (HP : forall u, 0 < u <= h -> 0 < H u). { intros u Hu. rewrite HN by lra. apply Rdiv_lt_0_compat; [apply FP; unfold h in *; lra|apply pow_lt; lra]. }
    destruct (lg_core B rel OK CVX s order m D Z H gx gx' (fun t => G (a + t)) l q J y y lx step h v) as (I & HI & HV); auto; try lia.
    + intros u Hu. exact (proj2 (RG u Hu)).
    + intros u Hu. apply (RG' u Hu).
    + exists I. split; auto. replace a with (0 + a) by ring. replace c with (h + a) by (unfold h; ring).
      apply (improper_ext (fun y => (IZR m * ln (y - a) + ln (H (y - a))) * G (a + (y - a)))).
      * intros t Ht. replace (a + (t - a)) with t by ring. f_equal. assert (T : 0 < t - a) by lra.
        rewrite HN by lra. replace (a + (t - a)) with t by ring. assert (FT : 0 < F t) by (apply FP; unfold h in *; lra). pose proof (pow_lt _ (Z.to_nat m) T) as TP.
        unfold Rdiv. rewrite ln_mult, ln_Rinv by (auto; now apply Rinv_0_lt_compat). rewrite <- INR_IZR_INZ_pow by (auto; lia). unfold Rpower. rewrite ln_exp. ring.
      * apply (improper_shift (fun t => (IZR m * ln t + ln (H t)) * G (a + t))). exact HI.
Qed.
End Id.

Section Auto.
Variables (b : backend) (fuel : nat).
Notation S_ := (bscal b).
Notation B := (Ibase (bpar b) fuel).
Notation I := (iv S_).
Notation rel := (@isin S_).
Notation P := (bpar b).
Variable root : S_ -> nat -> S_.
Variable proot : S_ -> S_ -> nat -> S_.
Variable lgc : nat -> S_.
Notation bpow := (ipowI S_ P fuel).
Lemma dom0 (X : I) : isin (hullSI s0 X) 0.
Proof.
  destruct (bscal_ideal b) as (au & ad & su & sd & mu & md & du & dd & qu & qd & _ & E). revert X. pose proof (bscal_ok b) as K. revert K. generalize (bscal b) E. intros S' E' K X.
  assert (W : forall x : S', swf x) by (rewrite E'; exact (fun _ => Logic.I)). destruct (ok_s0 _ K) as [W0 V0].
  unfold hullSI, isin; cbn [lo hi]. split; [apply W|]. split; [apply W|]. split.
  - destruct (slt (lo X) s0) eqn:C; [|rewrite V0; simpl; lra]. apply (ok_lt _ K) in C; auto. rewrite V0 in C. destruct (sval (lo X)); simpl in *; auto; lra.
  - destruct (slt s0 (hi X)) eqn:C; [|rewrite V0; simpl; lra]. apply (ok_lt _ K) in C; auto. rewrite V0 in C. destruct (sval (hi X)); simpl in *; auto; lra.
Qed.
(* what a return of the loop without history means *)
Section Off.
Variables (f g : hfn B) (pf pg : fn B).
Hypothesis HF : pure f pf.
Hypothesis HG : pure g pg.
Variables (order m : Z).
Hypothesis O1 : (1 <= order)%Z.
Hypothesis M0 : (0 <= m)%Z.
Definition turn (x : list (bT B)) (step z : I) : Prop := let D := (hullSI s0 step : bT B) in
  exists xa fx Z l gx q J xb gx' y lx,
  ps_setorder (B:=B) 2 D x (order + m) = Ok xa /\ pf 2%Z D xa = Ok fx /\ div_tn fx m = Ok Z /\ ps_log (B:=B) 2 D Z = Ok l /\ pg 2%Z D xa = Ok gx /\ ps_mul (B:=B) 2 D l gx = Ok q /\ ps_integrate (B:=B) q = Ok J /\
  ps_setorder (B:=B) 2 D xa order = Ok xb /\ pg 2%Z D xb = Ok gx' /\ ps_sc (B:=B) SOmulr m 0 2 D gx' = Ok y /\ bfun (b:=B) Alog (step : bT B) = Ok lx /\ lg_loop (B:=B) (step : bT B) lx (step : bT B) y 0 (ps_eval (B:=B) J (step : bT B)) = Ok (z : bT B).
Definition first_p (y x : list (bT B)) (mo : Z) (D : bT B) : res (list (bT B)) := do d <- div_tn y m; do l <- ps_log (B:=B) mo D d; do gx <- pg mo D x; do q <- ps_mul (B:=B) mo D l gx; ps_integrate (B:=B) q.
Definition second_p (x : list (bT B)) (mo : Z) (D : bT B) : res (list (bT B)) := do gx <- pg mo D x; ps_sc (B:=B) SOmulr m 0 mo D gx.
Lemma first_pure y x : sim B (lg_first P fuel g m y x) (first_p y x) /\ keep B (lg_first P fuel g m y x).
Proof.
  split.
  - unfold lg_first, first_p.
    apply (sim_bind B _ (fun _ _ => div_tn y m) _ (fun mo D d => do l <- ps_log (B:=B) mo D d; do gx <- pg mo D x; do q <- ps_mul (B:=B) mo D l gx; ps_integrate (B:=B) q) (sim_lift B _)). intros d.
    apply (sim_bind B _ (fun mo D => ps_log mo D d) _ (fun mo D l => do gx <- pg mo D x; do q <- ps_mul (B:=B) mo D l gx; ps_integrate (B:=B) q) (sim_log B _)). intros l.
    apply (sim_bind B (g x) (fun mo D => pg mo D x) _ (fun mo D gx => do q <- ps_mul (B:=B) mo D l gx; ps_integrate (B:=B) q) (proj1 (HG x))). intros gx.
    apply (sim_bind B _ (fun mo D => ps_mul mo D l gx) _ (fun mo D q => ps_integrate (B:=B) q) (sim_mul B _ _)). intros q. apply sim_lift.
  - unfold lg_first. apply keep_bind; [apply keep_lift|]. intros. apply keep_bind; [apply keep_log|]. intros. apply keep_bind; [apply HG|]. intros. apply keep_bind; [apply keep_mul|]. intros. apply keep_lift.
Qed.
Lemma second_pure x : sim B (lg_second P fuel g m x) (second_p x) /\ keep B (lg_second P fuel g m x).
Proof.
  split.
  - unfold lg_second, second_p. apply (sim_bind B (g x) (fun mo D => pg mo D x) _ (fun mo D gx => ps_sc (B:=B) SOmulr m 0 mo D gx) (proj1 (HG x))). intros gx. apply sim_sc.
  - unfold lg_second. apply keep_bind; [apply HG|]. intros. apply keep_sc.
Qed.
Lemma body_pure' x : sim B (dh y <- f x; lg_first P fuel g m y x) (fun mo D => do y <- pf mo D x; first_p y x mo D) /\ keep B (dh y <- f x; lg_first P fuel g m y x).
Proof.
  split.
  - apply (sim_bind B (f x) (fun mo D => pf mo D x) _ (fun mo D y => first_p y x mo D) (proj1 (HF x))). intros y. apply first_pure.
  - apply keep_bind; [apply HF|]. intros. apply first_pure.
Qed.
Lemma sim_ok {A} (M : hM B A) Q s v s' : sim B M Q -> off b fuel s -> M s = (Ok v, s') -> Q 2%Z (p_dom s) = Ok v /\ off b fuel s' /\ p_dom s' = p_dom s.
Proof.
  intros H [M1 U] E. destruct (H s U) as [A1 A2]. rewrite E in *. cbn [fst snd] in *. destruct (A2 v eq_refl) as (B1 & B2 & B3 & _). rewrite M1 in *. split; [now symmetry|]. split; auto. split; congruence.
Qed.
Lemma keep_err {A} (M : hM B A) s er s' : keep B M -> off b fuel s -> M s = (Err er, s') -> p_mode s' = 2%Z.
Proof. intros H [M1 U] E. destruct (H s) as [A1 _]. rewrite E in A1. cbn [snd] in A1. congruence. Qed.
Lemma try_ok a x s x' o s' : idx B rel a x -> off b fuel s -> rel (p_dom s) 0 -> lg_try P fuel f g order m x s = (Ok (x', o), s') ->
  idx B rel a x' /\ p_mode s' = 2%Z /\ forall J y, o = Ok (J, y) -> off b fuel s' /\ p_dom s' = p_dom s /\ let D := p_dom s in
  exists xa fx xb, ps_setorder (B:=B) 2 D x (order + m) = Ok xa /\ pf 2%Z D xa = Ok fx /\ first_p fx xa 2%Z D = Ok J /\ ps_setorder (B:=B) 2 D xa order = Ok xb /\ second_p xb 2%Z D = Ok y.
Proof.
  intros HX HO HD E. unfold lg_try in E. pose proof HO as [M U]. rewrite M in E.
  destruct (ps_setorder (B:=B) 2 (p_dom s) x (order + m)) as [xa|er] eqn:Ea; [|injection E as <- <- <-; split; auto; split; auto; intros; discriminate].
  destruct (idx_setorder B rel (IOK b fuel) 2 (p_dom s) a x (order + m) xa ltac:(lia) HD HX Ea) as [XA _].
  destruct ((dh y <- f xa; lg_first P fuel g m y xa) s) as [[J|er] s1] eqn:E1.
  2: { injection E as <- <- <-. split; auto. split; [exact (keep_err _ _ _ _ (proj2 (body_pure' xa)) HO E1)|]. intros; discriminate. }
  destruct (sim_ok _ _ _ _ _ (proj1 (body_pure' xa)) HO E1) as (Q1 & HO1 & D1). apply bind_ok in Q1 as (fx & Qf & Q1). pose proof HO1 as [M1 _]. rewrite M1, D1 in E.
  destruct (ps_setorder (B:=B) 2 (p_dom s) xa order) as [xb|er] eqn:Eb; [|injection E as <- <- <-; split; auto; split; auto; intros; discriminate].
  destruct (idx_setorder B rel (IOK b fuel) 2 (p_dom s) a xa order xb ltac:(lia) HD XA Eb) as [XB _].
  destruct (lg_second P fuel g m xb s1) as [[y|er] s2] eqn:E2; injection E as <- <- <-.
  2: { split; auto. split; [exact (keep_err _ _ _ _ (proj2 (second_pure xb)) HO1 E2)|]. intros; discriminate. }
  destruct (sim_ok _ _ _ _ _ (proj1 (second_pure xb)) HO1 E2) as (Q2 & HO2 & D2). split; auto. split; [apply HO2|]. intros J' y' EQ. injection EQ as <- <-. split; auto. split; [congruence|].
  exists xa, fx, xb. rewrite D1 in Q2. repeat split; auto.
Qed.
Lemma la_ok (start end_ : I) eps n a : forall x radius restart resized st z t1 step flag st', idx B rel a x -> off b fuel st ->
  la_loop P fuel root f g order m start end_ eps n x radius restart resized st = (Ok (z, t1, step, flag), st') ->
  step = isub t1 start /\ (flag = true -> t1 = end_) /\ exists x, idx B rel a x /\ turn x step z.
Proof.
  induction n; intros x radius restart resized st z t1 step flag st' HX HO E; cbn [la_loop] in E; [discriminate E|].
  destruct (au_next start end_ radius resized) as [[[[t1' radius'] flag'] resized'] step'] eqn:EN. destruct (next_spec b _ _ _ _ _ _ _ _ _ EN) as [ES EF]. clear EN.
  unfold hbind at 1 in E. unfold hmod in E. set (s1 := set_dom (hullSI s0 step' : bT B) st) in E. assert (HO1 : off b fuel s1) by exact HO.
  apply hb_ok in E as ([x' o] & s2 & ET & E). destruct (try_ok a x s1 x' o s2 HX HO1 (dom0 step') ET) as (HX' & M2 & HJ).
  destruct o as [[J y]|er].
  - destruct (HJ J y eq_refl) as (HO2 & D2 & xa & fx & xb & Q1 & Q2 & Q3 & Q4 & Q5). change (p_dom s1) with (hullSI s0 step' : bT B) in *.
    apply hb_ok in E as (lx & s3 & El & E). unfold hlift in El. injection El as El <-. apply hb_ok in E as (z' & s3 & Ez & E). unfold hlift in Ez. injection Ez as Ez <-.
    destruct resized'.
    + unfold hret, hlift in E. injection E as <- <- <- <- <-. split; auto. split; auto. exists x. split; auto. unfold first_p in Q3. unfold second_p in Q5.
      apply bind_ok in Q3 as (Z & Q31 & Q3). apply bind_ok in Q3 as (l & Q32 & Q3). apply bind_ok in Q3 as (gx & Q33 & Q3). apply bind_ok in Q3 as (q & Q34 & Q3). apply bind_ok in Q5 as (gx' & Q51 & Q5).
      exists xa, fx, Z, l, gx, q, J, xb, gx', y, lx. repeat (split; [assumption|]). assumption.
    + apply IHn in E; auto.
  - destruct er; try (unfold hlift in E; discriminate E). destruct (restart <? restart_max)%nat; [|discriminate E]. apply IHn in E; auto. split; [exact M2|reflexivity].
Qed.
Lemma log3_off n h (start end_ : I) eps st v l st' a : isin start a ->
  defint_log3_autostep P fuel root lgc n false h f g start end_ order m eps st = (Ok (v, l), st') ->
  exists t1 x z, idx B rel a x /\ turn x (isub t1 start) z /\
  ((t1 = end_ /\ v = z) \/ exists s1 r l1 s2, defint_autostep P fuel root h n false t1 end_ order eps s1 = (Ok (r, l1), s2) /\ v = iadd z r /\ (forall q, In q l1 -> In q l)) /\
  exists rest, l = (start, t1, isub t1 start) :: rest.
Proof.
  intros Ha E. unfold defint_log3_autostep in E. apply hb_ok in E as (u0 & s1 & M1 & E). unfold hmod in M1. injection M1 as _ <-.
  apply hb_ok in E as (u1 & s2 & M2 & E). unfold hmod in M2. injection M2 as _ <-. set (s2 := set_mode 1 (set_rh false (set_uh false st))) in E.
  apply hb_ok in E as (x0 & s3 & EX & E). unfold hget, hlift in EX. injection EX as EX <-. change (p_mode s2) with 1%Z in EX.
  apply hb_ok in E as (y0 & s3 & EY & E). destruct (proj1 (HF x0) s2 eq_refl) as [_ SE]. rewrite EY in SE. destruct (SE y0 eq_refl) as (A1 & A2 & A3 & _). cbn [snd] in *. clear SE. change (p_uh s2) with false in A3.
  apply hb_ok in E as (y1 & s4 & EO & E). unfold hget, hlift in EO. injection EO as EO <-.
  apply hb_ok in E as (y & s4 & EF & E). destruct (proj1 (first_pure y1 x0) s3 A3) as [_ SE]. rewrite EF in SE. destruct (SE y eq_refl) as (B1 & B2 & B3 & _). cbn [snd] in *. clear SE.
  apply hb_ok in E as (x & s5 & EX2 & E). unfold hget, hlift in EX2. injection EX2 as EX2 <-. rewrite B1, A1 in EX2. change (p_mode s2) with 1%Z in EX2.
  apply hb_ok in E as (y2 & s5 & EG & E). destruct (proj1 (second_pure x) s4 ltac:(congruence)) as [_ SE]. rewrite EG in SE. destruct (SE y2 eq_refl) as (C1 & C2 & C3 & _). cbn [snd] in *. clear SE.
  apply hb_ok in E as (y3 & s6 & EO2 & E). unfold hget, hlift in EO2. injection EO2 as EO2 <-.
  apply hb_ok in E as (rd & s6 & ER & E). unfold hlift in ER. injection ER as ER <-. cbv zeta in E.
  apply hb_ok in E as (u2 & s6 & M3 & E). unfold hmod in M3. injection M3 as _ <-.
  apply hb_ok in E as (q & s7 & EL & E). destruct q as [[[z t1] step] flag].
  assert (XS : forall D n x x', (1 <= n)%Z -> idx B rel a x -> ps_setorder (B:=B) 1 D x n = Ok x' -> idx B rel a x').
  { intros D n' z1 z2 N1 H1 H2. unfold ps_setorder in H2. refine (proj1 (idx_setorder B rel (IOK b fuel) 1 (bcst (b:=B) 0 0) a z1 n' z2 N1 (rel0 B rel (IOK b fuel)) H1 _)). exact H2. }
  assert (X0 : idx B rel a x0) by (apply (XS _ (order + m)%Z _ _ ltac:(lia) (idx_start B rel (IOK b fuel) start a Ha) EX)). assert (X1 : idx B rel a x) by (apply (XS _ _ _ _ O1 X0 EX2)).
  assert (U5 : p_uh (set_mode 2 s5) = false) by (change (p_uh s5 = false); congruence).
  destruct (la_ok _ _ _ _ a _ _ _ _ (set_mode 2 s5) z t1 step flag s7 X1 (conj eq_refl U5) EL) as (E1 & E2 & x' & X' & T). subst step.
  apply hb_ok in E as (u3 & s8 & M4 & E). unfold hmod in M4. injection M4 as _ <-. exists t1, x', z. split; auto. split; auto. destruct flag.
  - unfold hret, hlift in E. injection E as <- <- <-. split; [left; auto|]. exists []. reflexivity.
  - apply hb_ok in E as (r & s9 & EA & E). unfold hret, hlift in E. injection E as <- <- <-. split; [|exists (snd r); reflexivity].
    right. destruct r as [r l1]. exists (ode_leave P fuel st s7), r, l1, s9. split; auto. split; auto. intros q Hq. now right.
Qed.
End Off.
End Auto.
