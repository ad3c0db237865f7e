(* Proofs about the model of defint_autostep: the integral over every step is enclosed, with and without the history list. *)
From Coq Require Import Reals ZArith Bool List Lra Lia Psatz Arith.
From Coquelicot Require Import Coquelicot.
From Verif Require Import Ext Scalar IntervalModel IntervalSpec IntervalProofs IntervalEncl IntervalSets Backends ElemModel PropsElem.
From Verif Require Import RealFun RealConst ADModel ADReal ADProofs ADInst PsaModel PsaReal PsaProofs PsaExpr PsaInt PsaUseProofs PsaInst PsaHist PsaHistProofs PsaHistRep PsaHistKeep.
From Verif Require Import OdeModel OdeIndep OdeHist OdeProofs DefintAuto.
Import List ListNotations.
Open Scope R_scope.

(* the variables: 0 is y, i + 1 is the value of data member i *)
Definition cvar (ys : list R) (y : R) (i : nat) : R := match i with O => y | S j => nth j ys y end.
Definition isc (i : nat) : bool := match i with O => false | S _ => true end.
Lemma cvar_nil y : cvar [] y = fun _ => y.
Proof. apply FunctionalExtensionality.functional_extensionality. intros [|[|i]]; reflexivity. Qed.
Lemma penv_nil {B : base} (x : list B) : penv [] x = fun _ => x.
Proof. apply FunctionalExtensionality.functional_extensionality. intros [|[|i]]; reflexivity. Qed.
Lemma plog_isc e : awf 1 e -> plog e -> plogv isc (cvar [] 0) e.
Proof.
  rewrite cvar_nil. assert (PF : forall e, awf 1 e -> pfreev isc e = pfreev (fun _ => false) e).
  { clear e. induction e; cbn [pfreev awf]; intros W; auto; try (destruct W as [W1 W2]; rewrite ?IHe1, ?IHe2, ?IHe by auto; reflexivity); auto.
    - assert (n = O) by lia. now subst n. }
  induction e; cbn [plogv awf]; intros W P; auto; try tauto.
  - destruct W as [W1 W2], P as (P1 & P2 & P3). rewrite PF by auto. auto.
  - destruct P as (P1 & P2). rewrite PF by auto. auto.
Qed.
Lemma obj_nil {B : base} e : hobj (B:=B) e = pobj [] e.
Proof. apply FunctionalExtensionality.functional_extensionality. intros x. unfold hobj, pobj. now rewrite penv_nil. Qed.

Section Piece.
Variable B : base.
Variable rel : B -> R -> Prop.
Hypothesis OK : base_ok B rel.
Hypothesis CVX : rel_itv B rel.
Variable e : aexpr.
(* the data members and their values *)
Variables (cs : list B) (ys : list R).
Hypothesis CS : Forall2 rel cs ys.
Hypothesis W : awf (S (length cs)) e.
Hypothesis PL : plogv isc (cvar ys 0) e.
Hypothesis NA : noarc e = true.
Variable s : nat.
Hypothesis L2 : (2 <= s)%nat.
Hypothesis LM : (Z.of_nat s <= 2 ^ 52)%Z.
Notation f := (fun y : R => rval e (cvar ys y)).
Notation cur a0 := (fun t : R => cvar ys (a0 + t)).
Notation env T := (penv cs (T :: t1 :: repeat t0 (s - 2))).
(* the history fits the point a0 whenever it is used *)
Definition hok (a0 : R) (st : pst B) : Prop := p_mode st = 2%Z /\
  (p_uh st = true -> p_rh st = true /\ exists so, (so = (s - 1)%nat \/ so = s) /\ Forall2 (hc B rel s so) (trc isc e (cur a0) so) (p_hist st)).
Lemma x_RL k (T : B) (a0 : R) : rel T a0 -> RL B rel k s false (fun t => a0 + t) (T :: t1 :: repeat t0 (s - 2)).
Proof.
  intros H. split; [|simpl; rewrite repeat_length; lia]. replace s with (S (S (s - 2))) at 1 by lia. exact (Rep_id B rel OK k T a0 (s - 2) H).
Qed.
Lemma hv_hcs en h : hv B rel s en h -> hc B rel s s en h.
Proof. intros [L (c & J & C)]. split; [exact L|]. exists c. split; [apply (jet_weak s); [lia|exact J]|]. intros i Hi _. now apply C. Qed.
Lemma F2_imp {A A'} (P Q : A -> A' -> Prop) l l' : (forall x y, P x y -> Q x y) -> Forall2 P l l' -> Forall2 Q l l'.
Proof. intros H F. induction F; constructor; auto. Qed.
Lemma cs_at i : (i < S (length cs))%nat -> match i with O => True | S j => exists c y, nth_error cs j = Some c /\ nth_error ys j = Some y /\ rel c y end.
Proof.
  destruct i as [|j]; auto. intros H. apply Nat.succ_lt_mono in H. clear W PL. revert j H. induction CS as [|c y cs' ys' R F IH]; intros j H; [inversion H|].
  destruct j; [exists c, y; auto|]. apply (IH F j). simpl in H. lia.
Qed.
Lemma env_RL k (T : B) a0 i : rel T a0 -> (i < S (length cs))%nat -> RL B rel k s (isc i) (fun t => cur a0 t i) (env T i).
Proof.
  intros H Hi. pose proof (cs_at i Hi) as K. destruct i as [|j]; [now apply x_RL|]. destruct K as (c & y & E1 & E2 & R). unfold penv. rewrite E1. cbn [isc].
  assert (EV : forall t, cvar ys (a0 + t) (S j) = y) by (intros t; unfold cvar; now apply nth_error_nth). split; [|reflexivity].
  assert (EF : (fun t => cvar ys (a0 + t) (S j)) = (fun _ => y)) by (apply FunctionalExtensionality.functional_extensionality; exact EV). rewrite EF. apply Rep_cst; auto; lia.
Qed.
Lemma cvar_const i a b : (i < S (length cs))%nat -> isc i = true -> cvar ys a i = cvar ys b i.
Proof. intros Hi C. pose proof (cs_at i Hi) as K. destruct i as [|j]; [discriminate C|]. destruct K as (c & y & _ & E2 & _). unfold cvar. now rewrite !(nth_error_nth _ _ _ E2). Qed.
(* the evaluation in mode 1 *)
Lemma first_ok (T : B) a0 st y st' : rel T a0 -> p_mode st = 1%Z -> p_uh st = false ->
  hpseval (env T) e st = (Ok y, st') ->
  p_mode st' = 1%Z /\ p_uh st' = false /\ p_rh st' = p_rh st /\ (p_rh st = true -> p_hist st = [] -> Forall2 (hc B rel s s) (trc isc e (cur a0) s) (p_hist st')).
Proof.
  intros HT M U E.
  destruct (HT_evalv B rel OK isc (cvar ys 0) None 1 (p_dom st) s ltac:(lia) LM eq_refl Logic.I (S (length cs)) _ (cur a0) e W NA PL ltac:(intros; lia) (fun i Hi => env_RL None T a0 i HT Hi) (fun i t Hi C => cvar_const i _ _ Hi C) st [] (p_hist st) y st' M eq_refl eq_refl) as (_ & M' & _ & U' & R' & A1 & H1 & H2); [now rewrite U|exact E|].
  split; auto. split; [congruence|]. split; auto. intros R1 RH. rewrite R1 in H2. rewrite H1, RH. simpl app. revert H2. apply F2_imp. intros. now apply hv_hcs.
Qed.
(* the evaluation in mode 2, at a point of the domain *)
Lemma second_ok (T : B) a0 st u y st' : rel T a0 -> hok a0 st -> rel (p_dom st) u -> rel (p_dom st) 0 ->
  hpseval (env T) e st = (Ok y, st') ->
  hok a0 st' /\ p_uh st' = p_uh st /\ adom e (cur a0 u) /\ (length y <= s)%nat /\ exists c, coef B rel y c /\ f (a0 + u) = pe c (length y) u.
Proof.
  intros HT [M HU] Du D0 E.
  assert (G : exists so A0 rest, (so = (s - 1)%nat \/ (so = s /\ 2 = 2)%Z) /\ p_hist st = A0 ++ rest /\ (p_uh st = true -> rest = []) /\ (if p_uh st then (2 <= s)%nat /\ Forall2 (hc B rel s so) (trc isc e (cur a0) so) A0 else A0 = [])).
  { destruct (p_uh st).
    - destruct (HU eq_refl) as (_ & so & ES & F). exists so, (p_hist st), []. rewrite app_nil_r. split; [tauto|auto].
    - exists (s - 1)%nat, [], (p_hist st). split; [auto|]. split; [reflexivity|]. split; [discriminate|reflexivity]. }
  destruct G as (so & A0 & rest & ES & HH & HR & HU').
  destruct (HG_evalv B rel OK (Some (u, true)) 2 (p_dom st) s ltac:(lia) LM) with (so := so) (vc := isc) (x0 := cvar ys 0) (n := S (length cs)) (env := env T) (x := cur a0) (e := e) (st := st) (A0 := A0) (rest := rest) (a := y) (st' := st')
    as ([[RY _] EY] & M' & D' & U' & R' & A1 & H1 & H2); auto.
  { simpl. split; auto. split; auto. split; auto. exact (itv_cvx B rel CVX). }
  { intros; lia. } { intros i Hi. now apply env_RL. } { intros i t Hi C. now apply cvar_const. }
  split; [|split; [exact U'|]].
  - split; auto. intros UT. rewrite U' in UT. destruct (HU UT) as [R1 _]. split; [congruence|]. exists (s - 1)%nat. split; auto. rewrite R1 in H2. rewrite H1, (HR UT). simpl app. revert H2.
    apply F2_imp. intros. now apply hv_hc.
  - split; [apply adiff_dom; exact (proj1 EY)|]. destruct RY as [LY (c & Cc & Z & QQ)]. split; [lia|]. exists c. split; auto. destruct QQ as [QQ _]. cbn [fst] in QQ. rewrite QQ. apply pe_more; auto. lia.
Qed.
(* the same with the Taylor form *)
Lemma second_rep_par (T : B) a0 st u y st' : rel T a0 -> hok a0 st -> rel (p_dom st) u -> rel (p_dom st) 0 ->
  hpseval (env T) e st = (Ok y, st') -> adom e (cur a0 u) /\ Rep B rel (Some (u, true)) s y (fun t => f (a0 + t)).
Proof.
  intros HT [M HU] Du D0 E.
  assert (G : exists so A0 rest, (so = (s - 1)%nat \/ (so = s /\ 2 = 2)%Z) /\ p_hist st = A0 ++ rest /\ (p_uh st = true -> rest = []) /\ (if p_uh st then (2 <= s)%nat /\ Forall2 (hc B rel s so) (trc isc e (cur a0) so) A0 else A0 = [])).
  { destruct (p_uh st).
    - destruct (HU eq_refl) as (_ & so & ES & F). exists so, (p_hist st), []. rewrite app_nil_r. split; [tauto|auto].
    - exists (s - 1)%nat, [], (p_hist st). split; [auto|]. split; [reflexivity|]. split; [discriminate|reflexivity]. }
  destruct G as (so & A0 & rest & ES & HH & HR & HU').
  destruct (HG_evalv B rel OK (Some (u, true)) 2 (p_dom st) s ltac:(lia) LM) with (so := so) (vc := isc) (x0 := cvar ys 0) (n := S (length cs)) (env := env T) (x := cur a0) (e := e) (st := st) (A0 := A0) (rest := rest) (a := y) (st' := st')
    as ([[RY _] EY] & _); auto.
  { simpl. split; auto. split; auto. split; auto. exact (itv_cvx B rel CVX). }
  { intros; lia. } { intros i Hi. now apply env_RL. } { intros i t Hi C. now apply cvar_const. }
  split; [apply adiff_dom; exact (proj1 EY)|exact RY].
Qed.
(* the list stays good whatever the domain is *)
Lemma keep_ok (T : B) a0 st y st' : rel T a0 -> hok a0 st -> hpseval (env T) e st = (Ok y, st') -> hok a0 st' /\ p_uh st' = p_uh st.
Proof.
  intros HT [M HU] E. destruct (p_uh st) eqn:U.
  - destruct (HU eq_refl) as (R1 & so & ES & F).
    destruct (KG_evalv B rel OK s L2 so ES isc (cvar ys 0) (S (length cs)) (env T) (cur a0) e W NA PL) with (st := st) (A0 := p_hist st) (rest := @nil (list B)) (a := y) (st' := st') as (_ & M' & _ & U' & R' & A1 & H1 & H2); auto.
    { intros i Hi. pose proof (cs_at i Hi) as KC. destruct i as [|ii]; [|destruct KC as (c & y0 & E1 & E2 & RC); unfold penv, cvar; rewrite E1; cbn [isc LR]; split; [exists c; split; [reflexivity|now rewrite (nth_error_nth _ _ _ E2)]|intros t; now rewrite !(nth_error_nth _ _ _ E2)]].
      cbn [isc LR penv cvar]. split; [simpl; rewrite repeat_length; lia|]. exists (idc a0). split.
      - rewrite jet_bigO. apply (bigO_ext _ (fun t => pe (idc a0) s t - pe (idc a0) (s - 1) t) _ 1); [lra|intros t _; rewrite (pe_idc a0 s) by lia; ring|]. apply bigO_pe_diff. lia.
      - intros j Hj. apply (idc_coef B rel OK T a0 (s - 2) HT). rewrite app_length, repeat_length. simpl. lia. }
    { intros i t Hi C. now apply cvar_const. } { now rewrite app_nil_r. }
    split; [|auto]. split; auto. intros _. split; [congruence|]. exists (s - 1)%nat. split; auto. rewrite R1 in H2. rewrite H1. simpl app. revert H2. apply F2_imp. intros. now apply hv_hc.
  - pose proof (proj2 (sim_eval B (env T) e st U)) as SE. rewrite E in SE. destruct (SE y eq_refl) as (N1 & _ & N2 & _). cbn [snd] in *.
    rewrite U in N2. split; [|exact N2]. split; [congruence|]. intros C. rewrite N2 in C. discriminate C.
Qed.
(* one step from a0 to a0 + h *)
Lemma piece_ok (T step : B) a0 h st y st' J : rel T a0 -> hok a0 st -> rel step h -> (forall u, mix 0 h u -> rel (p_dom st) u) ->
  hpseval (env T) e st = (Ok y, st') -> ps_integrate y = Ok J ->
  (forall z, mix a0 (a0 + h) z -> adom e (cvar ys z)) /\ exists v, is_RInt f a0 (a0 + h) v /\ rel (ps_eval J step) v.
Proof.
  intros HT HO HS HD E EJ. set (g := fun u => f (a0 + u)).
  assert (D0 : rel (p_dom st) 0) by (apply HD; unfold mix; lra).
  assert (K : forall u, mix 0 h u -> adom e (cvar ys (a0 + u)) /\ (length y <= s)%nat /\ exists c, coef B rel y c /\ g u = pe c (length y) u).
  { intros u Hu. destruct (second_ok T a0 st u y st' HT HO (HD u Hu) D0 E) as (_ & _ & A). exact A. }
  assert (LY : (Z.of_nat (length y) < 2 ^ 53)%Z). { destruct (K 0) as (_ & L & _); [unfold mix; lra|lia]. }
  assert (CT : forall u, mix 0 h u -> continuous g u).
  { intros u Hu. apply (rval_continuous (S (length cs)) e (cur a0)); auto; [|apply K; auto]. intros i Hi.
    destruct i as [|j]; [|apply (continuous_ext (fun _ => cvar ys 0 (S j))); [intros t; now apply cvar_const|apply continuous_const]]. unfold cvar.
    apply (continuous_plus (fun _ => a0) (fun u => u)); [apply continuous_const|apply continuous_id]. }
  split. { intros z Hz. replace z with (a0 + (z - a0)) by ring. apply K. unfold mix in *. lra. }
  assert (I1 : exists v, is_RInt g 0 h v).
  { apply (ex_RInt_continuous g). intros z Hz. apply CT. unfold mix. unfold Rmin, Rmax in Hz. destruct (Rle_dec 0 h); lra. }
  destruct I1 as [v I1].
  destruct (integrate_encl B rel OK CVX y J g h v LY) as (L1 & c1 & C1 & E1); auto. { intros u Hu. apply K. exact Hu. }
  exists v. split.
  - assert (I' : is_RInt f (0 + a0) (h + a0) v).
    { apply (is_RInt_ext (fun z => Hierarchy.scal 1 (g (1 * z + - a0)))). { intros z _. unfold g, Hierarchy.scal; simpl. unfold Hierarchy.mult; simpl. rewrite Rmult_1_l.
        do 2 f_equal. ring. }
      apply (is_RInt_comp_lin g 1 (- a0)). replace (1 * (0 + a0) + - a0) with 0 by ring. replace (1 * (h + a0) + - a0) with h by ring. exact I1. }
    replace a0 with (0 + a0) at 1 by ring. replace (a0 + h) with (h + a0) by ring. exact I'.
  - rewrite E1. unfold ps_eval. now apply (horner_rel B rel OK).
Qed.
End Piece.
(* no data members *)
Section Plain.
Variable B : base.
Variable rel : B -> R -> Prop.
Hypothesis OK : base_ok B rel.
Hypothesis CVX : rel_itv B rel.
Variable e : aexpr.
Hypothesis W : awf 1 e.
Hypothesis PL : plog e.
Hypothesis NA : noarc e = true.
Variable s : nat.
Hypothesis L2 : (2 <= s)%nat.
Hypothesis LM : (Z.of_nat s <= 2 ^ 52)%Z.
Notation hok0 := (hok B rel e [] s).
Notation x T := (T :: t1 :: repeat t0 (s - 2)).
Lemma first_plain (T : B) a0 st y st' : rel T a0 -> p_mode st = 1%Z -> p_uh st = false -> hpseval (fun _ => x T) e st = (Ok y, st') ->
  p_mode st' = 1%Z /\ p_uh st' = false /\ p_rh st' = p_rh st /\ (p_rh st = true -> p_hist st = [] -> Forall2 (hc B rel s s) (trc isc e (fun t => cvar [] (a0 + t)) s) (p_hist st')).
Proof. intros H1 H2 H3 E. rewrite <- penv_nil in E. exact (first_ok B rel OK e [] [] (Forall2_nil _) W (plog_isc e W PL) NA s L2 LM T a0 st y st' H1 H2 H3 E). Qed.
Lemma keep_plain (T : B) a0 st y st' : rel T a0 -> hok0 a0 st -> hpseval (fun _ => x T) e st = (Ok y, st') -> hok0 a0 st' /\ p_uh st' = p_uh st.
Proof. intros H1 H2 E. rewrite <- penv_nil in E. exact (keep_ok B rel OK e [] [] (Forall2_nil _) W (plog_isc e W PL) NA s L2 T a0 st y st' H1 H2 E). Qed.
Lemma second_rep (T : B) a0 st u y st' : rel T a0 -> hok0 a0 st -> rel (p_dom st) u -> rel (p_dom st) 0 -> hpseval (fun _ => x T) e st = (Ok y, st') ->
  adom e (fun _ => a0 + u) /\ Rep B rel (Some (u, true)) s y (fun t => rval e (fun _ => a0 + t)).
Proof.
  intros H1 H2 H3 H4 E. rewrite <- penv_nil in E. destruct (second_rep_par B rel OK CVX e [] [] (Forall2_nil _) W (plog_isc e W PL) NA s L2 LM T a0 st u y st' H1 H2 H3 H4 E) as [A R].
  rewrite cvar_nil in A. split; auto. assert (EQ : (fun t => rval e (cvar [] (a0 + t))) = (fun t => rval e (fun _ => a0 + t))) by (apply FunctionalExtensionality.functional_extensionality; intros t; now rewrite cvar_nil). now rewrite <- EQ.
Qed.
Lemma piece_plain (T step : B) a0 h st y st' J : rel T a0 -> hok0 a0 st -> rel step h -> (forall u, mix 0 h u -> rel (p_dom st) u) ->
  hpseval (fun _ => x T) e st = (Ok y, st') -> ps_integrate y = Ok J -> exists v, is_RInt (fun y => rval e (fun _ => y)) a0 (a0 + h) v /\ rel (ps_eval J step) v.
Proof.
  intros H1 H2 H3 H4 E EJ. rewrite <- penv_nil in E. destruct (piece_ok B rel OK CVX e [] [] (Forall2_nil _) W (plog_isc e W PL) NA s L2 LM T step a0 h st y st' J H1 H2 H3 H4 E EJ) as [_ (v & I & R)].
  exists v. split; auto. revert I. apply is_RInt_ext. intros t _. now rewrite cvar_nil.
Qed.
End Plain.

Section Auto.
Variables (b : backend) (fuel : nat).
Notation S_ := (bscal b).
Notation B := (Ibase (bpar b) fuel).
Notation I := (iv S_).
Notation rel := (@isin S_).
Variable root : S_ -> nat -> S_.
Variable e : aexpr.
Variables (cs : list I) (ys : list R).
Hypothesis CS : Forall2 rel cs ys.
Hypothesis W : awf (S (length cs)) e.
Hypothesis PL : plogv isc (cvar ys 0) e.
Hypothesis NA : noarc e = true.
Variable s : nat.
Hypothesis L2 : (2 <= s)%nat.
Hypothesis LM : (Z.of_nat s <= 2 ^ 52)%Z.
Notation f := (fun y : R => rval e (cvar ys y)).
Notation fe := (pobj (cs : list (bT B)) e).
Notation env x := (penv (cs : list (bT B)) x).
Notation xs := (t1 (B:=B) :: repeat t0 (s - 2)).
Notation hok := (hok B rel e ys s).
Lemma zero_in_ : isin (ipt (@s0 S_)) 0.
Proof. destruct (ok_s0 _ (bok b)) as [W0 V0]. now apply isin_pt. Qed.
Lemma next_spec (t end_ : I) radius resized t1 radius' flag resized' step : au_next t end_ radius resized = (t1, radius', flag, resized', step) -> step = isub t1 t /\ (flag = true -> t1 = end_).
Proof.
  unfold au_next. destruct (isubset _ _); intros E; injection E as <- <- <- <- <-; split; auto. discriminate.
Qed.
Lemma inner_ok ord1 tol (t end_ : I) a0 : isin t a0 -> forall g radius restart resized (st : pst B) z t1 step flag st', hok a0 st ->
  au_inner (bpar b) fuel root fe g ((t : bT B) :: xs) t end_ ord1 tol radius restart resized st = (Ok (z, t1, step, flag), st') ->
  (flag = true -> t1 = end_) /\ (p_uh st = false -> p_uh st' = false) /\
  forall b0, isin t1 b0 -> (forall y, mix a0 b0 y -> adom e (cvar ys y)) /\ exists v, is_RInt f a0 b0 v /\ isin z v.
Proof.
  intros HT. induction g; intros radius restart resized st z t1 step flag st' HO E; cbn [au_inner] in E; [discriminate E|].
  destruct (au_next t end_ radius resized) as [[[[t1' radius'] flag'] resized'] step'] eqn:EN. destruct (next_spec _ _ _ _ _ _ _ _ _ EN) as [ES EF]. clear EN.
  unfold hbind at 1 in E. unfold hmod in E. set (s1 := set_dom (hullSI s0 step' : bT B) st) in E.
  assert (HO1 : hok a0 s1) by exact HO.
  destruct (hpseval (env ((t : bT B) :: xs)) e s1) as [[y|er] s2] eqn:EY.
  - destruct (keep_ok B rel (IOK b fuel) e cs ys CS W PL NA s L2 t a0 s1 y s2 HT HO1 EY) as [HO2 U2].
    assert (EH : hbind (fe ((t : bT B) :: xs)) (fun y => hlift (ps_integrate (B:=B) y)) s1 = (ps_integrate (B:=B) y, s2)) by (unfold hbind, pobj; rewrite EY; reflexivity).
    rewrite EH in E. destruct (ps_integrate (B:=B) y) as [J|er] eqn:EJ; cbv zeta in E.
    + destruct resized'.
      * injection E as <- <- <- <- <-. split; [exact EF|]. split; [intros U; rewrite U2; exact U|]. intros b0 Hb.
        assert (HS : isin step' (b0 - a0)). { rewrite ES. exact (bk_sub _ _ (IOK b fuel) t1' t b0 a0 Hb HT). }
        destruct (piece_ok B rel (IOK b fuel) (isin_itv b fuel) e cs ys CS W PL NA s L2 LM t step' a0 (b0 - a0) s1 y s2 J HT HO1 HS) as [DD (v & IV & RV)]; auto.
        { intros u Hu. cbn [s1 set_dom p_dom]. change (hullSI s0 step') with (hull (ipt s0) step'). apply (isin_hull_law b (ipt s0) step' 0 (b0 - a0)); auto. exact zero_in_. }
        replace (a0 + (b0 - a0)) with b0 in * by ring. split; auto. exists v. auto.
      * apply IHg in E; [|exact HO2]. destruct E as (E1 & E2 & E3). split; auto. split; auto. intros U. apply E2. rewrite U2. exact U.
    + destruct er; try discriminate E. destruct (restart <? restart_max)%nat; [|discriminate E]. apply IHg in E; [|split; [exact (proj1 HO2)|intros C; discriminate C]].
      destruct E as (E1 & E2 & E3). split; auto.
  - assert (EH : hbind (fe ((t : bT B) :: xs)) (fun y => hlift (ps_integrate (B:=B) y)) s1 = (Err er, s2)) by (unfold hbind, pobj; rewrite EY; reflexivity).
    rewrite EH in E. destruct er; try discriminate E. destruct (restart <? restart_max)%nat; [|discriminate E].
    pose proof (proj1 (keep_eval B (env ((t : bT B) :: xs)) e s1)) as KM. rewrite EY in KM. cbn [snd] in KM.
    apply IHg in E; [|split; [cbn [set_uh p_mode]; rewrite KM; exact (proj1 HO)|intros C; discriminate C]]. destruct E as (E1 & E2 & E3). split; auto.
Qed.
Lemma outer_ok fast (end_ : I) order eps a bb : isin end_ bb -> forall g (t result : I) (st : pst B) res l st' a0 v0,
  (fast = true \/ p_uh st = false) -> isin t a0 -> isin result v0 -> is_RInt f a a0 v0 -> (a0 = a \/ forall y, mix a a0 y -> adom e (cvar ys y)) ->
  au_outer (bpar b) fuel root fe g fast xs end_ order eps t result st = (Ok (res, l), st') -> (forall p, In p l -> exists x, isin (snd (fst p)) x) ->
  (forall y, mix a bb y -> adom e (cvar ys y)) /\ exists v, is_RInt f a bb v /\ isin res v.
Proof.
  intros HB. induction g; intros t result st res l st' a0 v0 FU HT HV IV DA E HL; cbn [au_outer] in E; [discriminate E|].
  cbv zeta in E. apply hb_ok in E as (u0 & s1 & M1 & E). unfold hmod in M1. injection M1 as _ <-.
  set (s1 := set_mode 1 (if fast then set_hist [] (set_rh true (set_uh false st)) else st)) in E.
  apply hb_ok in E as (y & s2 & EY & E). apply hb_ok in E as (J & s3 & EJ & E). unfold hlift in EJ. injection EJ as EJ <-.
  apply hb_ok in E as (Y & s3 & EO & E). unfold hget, hlift in EO. injection EO as EO <-.
  apply hb_ok in E as (u1 & s4 & M2 & E). unfold hmod in M2. injection M2 as _ <-.
  set (s4 := set_mode 2 (if fast then set_uh true s2 else s2)) in E.
  apply hb_ok in E as (q & s5 & EI & E). destruct q as [[[z t1] step] flag].
  assert (F1 : p_mode s1 = 1%Z /\ p_uh s1 = false /\ (fast = true -> p_rh s1 = true /\ p_hist s1 = [])).
  { unfold s1. destruct fast; cbn [set_mode set_hist set_rh set_uh p_mode p_uh p_rh p_hist]; auto. destruct FU as [C|U1]; [discriminate C|]. split; auto. split; auto. intros C. discriminate C. }
  destruct F1 as (F1 & F2 & F3).
  destruct (first_ok B rel (IOK b fuel) e cs ys CS W PL NA s L2 LM t a0 s1 y s2 HT F1 F2 EY) as (G1 & G2 & G3 & G4).
  assert (HO : hok a0 s4).
  { split; [reflexivity|]. unfold s4. destruct fast; cbn [set_mode set_uh p_uh p_rh p_hist]; [|intros C; rewrite G2 in C; discriminate C]. intros _. destruct (F3 eq_refl) as [F4 F5]. split; [rewrite G3; exact F4|]. exists s. split; auto. }
  destruct (inner_ok _ _ t end_ a0 HT _ _ _ _ s4 z t1 step flag s5 HO EI) as (K1 & K2 & K3).
  assert (HR : forall b0, isin t1 b0 -> (forall y, mix a b0 y -> adom e (cvar ys y)) /\ exists v, is_RInt f a b0 v /\ isin (iadd result z) v).
  { intros b0 Hb. destruct (K3 b0 Hb) as [DD (v & I1 & R1)]. split.
    - intros w Hw. destruct DA as [->|DA]; [auto|]. assert (HC : mix a a0 w \/ mix a0 b0 w) by (unfold mix in *; lra). destruct HC; auto.
    - exists (v0 + v). split; [exact (is_RInt_Chasles f a a0 b0 v0 v IV I1)|]. exact (bk_add _ _ (IOK b fuel) result z v0 v HV R1). }
  destruct flag.
  - unfold hret, hlift in E. injection E as <- <- <-. rewrite (K1 eq_refl) in HR. auto.
  - apply hb_ok in E as (r & s6 & E6 & E). destruct r as [res' l']. unfold hret, hlift in E. cbn [fst snd] in E. injection E as <- <- <-.
    destruct (HL (t, t1, step)) as [b0 Hb]; [now left|]. cbn [fst snd] in Hb. destruct (HR b0 Hb) as [DD (v & I1 & R1)].
    refine (IHg t1 (iadd result z) s5 res' l' s6 b0 v _ Hb R1 I1 (or_intror DD) E6 _); [|intros p Hp; apply HL; now right].
    destruct fast; [auto|]. right. apply K2. exact G2.
Qed.
End Auto.

Section Top.
Variables (b : backend) (fuel : nat).
Notation S_ := (bscal b).
Notation B := (Ibase (bpar b) fuel).
Notation I := (iv S_).
Variable root : S_ -> nat -> S_.
(* a function object with data members cs *)
Theorem autostep_par_ok e (cs : list I) ys g fast (start end_ : I) order eps (st : pst B) res l st' a c : Forall2 isin cs ys -> awf (S (length cs)) e -> plogv isc (cvar ys 0) e -> noarc e = true -> (1 <= order)%Z -> (order < 2 ^ 52)%Z ->
  defint_autostep_par (bpar b) fuel root e cs g fast start end_ order eps st = (Ok (res, l), st') -> (forall p, In p l -> exists x, isin (snd (fst p)) x) -> isin start a -> isin end_ c ->
  (forall y, mix a c y -> adom e (cvar ys y)) /\ exists v, is_RInt (fun y => rval e (cvar ys y)) a c v /\ isin res v.
Proof.
  intros CS W PL NA O1 O2 E HL HA HC. unfold defint_autostep_par, autostep in E. apply hb_ok in E as (u0 & s1 & M1 & E). unfold hmod in M1. injection M1 as _ <-.
  apply hb_ok in E as (x & s2 & EX & E). unfold hget, hlift in EX. injection EX as EX <-. rewrite (setorder_id B _ _ t0 order O1) in EX. apply oki in EX. subst x. cbn [app] in E.
  apply hb_ok in E as (r & s3 & EO & E). apply hb_ok in E as (u1 & s4 & M2 & E). unfold hret, hlift in E. injection E as E _. subst r.
  assert (ES : (Z.to_nat order - 1)%nat = (S (Z.to_nat order) - 2)%nat) by lia. rewrite ES in EO.
  refine (outer_ok b fuel root e cs ys CS W PL NA (S (Z.to_nat order)) ltac:(lia) ltac:(lia) fast end_ order eps a c HC g start (ipt s0) (set_rh false (set_uh false st)) res l s3 a 0 (or_intror eq_refl) HA (zero_in_ b) _ (or_introl eq_refl) EO HL).
  exact (is_RInt_point (fun y => rval e (cvar ys y)) a).
Qed.
Theorem autostep_ok e g fast (start end_ : I) order eps (st : pst B) res l st' a c : awf 1 e -> plog e -> noarc e = true -> (1 <= order)%Z -> (order < 2 ^ 52)%Z ->
  defint_autostep (bpar b) fuel root e g fast start end_ order eps st = (Ok (res, l), st') -> (forall p, In p l -> exists x, isin (snd (fst p)) x) -> isin start a -> isin end_ c ->
  (forall y, mix a c y -> adom e (fun _ => y)) /\ exists v, is_RInt (fun y => rval e (fun _ => y)) a c v /\ isin res v.
Proof.
  intros W PL NA O1 O2 E HL HA HC. unfold defint_autostep in E. rewrite obj_nil in E.
  destruct (autostep_par_ok e [] [] g fast start end_ order eps st res l st' a c (Forall2_nil _)) as [DD (v & IV & RV)]; auto.
  { now apply plog_isc. }
  split; [intros y Hy; rewrite <- cvar_nil; auto|]. exists v. split; auto. revert IV. apply is_RInt_ext. intros y _. now rewrite cvar_nil.
Qed.
Variable e : hfn B.
Hypothesis RE : forall x fast m, rl B fast m (e x) (e x).
(* the inner loop makes at most RESTART_MAX + 2 turns *)
Lemma inner_fuel (x : list B) (t end_ : I) ord1 tol : forall (g g' : nat) radius (restart : nat) (resized : bool) (st : pst B), (restart <= restart_max)%nat -> (restart_max - restart + (if resized then 1%nat else 2%nat) <= g)%nat -> (restart_max - restart + (if resized then 1%nat else 2%nat) <= g')%nat ->
  au_inner (bpar b) fuel root e g x t end_ ord1 tol radius restart resized st = au_inner (bpar b) fuel root e g' x t end_ ord1 tol radius restart resized st.
Proof.
  induction g; intros g' radius restart resized st HR H H'; [destruct resized; lia|]. destruct g'; [destruct resized; lia|]. cbn [au_inner].
  destruct (au_next t end_ radius resized) as [[[[t1 radius'] flag] resized'] step] eqn:EN. rewrite !hb_mod.
  assert (RR : resized = true -> resized' = true). { intros ->. unfold au_next in EN. destruct (isubset _ _); injection EN as _ _ _ <- _; reflexivity. }
  destruct (hbind _ _ (set_dom _ st)) as [[y|er] s2]; cbv zeta.
  - destruct resized'; [reflexivity|]. destruct resized; [discriminate (RR eq_refl)|]. apply IHg; lia.
  - destruct er; try reflexivity. destruct (Nat.ltb_spec restart restart_max); [|reflexivity]. apply IHg; [lia| |]; destruct resized, resized'; try lia; discriminate (RR eq_refl).
Qed.
(* the flags are put back, the mode as a bool *)
Lemma autostep_state g fast (start end_ : I) order eps (st : pst B) r st' : autostep (bpar b) fuel root e g fast start end_ order eps st = (Ok r, st') ->
  p_uh st' = p_uh st /\ p_rh st' = p_rh st /\ p_mode st' = (if (p_mode st =? 0)%Z then 0%Z else 1%Z).
Proof.
  intros E. unfold autostep in E. apply hb_ok in E as (u0 & s1 & _ & E). apply hb_ok in E as (x & s2 & _ & E). destruct x as [|x0 xs]; [discriminate E|].
  apply hb_ok in E as (r' & s3 & _ & E). apply hb_ok in E as (u1 & s4 & M2 & E). unfold hmod in M2. injection M2 as _ <-. unfold hret, hlift in E. injection E as _ <-. auto.
Qed.
(* the result does not depend on the state left in psa *)
Lemma lift_eq {A} (r : res A) (s : pst B) : hlift r s = (r, s). Proof. reflexivity. Qed.
Lemma get_eq {A} (h : Z -> B -> hM B A) s : hget h s = h (p_mode s) (p_dom s) s. Proof. reflexivity. Qed.
Lemma rl_fi fast (x : list B) : forall m, rl B fast m (hbind (e x) (fun y => hlift (ps_integrate (B:=B) y))) (hbind (e x) (fun y => hlift (ps_integrate (B:=B) y))).
Proof. intros m. apply rl_bind; [apply RE|intros; apply rl_lift]. Qed.
Lemma out_inner fast (x : list B) (t end_ : I) ord1 tol g : forall radius restart resized s1 s2, eqv0 B fast 2 s1 s2 ->
  out (bpar b) fuel fast 2 (au_inner (bpar b) fuel root e g x t end_ ord1 tol radius restart resized s1) (au_inner (bpar b) fuel root e g x t end_ ord1 tol radius restart resized s2).
Proof.
  induction g; intros radius restart resized s1 s2 E0; cbn [au_inner]; [apply out_err|].
  destruct (au_next t end_ radius resized) as [[[[t1 radius'] flag] resized'] step]. rewrite !hb_mod.
  assert (E : eqv B fast 2 (set_dom (hullSI s0 step : bT B) s1) (set_dom (hullSI s0 step : bT B) s2)) by (split; [exact E0|now right]).
  revert E. generalize (set_dom (hullSI s0 step : bT B) s1) (set_dom (hullSI s0 step : bT B) s2). clear s1 s2 E0. intros s1 s2 E.
  destruct (rl_fi fast x 2 s1 s2 E) as [E1 E2]. destruct (hbind _ _ s1) as [[y|er] u1], (hbind _ _ s2) as [[y'|er'] u2]; cbn [fst snd] in E1, E2; try discriminate E1.
  - apply oki in E1. subst y'. cbv zeta. destruct resized'; [apply out_eqv; auto|]. apply IHg, E2.
  - injection E1 as ->. destruct er'; try apply out_err. destruct (restart <? restart_max)%nat; [|apply out_err]. apply IHg. apply (eqv_uh B fast 2 false u1 u2); [discriminate|exact E2].
Qed.
Lemma outer_indep fast xs (end_ : I) order eps : forall g (t result : I) s1 s2, (fast = true \/ (p_uh s1 = false /\ p_rh s1 = false /\ p_uh s2 = false /\ p_rh s2 = false)) ->
  fst (au_outer (bpar b) fuel root e g fast xs end_ order eps t result s1) = fst (au_outer (bpar b) fuel root e g fast xs end_ order eps t result s2).
Proof.
  induction g; intros t result s1 s2 FU; cbn [au_outer]; [reflexivity|]. cbv zeta. rewrite !hb_mod.
  assert (E : eqv B fast 1 (set_mode 1 (if fast then set_hist [] (set_rh true (set_uh false s1)) else s1)) (set_mode 1 (if fast then set_hist [] (set_rh true (set_uh false s2)) else s2))).
  { destruct fast; [repeat split; simpl; auto; now left|]. destruct FU as [C|(A1 & A2 & A3 & A4)]; [discriminate C|]. split; [|now left]. repeat split; simpl; congruence. }
  revert E. generalize (set_mode 1 (if fast then set_hist [] (set_rh true (set_uh false s1)) else s1)) (set_mode 1 (if fast then set_hist [] (set_rh true (set_uh false s2)) else s2)). clear s1 s2 FU. intros s1 s2 E.
  rewrite !(hb_eq (bpar b) fuel (e _)). destruct (RE ((t : bT B) :: xs) fast 1%Z s1 s2 E) as [E1 E2].
  destruct (e _ s1) as [[y|er] u1], (e _ s2) as [[y'|er'] u2]; cbn [fst snd] in E1, E2; try discriminate E1; [|injection E1 as ->; reflexivity]. apply oki in E1. subst y'.
  rewrite !(hb_eq (bpar b) fuel (hlift (ps_integrate (B:=B) y))), !lift_eq. destruct (ps_integrate (B:=B) y) as [J|er]; [|reflexivity].
  rewrite !(hb_eq (bpar b) fuel (hget _)), !get_eq, !lift_eq. pose proof E2 as ((M1 & M2 & U1 & R1 & H1) & D1). rewrite M1, M2, (md_setorder B 1 _ _ J (order + 1) D1).
  destruct (ps_setorder _ _ J (order + 1)) as [Y|er]; [|reflexivity]. rewrite !hb_mod.
  assert (E3 : eqv0 B fast 2 (set_mode 2 (if fast then set_uh true u1 else u1)) (set_mode 2 (if fast then set_uh true u2 else u2))). { clear - U1 R1 H1. destruct fast; repeat split; simpl; auto; tauto. }
  revert E3. generalize (set_mode 2 (if fast then set_uh true u1 else u1)) (set_mode 2 (if fast then set_uh true u2 else u2)). clear - IHg RE. intros s1 s2 E.
  rewrite !(hb_eq (bpar b) fuel (au_inner _ _ _ _ _ _ _ _ _ _ _ _ _)).
  match goal with |- context [au_inner _ _ _ _ ?g1 ?x ?t0 ?e0 ?o1 ?tl ?ra ?n0 ?b0 s1] => destruct (out_inner fast x t0 e0 o1 tl g1 ra n0 b0 s1 s2 E) as [E4 E5] end.
  destruct (au_inner _ _ _ _ _ _ _ _ _ _ _ _ _ s1) as [[q|er] v1], (au_inner _ _ _ _ _ _ _ _ _ _ _ _ _ s2) as [[q'|er'] v2]; cbn [fst snd] in E4, E5; try discriminate E4; [|injection E4 as ->; reflexivity].
  specialize (E5 q eq_refl). apply oki in E4. subst q'. destruct q as [[[z t1] step] flag]. destruct flag; [reflexivity|]. rewrite !(hb_eq (bpar b) fuel (au_outer _ _ _ _ _ _ _ _ _ _ _ _)).
  assert (FU : fast = true \/ (p_uh v1 = false /\ p_rh v1 = false /\ p_uh v2 = false /\ p_rh v2 = false)). { destruct E5 as ((M1 & M2 & U1 & R1 & H1) & _). destruct fast; auto. right. destruct H1. rewrite <- U1, <- R1. auto. }
  pose proof (IHg t1 (iadd result z) v1 v2 FU) as E6.
  destruct (au_outer _ _ _ _ _ _ _ _ _ _ _ _ v1) as [[r|er] w1], (au_outer _ _ _ _ _ _ _ _ _ _ _ _ v2) as [[r'|er'] w2]; cbn [fst] in E6; try discriminate E6; [|injection E6 as ->; reflexivity].
  apply oki in E6. subst r'. reflexivity.
Qed.
Theorem autostep_indep g fast (start end_ : I) order eps (s1 s2 : pst B) : (1 <= order)%Z ->
  fst (autostep (bpar b) fuel root e g fast start end_ order eps s1) = fst (autostep (bpar b) fuel root e g fast start end_ order eps s2).
Proof.
  intros O1. unfold autostep. rewrite !hb_mod, !(hb_eq (bpar b) fuel (hget _)), !get_eq, !lift_eq, !(setorder_id B _ _ t0 order O1). cbn [app].
  match goal with |- context [au_outer _ _ _ _ _ _ ?xs _ _ _ _ _] => pose proof (outer_indep fast xs end_ order eps g start (ipt s0) (set_rh false (set_uh false s1)) (set_rh false (set_uh false s2))) as E end.
  specialize (E (or_intror (conj eq_refl (conj eq_refl (conj eq_refl eq_refl))))). rewrite !(hb_eq (bpar b) fuel (au_outer _ _ _ _ _ _ _ _ _ _ _ _)).
  destruct (au_outer _ _ _ _ _ _ _ _ _ _ _ _ (set_rh false (set_uh false s1))) as [[r|er] w1], (au_outer _ _ _ _ _ _ _ _ _ _ _ _ (set_rh false (set_uh false s2))) as [[r'|er'] w2]; cbn [fst] in E; try discriminate E; [|injection E as ->; reflexivity].
  apply oki in E. subst r'. reflexivity.
Qed.
End Top.
