(* The evaluations of f in kv/ode.hpp with the history list of psa, for any base type: mode 1 (lines 112-124) and mode 2 (from line 169). *)
From Coq Require Import Reals ZArith Bool List Lra Lia Psatz Arith.
From Coquelicot Require Import Coquelicot.
From Verif Require Import Ext RealFun RealConst ADModel ADReal ADProofs PsaModel PsaReal PsaProofs PsaExpr PsaInt PsaUseProofs PsaHist PsaHistProofs PsaHistRep PsaHistKeep.
From Verif Require Import ADSys OdeLip OdePicard OdeSeries OdeStep OdeModel.
Import List ListNotations.
Open Scope R_scope.

(* ---- mode() is never changed by an evaluation, domain() is put back ---- *)
Section Keepm.
Variable B : base.
Notation psa := (list B).
Definition keep {A} (M : hM B A) : Prop := forall s, p_mode (snd (M s)) = p_mode s /\ forall a, fst (M s) = Ok a -> p_dom (snd (M s)) = p_dom s.
Lemma keep_lift {A} (r : res A) : keep (hlift r). Proof. intros s. split; auto. Qed.
Lemma keep_bind {A A'} (M : hM B A) (f : A -> hM B A') : keep M -> (forall a, keep (f a)) -> keep (hbind M f).
Proof.
  intros HM HF s. unfold hbind. destruct (HM s) as [E1 E2]. destruct (M s) as [[a|e] s1]; cbn [fst snd] in *; [|split; [auto|discriminate]].
  destruct (HF a s1) as [F1 F2]. split; [congruence|]. intros b Eb. rewrite (F2 b Eb). now apply (E2 a).
Qed.
Lemma keep_get {A} (f : Z -> B -> hM B A) : (forall m D, keep (f m D)) -> keep (hget f). Proof. intros H s. apply H. Qed.
Lemma keep_mod f : (forall s, p_mode (f s) = p_mode s /\ p_dom (f s) = p_dom s) -> keep (hmod (B:=B) f). Proof. intros H s. split; [|intros _ _]; apply H. Qed.
Lemma keep_rec (U : psa) s : p_mode (record U s) = p_mode s /\ p_dom (record U s) = p_dom s. Proof. unfold record. destruct (p_rh s); auto. Qed.
Lemma keep_fin fr (V : psa) : keep (hfin fr V).
Proof. intros s. unfold hfin. destruct (p_uh s); [destruct (p_hist s); [split; [auto|discriminate]|]|]; cbn [fst snd]; split; try intros _ _; match goal with |- context [record ?U ?q] => destruct (keep_rec U q) as [E1 E2]; rewrite ?E1, ?E2; reflexivity end. Qed.
Lemma keep_fun {A} (f : pst B -> hM B A) : (forall q, keep (f q)) -> keep (fun s => f s s). Proof. intros H s. apply H. Qed.
Lemma keep_add a b : keep (hps_add (B:=B) a b). Proof. apply keep_bind; [apply keep_lift|intros; apply keep_fin]. Qed.
Lemma keep_sub a b : keep (hps_sub (B:=B) a b). Proof. apply keep_bind; [apply keep_lift|intros; apply keep_fin]. Qed.
Lemma keep_mul a b : keep (hps_mul (B:=B) a b). Proof. apply keep_get. intros. apply keep_bind; [apply keep_lift|intros; apply keep_fin]. Qed.
Lemma keep_mulC a k e : keep (hps_mulC (B:=B) a k e). Proof. apply (keep_fun (fun s => hfin true (if p_uh s then _ else _))). intros. apply keep_fin. Qed.
Lemma keep_Cmul k e a : keep (hps_Cmul (B:=B) k e a). Proof. apply (keep_fun (fun s => hfin true (if p_uh s then _ else _))). intros. apply keep_fin. Qed.
Lemma keep_turn {St} (stp : nat -> bool -> St -> res (B * St)) g i last hn r st : keep (hturn stp g i last hn r st).
Proof.
  apply keep_bind; [apply keep_mul|]. intros. apply keep_bind; [apply keep_lift|]. intros. apply keep_bind; [apply keep_fin|]. intros. apply keep_bind; [apply keep_add|]. intros. apply keep_lift.
Qed.
Lemma keep_loop {St} (stp : nat -> bool -> St -> res (B * St)) n g old cnt : forall i hn r st, keep (hloop stp n g old cnt i hn r st).
Proof.
  induction cnt; intros i hn r st; cbn [hloop]; [apply keep_lift|]. intros s. cbv zeta.
  set (s1 := if p_uh s && (old <=? i)%nat then set_uh false s else s). set (last := ((p_mode s1 =? 2)%Z && (i =? n - 1)%nat)). set (s2 := if last then set_rh false s1 else s1).
  assert (E : p_mode s2 = p_mode s /\ p_dom s2 = p_dom s) by (unfold s2, s1; destruct last, (p_uh s && (old <=? i)%nat); auto). destruct E as [E1 E2].
  assert (K : keep (hbind (hturn stp g i last hn r st) (fun q => hloop stp n g old cnt (S i) (fst (fst q)) (snd (fst q)) (snd q)))). { apply keep_bind; [apply keep_turn|intros; apply IHcnt]. }
  destruct (K s2) as [K1 K2]. split; [congruence|]. intros a Ea. rewrite (K2 a Ea). auto.
Qed.
Lemma keep_tay {St} (stp : nat -> bool -> St -> res (B * St)) x g r0 st : keep (htay stp x g r0 st).
Proof.
  intros s. unfold htay. destruct (if p_uh s then _ else _) as [old|]; [|split; [auto|discriminate]].
  refine (keep_bind _ _ (keep_loop _ _ _ _ _ _ _ _ _) _ s). intros r. apply keep_bind; [apply keep_mod; auto|]. intros. apply keep_mulC.
Qed.
Ltac kp := repeat first [apply keep_lift|apply keep_tay|apply keep_mul|apply keep_add|apply keep_sub|apply keep_Cmul|apply keep_mulC|(apply keep_get; intros)|(apply keep_bind; [|intros])].
Lemma keep_inv x : keep (hps_inv (B:=B) x). Proof. destruct x; unfold hps_inv; kp. Qed.
Lemma keep_arc f x : keep (hps_arc (B:=B) f x).
Proof.
  destruct x as [|a x]; unfold hps_arc; [kp|]. intros s. cbv zeta. set (D' := if (p_mode s =? 2)%Z then _ else _). unfold hbind, hmod, hlift.
  destruct (ps_setorder (p_mode s) D' _ _) as [t|]; cbn [fst snd]; [|split; [auto|discriminate]]. destruct (bfun f a) as [v|]; cbn [fst snd]; [|split; [auto|discriminate]].
  destruct (ps_der f _ _ _) as [d|]; cbn [fst snd]; [|split; [auto|discriminate]]. destruct (ps_integrate d) as [I0|]; cbn [fst snd]; [|split; [auto|discriminate]].
  destruct (ps_addT I0 v) as [T|]; cbn [fst snd]; [|split; [auto|discriminate]].
  destruct (keep_tay (step_tab T) (a :: x) (ps_h (a :: x)) (at_ T 0) tt (set_dom (p_dom s) (set_rh (p_rh s) (set_uh (p_uh s) (set_dom D' (set_rh false (set_uh false s))))))) as [K1 K2]. split; auto.
Qed.
Lemma keep_div a b : keep (hps_div (B:=B) a b). Proof. apply keep_bind; [apply keep_inv|intros; apply keep_mul]. Qed.
Lemma keep_Cdiv k e b : keep (hps_Cdiv (B:=B) k e b). Proof. apply keep_bind; [apply keep_inv|intros; apply keep_Cmul]. Qed.
Lemma keep_exp x : keep (hps_exp (B:=B) x). Proof. destruct x; unfold hps_exp; kp. Qed.
Lemma keep_log x : keep (hps_log (B:=B) x). Proof. destruct x; unfold hps_log; kp. Qed.
Lemma keep_sqrt x : keep (hps_sqrt (B:=B) x). Proof. destruct x; unfold hps_sqrt; kp. Qed.
Lemma keep_sin x : keep (hps_sin (B:=B) x). Proof. destruct x; unfold hps_sin; kp. Qed.
Lemma keep_cos x : keep (hps_cos (B:=B) x). Proof. destruct x; unfold hps_cos; kp. Qed.
Lemma keep_sinh x : keep (hps_sinh (B:=B) x). Proof. destruct x; unfold hps_sinh; kp. Qed.
Lemma keep_cosh x : keep (hps_cosh (B:=B) x). Proof. destruct x; unfold hps_cosh; kp. Qed.
Lemma keep_powl k : forall r x, keep (hps_pow_loop (B:=B) k r x). Proof. induction k; intros r x; cbn [hps_pow_loop]; kp; auto. Qed.
Lemma keep_powi x y : keep (hps_powi (B:=B) x y). Proof. destruct y; cbn [hps_powi]; kp; auto using keep_powl, keep_Cdiv, keep_inv. Qed.
Lemma keep_f f x : keep (hps_fun (B:=B) f x).
Proof. destruct f; cbn [hps_fun]; kp; auto using keep_exp, keep_log, keep_sqrt, keep_sin, keep_cos, keep_sinh, keep_cosh, keep_div, keep_arc, keep_inv. Qed.
Lemma keep_sc o k e x : keep (hps_sc (B:=B) o k e x). Proof. destruct o; cbn [hps_sc]; kp; auto using keep_Cdiv, keep_inv. Qed.
Lemma keep_eval env e : keep (hpseval (B:=B) env e).
Proof. induction e; cbn [hpseval]; kp; auto using keep_div, keep_inv, keep_sc, keep_powi, keep_f, keep_log, keep_exp. Qed.
Lemma keep_vec {A} k d (g : nat -> hM B A) : (forall i, keep (g i)) -> keep (hvecM k d g).
Proof. intros H. induction k; cbn [hvecM]; kp; auto. Qed.
End Keepm.

Section OdeH.
Variable B : base.
Variable rel : B -> R -> Prop.
Hypothesis OK : base_ok B rel.
Hypothesis CVX : rel_itv B rel.
Notation Rep := (Rep B rel).
Notation coef := (coef B rel).
Notation hv := (hv B rel).
Variables (n : nat) (es : nat -> aexpr).
Hypothesis WF : forall i, (i < n)%nat -> awf (S n) (es i).
Hypothesis PL : forall i, (i < n)%nat -> plog (es i).
Hypothesis NA : forall i, (i < n)%nat -> noarc (es i) = true.
Variables (t0_ : R) (start : B).
Hypothesis HS : rel start t0_.
Notation F := (fun i => rval (es i)).
Notation curve := (curve n t0_).
(* the series recorded by an evaluation of f along a curve *)
Fixpoint trv (k : nat) (u : nat -> R -> R) (N : nat) : list ent := match k with O => [] | S k => trv k u N ++ tr (es k) (curve u) N end.
Notation fv x t := (hvecM n (fun _ => []) (fun i => hpseval (fun k => if (k <? n)%nat then x k else t) (es i))).

Lemma vec_HT k m D s (x : nat -> list B) (t : list B) u : (1 <= s)%nat -> (Z.of_nat s <= 2 ^ 52)%Z -> mdok B rel k m D ->
  match k with Some p => snd p = true /\ (2 <= s)%nat | None => True end ->
  (s = 1%nat -> forall i, (i < n)%nat -> adom (es i) (curve u 0)) -> (forall i, (i < n)%nat -> RL B rel k s false (u i) (x i)) -> RL B rel k s false (fun t => t0_ + t) t ->
  HT B rel m D s (fv x t) (trv n u) (fun y => forall i, (i < n)%nat -> Rep k s (y i) (fun t => F i (curve u t)) /\ Ev k (fun t => adiff (es i) (curve u t))).
Proof.
  intros S1 S2 MD KJ HD HX HT'. assert (G : forall j, (j <= n)%nat -> HT B rel m D s (hvecM j (fun _ => []) (fun i => hpseval (fun k => if (k <? n)%nat then x k else t) (es i))) (trv j u)
    (fun y => forall i, (i < j)%nat -> Rep k s (y i) (fun t => F i (curve u t)) /\ Ev k (fun t => adiff (es i) (curve u t)))).
  { induction j; intros Hj; cbn [hvecM trv].
    - apply HT_lift. intros; lia.
    - refine (HT_bind _ _ _ _ _ _ _ _ _ _ _ (IHj _) _); [lia|]. intros v Hv.
      refine (HT_T _ _ _ _ _ _ (fun N => tr (es j) (curve u) N ++ []) _ _ (fun N => app_nil_r _) _).
      refine (HT_bind _ _ _ _ _ _ _ (tr (es j) (curve u)) (fun _ => []) _ _ (HT_eval B rel OK k m D s S1 S2 MD KJ (S n) _ (curve u) (es j) (WF j ltac:(lia)) (NA j ltac:(lia)) (PL j ltac:(lia)) (fun E => HD E j ltac:(lia)) _) _).
      + intros i Hi. unfold OdePicard.curve, ev. destruct (Nat.ltb_spec i n); auto.
      + intros y [[RY _] EY]. apply HT_lift. intros a Ea. injection Ea as <-. intros i Hi. destruct (Nat.eqb_spec i j) as [->|N]; [split; auto|]. apply Hv. lia. }
  apply G. lia.
Qed.
Lemma vec_KT s (x : nat -> list B) (t : list B) u : (2 <= s)%nat -> (forall i, (i < n)%nat -> LR B rel s false (u i) (x i)) -> LR B rel s false (fun t => t0_ + t) t ->
  KT B rel s (fv x t) (trv n u (s - 1)) (fun _ => True).
Proof.
  intros S2 HX HT'. assert (G : forall j, (j <= n)%nat -> KT B rel s (hvecM j (fun _ => []) (fun i => hpseval (fun k => if (k <? n)%nat then x k else t) (es i))) (trv j u (s - 1)) (fun _ => True)).
  { induction j; intros Hj; cbn [hvecM trv].
    - apply KT_lift. auto.
    - refine (KT_bind _ _ _ _ _ _ _ _ _ (IHj _) _); [lia|]. intros v Hv. rewrite <- (app_nil_r (tr (es j) (curve u) (s - 1))).
      refine (KT_bind _ _ _ _ _ _ _ _ _ (KT_eval B rel OK s S2 (S n) _ (curve u) (es j) (WF j ltac:(lia)) (NA j ltac:(lia)) (PL j ltac:(lia)) _) _).
      + intros i Hi. unfold OdePicard.curve, ev. destruct (Nat.ltb_spec i n); auto.
      + intros y _. now apply KT_lift. }
  apply G. lia.
Qed.
(* the recorded list is good for all curves with the same coefficients below N *)
Definition hgood (N : nat) (c : nat -> nat -> R) (h : list (list B)) : Prop := forall u, (forall i, (i < n)%nat -> jet N (u i) (c i)) -> Forall2 (hv N) (trv n u N) h.
Lemma setorder_time m D j t : ps_setorder m D [start; t1] (Z.of_nat (S j)) = Ok t -> t = [start; t1] ++ repeat t0 j.
Proof. intros E. rewrite (setorder_id B m D start (Z.of_nat (S j))) in E by lia. apply oki in E. rewrite E. f_equal. f_equal. lia. Qed.
Lemma time_RL D j t : ps_setorder 1 D [start; t1] (Z.of_nat j) = Ok t -> RL B rel None (S j) false (fun t => t0_ + t) t.
Proof.
  destruct j as [|j]; intros E.
  - assert (t = [start]) as ->. { unfold ps_setorder in E. cbn in E. now apply oki in E. } split; auto. split; auto. exists (delta t0_). split; [|split].
    + intros [|i] Hi; simpl in *; [exact HS|lia].
    + intros [|i] Hi; simpl in *; [lia|auto].
    + simpl. rewrite jet_bigO. apply (bigO_ext 1 (fun t => t) _ 1); [lra|intros; unfold pe; simpl; ring|]. exists 1, 1. split; [lra|]. intros. simpl. lra.
  - rewrite (setorder_time _ _ _ _ E). split; [now apply Rep_id|]. rewrite app_length, repeat_length. reflexivity.
Qed.
(* ---- mode 1 ---- *)
Definition hst1 (fast : bool) (j : nat) (c : nat -> nat -> R) (st : pst B) : Prop := p_mode st = 1%Z /\ (p_uh st = true -> (1 <= j)%nat) /\
  if fast then p_rh st = true /\ ((p_uh st = true \/ (1 <= j)%nat) -> hgood j c (p_hist st)) /\ (j = O -> p_hist st = []) else p_uh st = false.
Lemma stage fast j c x t st y st' : hst1 fast j c st -> (fast = true -> (1 <= j)%nat -> p_uh st = true) -> (Z.of_nat (S j) <= 2 ^ 52)%Z ->
  (forall i, (i < n)%nat -> length (x i) = S j /\ coef (x i) (c i)) -> ps_setorder 1 (p_dom st) [start; t1] (Z.of_nat j) = Ok t -> (j = O -> forall i, (i < n)%nat -> adom (es i) (ev n (fun k => c k O) t0_)) ->
  fv x t st = (Ok y, st') ->
  (forall i, (i < n)%nat -> Rep None (S j) (y i) (fun t => F i (pcurve n t0_ c (S j) t)) /\ adiff (es i) (ev n (fun k => c k O) t0_)) /\ hst1 fast (S j) c st' /\ p_uh st' = p_uh st /\ p_dom st' = p_dom st.
Proof.
  intros (M1 & U1 & HF) HU LJ HX ET HD E.
  assert (RT : forall u, (forall i, (i < n)%nat -> jet (S j) (u i) (c i)) -> forall i, (i < n)%nat -> RL B rel None (S j) false (u i) (x i)).
  { intros u Hu i Hi. destruct (HX i Hi) as [LX CX]. split; auto. split; [now right|]. exists (fun l => if (l <? S j)%nat then c i l else 0). split; [|split].
    - intros l Hl. rewrite LX in Hl. destruct (Nat.ltb_spec l (S j)); [|lia]. apply CX. lia.
    - intros l Hl. rewrite LX in Hl. destruct (Nat.ltb_spec l (S j)); [lia|auto].
    - simpl. apply (jet_coef (S j) _ (c i)); auto. intros l Hl. destruct (Nat.ltb_spec l (S j)); [auto|lia]. }
  assert (C0 : forall u, (forall i, (i < n)%nat -> jet (S j) (u i) (c i)) -> curve u 0 = ev n (fun k => c k O) t0_).
  { intros u Hu. unfold OdePicard.curve. rewrite Rplus_0_r. apply FunctionalExtensionality.functional_extensionality. intros k. unfold ev. destruct (Nat.ltb_spec k n) as [L|L]; auto.
    symmetry. apply (jet_head (S j) (u k) (c k)); [lia|now apply Hu]. }
  assert (RUN : forall u, (forall i, (i < n)%nat -> jet (S j) (u i) (c i)) -> (forall i, (i < n)%nat -> Rep None (S j) (y i) (fun t => F i (curve u t)) /\ Ev None (fun t => adiff (es i) (curve u t))) /\
     p_mode st' = 1%Z /\ p_dom st' = p_dom st /\ p_uh st' = p_uh st /\ p_rh st' = p_rh st /\ (fast = true -> Forall2 (hv (S j)) (trv n u (S j)) (p_hist st'))).
  { intros u Hu. destruct (vec_HT None 1 (p_dom st) (S j) x t u ltac:(lia) LJ eq_refl Logic.I) with (st := st) (A0 := if p_uh st then p_hist st else []) (rest := if p_uh st then [] else p_hist st) (a := y) (st' := st') as (PY & N1 & N2 & N3 & N4 & A1 & N5 & N6); auto.
    - intros EJ i Hi. rewrite C0 by auto. apply HD with (i := i); auto.
    - apply (time_RL (p_dom st)); auto.
    - destruct (p_uh st); [now rewrite app_nil_r|auto].
    - destruct (p_uh st) eqn:UH; auto. specialize (U1 eq_refl). split; [lia|]. destruct fast; [|discriminate HF]. replace (S j - 1)%nat with j by lia. apply HF; auto.
      intros i Hi. apply (jet_weak (S j)); [lia|auto].
    - split; auto. do 4 (split; [auto|]). intros FA. subst fast. destruct HF as (RH & HG & H0). rewrite RH in N6. rewrite N5. destruct (p_uh st) eqn:UH; [exact N6|]. destruct j as [|j]; [rewrite H0 by auto; exact N6|].
      specialize (HU eq_refl ltac:(lia)). congruence. }
  assert (PJ : forall i, (i < n)%nat -> jet (S j) (fun t => pe (c i) (S j) t) (c i)). { intros i Hi. rewrite jet_bigO. apply (bigO_ext (S j) (fun _ => 0) _ 1); [lra|intros; ring|apply bigO_zero]. }
  destruct (RUN (fun i t => pe (c i) (S j) t) PJ) as (PY & N1 & N2 & N3 & N4 & _). split; [|split; [|split; auto]].
  - intros i Hi. destruct (PY i Hi) as [RY (d & Hd & DY)]. split; [exact RY|]. rewrite <- (C0 _ PJ). apply DY. rewrite Rabs_R0. auto.
  - split; auto. split; [intros; lia|]. destruct fast; [|congruence]. split; [destruct HF; congruence|]. split; [|intros; lia]. intros _ u Hu. now apply RUN.
Qed.
Lemma hst1_c fast j c c' st : (forall i l, (i < n)%nat -> (l < j)%nat -> c' i l = c i l) -> hst1 fast j c st -> hst1 fast j c' st.
Proof.
  intros EC (M1 & U1 & HF). split; auto. split; auto. destruct fast; auto. destruct HF as (RH & HG & H0). split; auto. split; auto. intros HU u Hu. apply HG; auto.
  intros i Hi. apply (jet_coef j _ (c' i)); auto.
Qed.
(* ---- mode 2 ---- *)
Variables (p : nat) (c : nat -> nat -> R).
Hypothesis P1 : (1 <= p)%nat.
Hypothesis P2 : (Z.of_nat (S p) <= 2 ^ 52)%Z.
Definition hst2 (st : pst B) : Prop := p_mode st = 2%Z /\ (p_uh st = true -> p_rh st = true /\ hgood p c (p_hist st)).
Definition lowp (x : nat -> list B) : Prop := forall i, (i < n)%nat -> length (x i) = S p /\ forall l, (l < p)%nat -> rel (at_ (x i) l) (c i l).
Lemma hst1_2 fast st : hst1 fast p c st -> hst2 (set_mode 2 st).
Proof. intros (M1 & U1 & HF). split; auto. cbn [set_mode p_uh p_rh p_hist]. intros UH. destruct fast; [|congruence]. destruct HF as (RH & HG & _). auto. Qed.
Lemma hst2_dom D st : hst2 st -> hst2 (set_dom D st). Proof. intros H. exact H. Qed.
Lemma hst2_uh st st' : hst2 st -> p_mode st' = p_mode st -> hst2 (set_uh false st'). Proof. intros [M _] E. split; [cbn [set_uh p_mode]; congruence|]. intros C. discriminate C. Qed.
Lemma time_p D t : ps_setorder 2 D [start; t1] (Z.of_nat p) = Ok t -> t = [start; t1] ++ repeat t0 (p - 1).
Proof. intros E. apply (setorder_time 2 D). now replace (S (p - 1)) with p by lia. Qed.
(* any evaluation keeps the list *)
Lemma eval_keep x D t st y st' : hst2 st -> lowp x -> ps_setorder 2 D [start; t1] (Z.of_nat p) = Ok t -> fv x t st = (Ok y, st') -> hst2 st' /\ p_dom st' = p_dom st.
Proof.
  intros [M1 HU] LX ET E. assert (KM : keep B (fv x t)) by (apply keep_vec; intros; apply keep_eval). destruct (KM st) as [K1 K2]. rewrite E in K1, K2. cbn [fst snd] in K1, K2. split; [|now apply (K2 y)].
  split; [congruence|]. intros UH'. destruct (p_uh st) eqn:UH.
  - destruct (HU eq_refl) as [RH HG].
    assert (RUN : forall u, (forall i, (i < n)%nat -> jet p (u i) (c i)) -> p_rh st' = true /\ Forall2 (hv p) (trv n u p) (p_hist st')).
    { intros u Hu. destruct (vec_KT (S p) x t u ltac:(lia)) with (st := st) (A0 := p_hist st) (rest := @nil (list B)) (a := y) (st' := st') as (_ & N1 & N2 & N3 & N4 & A1 & N5 & N6); auto.
      - intros i Hi. destruct (LX i Hi) as [L K]. split; auto. exists (c i). replace (S p - 1)%nat with p by lia. auto.
      - rewrite (time_p _ _ ET). split; [rewrite app_length, repeat_length; simpl; lia|]. exists (idc t0_). split.
        + rewrite jet_bigO. apply (bigO_ext _ (fun t => (t0_ + t) - pe (idc t0_) (S p) t + idc t0_ p * t ^ p) _ 1); [lra| |].
          * intros r _. rewrite pe_last. replace (S p - 1)%nat with p by lia. ring.
          * replace (S p - 1)%nat with p by lia. apply bigO_plus; [|apply bigO_scal, bigO_pow_id]. apply (bigO_ext _ (fun _ => 0) _ 1); [lra| |apply bigO_zero]. intros r _. rewrite pe_idc by lia. ring.
        + intros i Hi. apply (idc_coef B rel OK start t0_ (p - 1) HS). rewrite app_length, repeat_length. simpl. lia.
      - now rewrite app_nil_r.
      - replace (S p - 1)%nat with p by lia. now apply HG.
      - rewrite RH in *. split; auto. rewrite N5. cbn [app]. replace (S p - 1)%nat with p in N6 by lia. exact N6. }
    assert (PJ : forall i, (i < n)%nat -> jet p (pe (c i) p) (c i)). { intros i Hi. rewrite jet_bigO. apply (bigO_ext p (fun _ => 0) _ 1); [lra|intros; ring|apply bigO_zero]. }
    split; [apply (RUN _ PJ)|]. intros u Hu. now apply RUN.
  - exfalso. assert (SM : sim B (fv x t) (fun m D => vecM n (fun _ => []) (fun i => pseval m D (fun k => if (k <? n)%nat then x k else t) (es i)))).
    { clear. generalize n at 1 3. intros k. induction k; cbn [hvecM vecM]; [apply sim_lift|].
      refine (sim_bind B _ _ _ (fun m D v => do y <- pseval m D (fun k => if (k <? n)%nat then x k else t) (es k); Ok (fun i => if (i =? k)%nat then y else v i)) IHk _). intros v.
      refine (sim_bind B _ _ _ (fun m D y => Ok (fun i => if (i =? k)%nat then y else v i)) (sim_eval B _ _) _). intros a. apply sim_lift. }
    destruct (SM st UH) as [_ S2]. rewrite E in S2. destruct (S2 y eq_refl) as (_ & _ & S3 & _). cbn [snd] in S3. congruence.
Qed.
(* the series of f along the curves of the class *)
Variable H : R.
Notation ZC := (ZC B rel n p c H).
Lemma eval_class z t st y st' : hst2 st -> lowc B rel n p c z -> (forall s, 0 <= s <= H -> rel (p_dom st) s) -> ps_setorder 2 (p_dom st) [start; t1] (Z.of_nat p) = Ok t -> fv z t st = (Ok y, st') ->
  forall u i s, ZC z u -> (i < n)%nat -> 0 <= s <= H -> adiff (es i) (curve u s) /\ Rep (Some (s, true)) (S p) (y i) (fun t => F i (curve u t)).
Proof.
  intros [M1 HU] LZ HD ET E u i s ZU Hi Hs.
  destruct (vec_HT (Some (s, true)) 2 (p_dom st) (S p) z t u ltac:(lia) P2) with (st := st) (A0 := if p_uh st then p_hist st else []) (rest := if p_uh st then [] else p_hist st) (a := y) (st' := st') as (PY & _); auto.
  - simpl. split; auto. split; [auto|]. split; [apply HD; lra|]. exact (itv_cvx B rel CVX).
  - simpl. split; auto. lia.
  - intros C. lia.
  - intros k L. destruct (LZ k L) as [LX CX]. split; [|lia]. split; [right; lia|]. destruct ZU as (_ & JU & TU). destruct (TU s Hs k L) as (d & Hd & EQ).
    exists (fun l => if (l <? p)%nat then c k l else if (l =? p)%nat then d else 0). split; [|split].
    + intros l Hl. rewrite LX in Hl. destruct (Nat.ltb_spec l p); [apply CX; lia|]. destruct (Nat.eqb_spec l p); [now subst l|lia].
    + intros l Hl. rewrite LX in Hl. destruct (Nat.ltb_spec l p); [lia|]. destruct (Nat.eqb_spec l p); [lia|auto].
    + split; cbn [fst snd].
      * rewrite pe_last, Nat.ltb_irrefl, Nat.eqb_refl, EQ. f_equal. apply pe_ext. intros l Hl. destruct (Nat.ltb_spec l p); [auto|lia].
      * intros _. rewrite Jo_2 by lia. replace (S p - 1)%nat with p by lia. apply (jet_coef p _ (c k)); auto. intros l Hl. destruct (Nat.ltb_spec l p); [auto|lia].
  - rewrite (time_p _ _ ET). replace (S p) with (S (S (p - 1))) by lia. split; [now apply Rep_id|]. rewrite app_length, repeat_length. reflexivity.
  - destruct (p_uh st); [now rewrite app_nil_r|auto].
  - destruct (p_uh st); auto. split; [lia|]. replace (S p - 1)%nat with p by lia. apply HU; auto. intros k Hk. now apply ZU.
  - destruct (PY i Hi) as [RY EY]. split; auto. apply EY.
Qed.
End OdeH.
