(* Proofs about the model of kv/psa.hpp with its history list (PsaHist.v).
   1. With use_history() false the operators compute what PsaModel.v says, whatever is recorded.
   2. With a list recorded by an evaluation of the same expression at order one less, the results still represent the function. *)
From Coq Require Import Reals ZArith Bool List Lra Lia Psatz Arith.
From Coquelicot Require Import Coquelicot.
From Verif Require Import Ext RealFun RealConst ADModel ADReal ADProofs PsaModel PsaReal PsaProofs PsaInt PsaExpr PsaUseProofs PsaHist.
Import List ListNotations.
Open Scope R_scope.

(* ---- 1. recording does not change the results ---- *)
Section Sim.
Variable B : base.
Notation psa := (list B).
Notation pst := (pst B).
Definition same (s s' : pst) : Prop := p_mode s' = p_mode s /\ p_dom s' = p_dom s /\ p_uh s' = p_uh s /\ p_rh s' = p_rh s.
Definition sim {A} (M : hM B A) (P : Z -> B -> res A) : Prop :=
  forall s, p_uh s = false -> fst (M s) = P (p_mode s) (p_dom s) /\ (forall a, fst (M s) = Ok a -> same s (snd (M s))).
Lemma same_refl s : same s s. Proof. repeat split. Qed.
Lemma same_trans a b c : same a b -> same b c -> same a c.
Proof. intros (A1 & A2 & A3 & A4) (B1 & B2 & B3 & B4). unfold same. repeat split; congruence. Qed.
Lemma sim_lift {A} (r : res A) : sim (hlift r) (fun _ _ => r).
Proof. intros s U. split; auto. intros a _. apply same_refl. Qed.
Lemma sim_bind {A A'} (M : hM B A) P (f : A -> hM B A') Pf : sim M P -> (forall a, sim (f a) (fun m D => Pf m D a)) ->
  sim (hbind M f) (fun m D => do a <- P m D; Pf m D a).
Proof.
  intros HM HF s U. unfold hbind. destruct (HM s U) as [E1 E2]. destruct (M s) as [r s1]. cbn [fst snd] in *. rewrite <- E1. destruct r as [a|x]; [|split; [reflexivity|discriminate]].
  specialize (E2 a eq_refl). destruct E2 as (S1 & S2 & S3 & S4). destruct (HF a s1 ltac:(congruence)) as [F1 F2]. cbn [bind]. rewrite S1, S2 in F1. split; auto.
  intros b Eb. apply (same_trans _ s1); [repeat split; auto|]. now apply (F2 b).
Qed.
Lemma sim_get {A} (f : Z -> B -> hM B A) P : (forall m D, sim (f m D) (P m D)) -> sim (hget f) (fun m D => P m D m D).
Proof. intros H s U. unfold hget. apply (H _ _ s U). Qed.
Lemma sim_ext {A} (M : hM B A) P P' : (forall m D, P m D = P' m D) -> sim M P -> sim M P'.
Proof. intros E H s U. rewrite <- E. apply (H s U). Qed.
Lemma same_record U s : same s (record U s). Proof. unfold record. destruct (p_rh s) eqn:E; repeat split. Qed.
Lemma sim_fin fr V : sim (hfin fr V) (fun _ _ => Ok V).
Proof. intros s U. unfold hfin. rewrite U. split; auto. intros a _. apply same_record. Qed.
Lemma bind_ret {A} (r : res A) : (do a <- r; Ok a) = r. Proof. now destruct r. Qed.
Lemma sim_add a b : sim (hps_add a b) (fun _ _ => ps_add a b).
Proof. apply (sim_ext _ (fun _ _ => do V <- ps_add a b; Ok V)); [intros; apply bind_ret|]. apply (sim_bind _ (fun _ _ => ps_add a b) _ (fun _ _ V => Ok V)); [apply sim_lift|intros; apply sim_fin]. Qed.
Lemma sim_sub a b : sim (hps_sub a b) (fun _ _ => ps_sub a b).
Proof. apply (sim_ext _ (fun _ _ => do V <- ps_sub a b; Ok V)); [intros; apply bind_ret|]. apply (sim_bind _ (fun _ _ => ps_sub a b) _ (fun _ _ V => Ok V)); [apply sim_lift|intros; apply sim_fin]. Qed.
Lemma sim_mul a b : sim (hps_mul a b) (fun m D => ps_mul m D a b).
Proof.
  apply (sim_get _ (fun m D _ _ => ps_mul m D a b)). intros m D. apply (sim_ext _ (fun _ _ => do V <- ps_mul m D a b; Ok V)); [intros; apply bind_ret|].
  apply (sim_bind _ (fun _ _ => ps_mul m D a b) _ (fun _ _ V => Ok V)); [apply sim_lift|intros; apply sim_fin].
Qed.
Lemma sim_Tmul a b : sim (hps_Tmul a b) (fun _ _ => Ok (ps_Tmul a b)). Proof. apply sim_fin. Qed.
Lemma sim_mulC a k e : sim (hps_mulC a k e) (fun _ _ => Ok (ps_mulT a (bcst k e))).
Proof. intros s U. unfold hps_mulC. rewrite U. now apply sim_fin. Qed.
Lemma sim_Cmul k e a : sim (hps_Cmul k e a) (fun _ _ => Ok (ps_Tmul (bcst k e) a)).
Proof. intros s U. unfold hps_Cmul. rewrite U. now apply sim_fin. Qed.

Lemma sim_turn {St} (stp : nat -> bool -> St -> res (B * St)) g i last hn r st :
  sim (hturn stp g i last hn r st) (fun m D => do hn <- ps_mul m D hn g; do q <- stp i last st; do r <- ps_add r (ps_Tmul (fst q) hn); Ok (hn, r, snd q)).
Proof.
  unfold hturn. refine (sim_bind _ _ _ (fun m D hn => do q <- stp i last st; do r <- ps_add r (ps_Tmul (fst q) hn); Ok (hn, r, snd q)) (sim_mul _ _) _). intros hn'.
  refine (sim_bind _ (fun _ _ => stp i last st) _ (fun m D q => do r <- ps_add r (ps_Tmul (fst q) hn'); Ok (hn', r, snd q)) (sim_lift _) _). intros q.
  refine (sim_bind _ _ _ (fun m D kh => do r <- ps_add r kh; Ok (hn', r, snd q)) (sim_Tmul _ _) _). intros kh.
  refine (sim_bind _ _ _ (fun m D r => Ok (hn', r, snd q)) (sim_add _ _) _). intros r'. apply sim_lift.
Qed.
(* the loop may leave record_history() false; htay puts it back *)
Lemma sim_loop {St} (stp : nat -> bool -> St -> res (B * St)) n g old cnt i hn r st s : p_uh s = false ->
  let o := hloop stp n g old cnt i hn r st s in
  fst o = tay stp (p_mode s) (p_dom s) n g cnt i hn r st /\ (forall a, fst o = Ok a -> p_mode (snd o) = p_mode s /\ p_dom (snd o) = p_dom s /\ p_uh (snd o) = false).
Proof.
  revert i hn r st s. induction cnt; intros i hn r st s U; cbn [hloop tay]; cbv zeta.
  - split; auto.
  - rewrite U. cbn [andb]. set (last := ((p_mode s =? 2)%Z && (i =? n - 1)%nat)). set (s1 := if last then set_rh false s else s).
    assert (M1 : p_mode s1 = p_mode s /\ p_dom s1 = p_dom s /\ p_uh s1 = false) by (unfold s1; destruct last; auto). destruct M1 as (M1 & M2 & M3).
    unfold hbind. destruct (sim_turn stp g i last hn r st s1 M3) as [E1 E2]. destruct (hturn stp g i last hn r st s1) as [o1 s2]. cbn [fst snd] in E1, E2.
    rewrite M1, M2 in E1. destruct (ps_mul (p_mode s) (p_dom s) hn g) as [hn'|x] eqn:Eh; cbn [bind] in E1 |- *; [|subst o1; split; [reflexivity|discriminate]].
    destruct (stp i last st) as [q|x] eqn:Eq; cbn [bind] in E1 |- *; [|subst o1; split; [reflexivity|discriminate]].
    destruct (ps_add r (ps_Tmul (fst q) hn')) as [r'|x] eqn:Er; cbn [bind] in E1 |- *; [|subst o1; split; [reflexivity|discriminate]].
    subst o1. specialize (E2 _ eq_refl). destruct E2 as (F1 & F2 & F3 & F4). cbn [fst snd].
    destruct (IHcnt (S i) hn' r' (snd q) s2 ltac:(congruence)) as [G1 G2]. rewrite F1, F2, M1, M2 in G1. split; auto. intros a Ea. destruct (G2 a Ea) as (J1 & J2 & J3).
    repeat split; congruence.
Qed.
Lemma sim_tay {St} (stp : nat -> bool -> St -> res (B * St)) x g r0 st : sim (htay stp x g r0 st) (fun m D => ps_tay stp m D x g r0 st).
Proof.
  intros s U. unfold htay. rewrite U. unfold ps_tay, hbind, hmod. destruct (sim_loop stp (length x) g O (length x - 1) 1 [t1] [r0] st s U) as [E1 E2].
  destruct (hloop _ _ _ _ _ _ _ _ _ s) as [o s1]. cbn [fst snd] in *. rewrite <- E1. destruct o as [r|e]; cbn [bind]; [|split; [reflexivity|intros a Ha; discriminate Ha]].
  destruct (E2 r eq_refl) as (F1 & F2 & F3). set (s2 := set_rh (p_rh s) (set_uh false s1)).
  assert (U2 : p_uh s2 = false) by reflexivity. destruct (sim_mulC r 1 0 s2 U2) as [G1 G2]. split; [exact G1|]. intros a Ea. apply (same_trans _ s2); [|now apply (G2 a)].
  unfold s2. repeat split; auto.
Qed.

(* hlift r; f *)
Lemma sim_lbind {A A'} (r : res A) (f : A -> hM B A') Pf : (forall a, sim (f a) (fun m D => Pf m D a)) -> sim (hbind (hlift r) f) (fun m D => do a <- r; Pf m D a).
Proof. apply (sim_bind _ (fun _ _ => r) f Pf), sim_lift. Qed.
Lemma sim_inv x : sim (hps_inv x) (fun m D => ps_inv m D x).
Proof.
  destruct x as [|a x]; [apply sim_lift|].
  refine (sim_get _ (fun m D m' D' => do ia <- bSdiv 1 0 a; do x2 <- (if (m =? 2)%Z then bSdiv 1 0 (ps_eval (a :: x) D) else Ok t0);
    do g <- ps_divT (ps_h (a :: x)) a; ps_tay (step_inv m a (ps_eval (a :: x) D)) m' D' (a :: x) g ia (ia, x2)) _). intros m D.
  apply (sim_lbind (bSdiv 1 0 a) _ (fun m' D' ia => do x2 <- (if (m =? 2)%Z then bSdiv 1 0 (ps_eval (a :: x) D) else Ok t0);
    do g <- ps_divT (ps_h (a :: x)) a; ps_tay (step_inv m a (ps_eval (a :: x) D)) m' D' (a :: x) g ia (ia, x2))). intros ia.
  apply (sim_lbind (if (m =? 2)%Z then bSdiv 1 0 (ps_eval (a :: x) D) else Ok t0) _ (fun m' D' x2 => 
    do g <- ps_divT (ps_h (a :: x)) a; ps_tay (step_inv m a (ps_eval (a :: x) D)) m' D' (a :: x) g ia (ia, x2))). intros x2.
  apply (sim_lbind _ _ (fun m' D' g => ps_tay (step_inv m a (ps_eval (a :: x) D)) m' D' (a :: x) g ia (ia, x2))). intros g. apply sim_tay.
Qed.
Lemma sim_div a b : sim (hps_div a b) (fun m D => ps_div m D a b).
Proof. apply (sim_bind _ _ _ (fun m D i => ps_mul m D a i) (sim_inv b)). intros i. apply sim_mul. Qed.
Lemma sim_Cdiv k e b : sim (hps_Cdiv k e b) (fun m D => ps_Tdiv m D (bcst k e) b).
Proof. apply (sim_bind _ _ _ (fun m D i => Ok (ps_Tmul (bcst k e) i)) (sim_inv b)). intros i. apply sim_Cmul. Qed.
(* functions with two values computed before the loop *)
Lemma sim_two {St} (F G : res B) x r0 (st : B -> B -> St) (stp : Z -> B -> B -> B -> nat -> bool -> St -> res (B * St)) :
  sim (hget (fun m D => dh u <- hlift F; dh v <- hlift G; htay (stp m D u v) x (ps_h x) (r0 u v) (st u v)))
    (fun m D => do u <- F; do v <- G; ps_tay (stp m D u v) m D x (ps_h x) (r0 u v) (st u v)).
Proof.
  refine (sim_get _ (fun m D m' D' => do u <- F; do v <- G; ps_tay (stp m D u v) m' D' x (ps_h x) (r0 u v) (st u v)) _). intros m D.
  apply (sim_lbind F _ (fun m' D' u => do v <- G; ps_tay (stp m D u v) m' D' x (ps_h x) (r0 u v) (st u v))). intros u.
  apply (sim_lbind G _ (fun m' D' v => ps_tay (stp m D u v) m' D' x (ps_h x) (r0 u v) (st u v))). intros v. apply sim_tay.
Qed.
Lemma sim_one {St} (F : res B) x r0 (st : B -> St) (stp : Z -> B -> B -> nat -> bool -> St -> res (B * St)) :
  sim (hget (fun m D => dh u <- hlift F; htay (stp m D u) x (ps_h x) (r0 u) (st u)))
    (fun m D => do u <- F; ps_tay (stp m D u) m D x (ps_h x) (r0 u) (st u)).
Proof.
  refine (sim_get _ (fun m D m' D' => do u <- F; ps_tay (stp m D u) m' D' x (ps_h x) (r0 u) (st u)) _). intros m D.
  apply (sim_lbind F _ (fun m' D' u => ps_tay (stp m D u) m' D' x (ps_h x) (r0 u) (st u))). intros u. apply sim_tay.
Qed.
Lemma sim_sin x : sim (hps_sin x) (fun m D => ps_sin m D x).
Proof. destruct x as [|a x]; [apply sim_lift|]. apply (sim_two (bfun Asin a) (bfun Acos a) (a :: x) (fun s _ => s) (fun _ _ => t1) (fun m D s c => step_fact (a :: x) D tab_sin (tab4 s c (bneg s) (bneg c)))). Qed.
Lemma sim_cos x : sim (hps_cos x) (fun m D => ps_cos m D x).
Proof. destruct x as [|a x]; [apply sim_lift|]. apply (sim_two (bfun Acos a) (bfun Asin a) (a :: x) (fun c _ => c) (fun _ _ => t1) (fun m D c s => step_fact (a :: x) D tab_cos (tab4 c (bneg s) (bneg c) (bneg (bneg s))))). Qed.
Lemma sim_sinh x : sim (hps_sinh x) (fun m D => ps_sinh m D x).
Proof. destruct x as [|a x]; [apply sim_lift|]. apply (sim_two (bfun Asinh a) (bfun Acosh_ a) (a :: x) (fun s _ => s) (fun _ _ => t1) (fun m D s c => step_fact (a :: x) D tab_sinh (tab2 s c))). Qed.
Lemma sim_cosh x : sim (hps_cosh x) (fun m D => ps_cosh m D x).
Proof. destruct x as [|a x]; [apply sim_lift|]. apply (sim_two (bfun Acosh_ a) (bfun Asinh a) (a :: x) (fun c _ => c) (fun _ _ => t1) (fun m D c s => step_fact (a :: x) D tab_cosh (tab2 c s))). Qed.
Lemma sim_exp x : sim (hps_exp x) (fun m D => ps_exp m D x).
Proof. destruct x as [|a x]; [apply sim_lift|]. apply (sim_one (bfun Aexp a) (a :: x) (fun e => e) (fun _ => t1) (fun m D e => step_fact (a :: x) D (fun _ => bfun Aexp) (fun _ => e))). Qed.
Lemma sim_log x : sim (hps_log x) (fun m D => ps_log m D x).
Proof. destruct x as [|a x]; [apply sim_lift|]. apply (sim_one (bfun Alog a) (a :: x) (fun l => l) (fun _ => (bneg t1, bneg t1)) (fun m D _ => step_log m a (ps_eval (a :: x) D))). Qed.
Lemma sim_sqrt x : sim (hps_sqrt x) (fun m D => ps_sqrt m D x).
Proof.
  destruct x as [|a x]; [apply sim_lift|].
  refine (sim_get _ (fun m D m' D' => do sa <- bfun Asqrt a; do xn <- bSdiv 1 0 (bSmul 2 0 sa);
      do x2 <- (if (m =? 2)%Z then do sr <- bfun Asqrt (ps_eval (a :: x) D); bSdiv 1 0 (bSmul 2 0 sr) else Ok t0);
      ps_tay (step_sqrt m a (ps_eval (a :: x) D)) m' D' (a :: x) (ps_h (a :: x)) sa (xn, x2)) _). intros m D.
  apply (sim_lbind _ _ (fun m' D' sa => do xn <- bSdiv 1 0 (bSmul 2 0 sa);
      do x2 <- (if (m =? 2)%Z then do sr <- bfun Asqrt (ps_eval (a :: x) D); bSdiv 1 0 (bSmul 2 0 sr) else Ok t0);
      ps_tay (step_sqrt m a (ps_eval (a :: x) D)) m' D' (a :: x) (ps_h (a :: x)) sa (xn, x2))). intros sa.
  apply (sim_lbind _ _ (fun m' D' xn =>
      do x2 <- (if (m =? 2)%Z then do sr <- bfun Asqrt (ps_eval (a :: x) D); bSdiv 1 0 (bSmul 2 0 sr) else Ok t0);
      ps_tay (step_sqrt m a (ps_eval (a :: x) D)) m' D' (a :: x) (ps_h (a :: x)) sa (xn, x2))). intros xn.
  apply (sim_lbind _ _ (fun m' D' x2 => ps_tay (step_sqrt m a (ps_eval (a :: x) D)) m' D' (a :: x) (ps_h (a :: x)) sa (xn, x2))). intros x2. apply sim_tay.
Qed.
Lemma hb_lift {A A'} (r : res A) (f : A -> hM B A') s : hbind (hlift r) f s = match r with Ok a => f a s | Err e => (Err e, s) end.
Proof. unfold hbind, hlift. now destruct r. Qed.
Lemma hb_mod {A'} g (f : unit -> hM B A') s : hbind (hmod g) f s = f tt (g s). Proof. reflexivity. Qed.
Lemma sim_arc f x : sim (hps_arc f x) (fun m D => ps_arc f m D x).
Proof.
  destruct x as [|a x]; [apply sim_lift|]. intros s U. unfold hps_arc, ps_arc. cbv zeta. set (X := a :: x). set (m := p_mode s). set (D' := if (m =? 2)%Z then ps_eval X (p_dom s) else p_dom s).
  rewrite hb_mod. set (s1 := set_dom D' (set_rh false (set_uh false s))).
  rewrite hb_lift. destruct (ps_setorder m D' [a; t1] _) as [t|e]; cbn [bind]; [|split; [reflexivity|intros ? Ha; discriminate Ha]].
  rewrite hb_lift. destruct (bfun f a) as [v|e]; cbn [bind]; [|split; [reflexivity|intros ? Ha; discriminate Ha]].
  rewrite hb_lift. destruct (ps_der f m D' t) as [d|e]; cbn [bind]; [|split; [reflexivity|intros ? Ha; discriminate Ha]].
  rewrite hb_lift. destruct (ps_integrate d) as [I|e]; cbn [bind]; [|split; [reflexivity|intros ? Ha; discriminate Ha]].
  rewrite hb_lift. destruct (ps_addT I v) as [T|e]; cbn [bind]; [|split; [reflexivity|intros ? Ha; discriminate Ha]].
  rewrite hb_mod. set (s2 := set_dom (p_dom s) (set_rh (p_rh s) (set_uh (p_uh s) s1))).
  destruct (sim_tay (step_tab T) X (ps_h X) (at_ T 0) tt s2 U) as [G1 G2]. split; [exact G1|]. intros b Eb. apply (same_trans _ s2); [repeat split|now apply (G2 b)].
Qed.
Lemma ps_mul_sq m (D : B) r xp y : ps_mul m D r xp = Ok y -> exists z, ps_mul m D xp xp = Ok z.
Proof.
  intros E. destruct xp as [|u [|v xp]].
  - destruct r as [|? [|? ?]]; discriminate.
  - eexists. reflexivity.
  - unfold ps_mul. rewrite Nat.leb_refl. destruct (m =? 2)%Z; eexists; reflexivity.
Qed.
Lemma sim_pow_loop p : forall r xp, sim (hps_pow_loop p r xp) (fun m D => ps_pow_loop m D p r xp).
Proof.
  induction p; intros r xp; cbn [hps_pow_loop ps_pow_loop].
  - apply (sim_bind _ _ _ (fun m D r => do x2 <- ps_mul m D xp xp; ps_pow_loop m D p r x2) (sim_mul _ _)). intros r'.
    apply (sim_bind _ _ _ (fun m D x2 => ps_pow_loop m D p r' x2) (sim_mul _ _)). intros x2. apply IHp.
  - apply (sim_bind _ _ _ (fun m D x2 => ps_pow_loop m D p r x2) (sim_mul _ _)). intros x2. apply IHp.
  - apply (sim_ext _ (fun m D => do y <- ps_mul m D r xp; do _ <- ps_mul m D xp xp; Ok y)).
    + intros m D. destruct (ps_mul m D r xp) as [y|e] eqn:E; cbn [bind]; auto. destruct (ps_mul_sq m D r xp y E) as [z ->]. reflexivity.
    + apply (sim_bind _ _ _ (fun m D y => do _ <- ps_mul m D xp xp; Ok y) (sim_mul _ _)). intros y.
      apply (sim_bind _ _ _ (fun m D _ => Ok y) (sim_mul _ _)). intros z. apply sim_lift.
Qed.
Lemma sim_powi x n : sim (hps_powi x n) (fun m D => ps_powi m D x n).
Proof.
  destruct n as [|p|p]; cbn [hps_powi ps_powi]; [apply sim_lift|apply sim_pow_loop|].
  apply (sim_bind _ _ _ (fun m D r => ps_Tdiv m D t1 r) (sim_pow_loop p _ _)). intros r. apply sim_Cdiv.
Qed.
Lemma sim_pow x y : sim (hps_pow x y) (fun m D => ps_pow m D x y).
Proof.
  apply (sim_bind _ _ _ (fun m D l => do p <- ps_mul m D y l; ps_exp m D p) (sim_log x)). intros l.
  apply (sim_bind _ _ _ (fun m D p => ps_exp m D p) (sim_mul y l)). intros p. apply sim_exp.
Qed.
Lemma sim_fun f x : sim (hps_fun f x) (fun m D => ps_fun f m D x).
Proof.
  destruct f; cbn [hps_fun ps_fun]; try apply sim_arc; try apply sim_exp; try apply sim_log; try apply sim_sqrt; try apply sim_sin; try apply sim_cos; try apply sim_sinh; try apply sim_cosh.
  - apply (sim_bind _ _ _ (fun m D s => do c <- ps_cos m D x; ps_div m D s c) (sim_sin x)). intros u.
    apply (sim_bind _ _ _ (fun m D c => ps_div m D u c) (sim_cos x)). intros v. apply sim_div.
  - apply (sim_bind _ _ _ (fun m D s => do c <- ps_cosh m D x; ps_div m D s c) (sim_sinh x)). intros u.
    apply (sim_bind _ _ _ (fun m D c => ps_div m D u c) (sim_cosh x)). intros v. apply sim_div.
Qed.
Lemma sim_sc o k e x : sim (hps_sc o k e x) (fun m D => ps_sc o k e m D x).
Proof. destruct o; cbn [hps_sc ps_sc]; try apply sim_lift; [apply sim_mulC|apply sim_Cmul|apply sim_Cdiv]. Qed.
Theorem sim_eval env e : sim (hpseval env e) (fun m D => pseval m D env e).
Proof.
  induction e; cbn [hpseval pseval].
  - apply sim_lift.
  - apply sim_lift.
  - apply (sim_bind _ _ _ (fun m D x => do y <- pseval m D env e2; ps_add x y) IHe1). intros x. apply (sim_bind _ _ _ (fun m D y => ps_add x y) IHe2). intros y. apply sim_add.
  - apply (sim_bind _ _ _ (fun m D x => do y <- pseval m D env e2; ps_sub x y) IHe1). intros x. apply (sim_bind _ _ _ (fun m D y => ps_sub x y) IHe2). intros y. apply sim_sub.
  - apply (sim_bind _ _ _ (fun m D x => do y <- pseval m D env e2; ps_mul m D x y) IHe1). intros x. apply (sim_bind _ _ _ (fun m D y => ps_mul m D x y) IHe2). intros y. apply sim_mul.
  - apply (sim_bind _ _ _ (fun m D x => do y <- pseval m D env e2; ps_div m D x y) IHe1). intros x. apply (sim_bind _ _ _ (fun m D y => ps_div m D x y) IHe2). intros y. apply sim_div.
  - match goal with |- sim (hbind _ (fun y => hps_sc ?o ?k ?x y)) _ => apply (sim_bind _ _ _ (fun m D y => ps_sc o k x m D y) IHe) end. intros y. apply sim_sc.
  - apply (sim_bind _ _ _ (fun m D x => Ok (ps_neg x)) IHe). intros y. apply sim_lift.
  - apply (sim_bind _ _ _ (fun m D x => ps_powi m D x n) IHe). intros y. apply sim_powi.
  - apply (sim_bind _ _ _ (fun m D x => do y <- pseval m D env e2; ps_pow m D x y) IHe1). intros x. apply (sim_bind _ _ _ (fun m D y => ps_pow m D x y) IHe2). intros y. apply sim_pow.
  - apply (sim_bind _ _ _ (fun m D x => ps_fun f m D x) IHe). intros x. apply sim_fun.
Qed.
End Sim.
