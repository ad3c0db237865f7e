(* The results of ode and odelong do not depend on the static members of psa (mode, domain, use_history, record_history, history)
   that earlier computations have left. *)
From Coq Require Import ZArith Bool List Lia Arith.
From Verif Require Import Ext Scalar IntervalModel ElemModel ADModel ADInst ADSys PsaModel PsaHist PsaHistProofs OdeModel.
Import List ListNotations.

Section Indep.
Variable B : base.
Notation psa := (list B).
(* hh: the history lists are equal; otherwise they are never read or written *)
Variable hh : bool.
Definition eqv0 (m : Z) (s1 s2 : pst B) : Prop := p_mode s1 = m /\ p_mode s2 = m /\ p_uh s1 = p_uh s2 /\ p_rh s1 = p_rh s2 /\
  if hh then p_hist s1 = p_hist s2 else p_uh s1 = false /\ p_rh s1 = false.
Definition md (m : Z) (D1 D2 : B) : Prop := m = 1%Z \/ D1 = D2.
Definition eqv m s1 s2 : Prop := eqv0 m s1 s2 /\ md m (p_dom s1) (p_dom s2).
Definition rl {A} (m : Z) (M1 M2 : hM B A) : Prop := forall s1 s2, eqv m s1 s2 -> fst (M1 s1) = fst (M2 s2) /\ eqv m (snd (M1 s1)) (snd (M2 s2)).

Lemma rl_lift {A} m (r : res A) : rl m (hlift r) (hlift r). Proof. intros s1 s2 E. split; auto. Qed.
Lemma rl_bind {A A'} m (M1 M2 : hM B A) (f1 f2 : A -> hM B A') : rl m M1 M2 -> (forall a, rl m (f1 a) (f2 a)) -> rl m (hbind M1 f1) (hbind M2 f2).
Proof.
  intros HM HF s1 s2 E. unfold hbind. destruct (HM s1 s2 E) as [E1 E2]. destruct (M1 s1) as [[a|e] t1], (M2 s2) as [[a'|e'] t2]; cbn [fst snd] in *; try discriminate E1.
  - injection E1 as ->. now apply HF.
  - injection E1 as ->. auto.
Qed.
Lemma rl_get {A} m (f1 f2 : Z -> B -> hM B A) : (forall D1 D2, md m D1 D2 -> rl m (f1 m D1) (f2 m D2)) -> rl m (hget f1) (hget f2).
Proof. intros H s1 s2 E. unfold hget. pose proof E as ((M1 & M2 & _) & D). rewrite M1, M2. apply H; auto. Qed.
Lemma rl_mod m f : (forall s1 s2, eqv m s1 s2 -> eqv m (f s1) (f s2)) -> rl m (hmod (B:=B) f) (hmod f). Proof. intros H s1 s2 E. split; [reflexivity|now apply H]. Qed.
Lemma eqv_rec m (U : psa) s1 s2 : eqv m s1 s2 -> eqv m (record U s1) (record U s2).
Proof.
  intros ((M1 & M2 & U1 & R1 & H) & D). unfold record. rewrite <- R1, M1, M2. destruct (p_rh s1) eqn:E; unfold eqv, eqv0; simpl; rewrite ?E; repeat split; auto.
  destruct hh; [now rewrite H|]. now destruct H.
Qed.
Lemma rl_fin m fr (V : psa) : rl m (hfin fr V) (hfin fr V).
Proof.
  intros s1 s2 E. pose proof E as ((M1 & M2 & U1 & R1 & H) & D). unfold hfin. rewrite <- U1. destruct (p_uh s1) eqn:U; [|split; [reflexivity|now apply eqv_rec]].
  destruct hh eqn:EH; [|now destruct H]. rewrite <- H. destruct (p_hist s1) as [|h l]; [split; [reflexivity|exact E]|]. rewrite M1, M2. cbn [fst snd]. split; [reflexivity|].
  apply eqv_rec. unfold eqv, eqv0. rewrite EH. simpl. repeat split; auto; congruence.
Qed.
Lemma rl_uh {A} m (f1 f2 : bool -> hM B A) : (forall b, rl m (f1 b) (f2 b)) -> rl m (fun s => f1 (p_uh s) s) (fun s => f2 (p_uh s) s).
Proof. intros H s1 s2 E. pose proof E as ((M1 & M2 & U1 & _) & D). rewrite <- U1. now apply H. Qed.
Lemma md_mul m D1 D2 (a b : psa) : md m D1 D2 -> ps_mul m D1 a b = ps_mul m D2 a b. Proof. intros [->| ->]; reflexivity. Qed.
Lemma md_setorder m D1 D2 (x : psa) k : md m D1 D2 -> ps_setorder m D1 x k = ps_setorder m D2 x k. Proof. intros [->| ->]; reflexivity. Qed.
Lemma rl_add m a b : rl m (hps_add (B:=B) a b) (hps_add a b). Proof. apply rl_bind; [apply rl_lift|intros; apply rl_fin]. Qed.
Lemma rl_sub m a b : rl m (hps_sub (B:=B) a b) (hps_sub a b). Proof. apply rl_bind; [apply rl_lift|intros; apply rl_fin]. Qed.
Lemma rl_mul m a b : rl m (hps_mul (B:=B) a b) (hps_mul a b).
Proof. apply rl_get. intros D1 D2 D. rewrite (md_mul m D1 D2) by exact D. apply rl_bind; [apply rl_lift|intros; apply rl_fin]. Qed.
Lemma rl_mulC m a k e : rl m (hps_mulC (B:=B) a k e) (hps_mulC a k e).
Proof. apply (rl_uh m (fun b => hfin true (if b then _ else _)) (fun b => hfin true (if b then _ else _))). intros. apply rl_fin. Qed.
Lemma rl_Cmul m k e a : rl m (hps_Cmul (B:=B) k e a) (hps_Cmul k e a).
Proof. apply (rl_uh m (fun b => hfin true (if b then _ else _)) (fun b => hfin true (if b then _ else _))). intros. apply rl_fin. Qed.
(* the step functions of the loop agree; the last turn is treated specially in mode 2 only *)
Definition stok {St} (m : Z) (p1 p2 : nat -> bool -> St -> res (B * St)) : Prop := forall i last st, (last = true -> m = 2%Z) -> p1 i last st = p2 i last st.
Lemma stok_refl {St} m (p : nat -> bool -> St -> res (B * St)) : stok m p p. Proof. intros i last st _. reflexivity. Qed.
Lemma rl_turn {St} m (p1 p2 : nat -> bool -> St -> res (B * St)) g i last hn r st : stok m p1 p2 -> (last = true -> m = 2%Z) -> rl m (hturn p1 g i last hn r st) (hturn p2 g i last hn r st).
Proof.
  intros SO L. apply rl_bind; [apply rl_mul|]. intros. rewrite (SO i last st L). apply rl_bind; [apply rl_lift|]. intros. apply rl_bind; [apply rl_fin|]. intros.
  apply rl_bind; [apply rl_add|]. intros. apply rl_lift.
Qed.
Lemma eqv_uh m b s1 s2 : (b = true -> hh = true) -> eqv m s1 s2 -> eqv m (set_uh b s1) (set_uh b s2).
Proof. intros Hb ((M1 & M2 & U1 & R1 & H) & D). unfold eqv, eqv0. simpl. repeat split; auto. destruct hh; auto. destruct b; [now specialize (Hb eq_refl)|]. tauto. Qed.
Lemma eqv_rh m b s1 s2 : (b = true -> hh = true) -> eqv m s1 s2 -> eqv m (set_rh b s1) (set_rh b s2).
Proof. intros Hb ((M1 & M2 & U1 & R1 & H) & D). unfold eqv, eqv0. simpl. repeat split; auto. destruct hh; auto. destruct b; [now specialize (Hb eq_refl)|]. tauto. Qed.
Lemma eqv_hh m s1 s2 : eqv m s1 s2 -> (p_uh s1 = true -> hh = true) /\ (p_rh s1 = true -> hh = true).
Proof. intros ((M1 & M2 & U1 & R1 & H) & D). destruct hh; auto. destruct H as [-> ->]. auto. Qed.
Lemma rl_loop {St} m (p1 p2 : nat -> bool -> St -> res (B * St)) n g old cnt : stok m p1 p2 -> forall i hn r st, rl m (hloop p1 n g old cnt i hn r st) (hloop p2 n g old cnt i hn r st).
Proof.
  intros SO. induction cnt; intros i hn r st; cbn [hloop]; [apply rl_lift|]. intros s1 s2 E. cbv zeta.
  set (c1 := if p_uh s1 && (old <=? i)%nat then set_uh false s1 else s1). set (c2 := if p_uh s2 && (old <=? i)%nat then set_uh false s2 else s2).
  assert (E1 : eqv m c1 c2). { pose proof E as ((M1 & M2 & U1 & R1 & H) & D). unfold c1, c2. rewrite <- U1. destruct (p_uh s1 && (old <=? i)%nat); auto. apply eqv_uh; auto; discriminate. }
  pose proof E1 as ((M1 & M2 & _) & _). rewrite M1, M2. set (last := ((m =? 2)%Z && (i =? n - 1)%nat)).
  assert (E2 : eqv m (if last then set_rh false c1 else c1) (if last then set_rh false c2 else c2)). { destruct last; auto. apply eqv_rh; auto; discriminate. }
  apply (rl_bind m (hturn p1 g i last hn r st) (hturn p2 g i last hn r st)); [|intros; apply IHcnt|exact E2].
  apply rl_turn; auto. unfold last. destruct (Z.eqb_spec m 2); auto; discriminate.
Qed.
Lemma rl_tay {St} m (p1 p2 : nat -> bool -> St -> res (B * St)) x g r0 st : stok m p1 p2 -> rl m (htay p1 x g r0 st) (htay p2 x g r0 st).
Proof.
  intros SO s1 s2 E. unfold htay. pose proof E as ((M1 & M2 & U1 & R1 & H) & D).
  assert (EO : (if p_uh s2 then match p_hist s2 with [] => None | h :: _ => Some (length h) end else Some O) = (if p_uh s1 then match p_hist s1 with [] => None | h :: _ => Some (length h) end else Some O)).
  { rewrite <- U1. destruct (p_uh s1) eqn:U; auto. destruct hh; [now rewrite H|]. now destruct H. }
  rewrite EO. destruct (if p_uh s1 then _ else _) as [old|]; [|split; auto]. rewrite <- U1, <- R1.
  refine (rl_bind m _ _ _ _ (rl_loop m p1 p2 _ _ _ _ SO _ _ _ _) _ s1 s2 E). intros r. apply rl_bind; [|intros; apply rl_mulC].
  destruct (eqv_hh m s1 s2 E). apply rl_mod. intros q1 q2 Q. apply eqv_rh; auto. apply eqv_uh; auto.
Qed.
Lemma st_inv m D1 D2 (a : B) (x : psa) : md m D1 D2 -> stok m (step_inv m a (ps_eval x D1)) (step_inv m a (ps_eval x D2)).
Proof. intros [->| ->]; [|apply stok_refl]. intros i [|] st L; [discriminate (L eq_refl)|reflexivity]. Qed.
Lemma st_sqrt m D1 D2 (a : B) (x : psa) : md m D1 D2 -> stok m (step_sqrt m a (ps_eval x D1)) (step_sqrt m a (ps_eval x D2)).
Proof. intros [->| ->]; [|apply stok_refl]. intros i [|] st L; [discriminate (L eq_refl)|reflexivity]. Qed.
Lemma st_log m D1 D2 (a : B) (x : psa) : md m D1 D2 -> stok m (step_log m a (ps_eval x D1)) (step_log m a (ps_eval x D2)).
Proof. intros [->| ->]; [|apply stok_refl]. intros i [|] st L; [discriminate (L eq_refl)|reflexivity]. Qed.
Lemma st_fact m D1 D2 (x : psa) t v : md m D1 D2 -> stok m (step_fact x D1 t v) (step_fact x D2 t v).
Proof. intros [->| ->]; [|apply stok_refl]. intros i [|] st L; [discriminate (L eq_refl)|reflexivity]. Qed.
Lemma md_if {A} m D1 D2 (f : B -> A) (e : A) : md m D1 D2 -> (if (m =? 2)%Z then f D1 else e) = (if (m =? 2)%Z then f D2 else e). Proof. intros [->| ->]; reflexivity. Qed.
Lemma rl_inv m x : rl m (hps_inv (B:=B) x) (hps_inv x).
Proof.
  destruct x as [|a x]; unfold hps_inv; [apply rl_lift|]. apply rl_get. intros D1 D2 D. rewrite (md_if m D1 D2 (fun D => bSdiv 1 0 (ps_eval (a :: x) D))) by exact D.
  repeat (apply rl_bind; [apply rl_lift|intros]). apply rl_tay. now apply st_inv.
Qed.
Lemma rl_sqrt m x : rl m (hps_sqrt (B:=B) x) (hps_sqrt x).
Proof.
  destruct x as [|a x]; unfold hps_sqrt; [apply rl_lift|]. apply rl_get. intros D1 D2 D. apply rl_bind; [apply rl_lift|intros sa]. apply rl_bind; [apply rl_lift|intros xn].
  rewrite (md_if m D1 D2 (fun D => do sr <- bfun Asqrt (ps_eval (a :: x) D); bSdiv 1 0 (bSmul 2 0 sr))) by exact D. apply rl_bind; [apply rl_lift|intros x2]. apply rl_tay. now apply st_sqrt.
Qed.
Ltac rf := apply rl_get; intros D1 D2 D; repeat (apply rl_bind; [apply rl_lift|intros]); apply rl_tay; auto using st_fact, st_log.
Lemma rl_exp m x : rl m (hps_exp (B:=B) x) (hps_exp x). Proof. destruct x; unfold hps_exp; [apply rl_lift|rf]. Qed.
Lemma rl_log m x : rl m (hps_log (B:=B) x) (hps_log x). Proof. destruct x; unfold hps_log; [apply rl_lift|rf]. Qed.
Lemma rl_sin m x : rl m (hps_sin (B:=B) x) (hps_sin x). Proof. destruct x; unfold hps_sin; [apply rl_lift|rf]. Qed.
Lemma rl_cos m x : rl m (hps_cos (B:=B) x) (hps_cos x). Proof. destruct x; unfold hps_cos; [apply rl_lift|rf]. Qed.
Lemma rl_sinh m x : rl m (hps_sinh (B:=B) x) (hps_sinh x). Proof. destruct x; unfold hps_sinh; [apply rl_lift|rf]. Qed.
Lemma rl_cosh m x : rl m (hps_cosh (B:=B) x) (hps_cosh x). Proof. destruct x; unfold hps_cosh; [apply rl_lift|rf]. Qed.
(* the inner series of the inverse functions *)
Lemma md_der m f D1 D2 (t : psa) : md m D1 D2 -> ps_der f m D1 t = ps_der f m D2 t. Proof. intros [->| ->]; [|reflexivity]. destruct f; reflexivity. Qed.
Lemma rl_arc m f x : rl m (hps_arc (B:=B) f x) (hps_arc f x).
Proof.
  destruct x as [|a x]; unfold hps_arc; [apply rl_lift|]. intros s1 s2 E. cbv zeta. pose proof E as ((M1 & M2 & U1 & R1 & H) & D). rewrite M1, M2, <- U1, <- R1.
  set (X := a :: x). set (D1 := if (m =? 2)%Z then ps_eval X (p_dom s1) else p_dom s1). set (D2 := if (m =? 2)%Z then ps_eval X (p_dom s2) else p_dom s2).
  assert (DD : md m D1 D2). { unfold D1, D2. destruct D as [->|Q]; [now left|right]. now rewrite Q. }
  rewrite (md_setorder m D1 D2) by exact DD. destruct (eqv_hh m s1 s2 E) as [Hu Hr].
  assert (E1 : eqv m (set_dom D1 (set_rh false (set_uh false s1))) (set_dom D2 (set_rh false (set_uh false s2)))).
  { unfold eqv, eqv0. simpl. repeat split; auto. destruct hh; auto. }
  rewrite !hb_mod, !hb_lift. destruct (ps_setorder m D2 [a; t1] _) as [t|]; [|split; auto]. rewrite !hb_lift. destruct (bfun f a) as [v|]; [|split; auto].
  rewrite !hb_lift, (md_der m f D1 D2) by exact DD. destruct (ps_der f m D2 t) as [d|]; [|split; auto]. rewrite !hb_lift. destruct (ps_integrate d) as [J|]; [|split; auto].
  rewrite !hb_lift. destruct (ps_addT J v) as [T|]; [|split; auto]. rewrite !hb_mod. apply rl_tay; [apply stok_refl|].
  unfold eqv, eqv0. simpl. repeat split; auto.
Qed.
Lemma rl_div m a b : rl m (hps_div (B:=B) a b) (hps_div a b). Proof. apply rl_bind; [apply rl_inv|intros; apply rl_mul]. Qed.
Lemma rl_Cdiv m k e b : rl m (hps_Cdiv (B:=B) k e b) (hps_Cdiv k e b). Proof. apply rl_bind; [apply rl_inv|intros; apply rl_Cmul]. Qed.
Ltac rlk := repeat first [apply rl_lift|apply rl_mul|apply rl_add|apply rl_sub|apply rl_Cmul|apply rl_mulC|apply rl_div|apply rl_Cdiv|(apply rl_bind; [|intros])].
Lemma rl_powl m k : forall r x, rl m (hps_pow_loop (B:=B) k r x) (hps_pow_loop k r x). Proof. induction k; intros r x; cbn [hps_pow_loop]; rlk; auto. Qed.
Lemma rl_powi m x y : rl m (hps_powi (B:=B) x y) (hps_powi x y). Proof. destruct y; cbn [hps_powi]; rlk; auto using rl_powl. Qed.
Lemma rl_f m f x : rl m (hps_fun (B:=B) f x) (hps_fun f x).
Proof. destruct f; cbn [hps_fun]; rlk; auto using rl_exp, rl_log, rl_sqrt, rl_sin, rl_cos, rl_sinh, rl_cosh, rl_arc. Qed.
Lemma rl_sc m o k e x : rl m (hps_sc (B:=B) o k e x) (hps_sc o k e x). Proof. destruct o; cbn [hps_sc]; rlk. Qed.
Lemma rl_eval m env e : rl m (hpseval (B:=B) env e) (hpseval env e).
Proof. induction e; cbn [hpseval]; rlk; auto using rl_sc, rl_powi, rl_f, rl_log, rl_exp. Qed.
Lemma rl_vec {A} m k d (g : nat -> hM B A) : (forall i, rl m (g i) (g i)) -> rl m (hvecM k d g) (hvecM k d g).
Proof. intros H. induction k; cbn [hvecM]; rlk; auto. Qed.
Lemma vecM_ext {A} k (d : nat -> A) f g : (forall i, f i = g i) -> vecM k d f = vecM k d g.
Proof. intros H. induction k; cbn [vecM]; auto. rewrite IHk, H. reflexivity. Qed.
End Indep.

Section OdeI.
Context {S : scal} (P : elemp S) (fuel : nat) (root : S -> nat -> S) (n : nat) (es : nat -> aexpr) (fast : bool).
Notation B := (Ibase P fuel).
Notation I := (iv S).
Notation psa := (list (bT B)).
Notation rl := (rl B fast).
Notation eqv := (eqv B fast).
Notation eqv0 := (eqv0 B fast).
Lemma rl_odef m x t : rl m (ode_f P fuel n es x t) (ode_f P fuel n es x t). Proof. apply rl_vec. intros. apply rl_eval. Qed.
Lemma rl_oint m init ord y : rl m (ode_int P fuel n init ord y) (ode_int P fuel n init ord y).
Proof.
  apply rl_get. intros D1 D2 D. erewrite vecM_ext; [apply rl_lift|]. intros i. cbv beta. destruct (ps_integrate (y i)) as [w|]; cbn [bind]; auto. now rewrite (md_setorder B m D1 D2).
Qed.
Lemma rl_pic m init ord x t : rl m (ode_pic P fuel n es init ord x t) (ode_pic P fuel n es init ord x t).
Proof. apply rl_bind; [apply rl_odef|intros; apply rl_oint]. Qed.
Lemma rl_t m start ord : rl m (ode_t P fuel start ord) (ode_t P fuel start ord).
Proof. apply rl_get. intros D1 D2 D. rewrite (md_setorder B m D1 D2) by exact D. apply rl_lift. Qed.
Lemma rl_taylor m init start k : forall j x, rl m (ode_taylor P fuel n es fast init start k j x) (ode_taylor P fuel n es fast init start k j x).
Proof.
  induction k; intros j x; cbn [ode_taylor]; [apply rl_lift|]. apply rl_bind; [|intros]. 
  { apply rl_mod. intros s1 s2 E. destruct fast eqn:F; cbn [andb]; auto. destruct (j =? 1)%nat; auto. apply eqv_uh; auto. }
  apply rl_bind; [apply rl_t|intros]. apply rl_bind; [apply rl_pic|intros]. apply IHk.
Qed.
Lemma rl_refine m p init t k : forall w, rl m (ode_refine P fuel n es k p init t w) (ode_refine P fuel n es k p init t w).
Proof. induction k; intros w; cbn [ode_refine]; [apply rl_lift|]. cbv zeta. apply rl_bind; [apply rl_pic|intros; apply IHk]. Qed.
(* the loop sets the domain first *)
Definition out {A} m (o1 o2 : res A * pst B) : Prop := fst o1 = fst o2 /\ forall a, fst o1 = Ok a -> eqv m (snd o1) (snd o2).
Lemma out_eqv {A} m (o1 o2 : res A * pst B) : fst o1 = fst o2 /\ eqv m (snd o1) (snd o2) -> out m o1 o2. Proof. intros [H1 H2]. split; auto. Qed.
Lemma out_err {A} m e s1 s2 : out (A:=A) m (Err e, s1) (Err e, s2). Proof. split; [reflexivity|discriminate]. Qed.
Lemma out_bind {A A'} m (M : hM B A) (f : A -> hM B A') s1 s2 : rl m M M -> (forall a t1 t2, eqv m t1 t2 -> out m (f a t1) (f a t2)) ->
  eqv m s1 s2 -> out m (hbind M f s1) (hbind M f s2).
Proof.
  intros HM HF E. unfold hbind. destruct (HM s1 s2 E) as [E1 E2]. destruct (M s1) as [[a|e] t1], (M s2) as [[a'|e'] t2]; cbn [fst snd] in *; try discriminate E1.
  - injection E1 as ->. now apply HF.
  - injection E1 as ->. apply out_err.
Qed.
Lemma out_while m p init start end_ x tol f : forall radius restart resized s1 s2, eqv0 m s1 s2 ->
  out m (ode_while P fuel root n es f p init start end_ x tol radius restart resized s1) (ode_while P fuel root n es f p init start end_ x tol radius restart resized s2).
Proof.
  induction f; intros radius restart resized s1 s2 E0; cbn [ode_while]; [apply out_err|]. cbv zeta.
  destruct (if op_auto p then _ else _) as [[end2 radius'] ret]. rewrite !hb_mod.
  match goal with |- out m (_ (set_dom ?D s1)) _ => assert (E : eqv m (set_dom (D : bT B) s1) (set_dom (D : bT B) s2)) by (split; [exact E0|now right]); revert E; generalize (set_dom (D : bT B) s1) (set_dom (D : bT B) s2) end.
  clear s1 s2 E0. intros s1 s2 E. refine (out_bind m _ _ s1 s2 (rl_t m _ _) _ E). clear s1 s2 E. intros t s1 s2 E.
  destruct (rl_odef m x t s1 s2 E) as [E1 E2]. destruct (ode_f P fuel n es x t s1) as [[y|e] t1], (ode_f P fuel n es x t s2) as [[y'|e'] t2]; cbn [fst snd] in E1, E2; try discriminate E1.
  - injection E1 as ->. refine (out_bind m _ _ t1 t2 (rl_oint m _ _ _) _ E2). intros w u1 u2 U. cbv zeta.
    match goal with |- context [hbind (ode_pic P fuel n es init ?o ?z t) ?g] => set (RST := hbind (ode_pic P fuel n es init o z t) g) end.
    assert (RR : out m (RST u1) (RST u2)).
    { refine (out_bind m _ _ u1 u2 (rl_pic m _ _ _ _) _ U). intros w' v1 v2 V. destruct (allb n _); [apply out_eqv; auto|].
      destruct (negb (op_auto p) || (op_rmax p <=? restart)%nat)%bool; [apply out_eqv; auto|]. apply IHf, V. }
    destruct (op_auto p && negb (ret =? 2)%Z && negb resized)%bool; [|exact RR]. destruct (sle radius' _ && (0 <? restart)%nat)%bool; [exact RR|]. apply IHf, U.
  - injection E1 as ->. destruct e'; try apply out_err. destruct (op_auto p && (restart <? op_rmax p)%nat)%bool; [|apply out_err].
    apply IHf. apply (eqv_uh B fast m false t1 t2); [discriminate|exact E2].
Qed.
Lemma hb_eq {A A'} (M : hM B A) (g : A -> hM B A') s : hbind M g s = match M s with (Ok a, s) => g a s | (Err e, s) => (Err e, s) end. Proof. reflexivity. Qed.
Theorem ode_indep f p init start end_ s1 s2 : fst (ode P fuel root n es fast f p init start end_ s1) = fst (ode P fuel root n es fast f p init start end_ s2).
Proof.
  unfold ode. cbv zeta. rewrite !hb_mod.
  assert (E : eqv 1 (ode_enter P fuel fast s1) (ode_enter P fuel fast s2)). { unfold ode_enter. repeat split; simpl; auto; [destruct fast; auto|now left]. }
  revert E. generalize (ode_enter P fuel fast s1) (ode_enter P fuel fast s2). intros a1 a2 E.
  rewrite !(hb_eq (ode_taylor P fuel n es fast init start (op_order p) 0 _)). 
  destruct (rl_taylor 1 init start (op_order p) 0 (fun i => [init i : bT B]) _ _ E) as [E1 E2].
  destruct (ode_taylor P fuel n es fast init start (op_order p) 0 _ a1) as [[x|e] t1], (ode_taylor P fuel n es fast init start (op_order p) 0 _ a2) as [[x'|e'] t2];
    cbn [fst snd] in E1, E2; try discriminate E1; [|injection E1 as ->; reflexivity]. injection E1 as ->. rewrite !hb_mod.
  assert (E3 : eqv0 2 (set_mode 2 t1) (set_mode 2 t2)). { destruct E2 as [(M1 & M2 & U1 & R1 & H) _]. repeat split; simpl; auto. }
  revert E3. generalize (set_mode (B:=B) 2 t1) (set_mode (B:=B) 2 t2). intros b1 b2 E3. rewrite !(hb_eq (ode_while _ _ _ _ _ _ _ _ _ _ _ _ _ _ _)).
  match goal with |- context [ode_while P fuel root n es f p init start end_ x' ?tl ?ra ?a ?b b1] => destruct (out_while 2 p init start end_ x' tl f ra a b _ _ E3) as [E4 E5] end.
  destruct (ode_while P fuel root n es f p init start end_ x' _ _ 0 false b1) as [[q|e] u1], (ode_while P fuel root n es f p init start end_ x' _ _ 0 false b2) as [[q'|e'] u2];
    cbn [fst snd] in E4, E5; try discriminate E4; [|injection E4 as ->; reflexivity]. specialize (E5 q eq_refl). injection E4 as ->. destruct q' as [[[[w t] deltat] end2] ret].
  destruct (ret =? 0)%Z; [reflexivity|]. rewrite !hb_eq. destruct (rl_refine 2 p init t (op_iter p) w u1 u2 E5) as [E6 E7]. 
  destruct (ode_refine P fuel n es (op_iter p) p init t w u1) as [[w1|e] v1], (ode_refine P fuel n es (op_iter p) p init t w u2) as [[w2|e'] v2]; cbn [fst snd] in E6; try discriminate E6; [|injection E6 as ->; reflexivity].
  injection E6 as ->. reflexivity.
Qed.
Theorem odelong_indep g f p init start end_ s1 s2 : fst (odelong P fuel root n es fast g f p init start end_ s1) = fst (odelong P fuel root n es fast g f p init start end_ s2).
Proof.
  unfold odelong. generalize (mkop S (op_order p) true (op_iter p) (op_rmax p) (op_eps p)). intros p'. generalize 0%Z. generalize init at 2 4. revert start s1 s2.
  induction g; intros t s1 s2 x ret; cbn [odelong_loop]; [reflexivity|]. rewrite !hb_eq. pose proof (ode_indep f p' x t end_ s1 s2) as E.
  destruct (ode P fuel root n es fast f p' x t end_ s1) as [[q|e] v1], (ode P fuel root n es fast f p' x t end_ s2) as [[q'|e'] v2]; cbn [fst snd] in E; try discriminate E; [|injection E as ->; reflexivity].
  injection E as ->. destruct q' as [[[r x'] t1] w]. destruct (r =? 0)%Z; [destruct (ret =? 1)%Z; reflexivity|]. destruct (r =? 2)%Z; [reflexivity|]. apply IHg.
Qed.
End OdeI.
