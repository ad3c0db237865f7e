(* Property theorems: power series arithmetic (C41-C43, C72), higher derivatives (C44, C73), definite integrals (C60), for every
   double back end, every order, every expression. *)
From Coq Require Import Reals ZArith Bool List Lra Lia Psatz Arith.
From Coquelicot Require Import Coquelicot.
From Flocq Require Import Core BinarySingleNaN.
From Verif Require Import Fp64 RDoubleHw.
From Verif Require Import Ext Scalar IntervalModel IntervalSpec IntervalProofs IntervalEncl IntervalSets Backends Ex64 ElemModel PropsElem.
From Verif Require Import RealFun ADModel ADReal ADProofs ADInst PsaModel PsaReal PsaProofs PsaExpr PsaInt PsaUse PsaUseProofs PsaInst.
Import ListNotations.
Open Scope R_scope.

(* f(t) = c_0 + ... + c_(s-1) t^(s-1) + O(t^s) *)
Definition expansion (s : nat) (f : R -> R) (c : nat -> R) : Prop :=
  exists M d, 0 < d /\ forall t, Rabs t < d -> Rabs (f t - rsum (fun i => c i * t ^ i) s) <= M * Rabs t ^ s.
Definition near0 (P : R -> Prop) : Prop := exists d, 0 < d /\ forall t, Rabs t < d -> P t.
Notation IB b fuel := (Ibase (bpar b) fuel).

(* ---- C41 ---- *)
(* exact arithmetic: the coefficients of the result are those of the expansion of the function *)
Theorem C41_exact : forall D s n (env : nat -> list R) (x : R -> nat -> R) e r,
  (2 <= s)%nat -> (Z.of_nat s <= 2 ^ 52)%Z -> awf n e -> plog e ->
  (forall i, (i < n)%nat -> length (env i) = s /\ expansion s (fun t => x t i) (fun j => nth j (env i) 0)) ->
  pseval (B:=Rbase) 1 D env e = Ok r ->
  near0 (fun t => adom e (x t)) /\ (length r = 1%nat \/ length r = s) /\ expansion s (fun t => rval e (x t)) (fun j => nth j r 0).
Proof.
  intros D s n env x e r S1 S2 W P HE E.
  destruct (pseval_ok Rbase _ Rbase_ok None 1 D s n env x e r) as [DD [L (c & C & Z & J)]]; auto.
  - reflexivity.
  - intros i Hi. destruct (HE i Hi) as [L J]. split; auto. split; auto. exists (fun j => nth j (env i) 0). split; [|split; [|exact J]].
    + intros j Hj. unfold at_. rewrite (nth_indep _ _ 0 Hj). reflexivity.
    + intros j Hj. now apply nth_overflow.
  - split; auto. split; auto. apply (jet_coef s _ c); auto. intros j Hj. destruct (Nat.lt_ge_cases j (length r)) as [Q|Q].
    + specialize (C j Q). unfold at_ in C. rewrite (nth_indep _ _ 0 Q) in C. symmetry; exact C.
    + rewrite Z by auto. symmetry. now apply nth_overflow.
Qed.
(* expansions are unique, so these are the Taylor coefficients *)
Theorem C41_unique : forall s f a c, expansion s f a -> expansion s f c -> forall i, (i < s)%nat -> a i = c i.
Proof. exact jet_unique. Qed.
Theorem C41_taylor : forall s (F : nat -> R -> R) (dom : R -> Prop) x0, (forall k y, dom y -> is_derive (F k) y (F (S k) y)) -> locally x0 dom ->
  expansion s (fun t => F O (x0 + t)) (fun i => F i x0 / INR (fact i)).
Proof. exact jet_family. Qed.
(* intervals: the coefficients of the expansion lie in the coefficients of the result *)
Theorem C41_interval : forall b fuel D s n (env : nat -> list (iv (bscal b))) (x : R -> nat -> R) e r,
  (2 <= s)%nat -> (Z.of_nat s <= 2 ^ 52)%Z -> awf n e -> plog e ->
  (forall i, (i < n)%nat -> length (env i) = s /\ exists c, cin_ (env i) c /\ (forall j, (s <= j)%nat -> c j = 0) /\ expansion s (fun t => x t i) c) ->
  pseval (B:=IB b fuel) 1 D env e = Ok r ->
  near0 (fun t => adom e (x t)) /\ (length r = 1%nat \/ length r = s) /\
  exists c, cin_ r c /\ (forall j, (length r <= j)%nat -> c j = 0) /\ expansion s (fun t => rval e (x t)) c.
Proof.
  intros b fuel D s n env x e r S1 S2 W P HE E.
  destruct (pseval_ok (IB b fuel) _ (IOK b fuel) None 1 D s n env x e r) as [DD [L (c & C & Z & J)]]; auto.
  - reflexivity.
  - intros i Hi. destruct (HE i Hi) as [L (c & C & Z & J)]. split; auto. split; [right; exact L|]. exists c. split; [exact C|]. split; [|exact J].
    intros j Hj. apply Z. rewrite <- L. exact Hj.
  - split; auto. split; auto. exists c. auto.
Qed.
(* exp(x0) * log(x0) + x0^3 / sqrt(x0), size 4 *)
Definition C41_e : aexpr := XAdd (XMul (XFun Aexp (XVar 0)) (XFun Alog (XVar 0))) (XDiv (XPowZ (XVar 0) 3) (XFun Asqrt (XVar 0))).
Definition C41_X : list (iv (bscal BHw)) := [qiv 1 0 2 0; qiv 1 0 1 0; qiv 0 0 0 0; qiv 0 0 0 0].
Example C41_case : awf 1 C41_e /\ plog C41_e /\ returns (pseval (B:=IB BHw 60) 1 (qiv 0 0 0 0) (fun _ => C41_X) C41_e) = true /\
  exists c, cin_ C41_X c /\ (forall j, (4 <= j)%nat -> c j = 0) /\ expansion 4 (fun t => 3 / 2 + t) c.
Proof.
  split; [simpl; repeat split; lia|]. split; [simpl; intuition discriminate|]. split; [vm_compute; reflexivity|].
  exists (fun i => match i with 0%nat => 3 / 2 | 1%nat => 1 | _ => 0 end). split; [|split].
  - intros [|[|[|[|i]]]] Hi; simpl in Hi; [qin|qin|qin|qin|lia].
  - intros [|[|j]] Hj; auto; lia.
  - exists 0, 1. split; [lra|]. intros t _. simpl. rewrite Rabs_right; [lra|]. ring_simplify. lra.
Qed.
Example C41_exact_case : exists r, pseval (B:=Rbase) 1 0 (fun _ => [3; 1; 0]) (XMul (XVar 0) (XVar 0)) = Ok r.
Proof. eexists. reflexivity. Qed.

(* ---- C42 ---- *)
Theorem C42_enclosure : forall b fuel D s n (env : nat -> list (iv (bscal b))) (x : R -> nat -> R) e r,
  (2 <= s)%nat -> (Z.of_nat s <= 2 ^ 52)%Z -> awf n e -> plog e -> noarc e = true -> isin D 0 ->
  (forall i, (i < n)%nat -> length (env i) = s /\ represents D (env i) (fun t => x t i)) ->
  pseval (B:=IB b fuel) 2 D env e = Ok r ->
  represents D r (fun t => rval e (x t)) /\ (forall t, isin D t -> adom e (x t)) /\ (length r = 1%nat \/ length r = s).
Proof.
  intros b fuel D s n env x e r S1 S2 W P NA HD HE E.
  pose proof (pseval_represents b fuel D s n env x e r S1 S2 W P NA HD HE E) as H.
  split; [|split]; [intros t Ht; apply (H t Ht)|intros t Ht; apply (H t Ht)|apply (H 0 HD)].
Qed.
(* exp(x) * sqrt(x) / (x + 1) - log(x) for x = 1 + t + t^2 [0,1/8], on [-1/4, 1/4] *)
Definition C42_e : aexpr := XSub (XDiv (XMul (XFun Aexp (XVar 0)) (XFun Asqrt (XVar 0))) (XSc SOadd 1 0 (XVar 0))) (XFun Alog (XVar 0)).
Definition C42_X : list (iv (bscal BHw)) := [qiv 1 0 1 0; qiv 1 0 1 0; qiv 0 0 1 (-3)].
Example C42_case : awf 1 C42_e /\ plog C42_e /\ noarc C42_e = true /\ isin (qiv (-1) (-2) 1 (-2)) 0 /\
  represents (b:=BHw) (qiv (-1) (-2) 1 (-2)) C42_X (fun t => 1 + t + t ^ 2 * (/ 16 * cos t ^ 2)) /\
  returns (pseval (B:=IB BHw 60) 2 (qiv (-1) (-2) 1 (-2)) (fun _ => C42_X) C42_e) = true.
Proof.
  split; [simpl; unfold lit; repeat split; lia|]. split; [simpl; intuition discriminate|]. split; [reflexivity|]. split; [qin|]. split; [|vm_compute; reflexivity].
  intros t _. exists (fun i => match i with 0%nat => 1 | 1%nat => 1 | _ => / 16 * cos t ^ 2 end). split; [|simpl; ring].
  pose proof (COS_bound t). intros [|[|[|i]]] Hi; simpl in Hi; [qin|qin| |lia]. apply qiv_in; [reflexivity|]. simpl. nra.
Qed.
(* the domain must contain the expansion point 0: x = t on [1,1], exp(x) gives 1 + e t *)
Theorem C42_domain_without_zero_refuted : exists (D : iv (bscal BHw)) X r, isin D 1 /\ represents D X (fun t => t) /\
  ps_fun (B:=IB BHw 60) Aexp 2 D X = Ok r /\ ~ repr (b:=BHw) r 1 (exp 1).
Proof.
  set (D := qiv 1 0 1 0 : iv (bscal BHw)). set (X := [qiv 0 0 0 0; qiv 1 0 1 0] : list (iv (bscal BHw))).
  assert (R : match ps_fun (B:=IB BHw 60) Aexp 2 D X with Ok [a; c] => sle (bdy 1 (-1) : D_hw) (lo (a : iv D_hw)) && sle (bdy 21 (-3) : D_hw) (lo (c : iv D_hw)) | _ => false end = true).
  { vm_compute. reflexivity. }
  exists D, X. destruct (ps_fun (B:=IB BHw 60) Aexp 2 D X) as [r|] eqn:E; [|discriminate R]. exists r. split; [qin|]. split.
  { intros t _. exists (fun i => match i with 0%nat => 0 | _ => 1 end). split; [|simpl; ring]. intros [|[|i]] Hi; simpl in Hi; [qin|qin|lia]. }
  split; [reflexivity|]. clear E. destruct r as [|u [|v [|? ?]]]; try discriminate R. apply andb_prop in R as [R1 R2].
  intros (c & C & EQ). pose proof (C 0%nat ltac:(simpl; lia)) as (_ & _ & L0 & _). pose proof (C 1%nat ltac:(simpl; lia)) as (_ & _ & L1 & _). cbn [nth] in L0, L1.
  apply (ok_le _ (bok BHw)) in R1; try exact I. apply (ok_le _ (bok BHw)) in R2; try exact I.
  change (bscal BHw) with D_hw in *. rewrite qv in R1, R2 by lia. simpl in EQ.
  assert (c 0%nat >= / 2). { destruct (sval (lo (u : iv D_hw))); simpl in *; try tauto; lra. }
  assert (c 1%nat >= 21 / 8). { destruct (sval (lo (v : iv D_hw))); simpl in *; try tauto; lra. }
  pose proof exp_le_3. lra.
Qed.

(* ---- C43 ---- *)
Theorem C43_integrate : forall b fuel D (X J : list (iv (bscal b))) (f : R -> R),
  (Z.of_nat (length X) < 2 ^ 53)%Z -> isin D 0 -> represents D X f -> ps_integrate (B:=IB b fuel) X = Ok J ->
  length J = S (length X) /\ forall t v, isin D t -> is_RInt f 0 t v -> repr J t v.
Proof.
  intros b fuel D X J f Hl HD HX E. split.
  - destruct (HX 0 HD) as (c & C & _). exact (proj1 (integrate_ok (IB b fuel) _ (IOK b fuel) X J c Hl E C)).
  - intros t v Ht HI.
    destruct (integrate_encl (IB b fuel) _ (IOK b fuel) (isin_itv b fuel) X J f t v Hl) as [_ (c & C & Ev)]; auto.
    + intros u Hu. apply (HX u). exact (isin_mix b D 0 t u HD Ht Hu).
    + exists c. split; auto.
Qed.
Theorem C43_eval : forall b fuel (X : list (iv (bscal b))) T t y, repr X t y -> isin T t -> isin (ps_eval (B:=IB b fuel) X T : iv (bscal b)) y.
Proof. intros b fuel X T t y (c & C & ->) HT. exact (horner_rel (IB b fuel) _ (IOK b fuel) X c T t C HT). Qed.
Theorem C43_evalrange : forall b fuel D (X : list (iv (bscal b))) f, represents D X f -> forall t, isin D t -> isin (ps_eval (B:=IB b fuel) X D : iv (bscal b)) (f t).
Proof. intros b fuel D X f H t Ht. apply (C43_eval b fuel X D t); auto. Qed.
Theorem C43_setorder : forall b fuel D (X Y : list (iv (bscal b))) n f, represents D X f -> isin D 0 -> ps_setorder (B:=IB b fuel) 2 D X n = Ok Y ->
  length Y = S (Z.to_nat n) /\ represents D Y f.
Proof.
  intros b fuel D X Y n f HX HD E. split.
  - exact (proj1 (setorder2_grepr (IB b fuel) _ (IOK b fuel) D X n Y 0 (f 0) HD E (HX 0 HD))).
  - intros t Ht. exact (proj2 (setorder2_grepr (IB b fuel) _ (IOK b fuel) D X n Y t (f t) Ht E (HX t Ht))).
Qed.
Example C43_case : returns (ps_integrate (B:=IB BHw 60) C42_X) = true /\ returns (ps_setorder (B:=IB BHw 60) 2 (qiv (-1) (-2) 1 (-2)) C42_X 1) = true /\
  is_RInt (fun t => 1 + t) 0 (/ 4) (/ 4 + (/ 4) ^ 2 / 2).
Proof.
  split; [vm_compute; reflexivity|]. split; [vm_compute; reflexivity|].
  replace (/ 4 + (/ 4) ^ 2 / 2) with (minus ((fun t => t + t ^ 2 / 2) (/ 4)) ((fun t => t + t ^ 2 / 2) 0)).
  - apply (is_RInt_derive (fun t => t + t ^ 2 / 2) (fun t => 1 + t)).
    + intros t _. auto_derive; auto. field.
    + intros t _. apply (continuous_plus (fun _ => 1) (fun t => t)); [apply continuous_const|apply continuous_id].
  - unfold minus, plus, opp; simpl. field.
Qed.

(* ---- C44 ---- *)
(* the mode 2 of the caller is restored as 1 *)
Theorem C44_highderiv_mode_refuted : forall b fuel, exists st f x n v, g_mode st = 2%Z /\ fst (@highderiv (IB b fuel) st f x n false) = Ok v /\
  g_mode (snd (@highderiv (IB b fuel) st f x n false)) = 1%Z.
Proof.
  intros b fuel. exists (mkgst (B:=IB b fuel) 2 false false t0), (fun _ _ x => Ok x), t1, 1%Z. eexists. split; [reflexivity|]. split; reflexivity.
Qed.
(* an exception of f leaves mode and history flags changed *)
Theorem C44_highderiv_exception_refuted : forall b fuel, exists st f x n, fst (@highderiv (IB b fuel) st f x n false) = Err EDomain /\
  g_mode (snd (@highderiv (IB b fuel) st f x n false)) <> g_mode st /\
  g_uh (snd (@highderiv (IB b fuel) st f x n false)) <> g_uh st /\ g_rh (snd (@highderiv (IB b fuel) st f x n false)) <> g_rh st.
Proof.
  intros b fuel. exists (mkgst (B:=IB b fuel) 2 true true t0), (fun _ _ x => Err EDomain), t1, 1%Z. split; [reflexivity|]. repeat split; discriminate.
Qed.
Theorem C44_defint_mode_refuted : exists st f v, g_mode st = 2%Z /\
  fst (@defint (IB BHw 1) hull st f (qiv 0 0 0 0) (qiv 1 0 1 0) 2 1) = Ok v /\ g_mode (snd (@defint (IB BHw 1) hull st f (qiv 0 0 0 0) (qiv 1 0 1 0) 2 1)) = 1%Z.
Proof.
  set (st := mkgst (B:=IB BHw 1) 2 false false (qiv 0 0 0 0 : IB BHw 1)). exists st, (fun _ _ x => Ok x).
  assert (R : returns (fst (@defint (IB BHw 1) hull st (fun _ _ x => Ok x) (qiv 0 0 0 0) (qiv 1 0 1 0) 2 1)) = true) by (vm_compute; reflexivity).
  assert (R2 : (g_mode (snd (@defint (IB BHw 1) hull st (fun _ _ x => Ok x) (qiv 0 0 0 0) (qiv 1 0 1 0) 2 1)) =? 1)%Z = true) by (vm_compute; reflexivity).
  destruct (fst (@defint (IB BHw 1) hull st (fun _ _ x => Ok x) (qiv 0 0 0 0) (qiv 1 0 1 0) 2 1)) as [v|]; [|discriminate R].
  exists v. split; [reflexivity|]. split; [reflexivity|]. now apply Z.eqb_eq.
Qed.
(* what holds: with the mode 0 or 1 before the call, a normal return restores mode and history flags.  Missing: mode 2 and exceptions
   (both refuted above); defint also leaves domain() changed *)
Theorem C44_highderiv_restores_partial : forall B (st : gst B) f x n df v st', (g_mode st = 0 \/ g_mode st = 1)%Z -> highderiv st f x n df = (Ok v, st') -> st' = st.
Proof.
  intros B st f x n df v st' HM E. unfold highderiv in E. destruct (hd_run _ _ _ _ _); [|discriminate]. injection E as _ <-.
  destruct st as [m u r d]; simpl in *. destruct HM as [-> | ->]; reflexivity.
Qed.
Theorem C44_defint_restores_partial : forall B h (st : gst B) f a c o n v st', (g_mode st = 0 \/ g_mode st = 1)%Z -> defint h st f a c o n = (Ok v, st') ->
  g_mode st' = g_mode st /\ g_uh st' = g_uh st /\ g_rh st' = g_rh st.
Proof.
  intros B h st f a c o n v st' HM E. unfold defint in E. destruct (bind _ _) as [[step x]|]; [|discriminate]. cbv zeta in E. destruct (di_loop _ _ _ _ _ _ _ _ _); [|discriminate].
  injection E as _ <-. simpl. destruct st as [m u r d]; simpl in *. destruct HM as [-> | ->]; auto.
Qed.

(* ---- C73 ---- *)
(* highderiv(f, X, n) encloses f^(i)(x) (or f^(i)(x)/i!) for i = 0 .. n, for every x in X: F is any sequence of successive derivatives of f around x *)
Theorem C73_highderiv : forall b fuel st st' e (X : iv (bscal b)) n divfact v x (F : nat -> R -> R) (dom : R -> Prop),
  (1 <= n)%Z -> (n < 2 ^ 52)%Z -> awf 1 e -> plog e -> isin X x ->
  highderiv st (psafun (IB b fuel) e) X n divfact = (Ok v, st') ->
  (forall k y, dom y -> is_derive (F k) y (F (S k) y)) -> locally x dom -> (forall y, dom y -> F O y = rval e (fun _ => y)) ->
  length v = S (Z.to_nat n) /\
  forall i, (i <= Z.to_nat n)%nat -> isin (nth i v (ipt (sdy 0 0)) : iv (bscal b)) (if divfact then F i x / INR (fact i) else F i x).
Proof.
  intros b fuel st st' e X n df v x F dom N1 N2 W P HX E FM LD F0. unfold highderiv in E.
  destruct (hd_run (g_dom st) (psafun (IB b fuel) e) X n df) as [w|] eqn:ER; [|discriminate]. injection E as -> _.
  exact (hd_run_deriv (IB b fuel) _ (IOK b fuel) (g_dom st) e X n df v x F dom N1 N2 W P HX ER FM LD F0).
Qed.
(* and f is defined around every point of X *)
Theorem C73_defined : forall b fuel st st' e (X : iv (bscal b)) n divfact v x, (1 <= n)%Z -> (n < 2 ^ 52)%Z -> awf 1 e -> plog e -> isin X x ->
  highderiv st (psafun (IB b fuel) e) X n divfact = (Ok v, st') -> near0 (fun t => adom e (fun _ => x + t)).
Proof.
  intros b fuel st st' e X n df v x N1 N2 W P HX E. unfold highderiv in E.
  destruct (hd_run (g_dom st) (psafun (IB b fuel) e) X n df) as [w|] eqn:ER; [|discriminate].
  apply (hd_run_ok (IB b fuel) _ (IOK b fuel) (g_dom st) e X n df w x N1 N2 W P HX ER).
Qed.
(* exp(2 x) with F k = 2^k exp(2 x) *)
Definition C73_e : aexpr := XFun Aexp (XSc SOmulr 2 0 (XVar 0)).
Example C73_case : awf 1 C73_e /\ plog C73_e /\ returns (hd_run (qiv 0 0 0 0 : IB BHw 60) (psafun (IB BHw 60) C73_e) (qiv 0 0 1 (-2)) 5 false) = true /\
  (forall k y, is_derive (fun y => 2 ^ k * exp (2 * y)) y (2 ^ S k * exp (2 * y))) /\ (forall y, 2 ^ 0 * exp (2 * y) = rval C73_e (fun _ => y)).
Proof.
  split; [simpl; unfold lit; repeat split; lia|]. split; [simpl; intuition discriminate|]. split; [vm_compute; reflexivity|]. split.
  - intros k y. auto_derive; auto. simpl. ring.
  - intros y. simpl. rewrite dy_int. ring.
Qed.

(* ---- C60 ---- *)
(* order 0 is excluded: refuted below; inverse functions are excluded because of C72 *)
Theorem C60_encloses_partial : forall b fuel st st' e (start end_ : iv (bscal b)) order n v a c,
  (1 <= order < 2 ^ 52)%Z -> (1 <= n <= 2 ^ 53)%Z -> awf 1 e -> plog e -> noarc e = true -> isin start a -> isin end_ c ->
  defint (hull : IB b fuel -> IB b fuel -> IB b fuel) st (psafun (IB b fuel) e) start end_ order n = (Ok v, st') ->
  (forall y, a <= y <= c \/ c <= y <= a -> adom e (fun _ => y)) /\
  exists I, is_RInt (fun y => rval e (fun _ => y)) a c I /\ isin (v : iv (bscal b)) I.
Proof.
  intros b fuel st st' e start end_ order n v a c [O1 O2] [N1 N2] W P NA Ha Hc E.
  exact (defint_ok (IB b fuel) _ (IOK b fuel) (isin_itv b fuel) _ (isin_hull_law b) st e start end_ order n v st' a c O1 O2 N1 N2 W P NA Ha Hc E).
Qed.
Definition C60_e : aexpr := XMul (XVar 0) (XVar 0).
Definition C60_st : gst (IB BHw 60) := mkgst (B:=IB BHw 60) 1 false false (qiv 0 0 0 0 : IB BHw 60).
Example C60_case : awf 1 C41_e /\ plog C41_e /\ noarc C41_e = true /\
  returns (fst (defint (hull : IB BHw 60 -> _ -> _) C60_st (psafun (IB BHw 60) C41_e) (qiv 1 0 1 0) (qiv 3 (-1) 2 0) 2 2)) = true.
Proof. split; [simpl; repeat split; lia|]. split; [simpl; intuition discriminate|]. split; [reflexivity|]. vm_compute. reflexivity. Qed.
(* order 0: the integral of x^2 over [0,1] with one step is said to be 1/4 *)
Theorem C60_order_zero_refuted : exists v st' I, defint (hull : IB BHw 60 -> _ -> _) C60_st (psafun (IB BHw 60) C60_e) (qiv 0 0 0 0) (qiv 1 0 1 0) 0 1 = (Ok v, st') /\
  is_RInt (fun y => rval C60_e (fun _ => y)) 0 1 I /\ ~ isin (v : iv D_hw) I.
Proof.
  assert (R : match fst (defint (hull : IB BHw 60 -> _ -> _) C60_st (psafun (IB BHw 60) C60_e) (qiv 0 0 0 0) (qiv 1 0 1 0) 0 1) with Ok v => sle (hi (v : iv D_hw)) (bdy 1 (-2) : D_hw) | _ => false end = true).
  { vm_compute. reflexivity. }
  destruct (defint (hull : IB BHw 60 -> _ -> _) C60_st (psafun (IB BHw 60) C60_e) (qiv 0 0 0 0) (qiv 1 0 1 0) 0 1) as [[v|] st'] eqn:E; [|discriminate R]. clear E. cbn [fst] in R.
  exists v, st', (/ 3). split; [reflexivity|]. split.
  - replace (/ 3) with (minus ((fun t => t ^ 3 / 3) 1) ((fun t => t ^ 3 / 3) 0)) by (unfold minus, plus, opp; simpl; field).
    apply (is_RInt_derive (fun t => t ^ 3 / 3) (fun y => rval C60_e (fun _ => y))); intros t _.
    + simpl rval. auto_derive; auto. simpl. field.
    + apply (rval_continuous 1 C60_e (fun y _ => y)); simpl; auto. intros i _. apply continuous_id.
  - intros (_ & _ & _ & U). apply (ok_le _ (bok BHw)) in R; try exact I. change (bscal BHw) with D_hw in *. rewrite qv in R by lia.
    destruct (sval (hi (v : iv D_hw))); simpl in *; try tauto. lra.
Qed.

(* ---- C72 ---- *)
(* a series of size 1 (a constant) makes the inverse functions read beyond a vector *)
Theorem C72_constant_refuted : forall b fuel f m D (a : iv (bscal b)), is_arc f = true -> ps_fun (B:=IB b fuel) f m D [a] = Err EUB.
Proof. intros b fuel f m D a H. destruct f; try discriminate; reflexivity. Qed.
(* x = 5 + t on [0, 1/16]: the slope returned for atan(x) is far below the slope of atan *)
Definition C72_D : iv (bscal BHw) := qiv 0 0 1 (-4).
Definition C72_X : list (iv (bscal BHw)) := [qiv 5 0 5 0; qiv 1 0 1 0].
Lemma C72_run : match ps_fun (B:=IB BHw 100) Aatan 2 C72_D C72_X with
  | Ok [a; c] => sle (bdy 6185247182243926 (-52) : D_hw) (lo (a : iv D_hw)) && sle (hi (a : iv D_hw)) (bdy 6185247182243930 (-52) : D_hw) && sle (hi (c : iv D_hw)) (bdy 11 (-10) : D_hw)
  | _ => false end = true.
Proof. vm_compute. reflexivity. Qed.
Lemma C72_atan5 : match bfun (b:=IB BHw 100) Aatan (qiv 5 0 5 0) with Ok V => sle (bdy 6185247182243900 (-52) : D_hw) (lo (V : iv D_hw)) | _ => false end = true.
Proof. vm_compute. reflexivity. Qed.
Theorem C72_atan_mode2_refuted : exists r t, isin C72_D 0 /\ isin C72_D t /\ represents C72_D C72_X (fun t => 5 + t) /\
  ps_fun (B:=IB BHw 100) Aatan 2 C72_D C72_X = Ok r /\ ~ repr (b:=BHw) r t (atan (5 + t)).
Proof.
  pose proof C72_run as R. destruct (ps_fun (B:=IB BHw 100) Aatan 2 C72_D C72_X) as [r|] eqn:E; [|discriminate R]. exists r, (/ 16).
  split; [qin|]. split; [qin|]. split.
  { intros t _. exists (fun i => match i with 0%nat => 5 | _ => 1 end). split; [|simpl; ring]. intros [|[|i]] Hi; simpl in Hi; [qin|qin|lia]. }
  split; [reflexivity|]. clear E. destruct r as [|u [|v [|? ?]]]; try discriminate R. apply andb_prop in R as [R R3]. apply andb_prop in R as [R1 R2].
  intros (c & C & EQ). pose proof (C 0%nat ltac:(simpl; lia)) as (_ & _ & _ & U0). pose proof (C 1%nat ltac:(simpl; lia)) as (_ & _ & _ & U1). cbn [nth] in U0, U1.
  apply (ok_le _ (bok BHw)) in R2; try exact I. apply (ok_le _ (bok BHw)) in R3; try exact I.
  change (bscal BHw) with D_hw in *. rewrite qv in R2, R3 by lia. cbn [length rsum] in EQ.
  assert (A5 : 6185247182243900 * / 4503599627370496 <= atan 5).
  { pose proof C72_atan5 as Q. destruct (bfun (b:=IB BHw 100) Aatan (qiv 5 0 5 0)) as [V|] eqn:EV; [|discriminate Q].
    assert (IV : isin (V : iv D_hw) (atan 5)). { apply (bk_fun _ _ (IOK BHw 100) Aatan _ _ 5 EV); [qin|exact Logic.I]. }
    destruct IV as (_ & _ & L & _). apply (ok_le _ (bok BHw)) in Q; try exact I. change (bscal BHw) with D_hw in *. rewrite qv in Q by lia.
    destruct (sval (lo (V : iv D_hw))); simpl in *; try tauto. lra. }
  assert (H0 : c 0%nat <= 6185247182243930 * / 4503599627370496). { destruct (sval (hi (u : iv D_hw))); simpl in *; try tauto; lra. }
  assert (H1 : c 1%nat <= 11 * / 1024). { destruct (sval (hi (v : iv D_hw))); simpl in *; try tauto; lra. }
  destruct (MVT_cor2 atan (fun x => / (1 + x ^ 2)) 5 (5 + / 16)) as (z & EM & Hz); [lra| |].
  { intros z _. apply is_derive_Reals, is_derive_atan. }
  assert (/ 27 <= / (1 + z ^ 2)). { apply Rinv_le_contravar; nra. }
  replace (5 + / 16 - 5) with (/ 16) in EM by ring. rewrite EQ, pow_O, pow_1 in EM. cbv beta in EM. lra.
Qed.
Definition psa_all := (C41_exact, C41_unique, C41_taylor, C41_interval, C42_enclosure, C42_domain_without_zero_refuted, C43_integrate, C43_eval, C43_evalrange, C43_setorder, C44_highderiv_mode_refuted, C44_highderiv_exception_refuted, C44_defint_mode_refuted, C44_highderiv_restores_partial, C44_defint_restores_partial, C73_highderiv, C73_defined, C60_encloses_partial, C60_order_zero_refuted, C72_constant_refuted, C72_atan_mode2_refuted).
Print Assumptions psa_all.
