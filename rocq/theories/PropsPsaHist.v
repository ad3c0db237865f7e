(* Property theorems: the history list of psa (C78, C79) and the static state after ode (C80), for every double back end, every order,
   every expression. *)
From Coq Require Import Reals ZArith Bool List Lra Lia Psatz Arith.
From Coquelicot Require Import Coquelicot.
From Flocq Require Import Core BinarySingleNaN.
From Verif Require Import Fp64 RDoubleHw.
From Verif Require Import Ext Scalar IntervalModel IntervalSpec IntervalProofs IntervalEncl IntervalSets Backends Ex64 ElemModel PropsElem.
From Verif Require Import RealFun ADModel ADReal ADProofs ADInst PsaModel PsaReal PsaProofs PsaExpr PsaUseProofs PsaInst PsaHist PsaHistProofs PsaHistRep PsaHistKeep PropsPsa.
From Verif Require Import OdeModel OdeHist OdeProofs PropsOde OdeIndep.
Import List ListNotations.
Open Scope R_scope.

(* ---- C78: recording ---- *)
(* with use_history() off the value, or the exception, is that of the plain arithmetic, whether or not the history is recorded *)
Theorem C78_recording : forall B env e (st : pst B), p_uh st = false -> fst (hpseval env e st) = pseval (p_mode st) (p_dom st) env e.
Proof. intros B env e st U. exact (proj1 (sim_eval B env e st U)). Qed.
(* an expression that does not throw leaves the mode, the domain and both flags unchanged *)
Theorem C78_flags : forall B env e (st : pst B) r st', p_uh st = false -> hpseval env e st = (Ok r, st') ->
  p_mode st' = p_mode st /\ p_dom st' = p_dom st /\ p_uh st' = p_uh st /\ p_rh st' = p_rh st.
Proof. intros B env e st r st' U E. pose proof (proj2 (sim_eval B env e st U)) as S. rewrite E in S. exact (S r eq_refl). Qed.
(* the mode never changes, not even by an exception *)
Theorem C78_mode : forall B env e (st : pst B), p_mode (snd (hpseval env e st)) = p_mode st.
Proof. intros B env e st. exact (proj1 (keep_eval B env e st)). Qed.
Definition C78_st (m : Z) (uh rh : bool) (h : list (list (iv (bscal BHw)))) : pst (IB BHw 60) := mkpst m (qiv (-1) (-2) 1 (-2) : bT (IB BHw 60)) uh rh h.
Example C78_case : returns (fst (hpseval (B:=IB BHw 60) (fun _ => C41_X) C41_e (C78_st 1 false true []))) = true /\ (3 <? length (p_hist (snd (hpseval (B:=IB BHw 60) (fun _ => C41_X) C41_e (C78_st 1 false true [])))))%nat = true.
Proof. split; vm_compute; reflexivity. Qed.
Definition throws {A} (r : res A) : bool := match r with Err EDomain => true | _ => false end.
Lemma throws_eq {A} (r : res A) : throws r = true -> r = Err EDomain. Proof. destruct r as [a|[]]; intros H; try discriminate H; reflexivity. Qed.
(* an exception inside an inverse function leaves the domain changed: asin(x) for x = 2 + t on [-1/4, 1/4], mode 2 *)
Local Notation C78_run := (hpseval (fun _ => [qiv 2 0 2 0 : bT (IB BHw 60); qiv 1 0 1 0]) (XFun Aasin (XVar 0)) (C78_st 2 false false [])).
Theorem C78_exception_domain_refuted : fst C78_run = Err EDomain /\ isin (p_dom (C78_st 2 false false []) : iv (bscal BHw)) 0 /\ ~ isin (p_dom (snd C78_run) : iv (bscal BHw)) 0.
Proof.
  split; [apply throws_eq; vm_compute; reflexivity|]. split; [cbn [C78_st p_dom]; qin|]. intros (_ & _ & L & _).
  assert (C : Bltb b0 (lo (p_dom (snd C78_run) : iv (bscal BHw)) : b64) = true) by (vm_compute; reflexivity). apply Bltb_v in C.
  change (@sval (bscal BHw) (lo (p_dom (snd C78_run) : iv (bscal BHw)))) with (v64 (lo (p_dom (snd C78_run) : iv (bscal BHw)) : b64)) in L.
  revert C L. generalize (v64 (lo (p_dom (snd C78_run) : iv (bscal BHw)) : b64)). intros q. assert (E : v64 b0 = XR 0) by reflexivity. rewrite E. destruct q; simpl; try tauto. lra.
Qed.

(* ---- C79: evaluation with a growing order ---- *)
(* X has size s and contains the coefficients of f up to order s - 1 *)
Definition covers {b} (s : nat) (X : list (iv (bscal b))) (f : R -> R) : Prop := length X = s /\ exists c, cin_ X c /\ expansion s f c.
(* the states after an evaluation of e along the curve x in mode 1 with record_history() on, started with size 1 or more and an empty
   list and repeated with use_history() on and the size increased by 1 *)
Inductive stepped b fuel n e (x : R -> nat -> R) : nat -> pst (IB b fuel) -> Prop :=
| stepped_first s env st r st' : (1 <= s)%nat -> (s = 1%nat -> adom e (x 0)) -> p_mode st = 1%Z -> p_uh st = false -> p_rh st = true -> p_hist st = [] ->
    (forall i, (i < n)%nat -> covers (b:=b) s (env i) (fun t => x t i)) -> hpseval (B:=IB b fuel) env e st = (Ok r, st') -> stepped b fuel n e x s st'
| stepped_next s env st r st' : stepped b fuel n e x s st -> (Z.of_nat (S s) <= 2 ^ 52)%Z ->
    (forall i, (i < n)%nat -> covers (b:=b) (S s) (env i) (fun t => x t i)) -> hpseval (B:=IB b fuel) env e (set_uh true st) = (Ok r, st') -> stepped b fuel n e x (S s) st'.
Lemma covers_RL b fuel s (X : list (iv (bscal b))) f : covers s X f -> RL (IB b fuel) (@isin _) None s false f X.
Proof.
  intros [L (c & C & J)]. split; [|exact L]. split; [right; exact L|]. exists (fun i => if (i <? s)%nat then c i else 0). split; [|split].
  - intros i Hi. pose proof (C i Hi) as Ci. assert (Hs : (i < s)%nat) by (rewrite <- L; exact Hi). destruct (Nat.ltb_spec i s); [exact Ci|lia].
  - intros i Hi. destruct (Nat.ltb_spec i s) as [K|]; [|auto]. rewrite <- L in K. exfalso. apply (Nat.lt_irrefl i). apply (Nat.lt_le_trans _ _ _ K Hi).
  - simpl. apply (jet_coef s f c); [|exact J]. intros i Hi. destruct (Nat.ltb_spec i s); [auto|lia].
Qed.
Section C79.
Variables (b : backend) (fuel n : nat) (e : aexpr) (x : R -> nat -> R).
Hypothesis W : awf n e.
Hypothesis P : plog e.
Hypothesis NA : noarc e = true.
Notation B := (IB b fuel).
Lemma stepped_inv s st : (Z.of_nat s <= 2 ^ 52)%Z -> stepped b fuel n e x s st -> (1 <= s)%nat /\ p_mode st = 1%Z /\ p_rh st = true /\ Forall2 (hv B (@isin _) s) (tr e x s) (p_hist st).
Proof.
  intros L H. induction H as [s env st r st' S1 AD M U Rh Hi HE E|s env st r st' H IH L' HE E].
  - destruct (HT_eval B (@isin _) (IOK b fuel) None 1 (p_dom st) s S1 L eq_refl Logic.I n env x e W NA P AD (fun i K => covers_RL b fuel _ _ _ (HE i K)) st [] [] r st' M eq_refl Hi) as (_ & M' & _ & _ & R' & A1 & H1 & H2); [now rewrite U|exact E|].
    rewrite Rh in *. split; auto. split; auto. split; auto. rewrite H1. exact H2.
  - destruct IH as (S1 & M & Rh & HF); [lia|].
    destruct (HT_eval B (@isin _) (IOK b fuel) None 1 (p_dom st) (S s) ltac:(lia) L' eq_refl Logic.I n env x e W NA P ltac:(intros; lia) (fun i K => covers_RL b fuel _ _ _ (HE i K)) (set_uh true st) (p_hist st) [] r st' M eq_refl) as (_ & M' & _ & _ & R' & A1 & H1 & H2).
    + cbn [set_uh p_hist]. now rewrite app_nil_r.
    + cbn [set_uh p_uh]. split; [lia|]. replace (S s - 1)%nat with s by lia. exact HF.
    + exact E.
    + cbn [set_uh p_rh] in *. rewrite Rh in *. split; [lia|]. split; auto. split; auto. rewrite H1. exact H2.
Qed.
Lemma C79_mode1_ s st env r st' : stepped b fuel n e x s st -> (Z.of_nat (S s) <= 2 ^ 52)%Z -> (forall i, (i < n)%nat -> covers (b:=b) (S s) (env i) (fun t => x t i)) ->
  hpseval (B:=IB b fuel) env e (set_uh true st) = (Ok r, st') ->
  near0 (fun t => adom e (x t)) /\ (length r = 1%nat \/ length r = S s) /\ exists c, cin_ (b:=b) r c /\ (forall j, (length r <= j)%nat -> c j = 0) /\ expansion (S s) (fun t => rval e (x t)) c.
Proof.
  intros H L HE E. destruct (stepped_inv s st ltac:(lia) H) as (S1 & M & Rh & HF).
  destruct (HT_eval B (@isin _) (IOK b fuel) None 1 (p_dom st) (S s) ltac:(lia) L eq_refl Logic.I n env x e W NA P ltac:(intros; lia) (fun i K => covers_RL b fuel _ _ _ (HE i K)) (set_uh true st) (p_hist st) [] r st' M eq_refl) as ([[[LR (c & C & Z & J)] _] (d & Hd & AD)] & _).
  - cbn [set_uh p_hist]. now rewrite app_nil_r.
  - cbn [set_uh p_uh]. split; [lia|]. replace (S s - 1)%nat with s by lia. exact HF.
  - exact E.
  - split; [exists d; split; auto; intros t Ht; apply adiff_dom; auto|]. split; [exact LR|]. exists c. auto.
Qed.
(* X has size s + 1; the coefficients of f up to order s - 1 and, for every t in D, one of order s that gives f(t) *)
Definition covers2 (D : iv (bscal b)) (s : nat) (X : list (iv (bscal b))) (f : R -> R) : Prop := length X = S s /\ exists c, expansion s f c /\
  forall t, isin D t -> exists q, cin_ X (fun i => if (i <? s)%nat then c i else q) /\ f t = rsum (fun i => c i * t ^ i) s + q * t ^ s.
Lemma C79_mode2_ s st D env r st' : stepped b fuel n e x s st -> (Z.of_nat (S s) <= 2 ^ 52)%Z -> isin D 0 -> (forall i, (i < n)%nat -> covers2 D s (env i) (fun t => x t i)) ->
  hpseval (B:=IB b fuel) env e (set_mode 2 (set_dom (D : bT B) (set_uh true st))) = (Ok r, st') ->
  represents (b:=b) D r (fun t => rval e (x t)) /\ (forall t, isin D t -> adom e (x t)) /\ (length r = 1%nat \/ length r = S s).
Proof.
  intros H L D0 HE E. destruct (stepped_inv s st ltac:(lia) H) as (S1 & M & Rh & HF).
  assert (G : forall t, isin D t -> Rep B (@isin _) (Some (t, true)) (S s) r (fun t => rval e (x t)) /\ adiff e (x t)).
  { intros t Ht. destruct (HT_eval B (@isin _) (IOK b fuel) (Some (t, true)) 2 (D : bT B) (S s) ltac:(lia) L) with (n := n) (env := env) (x := x) (e := e) (st := set_mode 2 (set_dom (D : bT B) (set_uh true st))) (A0 := p_hist st) (rest := @nil (list B)) (a := r) (st' := st') as ([[RR _] AD] & _); auto.
    - simpl. split; auto. split; auto. split; auto. exact (itv_cvx B _ (isin_itv b fuel)).
    - simpl. split; auto. lia.
    - intros C. lia.
    - intros i Hi. destruct (HE i Hi) as [LX (c & J & K)]. split; [|exact LX]. split; [right; exact LX|]. destruct (K t Ht) as (q & CQ & EQ).
      exists (fun l => if (l <? s)%nat then c l else if (l =? s)%nat then q else 0). split; [|split].
      + intros l Hl. assert (Ll : (l < S s)%nat) by (rewrite <- LX; exact Hl). specialize (CQ l Hl). cbv beta in CQ. destruct (Nat.ltb_spec l s) in *; [exact CQ|]. destruct (Nat.eqb_spec l s); [exact CQ|lia].
      + intros l Hl. assert (Ll : (S s <= l)%nat) by (rewrite <- LX; exact Hl). destruct (Nat.ltb_spec l s); [lia|]. destruct (Nat.eqb_spec l s); [lia|auto].
      + split; cbn [fst snd].
        * rewrite pe_last, Nat.ltb_irrefl, Nat.eqb_refl, EQ. f_equal. unfold pe. apply rsum_ext. intros l Hl. destruct (Nat.ltb_spec l s); [auto|lia].
        * intros _. rewrite Jo_2 by lia. replace (S s - 1)%nat with s by lia. apply (jet_coef s _ c); auto. intros l Hl. destruct (Nat.ltb_spec l s); [auto|lia].
    - cbn [set_mode set_dom set_uh p_hist]. now rewrite app_nil_r.
    - cbn [set_mode set_dom set_uh p_uh]. split; [lia|]. replace (S s - 1)%nat with s by lia. exact HF.
    - split; auto. exact (proj1 AD). }
  split; [|split].
  - intros t Ht. destruct (G t Ht) as [[LR (c & C & Z & Q1 & _)] _]. assert (LL : (length r <= S s)%nat) by (destruct LR as [E1|E1]; rewrite E1; lia).
    exists c. split; [exact C|]. cbn [fst] in Q1. rewrite Q1. exact (pe_more c (length r) (S s) t Z LL).
  - intros t Ht. apply adiff_dom. now apply G.
  - destruct (G 0 D0) as [[LR _] _]. exact LR.
Qed.
End C79.
(* mode 1: a further evaluation with the size increased by 1 contains the coefficients of the function *)
Theorem C79_mode1 : forall b fuel n e x s st env r st', awf n e -> plog e -> noarc e = true -> stepped b fuel n e x s st -> (Z.of_nat (S s) <= 2 ^ 52)%Z ->
  (forall i, (i < n)%nat -> covers (b:=b) (S s) (env i) (fun t => x t i)) -> hpseval (B:=IB b fuel) env e (set_uh true st) = (Ok r, st') ->
  near0 (fun t => adom e (x t)) /\ (length r = 1%nat \/ length r = S s) /\ exists c, cin_ (b:=b) r c /\ (forall j, (length r <= j)%nat -> c j = 0) /\ expansion (S s) (fun t => rval e (x t)) c.
Proof. intros b fuel n e x s st env r st' W P NA. now apply C79_mode1_. Qed.
(* mode 2: the last evaluation represents the function on the domain *)
Theorem C79_mode2 : forall b fuel n e x s st D env r st', awf n e -> plog e -> noarc e = true -> stepped b fuel n e x s st -> (Z.of_nat (S s) <= 2 ^ 52)%Z -> isin D 0 ->
  (forall i, (i < n)%nat -> covers2 b D s (env i) (fun t => x t i)) -> hpseval (B:=IB b fuel) env e (set_mode 2 (set_dom (D : bT (IB b fuel)) (set_uh true st))) = (Ok r, st') ->
  represents (b:=b) D r (fun t => rval e (x t)) /\ (forall t, isin D t -> adom e (x t)) /\ (length r = 1%nat \/ length r = S s).
Proof. intros b fuel n e x s st D env r st' W P NA. now apply C79_mode2_. Qed.
(* exp(x) * sqrt(x) / (x + 1) - log(x) for x = 1 + t: size 2, then size 3 with the history, then size 4 in mode 2 on [-1/4, 1/4] *)
Definition C79_X (s : nat) : list (iv (bscal BHw)) := [qiv 1 0 1 0; qiv 1 0 1 0] ++ repeat (qiv 0 0 0 0) s.
Local Notation C79_r1 := (hpseval (B:=IB BHw 60) (fun _ => C79_X 0) C42_e (C78_st 1 false true [])).
Local Notation C79_r2 := (hpseval (B:=IB BHw 60) (fun _ => C79_X 1) C42_e (set_uh true (snd C79_r1))).
Local Notation C79_r3 := (hpseval (B:=IB BHw 60) (fun _ => C79_X 2) C42_e (set_mode 2 (set_dom (qiv (-1) (-2) 1 (-2) : bT (IB BHw 60)) (set_uh true (snd C79_r2))))).
Lemma C79_exp s : expansion (S (S s)) (fun t => 1 + t) (fun i => match i with 0%nat => 1 | 1%nat => 1 | _ => 0 end).
Proof.
  exists 0, 1. split; [lra|]. intros t _. replace (rsum _ (S (S s))) with (1 + t); [rewrite Rminus_eq_0, Rabs_R0, Rmult_0_l; lra|].
  induction s as [|s IH]; [simpl; ring|]. change (rsum ?f (S (S (S s)))) with (rsum f (S (S s)) + f (S (S s))). rewrite <- IH. ring.
Qed.
Lemma C79_nth s i : (i < s)%nat -> isin (S:=bscal BHw) (nth (S (S i)) (C79_X s) (ipt (sdy 0 0))) 0.
Proof.
  intros H. unfold C79_X. cbn [app nth]. assert (Q : nth i (repeat (qiv 0 0 0 0) s) (ipt (sdy 0 0)) = (qiv 0 0 0 0 : iv (bscal BHw))).
  { apply (repeat_spec s (qiv 0 0 0 0 : iv (bscal BHw))). apply nth_In. now rewrite repeat_length. }
  match goal with |- isin ?q _ => replace q with (qiv 0 0 0 0 : iv (bscal BHw)) by (symmetry; exact Q) end. qin.
Qed.
Lemma C79_cov s : covers (b:=BHw) (S (S s)) (C79_X s) (fun t => 1 + t).
Proof.
  assert (L : length (C79_X s) = S (S s)) by (unfold C79_X; rewrite app_length, repeat_length; reflexivity).
  split; [exact L|]. eexists. split; [|apply C79_exp]. intros [|[|i]] Hi; [cbn [C79_X app nth]; qin|cbn [C79_X app nth]; qin|]. rewrite L in Hi. apply C79_nth. lia.
Qed.
Lemma C79_pair {A} (q : res A * pst (IB BHw 60)) : returns (fst q) = true -> exists r, q = (Ok r, snd q).
Proof. destruct q as [[r|] st]; [eauto|discriminate]. Qed.
Example C79_case : awf 1 C42_e /\ plog C42_e /\ noarc C42_e = true /\ stepped BHw 60 1 C42_e (fun t _ => 1 + t) 3 (snd C79_r2) /\ covers2 BHw (qiv (-1) (-2) 1 (-2)) 3 (C79_X 2) (fun t => 1 + t) /\ returns (fst C79_r3) = true.
Proof.
  split; [simpl; unfold lit; repeat split; lia|]. split; [simpl; intuition discriminate|]. split; [reflexivity|].
  assert (R1 : returns (fst C79_r1) = true) by (vm_compute; reflexivity). assert (R2 : returns (fst C79_r2) = true) by (vm_compute; reflexivity).
  split; [|split; [|vm_compute; reflexivity]].
  - apply C79_pair in R1 as [r1 E1]. apply C79_pair in R2 as [r2 E2]. refine (stepped_next BHw 60 1 C42_e _ 2 (fun _ => C79_X 1) _ r2 _ _ _ _ E2); [|lia|intros; apply C79_cov].
    refine (stepped_first BHw 60 1 C42_e _ 2 (fun _ => C79_X 0) (C78_st 1 false true []) r1 _ _ _ eq_refl eq_refl eq_refl eq_refl _ E1); [lia|intros; lia|intros; apply C79_cov].
  - split; [reflexivity|]. eexists. split; [apply (C79_exp 1)|]. intros t Ht. exists 0. split; [|simpl; ring]. intros [|[|i]] Hi; [cbn [C79_X app nth]; qin|cbn [C79_X app nth]; qin|]. assert (LX : length (C79_X 2) = 4%nat) by reflexivity. rewrite LX in Hi. replace (if (S (S i) <? 3)%nat then 0 else 0) with 0 by (destruct (_ <? _)%nat; reflexivity). apply C79_nth. lia.
Qed.

(* ---- C80: the static members of psa after ode ---- *)
(* when ode returns, both flags have their values from before; the mode is 0 if it was 0 *)
Theorem C80_return : forall b fuel root n es fast f p init start end_ st r box e2 w st', ode (bpar b) fuel root n es fast f p init start end_ st = (Ok (r, box, e2, w), st') ->
  p_uh st' = p_uh st /\ p_rh st' = p_rh st /\ p_mode st' = (if (p_mode st =? 0)%Z then 0 else 1)%Z.
Proof.
  intros b fuel root n es fast f p init start end_ st r box e2 w st' E. destruct (ode_parts b fuel root n es _ _ _ _ _ _ _ _ _ _ _ _ E) as (x & s1 & w1 & t & dt & end2 & ret & s2 & _ & _ & [(_ & _ & _ & _ & ->)|(_ & _ & _ & _ & s3 & _ & ->)]); repeat split.
Qed.
Local Notation C80_run m := (ode (S:=bscal BHw) (bpar BHw) 60 (fun _ _ => sdy 1 0) 1 C64_f true 5 C64_p (fun _ => qiv 1 0 1 0) (qiv 0 0 0 0) (qiv 1 (-3) 1 (-3)) (C78_st m false false [])).
Example C80_case : returns (fst (C80_run 1)) = true /\ p_mode (snd (C80_run 1)) = 1%Z.
Proof. split; [vm_compute; reflexivity|]. vm_compute. reflexivity. Qed.
(* mode 2 comes back as mode 1: the mode is kept in a bool *)
Theorem C80_mode_refuted : returns (fst (C80_run 2)) = true /\ p_mode (C78_st 2 false false []) = 2%Z /\ p_mode (snd (C80_run 2)) = 1%Z.
Proof. split; [vm_compute; reflexivity|]. split; [reflexivity|]. vm_compute. reflexivity. Qed.
(* the domain is not put back: [-1/4, 1/4] before, [0, 1/8] after *)
Theorem C80_domain_refuted : returns (fst (C80_run 1)) = true /\ isin (p_dom (C78_st 1 false false []) : iv (bscal BHw)) (-1 / 4) /\ Bleb b0 (lo (p_dom (snd (C80_run 1)) : iv (bscal BHw)) : b64) = true.
Proof. split; [vm_compute; reflexivity|]. split; [cbn [C78_st p_dom]; qin|]. vm_compute. reflexivity. Qed.
(* the exception of sqrt for x' = sqrt(x), x(0) = -1 leaves mode 1 and record_history() on *)
Local Notation C80_exc := (ode (S:=bscal BHw) (bpar BHw) 60 (fun _ _ => sdy 1 0) 1 (fun _ => XFun Asqrt (XVar 0)) true 5 C64_p (fun _ => qiv (-1) 0 (-1) 0) (qiv 0 0 0 0) (qiv 1 (-3) 1 (-3)) (C78_st 0 false false [])).
Theorem C80_exception_refuted : fst C80_exc = Err EDomain /\ p_mode (C78_st 0 false false []) = 0%Z /\ p_rh (C78_st 0 false false []) = false /\ p_mode (snd C80_exc) = 1%Z /\ p_rh (snd C80_exc) = true.
Proof. split; [apply throws_eq; vm_compute; reflexivity|]. split; [reflexivity|]. split; [reflexivity|]. split; [vm_compute; reflexivity|]. vm_compute. reflexivity. Qed.

(* ---- C81: ode and odelong do not read the static members that earlier computations have left ---- *)
Theorem C81_ode : forall b fuel root n es fast f p init start end_ st1 st2,
  fst (ode (bpar b) fuel root n es fast f p init start end_ st1) = fst (ode (bpar b) fuel root n es fast f p init start end_ st2).
Proof. intros. apply ode_indep. Qed.
Theorem C81_odelong : forall b fuel root n es fast g f p init start end_ st1 st2,
  fst (odelong (bpar b) fuel root n es fast g f p init start end_ st1) = fst (odelong (bpar b) fuel root n es fast g f p init start end_ st2).
Proof. intros. apply odelong_indep. Qed.
(* the state left by the exception above, then an ordinary run *)
Example C81_case : returns (fst (ode (S:=bscal BHw) (bpar BHw) 60 (fun _ _ => sdy 1 0) 1 C64_f true 5 C64_p (fun _ => qiv 1 0 1 0) (qiv 0 0 0 0) (qiv 1 (-3) 1 (-3)) (snd C80_exc))) = true.
Proof. vm_compute. reflexivity. Qed.
(* an expression in mode 2 does depend on the domain that was left: x * x for x = t, of size 2 *)
Local Notation C81_sq D := (hpseval (B:=IB BHw 60) (fun _ => [qiv 0 0 0 0; qiv 1 0 1 0]) (XMul (XVar 0) (XVar 0)) (set_dom (D : bT (IB BHw 60)) (C78_st 2 false false []))).
Definition C81_top (q : res (list (iv (bscal BHw)))) : bool := match q with Ok [_; c] => Beqb (hi c : b64) (bdy 1 0) | _ => false end.
Example C81_expr : C81_top (fst (C81_sq (qiv 0 0 1 0))) = true /\ C81_top (fst (C81_sq (qiv 0 0 2 0))) = false.
Proof. split; vm_compute; reflexivity. Qed.
Definition PsaHist_all := (C78_recording, C78_flags, C78_mode, C78_exception_domain_refuted, C79_mode1, C79_mode2, C80_return, C80_mode_refuted, C80_domain_refuted, C80_exception_refuted, C81_ode, C81_odelong).
Print Assumptions PsaHist_all.
