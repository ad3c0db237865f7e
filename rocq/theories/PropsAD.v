(* Property theorems: automatic differentiation (C38-C40), over the exact reals and over intervals with
   every double back end, every dimension, every expression. *)
From Coq Require Import Reals Lra Lia ZArith Bool Arith List FunctionalExtensionality.
From Flocq Require Import Core BinarySingleNaN.
From Verif Require Import Fp64 RDoubleHw.
From Verif Require Import Ext Scalar IntervalModel IntervalSpec IntervalProofs IntervalEncl Backends Ex64 ElemModel.
From Verif Require Import LinAlg PropsElem ADModel ADReal ADProofs ADInst ADSys.
Import ListNotations.
Open Scope R_scope.

(* ---- C38 ---- *)
Theorem C38_value_and_gradient : forall n x e, awf n e -> adiff e x ->
  exists r, aeval (@ad_init Rbase n x) e = Ok r /\ av r = rval e x /\
    (length (adv r) = n \/ adv r = []) /\
    partials n (rval e) x (ad_row r) /\ grad n (rval e) x (ad_row r).
Proof.
  intros n x e W D. destruct (aeval_total n x e W D) as [r H]. exists r. split; auto.
  assert (IN : adinv Rbase (@eq R) n (rval e) x r).
  { eapply (aeval_inv Rbase _ Rbase_ok); eauto; [|apply adiff_dom; auto]. intros i Hi. apply (init_inv Rbase _ Rbase_ok); auto. }
  split; [apply IN|]. split; [destruct IN as [_ [[? _]|(_ & ? & _)]]; auto|].
  destruct (inv_row Rbase _ Rbase_ok _ _ _ _ IN) as (G & A & C & _).
  assert (G' : grad n (rval e) x (ad_row r)).
  { intros c v CV. rewrite (vsum_ext n _ (fun j => G j * v j)); auto. intros j Hj. simpl. rewrite (A j Hj). reflexivity. }
  split; auto. apply grad_partials; auto.
Qed.
Print Assumptions C38_value_and_gradient.
(* a constant has an empty gradient and its expression does not depend on x *)
Theorem C38_constants : forall n x e r, awf n e -> adom e x -> aeval (@ad_init Rbase n x) e = Ok r -> adv r = [] ->
  (forall y z, rval e y = rval e z) /\ forall j, ad_row r j = 0.
Proof.
  intros n x e r W D H E.
  assert (IN : adinv Rbase (@eq R) n (rval e) x r).
  { eapply (aeval_inv Rbase _ Rbase_ok); eauto. intros i Hi. apply (init_inv Rbase _ Rbase_ok); auto. }
  split. destruct IN as [_ [[_ C]|(C & _)]]; [exact C|contradiction].
  intros j. unfold ad_row. rewrite E. destruct j; apply dy_0.
Qed.
Print Assumptions C38_constants.
(* x0 * sin x1 + log x0 - sqrt(x1) / 3 + x0^-2, at (1,2) *)
Definition ex_e : aexpr :=
  XAdd (XSub (XAdd (XMul (XVar 0) (XFun Asin (XVar 1))) (XFun Alog (XVar 0))) (XSc SOdiv 3 0 (XFun Asqrt (XVar 1)))) (XPowZ (XVar 0) (-2)).
Example C38_ex : awf 2 ex_e /\ adiff ex_e (fun i => match i with O => 1 | _ => 2 end).
Proof.
  split; simpl; unfold lit.
  - repeat split; lia.
  - unfold dy; simpl. repeat split; try lra; try (intros _; lra).
Qed.

(* ---- C39 ---- *)
Theorem C39_value_and_gradient : forall b fuel n (X : nat -> iv (bscal b)) e r,
  awf n e -> aeval (@ad_init (Ibase (bpar b) fuel) n X) e = Ok r ->
  forall x, (forall i, (i < n)%nat -> isin (X i) (x i)) -> adom e x ->
  isin (av r : iv (bscal b)) (rval e x) /\
  exists G, (forall j, (j < n)%nat -> isin (ad_row r j : iv (bscal b)) (G j)) /\
    partials n (rval e) x G /\ grad n (rval e) x G.
Proof.
  intros b fuel n X e r W H x HX D.
  pose proof (Ibase_ok (bok b) (bpar b) (bexp b) (blog b) (btrig b) fuel) as OK.
  assert (IN : adinv (Ibase (bpar b) fuel) (@isin (bscal b)) n (rval e) x r).
  { eapply (aeval_inv _ _ OK); eauto. intros i Hi. apply (init_inv _ _ OK); auto. }
  split; [apply IN|]. destruct (inv_row _ _ OK _ _ _ _ IN) as (G & A & C & _). exists G. split; auto. split; auto. apply grad_partials; auto.
Qed.
Print Assumptions C39_value_and_gradient.
(* the run succeeds only if the expression is defined on the whole box (clog: a logarithm or real power of a
   variable-free subexpression is taken of a positive number) *)
Theorem C39_defined_on_box : forall b fuel n (X : nat -> iv (bscal b)) e r,
  awf n e -> clog e -> aeval (@ad_init (Ibase (bpar b) fuel) n X) e = Ok r ->
  forall x, (forall i, (i < n)%nat -> isin (X i) (x i)) -> adom e x.
Proof.
  intros b fuel n X e r W C H x HX.
  pose proof (Ibase_ok (bok b) (bpar b) (bexp b) (blog b) (btrig b) fuel) as OK.
  apply (ad_value_gradient _ _ OK n X x e r); auto.
Qed.
Print Assumptions C39_defined_on_box.
(* [1,2] x [2,3] *)
Definition ex_X (i : nat) : iv (bscal BHw) := match i with O => qiv 1 0 2 0 | _ => qiv 2 0 3 0 end.
Definition ex_p : aexpr := XAdd (XDiv (XMul (XVar 0) (XVar 1)) (XSc SOadd 1 0 (XVar 1))) (XPowZ (XFun Asqrt (XVar 0)) 3).
Example C39_ex : awf 2 ex_p /\ returns (aeval (@ad_init (Ibase (bpar BHw) 100) 2 ex_X) ex_p) = true.
Proof.
  split; [simpl; unfold lit; repeat split; lia|]. vm_compute. reflexivity.
Qed.
Example C39_ex_in : forall i, (i < 2)%nat -> isin (ex_X i) (match i with O => 3/2 | _ => 5/2 end).
Proof. intros [|[|i]] Hi; [apply (qiv_in 1 0 2 0)|apply (qiv_in 2 0 3 0)|lia]; try reflexivity; simpl; lra. Qed.

(* ---- C40 ---- *)
Theorem C40_split_init : forall (B : base) n (x : nat -> B), (0 < n)%nat ->
  exists v J, ad_split n (ad_init n x) = Some (v, (n, J)) /\ (forall i, (i < n)%nat -> v i = x i) /\
    forall i j, (i < n)%nat -> (j < n)%nat -> J i j = if Nat.eq_dec i j then bcst 1 0 else bcst 0 0.
Proof.
  intros B n x Hn. unfold ad_split. destruct (Nat.eqb_spec n 0); [lia|].
  exists (fun i => av (ad_init n x i)), (fun i j => ad_row (ad_init n x i) j). split.
  - replace (ad_size n (ad_init n x)) with n; auto. unfold ad_size.
    assert (E : map (fun i => length (adv (ad_init n x i))) (seq 0 n) = map (fun _ => n) (seq 0 n)).
    { apply map_ext. intros i. apply unit_len. }
    rewrite E. destruct n; [lia|]. clear.
    assert (forall m k, fold_right Nat.max 0%nat (map (fun _ => S n) (seq k (S m))) = S n) as Q; [|symmetry; apply Q].
    induction m as [|m IH]; intros k; simpl in *; auto. rewrite IH. f_equal. lia.
  - split; auto. intros i j Hi Hj. apply unit_nth; auto.
Qed.
Print Assumptions C40_split_init.
(* the unit and zero are exact *)
Theorem C40_split_init_identity : forall b fuel n (X : nat -> iv (bscal b)), (0 < n)%nat ->
  exists v J, ad_split n (@ad_init (Ibase (bpar b) fuel) n X) = Some (v, (n, J)) /\ (forall i, (i < n)%nat -> v i = X i) /\
    forall i j, (i < n)%nat -> (j < n)%nat ->
      sval (lo (J i j : iv (bscal b))) = XR (if Nat.eq_dec i j then 1 else 0) /\
      sval (hi (J i j : iv (bscal b))) = XR (if Nat.eq_dec i j then 1 else 0).
Proof.
  intros b fuel n X Hn. destruct (C40_split_init (Ibase (bpar b) fuel) n X Hn) as (v & J & E & V & JJ).
  exists v, J. split; auto. split; auto. intros i j Hi Hj. rewrite JJ by auto.
  destruct (lit_dy (bok b) 1 0) as [_ E1]; [unfold lit; lia|]. destruct (lit_dy (bok b) 0 0) as [_ E0]; [unfold lit; lia|].
  rewrite dy_0 in E0. unfold dy in E1. rewrite Rmult_1_l in E1. simpl bpow in E1.
  destruct (Nat.eq_dec i j); simpl; auto.
Qed.
Print Assumptions C40_split_init_identity.
(* compress, evaluate, expand: exact reals.  in_ is any vector of autodif values obtained from expressions gs *)
Theorem C40_chain_rule_exact : forall m n (gs : nat -> aexpr) e x in_ comp ms save r,
  (0 < m)%nat -> (forall k, (k < n)%nat -> awf m (gs k) /\ adom (gs k) x /\ aeval (@ad_init Rbase m x) (gs k) = Ok (in_ k)) ->
  awf n e -> adom e (fun k => rval (gs k) x) ->
  ad_compress n in_ = Ok (comp, (ms, save)) -> aeval comp e = Ok r ->
  let out := ad_expand r m save in
  av out = rval e (fun k => rval (gs k) x) /\ length (adv out) = m /\
  partials m (fun y => rval e (fun k => rval (gs k) y)) x (ad_row out).
Proof.
  intros m n gs e x in_ comp ms save r M HG W D HC H out.
  assert (HI : forall k, (k < n)%nat -> adinv Rbase (@eq R) m (rval (gs k)) x (in_ k)).
  { intros k Hk. destruct (HG k Hk) as (G1 & G2 & G3). eapply (aeval_inv _ _ Rbase_ok); eauto. intros i Hi. apply (init_inv _ _ Rbase_ok); auto. }
  destruct (compress_expand Rbase _ Rbase_ok m n in_ (fun k => rval (gs k)) x e comp ms save r M HI W D HC H) as (A & L & G & HGr & GR).
  split; auto. split; auto. intros j Hj. unfold ad_row. fold out in HGr. rewrite (HGr j Hj : nth j (adv out) (bcst 0 0) = G j).
  exact (grad_partials _ _ _ _ GR j Hj).
Qed.
Print Assumptions C40_chain_rule_exact.
Theorem C40_chain_rule : forall b fuel m n (gs : nat -> aexpr) e (X : nat -> iv (bscal b)) in_ comp ms save r,
  (0 < m)%nat -> (forall k, (k < n)%nat -> awf m (gs k) /\ aeval (@ad_init (Ibase (bpar b) fuel) m X) (gs k) = Ok (in_ k)) -> awf n e ->
  ad_compress n in_ = Ok (comp, (ms, save)) -> aeval comp e = Ok r ->
  let out := ad_expand r m save in
  av out = av r /\ length (adv out) = m /\
  forall x, (forall i, (i < m)%nat -> isin (X i) (x i)) -> (forall k, (k < n)%nat -> adom (gs k) x) -> adom e (fun k => rval (gs k) x) ->
  isin (av out : iv (bscal b)) (rval e (fun k => rval (gs k) x)) /\
  exists G, (forall j, (j < m)%nat -> isin (ad_row out j : iv (bscal b)) (G j)) /\
    partials m (fun y => rval e (fun k => rval (gs k) y)) x G.
Proof.
  intros b fuel m n gs e X in_ comp ms save r M HG W HC H out.
  pose proof (Ibase_ok (bok b) (bpar b) (bexp b) (blog b) (btrig b) fuel) as OK.
  split; [reflexivity|]. split; [simpl; now rewrite map_length, seq_length|]. intros x HX DG D.
  assert (HI : forall k, (k < n)%nat -> adinv (Ibase (bpar b) fuel) (@isin (bscal b)) m (rval (gs k)) x (in_ k)).
  { intros k Hk. destruct (HG k Hk) as (G1 & G2). eapply (aeval_inv _ _ OK); eauto. intros i Hi. apply (init_inv _ _ OK); auto. }
  destruct (compress_expand _ _ OK m n in_ (fun k => rval (gs k)) x e comp ms save r M HI W D HC H) as (A & L & G & HGr & GR).
  split; auto. exists G. split; auto. apply grad_partials. auto.
Qed.
Print Assumptions C40_chain_rule.
(* compress does what the name says: same values, unit gradients, the Jacobian in save *)
Theorem C40_compress : forall (B : base) n (in_ : nat -> ad B), (0 < n)%nat ->
  exists comp ms save, ad_compress n in_ = Ok (comp, (ms, save)) /\
  (forall i, (i < n)%nat -> av (comp i) = av (in_ i)) /\
  (forall i, (i < n)%nat -> length (adv (in_ i)) <= ms)%nat /\
  (forall i j, (i < n)%nat -> (j < length (adv (in_ i)))%nat -> nth_error (adv (in_ i)) j = Some (save i j)) /\
  (forall i j, (i < n)%nat -> (length (adv (in_ i)) <= j)%nat -> save i j = bcst 0 0).
Proof.
  intros B n in_ Hn. unfold ad_compress. destruct (Nat.eqb_spec n 0); [lia|].
  eexists _, _, _. split; [reflexivity|]. split; [auto|]. split; [|split].
  - intros i Hi. unfold ad_size. assert (IS : In i (seq 0 n)) by (apply in_seq; lia). revert IS. generalize (seq 0 n) as l.
    induction l as [|a l IH]; simpl; [tauto|]. intros [->|I1]; [lia|]. specialize (IH I1). lia.
  - intros i j _ Hj. unfold ad_row. apply nth_error_nth'; auto.
  - intros i j _ Hj. unfold ad_row. apply nth_overflow; auto.
Qed.
Print Assumptions C40_compress.
(* in_ = (x0*x1, x0/x1, x1^2) at [1,2]x[2,3]; e = y0 / y2 + y1 *)
Definition ex_g (k : nat) : aexpr := match k with O => XMul (XVar 0) (XVar 1) | S O => XDiv (XVar 0) (XVar 1) | _ => XPowZ (XVar 1) 2 end.
Definition ex_c : aexpr := XAdd (XDiv (XVar 0) (XVar 2)) (XVar 1).
Definition ex_in (k : nat) : ad (Ibase (bpar BHw) 100) :=
  match aeval (@ad_init (Ibase (bpar BHw) 100) 2 ex_X) (ex_g k) with Ok r => r | Err _ => @ad_cst (Ibase (bpar BHw) 100) (ex_X 0) end.
Example C40_ex : (forall k, (k < 3)%nat -> awf 2 (ex_g k)) /\ awf 3 ex_c /\
  forallb (fun k => returns (aeval (@ad_init (Ibase (bpar BHw) 100) 2 ex_X) (ex_g k))) [0; 1; 2]%nat = true /\
  match ad_compress 3 ex_in with Ok (comp, _) => returns (aeval comp ex_c) | Err _ => false end = true.
Proof.
  split; [|split; [simpl; repeat split; lia|split; vm_compute; reflexivity]].
  intros [|[|[|k]]] Hk; simpl; try (repeat split; lia); lia.
Qed.
