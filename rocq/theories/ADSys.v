(* Systems of n functions of n variables given as expressions: what a user function object computes on
   interval vectors and on autodif vectors, and the Krawczyk/all-solution hypotheses for them. *)
From Coq Require Import Reals Lra Lia ZArith Bool Arith List FunctionalExtensionality.
From Coquelicot Require Import Coquelicot.
From Verif Require Import Ext Scalar IntervalModel IntervalSpec IntervalProofs IntervalEncl ElemModel ElemGen ElemExp ElemLog ElemTrig.
From Verif Require Import LinAlg RealRn VecModel VecProofs KrawProofs ADModel ADReal ADProofs ADInst.
Import ListNotations.
Open Scope R_scope.

(* the expression on plain values of the base type; pow(x,y) = exp(y * log(x)), kv/interval.hpp 1017-1019 *)
Fixpoint peval {B : base} (env : nat -> B) (e : aexpr) : res B :=
  match e with
  | XVar n => Ok (env n)
  | XCst m x => Ok (bcst m x)
  | XAdd a b => do x <- peval env a; do y <- peval env b; Ok (badd x y)
  | XSub a b => do x <- peval env a; do y <- peval env b; Ok (bsub x y)
  | XMul a b => do x <- peval env a; do y <- peval env b; Ok (bmul x y)
  | XDiv a b => do x <- peval env a; do y <- peval env b; bdiv x y
  | XSc o m k a => do x <- peval env a;
      match o with
      | SOadd => Ok (baddS x m k) | SOaddr => Ok (bSadd m k x) | SOsub => Ok (bsubS x m k) | SOsubr => Ok (bSsub m k x)
      | SOmul => Ok (bmulS x m k) | SOmulr => Ok (bSmul m k x) | SOdiv => bdivS x m k | SOdivr => bSdiv m k x
      end
  | XNeg a => do x <- peval env a; Ok (bneg x)
  | XPowZ a n => do x <- peval env a; bpowi x n
  | XPow a b => do x <- peval env a; do y <- peval env b; do l <- bfun Alog x; bfun Aexp (bmul y l)
  | XFun f a => do x <- peval env a; bfun f x
  end.
(* the rows in turn *)
Fixpoint vecM {A} (k : nat) (d : nat -> A) (g : nat -> res A) : res (nat -> A) :=
  match k with
  | O => Ok d
  | S k => do v <- vecM k d g; do y <- g k; Ok (fun i => if Nat.eqb i k then y else v i)
  end.
Lemma vecM_ok {A} k d (g : nat -> res A) v : vecM k d g = Ok v -> forall i, (i < k)%nat -> g i = Ok (v i).
Proof.
  revert v. induction k as [|k IH]; intros v H i Hi; [lia|]. simpl in H.
  apply bind_ok in H as (w & E & H). apply bind_ok in H as (y & E2 & H). injection H as <-.
  destruct (Nat.eqb_spec i k) as [->|N]; auto. apply IH; auto. lia.
Qed.

(* x with the j-th coordinate replaced by t *)
Definition upd (x : nat -> R) (j : nat) (t : R) : nat -> R := fun i => if Nat.eq_dec i j then t else x i.
(* G is the vector of partial derivatives of f at x *)
Definition partials (n : nat) (f : (nat -> R) -> R) (x G : nat -> R) : Prop :=
  forall j, (j < n)%nat -> derivable_pt_lim (fun t => f (upd x j t)) (x j) (G j).
Lemma grad_partials n f x G : grad n f x G -> partials n f x G.
Proof.
  intros H j Hj.
  assert (C : curve_at n (fun t => upd x j (x j + t)) x (fun i => if Nat.eq_dec i j then 1 else 0)).
  { split.
    - apply functional_extensionality. intros i. unfold upd. destruct Nat.eq_dec; subst; lra.
    - intros i _. unfold upd. destruct (Nat.eq_dec i j).
      + replace 1 with (0 + 1) by ring. apply derivable_pt_lim_plus; [apply derivable_pt_lim_const|apply derivable_pt_lim_id].
      + apply derivable_pt_lim_const. }
  apply H in C.
  replace (vsum n (fun k => G k * (if Nat.eq_dec k j then 1 else 0))) with (G j) in C.
  2:{ symmetry. rewrite (vsum_ext n _ (fun k => dlt j k * G k)).
      - exact (mv_dlt n G j Hj).
      - intros k Hk. unfold dlt. destruct (Nat.eq_dec k j), (Nat.eq_dec j k); subst; try ring; congruence. }
  intros eps He. destruct (C eps He) as [d Hd]. exists d. intros h Hh Hd'. specialize (Hd h Hh Hd').
  rewrite Rplus_0_l, Rplus_0_r in Hd. exact Hd.
Qed.

Section Peval.
Variables (B : base) (rel : B -> R -> Prop) (OK : base_ok B rel).
Lemma peval_rel n (env : nat -> B) x e r : (forall i, (i < n)%nat -> rel (env i) (x i)) -> awf n e -> adom e x ->
  peval env e = Ok r -> rel r (rval e x).
Proof using OK.
  intros HE. revert r. induction e; intros r W D H; simpl in W, D, H |- *.
  - injection H as <-. auto.
  - injection H as <-. apply (bk_cst _ _ OK); auto.
  - apply bind_ok in H as (p & E1 & H). apply bind_ok in H as (q & E2 & H). injection H as <-. apply (bk_add _ _ OK); [apply IHe1|apply IHe2]; tauto.
  - apply bind_ok in H as (p & E1 & H). apply bind_ok in H as (q & E2 & H). injection H as <-. apply (bk_sub _ _ OK); [apply IHe1|apply IHe2]; tauto.
  - apply bind_ok in H as (p & E1 & H). apply bind_ok in H as (q & E2 & H). injection H as <-. apply (bk_mul _ _ OK); [apply IHe1|apply IHe2]; tauto.
  - apply bind_ok in H as (p & E1 & H). apply bind_ok in H as (q & E2 & H).
    apply (bk_div _ _ OK p q); auto; [apply IHe1|apply IHe2]; tauto.
  - apply bind_ok in H as (p & E1 & H). assert (P : rel p (rval e0 x)) by (apply IHe; tauto). destruct W as [L _].
    destruct o; simpl in *; try injection H as <-.
    + apply (bk_addS _ _ OK); auto.
    + apply (bk_Sadd _ _ OK); auto.
    + apply (bk_subS _ _ OK); auto.
    + apply (bk_Ssub _ _ OK); auto.
    + apply (bk_mulS _ _ OK); auto.
    + apply (bk_Smul _ _ OK); auto.
    + eapply (bk_divS _ _ OK); eauto.
    + eapply (bk_Sdiv _ _ OK); eauto.
  - apply bind_ok in H as (p & E1 & H). injection H as <-. apply (bk_neg _ _ OK). apply IHe; auto.
  - apply bind_ok in H as (p & E1 & H). eapply (bk_pow _ _ OK); eauto. apply IHe; tauto.
  - apply bind_ok in H as (p & E1 & H). apply bind_ok in H as (q & E2 & H). apply bind_ok in H as (l & E3 & H).
    destruct W as [W1 W2]. destruct D as (D1 & D2 & D3).
    assert (Q : rel l (ln (rval e1 x))) by (apply (bk_fun _ _ OK Alog p l); auto).
    apply (bk_fun _ _ OK Aexp _ _ _ H); [|exact Coq.Init.Logic.I]. apply (bk_mul _ _ OK); auto.
  - apply bind_ok in H as (p & E1 & H). apply (bk_fun _ _ OK f p); auto; [apply IHe|]; tauto.
Qed.
End Peval.

Section Sys.
Context {S : scal} (OK : scal_ok S) (P : elemp S) (LE : exp_laws S P) (LL : log_laws S P) (LT : trig_laws S P).
Variables (fuel n : nat) (fs : nat -> aexpr).
Notation B := (Ibase P fuel).

(* f(X) for an interval vector X *)
Definition sysI (X : nat -> iv S) : res (nat -> iv S) := vecM n X (fun k => peval (B := B) X (fs k)).
(* fd = f(autodif::init(X)); autodif::split(fd, fx, J).  When every row is constant the matrix J has no columns:
   later products with it have mismatched sizes *)
Definition sysD (X : nat -> iv S) : res ((nat -> iv S) * (nat -> nat -> iv S)) :=
  do r <- vecM n (@ad_init B n X) (fun k => aeval (@ad_init B n X) (fs k));
  match ad_split n r with
  | Some (v, (m, J)) => if Nat.eqb m n then Ok (force n v, fun i => force n (force n J i)) else Err EUB
  | None => Err EUB
  end.
(* the function and its domain *)
Definition sysf (x : nat -> R) (k : nat) : R := rval (fs k) x.
Definition sysdom (x : nat -> R) : Prop := forall k, (k < n)%nat -> adom (fs k) x.
Definition sysdf (x : nat -> R) (k j : nat) : R := Derive (fun t => rval (fs k) (upd x j t)) (x j).
Hypothesis WF : forall k, (k < n)%nat -> awf n (fs k) /\ clog (fs k).

Lemma sysI_ok X Y x : sysI X = Ok Y -> vin n X x -> sysdom x -> vin n Y (sysf x).
Proof using OK LE LL LT WF.
  intros H HX D k Hk. pose proof (vecM_ok _ _ _ _ H k Hk) as E. simpl in E.
  eapply (peval_rel B (@isin S) (Ibase_ok OK P LE LL LT fuel) n X x (fs k)); eauto. apply WF; auto.
Qed.
Lemma sysD_row X Y J : sysD X = Ok (Y, J) -> forall x, vin n X x -> forall k, (k < n)%nat ->
  adom (fs k) x /\ isin (Y k) (sysf x k) /\ exists G, (forall j, (j < n)%nat -> isin (J k j) (G j)) /\ grad n (rval (fs k)) x G.
Proof using OK LE LL LT WF.
  intros H x HX k Hk. unfold sysD in H. apply bind_ok in H as (r & E & H). unfold ad_split in H.
  destruct (n =? 0)%nat eqn:En; [discriminate|]. destruct (Nat.eqb (ad_size n r) n); [|discriminate].
  rewrite force_ext in H. injection H as <- <-. destruct (WF k Hk) as [W C].
  destruct (ad_value_gradient B (@isin S) (Ibase_ok OK P LE LL LT fuel) n X x (fs k) (r k) HX W C (vecM_ok _ _ _ _ E k Hk)) as (A1 & A2 & G & A3 & A4).
  split; auto. split; auto. exists G. split; auto. intros j Hj. rewrite !force_ext. apply A3; auto.
Qed.
Lemma sysD_dom X Y J : sysD X = Ok (Y, J) -> forall x, vin n X x -> sysdom x.
Proof using OK LE LL LT WF. intros H x HX k Hk. apply (sysD_row _ _ _ H x HX k Hk). Qed.
Lemma sysD_diff : diff_ext n sysD sysf sysdf.
Proof using OK LE LL LT WF.
  intros X Y J H.
  assert (DF : forall x k G, vin n X x -> (k < n)%nat -> grad n (rval (fs k)) x G -> forall j, (j < n)%nat -> sysdf x k j = G j).
  { intros x k G Hx Hk GR j Hj. unfold sysdf. apply is_derive_unique. apply is_derive_Reals. apply (grad_partials _ _ _ _ GR j Hj). }
  split.
  - intros x v k Hx Hk. destruct (sysD_row _ _ _ H x Hx k Hk) as (_ & _ & G & _ & GR).
    rewrite (vsum_ext n _ (fun j => G j * v j)) by (intros j Hj; rewrite (DF x k G Hx Hk GR j Hj); reflexivity).
    apply GR. split.
    + apply functional_extensionality. intros i. ring.
    + intros i _. apply (dl_eq _ _ (0 + (1 * v i + id 0 * 0))); [|unfold id; ring]. apply derivable_pt_lim_plus; [apply derivable_pt_lim_const|].
      apply (derivable_pt_lim_mult id (fun _ => v i)); [apply derivable_pt_lim_id|apply derivable_pt_lim_const].
  - intros x Hx. split.
    + intros k Hk. apply (sysD_row _ _ _ H x Hx k Hk).
    + intros k j Hk Hj. destruct (sysD_row _ _ _ H x Hx k Hk) as (_ & _ & G & HG & GR). rewrite (DF x k G Hx Hk GR j Hj). auto.
Qed.
End Sys.
