(* Inclusion isotonicity of expressions. *)
From Coq Require Import Reals Lra Lia ZArith Bool.
From Flocq Require Import Core.
From Verif Require Import Ext Scalar IntervalModel IntervalSpec IntervalProofs IntervalEncl IntervalSets
  IntervalDivPow IntervalMore IntervalParam IntervalTight Expr Fp64 RDoubleHw.
Open Scope R_scope.

(* no integer power *)
Fixpoint nopow {F} (e : expr F) : Prop :=
  match e with
  | EVar _ | ECst _ _ => True
  | EAdd a b | ESub a b | EMul a b | EDiv a b | EMax a b | EMin a b => nopow a /\ nopow b
  | ENeg a | ESqrt a | EAbs a | EFun _ a => nopow a
  | EPow _ _ => False
  end.
Definition nofun {S : scal} (f : Empty_set) : iv S -> res (iv S) := match f with end.

Section Iso.
Context {S : scal} (OK : scal_ok S) (BE : scal_best S).
Lemma ieval_iso (e : expr Empty_set) (e1 e2 : nat -> iv S) Q2 : cst_ok e -> nopow e ->
  (forall n, ivalid (e1 n)) -> (forall n r, isin (e1 n) r -> isin (e2 n) r) ->
  ieval nofun e2 e = Ok Q2 -> exists Q1, ieval nofun e1 e = Ok Q1 /\ forall r, isin Q1 r -> isin Q2 r.
Proof.
  intros C NP V1 HS. revert Q2 C NP.
  assert (VV : forall e Q, cst_ok e -> ieval nofun e1 e = Ok Q -> ivalid Q).
  { intros. eapply (ieval_valid Empty_set OK nofun (fun _ _ _ => False)); eauto. intros []. }
  induction e; simpl; intros Q2 C NP H.
  - injection H as <-. eauto.
  - injection H as <-. eauto.
  - destruct C as [C1 C2], NP as [P1 P2]. apply bind_ok in H as (X2 & HX & H). apply bind_ok in H as (Y2 & HY & H). injection H as <-.
    destruct (IHe1 X2 C1 P1 HX) as (X1 & EX & IX), (IHe2 Y2 C2 P2 HY) as (Y1 & EY & IY). rewrite EX, EY. simpl.
    eexists; split; [reflexivity|]. apply (iso_add OK BE); eauto.
  - destruct C as [C1 C2], NP as [P1 P2]. apply bind_ok in H as (X2 & HX & H). apply bind_ok in H as (Y2 & HY & H). injection H as <-.
    destruct (IHe1 X2 C1 P1 HX) as (X1 & EX & IX), (IHe2 Y2 C2 P2 HY) as (Y1 & EY & IY). rewrite EX, EY. simpl.
    eexists; split; [reflexivity|]. apply (iso_sub OK BE); eauto.
  - destruct C as [C1 C2], NP as [P1 P2]. apply bind_ok in H as (X2 & HX & H). apply bind_ok in H as (Y2 & HY & H). injection H as <-.
    destruct (IHe1 X2 C1 P1 HX) as (X1 & EX & IX), (IHe2 Y2 C2 P2 HY) as (Y1 & EY & IY). rewrite EX, EY. simpl.
    eexists; split; [reflexivity|]. apply (iso_mul OK BE); eauto.
  - destruct C as [C1 C2], NP as [P1 P2]. apply bind_ok in H as (X2 & HX & H). apply bind_ok in H as (Y2 & HY & H).
    destruct (IHe1 X2 C1 P1 HX) as (X1 & EX & IX), (IHe2 Y2 C2 P2 HY) as (Y1 & EY & IY). rewrite EX, EY. simpl.
    apply (iso_div OK BE X1 X2 Y1 Y2); eauto.
  - apply bind_ok in H as (X2 & HX & H). injection H as <-. destruct (IHe X2 C NP HX) as (X1 & EX & IX). rewrite EX. simpl.
    eexists; split; [reflexivity|]. apply (iso_neg OK); eauto.
  - apply bind_ok in H as (X2 & HX & H). destruct (IHe X2 C NP HX) as (X1 & EX & IX). rewrite EX. simpl.
    apply (iso_sqrt OK BE X1 X2); eauto.
  - elim NP.
  - apply bind_ok in H as (X2 & HX & H). injection H as <-. destruct (IHe X2 C NP HX) as (X1 & EX & IX). rewrite EX. simpl.
    eexists; split; [reflexivity|]. apply (iso_abs OK); eauto.
  - destruct C as [C1 C2], NP as [P1 P2]. apply bind_ok in H as (X2 & HX & H). apply bind_ok in H as (Y2 & HY & H). injection H as <-.
    destruct (IHe1 X2 C1 P1 HX) as (X1 & EX & IX), (IHe2 Y2 C2 P2 HY) as (Y1 & EY & IY). rewrite EX, EY. simpl.
    eexists; split; [reflexivity|]. apply (iso_max OK); eauto.
  - destruct C as [C1 C2], NP as [P1 P2]. apply bind_ok in H as (X2 & HX & H). apply bind_ok in H as (Y2 & HY & H). injection H as <-.
    destruct (IHe1 X2 C1 P1 HX) as (X1 & EX & IX), (IHe2 Y2 C2 P2 HY) as (Y1 & EY & IY). rewrite EX, EY. simpl.
    eexists; split; [reflexivity|]. apply (iso_min OK); eauto.
  - destruct f.
Qed.
End Iso.
