(* Concrete binary64 intervals used to show that theorem hypotheses are satisfiable. *)
From Coq Require Import Reals Lra Lia ZArith Bool.
From Flocq Require Import Core BinarySingleNaN.
From Verif Require Import Ext Scalar IntervalModel IntervalSpec IntervalProofs Fp64 RDoubleHw.
Open Scope R_scope.

(* [m1*2^e1, m2*2^e2] *)
Definition qiv (m1 e1 m2 e2 : Z) : iv D_hw := mkiv (bdy m1 e1 : D_hw) (bdy m2 e2 : D_hw).
(* [-inf, m*2^e], [m*2^e, +inf] *)
Definition qivl (m e : Z) : iv D_hw := mkiv (bninf : D_hw) (bdy m e : D_hw).
Definition qivr (m e : Z) : iv D_hw := mkiv (bdy m e : D_hw) (bpinf : D_hw).

Lemma qv m e : (Z.abs m <= 2 ^ 53)%Z -> (-1074 <= e <= 970)%Z ->
  @sval D_hw (bdy m e) = XR (IZR m * bpow radix2 e).
Proof. intros. apply (bdy_v m e); auto. Qed.

Lemma qiv_in m1 e1 m2 e2 r :
  ((Z.abs m1 <=? 2 ^ 53) && (Z.abs m2 <=? 2 ^ 53) && (-1074 <=? e1) && (e1 <=? 970) && (-1074 <=? e2) && (e2 <=? 970))%Z%bool = true ->
  IZR m1 * bpow radix2 e1 <= r <= IZR m2 * bpow radix2 e2 -> isin (qiv m1 e1 m2 e2) r.
Proof.
  rewrite !andb_true_iff, !Z.leb_le. intros.
  split; [exact I|split; [exact I|]]. unfold qiv, lo, hi. rewrite !qv by lia. simpl lb. simpl ub. tauto.
Qed.
Lemma qivl_in m e r : ((Z.abs m <=? 2 ^ 53) && (-1074 <=? e) && (e <=? 970))%Z%bool = true ->
  r <= IZR m * bpow radix2 e -> isin (qivl m e) r.
Proof.
  rewrite !andb_true_iff, !Z.leb_le. intros.
  split; [exact I|split; [exact I|]]. unfold qivl, lo, hi. rewrite !qv by lia. simpl lb. simpl ub. tauto.
Qed.
Lemma qivr_in m e r : ((Z.abs m <=? 2 ^ 53) && (-1074 <=? e) && (e <=? 970))%Z%bool = true ->
  IZR m * bpow radix2 e <= r -> isin (qivr m e) r.
Proof.
  rewrite !andb_true_iff, !Z.leb_le. intros.
  split; [exact I|split; [exact I|]]. unfold qivr, lo, hi. rewrite !qv by lia. simpl lb. simpl ub. tauto.
Qed.
Ltac qin := first [apply qiv_in|apply qivl_in|apply qivr_in]; [reflexivity|simpl; lra].
Ltac qval r := apply (isin_valid _ r); qin.
