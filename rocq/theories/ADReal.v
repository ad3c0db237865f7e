(* Real functions written with the operators of autodif.hpp: values, domains, derivatives.
   Independent of the automatic differentiation code itself. *)
From Coq Require Import Reals Lra Lia Psatz ZArith Bool List Arith.
From Coquelicot Require Import Coquelicot.
From Flocq Require Import Core.
From Verif Require Import Ext LinAlg RealFun RealInv ElemLog ADModel.
Open Scope R_scope.

Definition frl (f : afun) (x : R) : R :=
  match f with
  | Aexp => exp x | Alog => ln x | Asqrt => sqrt x | Asin => sin x | Acos => cos x | Atan_ => tan x
  | Aasin => asin x | Aacos => acos x | Aatan => atan x
  | Asinh => sinh x | Acosh_ => cosh x | Atanh_ => tanh x
  | Aasinh => rasinh x | Aacosh => racosh x | Aatanh => ratanh x
  end.
(* where the function is defined *)
Definition fdom (f : afun) (x : R) : Prop :=
  match f with
  | Alog => 0 < x | Asqrt => 0 <= x | Atan_ => cos x <> 0
  | Aasin | Aacos => -1 <= x <= 1 | Aacosh => 1 <= x | Aatanh => -1 < x < 1
  | _ => True
  end.
(* closure of the domain: what the range checks of the code test *)
Definition fclo (f : afun) (x : R) : Prop :=
  match f with
  | Alog | Asqrt => 0 <= x | Aasin | Aacos | Aatanh => -1 <= x <= 1 | Aacosh => 1 <= x
  | _ => True
  end.
(* where it is differentiable *)
Definition fdiff (f : afun) (x : R) : Prop :=
  match f with
  | Asqrt => 0 < x | Aasin | Aacos => -1 < x < 1 | Aacosh => 1 < x
  | _ => fdom f x
  end.
Definition fder (f : afun) (x : R) : R :=
  match f with
  | Aexp => exp x | Alog => / x | Asqrt => / (2 * sqrt x) | Asin => cos x | Acos => - sin x
  | Atan_ => 1 / (cos x * cos x)
  | Aasin => 1 / sqrt (1 - x * x) | Aacos => -1 / sqrt (1 - x * x) | Aatan => 1 / (1 + x * x)
  | Asinh => cosh x | Acosh_ => sinh x | Atanh_ => 1 / (cosh x * cosh x)
  | Aasinh => 1 / sqrt (x * x + 1) | Aacosh => 1 / sqrt (x * x - 1) | Aatanh => 1 / (1 - x * x)
  end.
Lemma is_d (f : R -> R) (x l l' : R) : is_derive f x l -> l = l' -> derivable_pt_lim f x l'.
Proof. intros H <-. now apply is_derive_Reals. Qed.
Lemma derive_lim f x (p : derivable_pt f x) l : derive_pt f x p = l -> derivable_pt_lim f x l.
Proof. apply derive_pt_eq_1. Qed.
Lemma fun_deriv f x : fdiff f x -> derivable_pt_lim (frl f) x (fder f x).
Proof.
  destruct f; cbn [frl fdiff fdom fder]; intros H.
  - apply derivable_pt_lim_exp.
  - apply derivable_pt_lim_ln; auto.
  - apply derivable_pt_lim_sqrt; auto.
  - apply derivable_pt_lim_sin.
  - apply derivable_pt_lim_cos.
  - apply (is_d _ _ (tan x ^ 2 + 1)); [apply is_derive_tan; auto|]. unfold tan. pose proof (sin2_cos2 x) as E.
    unfold Rsqr in E. field_simplify; [|auto|auto]. f_equal. lra.
  - exact (derive_lim _ _ _ _ (derive_pt_asin x H)).
  - exact (derive_lim _ _ _ _ (derive_pt_acos x H)).
  - apply (is_d _ _ (/ (1 + x ^ 2))); [apply is_derive_atan|]. unfold Rdiv. rewrite Rmult_1_l. f_equal. ring.
  - apply derivable_pt_lim_sinh.
  - apply derivable_pt_lim_cosh.
  - assert (C : cosh x <> 0) by (pose proof (cosh_pos x); lra).
    apply (is_d _ _ ((cosh x * cosh x - sinh x * sinh x) / (cosh x)²)).
    + apply is_derive_Reals. apply (derivable_pt_lim_div sinh cosh x (cosh x) (sinh x)); auto.
      apply derivable_pt_lim_sinh. apply derivable_pt_lim_cosh.
    + unfold Rsqr. f_equal. unfold cosh, sinh. pose proof (exp_pos x). assert (exp x * exp (- x) = 1) by (rewrite <- exp_plus, Rplus_opp_r; apply exp_0).
      field_simplify. lra.
  - change (frl Aasinh) with (fun x => ln (x + sqrt (1 + x * x))).
    assert (Q : 0 < 1 + x * x) by nra. pose proof (sqrt_lt_R0 _ Q) as SQ. pose proof (sqrt_sqrt _ (Rlt_le _ _ Q)) as S2.
    assert (P : 0 < x + sqrt (1 + x * x)) by nra.
    apply (is_d _ _ ((1 + (x + x) / (2 * sqrt (1 + x * x))) / (x + sqrt (1 + x * x)))).
    + auto_derive; [tauto|]. field. lra.
    + replace (x * x + 1) with (1 + x * x) by ring. field. lra.
  - change (frl Aacosh) with (fun x => ln (x + sqrt (x * x - 1))).
    assert (Q : 0 < x * x - 1) by nra. pose proof (sqrt_lt_R0 _ Q) as SQ.
    assert (P : 0 < x + sqrt (x * x - 1)) by nra.
    apply (is_d _ _ ((1 + (x + x) / (2 * sqrt (x * x - 1))) / (x + sqrt (x * x - 1)))).
    + auto_derive; [replace (x * x + - (1)) with (x * x - 1) by ring; tauto|].
      replace (x * x + - (1)) with (x * x - 1) by ring. field. lra.
    + field. lra.
  - change (frl Aatanh) with (fun x => / 2 * ln ((1 + x) / (1 - x))). apply (is_d _ _ (/2 * ((1 * (1 - x) - (-1) * (1 + x)) / ((1 - x) * (1 - x)) / ((1 + x) / (1 - x))))).
    + assert (0 < (1 + x) / (1 - x)) by (apply Rdiv_lt_0_compat; lra).
      auto_derive; [repeat split; try lra; auto|]. field. repeat split; lra || nra.
    + field. repeat split; lra || nra.
Qed.
Lemma pow_deriv x n : ((n < 1)%Z -> x <> 0) -> n <> 0%Z ->
  derivable_pt_lim (fun t => powerRZ t n) x (IZR n * powerRZ x (n - 1)).
Proof.
  intros H N. destruct (Z_lt_le_dec 0 n) as [P|P].
  - assert (E : exists k, n = Z.of_nat (S k)) by (exists (Z.to_nat (n - 1)); lia). destruct E as [k ->].
    replace (Z.of_nat (S k) - 1)%Z with (Z.of_nat k) by lia. rewrite <- pow_powerRZ, <- INR_IZR_INZ.
    apply (derivable_pt_lim_ext (fun t => t ^ S k)); [intros z; apply pow_powerRZ|]. apply (derivable_pt_lim_pow x (S k)).
  - assert (X : x <> 0) by (apply H; lia). set (k := Z.to_nat (- n)).
    assert (E : n = (- Z.of_nat k)%Z) by (unfold k; lia).
    assert (K : exists j, k = S j) by (exists (Nat.pred k); unfold k; lia). destruct K as [j K].
    assert (PK : forall j, x ^ j <> 0) by (intros; apply pow_nonzero; auto).
    apply (derivable_pt_lim_ext (fun t => / (t ^ k))).
    + intros z. rewrite E, powerRZ_neg'. now rewrite <- pow_powerRZ.
    + apply (is_d _ _ (- (INR k * x ^ Nat.pred k) / (x ^ k) ^ 2)).
      * apply is_derive_inv; [apply is_derive_Reals, derivable_pt_lim_pow|auto].
      * rewrite E. replace (- Z.of_nat k - 1)%Z with (- Z.of_nat (S k))%Z by lia.
        rewrite powerRZ_neg', <- pow_powerRZ. rewrite opp_IZR, <- INR_IZR_INZ. rewrite K. simpl Nat.pred. cbn [pow]. field. split; auto.
Qed.

Definition dy (m e : Z) : R := IZR m * bpow radix2 e.
Definition scv (o : scop) (m e : Z) (x : R) : R :=
  match o with
  | SOadd => x + dy m e | SOaddr => dy m e + x | SOsub => x - dy m e | SOsubr => dy m e - x
  | SOmul => x * dy m e | SOmulr => dy m e * x | SOdiv => x / dy m e | SOdivr => dy m e / x
  end.
(* the value of an expression *)
Fixpoint rval (e : aexpr) (x : nat -> R) : R :=
  match e with
  | XVar n => x n
  | XCst m k => dy m k
  | XAdd a b => rval a x + rval b x
  | XSub a b => rval a x - rval b x
  | XMul a b => rval a x * rval b x
  | XDiv a b => rval a x / rval b x
  | XSc o m k a => scv o m k (rval a x)
  | XNeg a => - rval a x
  | XPowZ a n => powerRZ (rval a x) n
  | XPow a b => exp (rval b x * ln (rval a x))
  | XFun f a => frl f (rval a x)
  end.
(* the point lies in the domain of the expression *)
Fixpoint adom (e : aexpr) (x : nat -> R) : Prop :=
  match e with
  | XVar _ | XCst _ _ => True
  | XAdd a b | XSub a b | XMul a b => adom a x /\ adom b x
  | XDiv a b => adom a x /\ adom b x /\ rval b x <> 0
  | XSc o m k a => adom a x /\ match o with SOdiv => dy m k <> 0 | SOdivr => rval a x <> 0 | _ => True end
  | XNeg a => adom a x
  | XPowZ a n => adom a x /\ ((n < 0)%Z -> rval a x <> 0)
  | XPow a b => adom a x /\ adom b x /\ 0 < rval a x
  | XFun f a => adom a x /\ fdom f (rval a x)
  end.
(* and every operation is differentiable there *)
Fixpoint adiff (e : aexpr) (x : nat -> R) : Prop :=
  match e with
  | XVar _ | XCst _ _ => True
  | XAdd a b | XSub a b | XMul a b => adiff a x /\ adiff b x
  | XDiv a b => adiff a x /\ adiff b x /\ rval b x <> 0
  | XSc o m k a => adiff a x /\ match o with SOdiv => dy m k <> 0 | SOdivr => rval a x <> 0 | _ => True end
  | XNeg a => adiff a x
  | XPowZ a n => adiff a x /\ ((n < 0)%Z -> rval a x <> 0)
  | XPow a b => adiff a x /\ adiff b x /\ 0 < rval a x
  | XFun f a => adiff a x /\ fdiff f (rval a x)
  end.
(* variables below n, literals and exponents that double and int hold exactly *)
Definition lit (m e : Z) : Prop := (Z.abs m <= 2 ^ 53)%Z /\ (-900 <= e <= 900)%Z.
Fixpoint awf (n : nat) (e : aexpr) : Prop :=
  match e with
  | XVar i => (i < n)%nat
  | XCst m k => lit m k
  | XAdd a b | XSub a b | XMul a b | XDiv a b | XPow a b => awf n a /\ awf n b
  | XSc _ m k a => lit m k /\ awf n a
  | XNeg a | XFun _ a => awf n a
  | XPowZ a k => awf n a /\ (Z.abs k <= 2 ^ 53)%Z
  end.

Lemma fdiff_dom f x : fdiff f x -> fdom f x.
Proof. destruct f; simpl; auto; lra. Qed.
Lemma adiff_dom e x : adiff e x -> adom e x.
Proof. induction e; simpl; intuition. now apply fdiff_dom. Qed.
Lemma rval_ext n e x y : awf n e -> (forall i, (i < n)%nat -> x i = y i) -> rval e x = rval e y.
Proof.
  intros W E. induction e; simpl in *; auto;
  try (destruct W; rewrite ?IHe1, ?IHe2, ?IHe by tauto; reflexivity).
  - now rewrite IHe.
  - now rewrite IHe.
Qed.

(* variable-free expressions *)
Fixpoint vfree (e : aexpr) : bool :=
  match e with
  | XVar _ => false | XCst _ _ => true
  | XAdd a b | XSub a b | XMul a b | XDiv a b | XPow a b => vfree a && vfree b
  | XSc _ _ _ a | XNeg a | XPowZ a _ | XFun _ a => vfree a
  end.
Lemma vfree_const e : vfree e = true -> forall x y, rval e x = rval e y.
Proof.
  induction e; simpl; intros H x y; auto; try discriminate;
  try (apply andb_true_iff in H as [H1 H2]; now rewrite (IHe1 H1 x y), (IHe2 H2 x y));
  now rewrite (IHe H x y).
Qed.
(* the logarithm (or real power) of a variable-free subexpression is taken of a positive number *)
Fixpoint clog (e : aexpr) : Prop :=
  match e with
  | XVar _ | XCst _ _ => True
  | XAdd a b | XSub a b | XMul a b | XDiv a b => clog a /\ clog b
  | XPow a b => clog a /\ clog b /\ (vfree a = true -> 0 < rval a (fun _ => 0))
  | XSc _ _ _ a | XNeg a | XPowZ a _ => clog a
  | XFun f a => clog a /\ (f = Alog -> vfree a = true -> 0 < rval a (fun _ => 0))
  end.
Lemma fclo_dom f x : fdom f x -> fclo f x.
Proof. destruct f; simpl; auto; lra. Qed.
