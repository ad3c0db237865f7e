(* Extended reals used as the meaning of scalars, and the outcome type of the model. *)
From Coq Require Import Reals Lra.
From Flocq Require Import Core.
Open Scope R_scope.

(* Outcome of a C++ call: a value, a thrown std::domain_error, the model's own loop bound
   exhausted (no claim is made about such runs), or undefined behaviour of the C++ code. *)
Inductive err := EDomain | EFuel | EUB.
Inductive res (A : Type) := Ok (a : A) | Err (e : err).
Arguments Ok {A}. Arguments Err {A}.
Definition bind {A B} (x : res A) (f : A -> res B) : res B :=
  match x with Ok a => f a | Err e => Err e end.
Notation "'do' x <- a ; b" := (bind a (fun x => b)) (at level 200, x name, a at level 100, b at level 200).

Lemma bind_ok {A B} (x : res A) (f : A -> res B) b :
  bind x f = Ok b -> exists a, x = Ok a /\ f a = Ok b.
Proof. destruct x; simpl; [eauto|discriminate]. Qed.

(* Meaning of a scalar: a real number, +inf, -inf or NaN. *)
Inductive ext := XR (r : R) | Xp | Xm | Xn.

Definition xlt (a b : ext) : Prop :=
  match a, b with
  | XR x, XR y => x < y
  | XR _, Xp | Xm, XR _ | Xm, Xp => True
  | _, _ => False
  end.
Definition xle (a b : ext) : Prop :=
  match a, b with
  | XR x, XR y => x <= y
  | XR _, Xp | Xm, XR _ | Xm, Xp | Xm, Xm | Xp, Xp => True
  | _, _ => False
  end.
Definition xeq (a b : ext) : Prop :=
  match a, b with
  | XR x, XR y => x = y
  | Xm, Xm | Xp, Xp => True
  | _, _ => False
  end.

Definition xneg a := match a with XR x => XR (- x) | Xp => Xm | Xm => Xp | Xn => Xn end.
Definition xadd a b :=
  match a, b with
  | XR x, XR y => XR (x + y)
  | XR _, Xp | Xp, XR _ | Xp, Xp => Xp
  | XR _, Xm | Xm, XR _ | Xm, Xm => Xm
  | _, _ => Xn
  end.
Definition xsub a b := xadd a (xneg b).
(* sign of a real times an infinity; 0 * inf is NaN *)
Definition xsgn_inf (x : R) (pos : bool) : ext :=
  match Rcompare x 0 with
  | Gt => if pos then Xp else Xm
  | Lt => if pos then Xm else Xp
  | Eq => Xn
  end.
Definition xmul a b :=
  match a, b with
  | XR x, XR y => XR (x * y)
  | XR x, Xp | Xp, XR x => xsgn_inf x true
  | XR x, Xm | Xm, XR x => xsgn_inf x false
  | Xp, Xp | Xm, Xm => Xp
  | Xp, Xm | Xm, Xp => Xm
  | _, _ => Xn
  end.
(* only used with a non-zero divisor *)
Definition xdiv a b :=
  match a, b with
  | XR x, XR y => XR (x / y)
  | XR _, Xp | XR _, Xm => XR 0
  | Xp, XR y => xsgn_inf y true
  | Xm, XR y => xsgn_inf y false
  | _, _ => Xn
  end.
Definition xsqrt a :=
  match a with
  | XR x => if Rlt_bool x 0 then Xn else XR (sqrt x)
  | Xp => Xp
  | _ => Xn
  end.

(* t is an acceptable result of computing e rounded downward / upward. *)
Definition xdown (e t : ext) : Prop :=
  match e with
  | XR r => match t with XR a => a <= r | Xm => True | _ => False end
  | Xp => t = Xp
  | Xm => t = Xm
  | Xn => True
  end.
Definition xup (e t : ext) : Prop :=
  match e with
  | XR r => match t with XR a => r <= a | Xp => True | _ => False end
  | Xp => t = Xp
  | Xm => t = Xm
  | Xn => True
  end.

(* e, as a lower (upper) endpoint, does not exclude r *)
Definition lb (e : ext) (r : R) : Prop := match e with XR a => a <= r | Xm => True | _ => False end.
Definition ub (e : ext) (r : R) : Prop := match e with XR a => r <= a | Xp => True | _ => False end.
Definition is_lo (e : ext) : Prop := match e with XR _ | Xm => True | _ => False end.
Definition is_hi (e : ext) : Prop := match e with XR _ | Xp => True | _ => False end.
Definition is_fin (e : ext) : Prop := match e with XR _ => True | _ => False end.

Lemma xdown_lb r t : xdown (XR r) t <-> lb t r.
Proof. destruct t; simpl; tauto. Qed.
Lemma xup_ub r t : xup (XR r) t <-> ub t r.
Proof. destruct t; simpl; tauto. Qed.
Lemma lb_le e a b : lb e a -> a <= b -> lb e b.
Proof. destruct e; simpl; auto; lra. Qed.
Lemma ub_le e a b : ub e a -> b <= a -> ub e b.
Proof. destruct e; simpl; auto; lra. Qed.
Lemma lb_xle e f r : xle e f -> lb f r -> lb e r.
Proof. destruct e, f; simpl; auto; try tauto; lra. Qed.
Lemma ub_xle e f r : xle e f -> ub e r -> ub f r.
Proof. destruct e, f; simpl; auto; try tauto; lra. Qed.
Lemma lb_neg e r : lb e r -> ub (xneg e) (- r).
Proof. destruct e; simpl; auto; lra. Qed.
Lemma ub_neg e r : ub e r -> lb (xneg e) (- r).
Proof. destruct e; simpl; auto; lra. Qed.
Lemma lb_is_lo e r : lb e r -> is_lo e.
Proof. destruct e; simpl; auto. Qed.
Lemma ub_is_hi e r : ub e r -> is_hi e.
Proof. destruct e; simpl; auto. Qed.
Lemma lb_ub_xle e f r : lb e r -> ub f r -> xle e f.
Proof. destruct e, f; simpl; auto; lra. Qed.
Lemma xle_refl e : e <> Xn -> xle e e.
Proof. destruct e; simpl; auto; try lra; congruence. Qed.
Lemma xle_trans a b c : xle a b -> xle b c -> xle a c.
Proof. destruct a, b, c; simpl; auto; try tauto; lra. Qed.
Lemma xlt_xle a b : xlt a b -> xle a b.
Proof. destruct a, b; simpl; auto; lra. Qed.
Lemma xlt_xle_trans a b c : xlt a b -> xle b c -> xlt a c.
Proof. destruct a, b, c; simpl; auto; try tauto; lra. Qed.
Lemma xle_xlt_trans a b c : xle a b -> xlt b c -> xlt a c.
Proof. destruct a, b, c; simpl; auto; try tauto; lra. Qed.
Lemma not_xlt_xle a b : a <> Xn -> b <> Xn -> ~ xlt a b -> xle b a.
Proof. destruct a, b; simpl; auto; try tauto; try congruence; lra. Qed.
Lemma not_xle_xlt a b : a <> Xn -> b <> Xn -> ~ xle a b -> xlt b a.
Proof. destruct a, b; simpl; auto; try tauto; try congruence; lra. Qed.
Lemma xle_not_xlt a b : xle a b -> ~ xlt b a.
Proof. destruct a, b; simpl; auto; lra. Qed.
Lemma is_lo_nn e : is_lo e -> e <> Xn.
Proof. destruct e; simpl; congruence || tauto. Qed.
Lemma is_hi_nn e : is_hi e -> e <> Xn.
Proof. destruct e; simpl; congruence || tauto. Qed.
Lemma xneg_invol e : xneg (xneg e) = e.
Proof. destruct e; simpl; auto. rewrite Ropp_involutive; auto. Qed.

Lemma xsgn_inf_pos x p : 0 < x -> xsgn_inf x p = if p then Xp else Xm.
Proof. intros; unfold xsgn_inf; rewrite Rcompare_Gt; auto. Qed.
Lemma xsgn_inf_neg x p : x < 0 -> xsgn_inf x p = if p then Xm else Xp.
Proof. intros; unfold xsgn_inf; rewrite Rcompare_Lt; auto. Qed.
