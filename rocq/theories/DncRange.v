(* The range of a function over a box found by minimize_value and maximize_value. *)
From Coq Require Import Reals ZArith Bool List Lra Lia.
From Coquelicot Require Import Coquelicot.
From Verif Require Import Ext Scalar RealFun RealConst IntervalModel IntervalSpec IntervalProofs IntervalEncl IntervalSets IntervalMore.
From Verif Require Import LinAlg RealRn VecModel VecProofs KrawProofs ADModel ADReal ADProofs PsaModel OptModel OptProofs NcModel NcProofs DncModel.
Import ListNotations.
Open Scope R_scope.
Section Range.
Context {S : scal} (OK : scal_ok S) (NN : scal_nan S).
Hypothesis MID : forall X : iv S, ivalid X -> ifinite X -> exists m, sval (mid X) = XR m /\ isin X m.
Hypothesis MAX : forall (a : S) q r, sval a = XR q -> sval (@smax S) = XR r -> q <= r.
Variables (g : (nat -> iv S) -> res (iv S)) (fD : (nat -> iv S) -> res (nat -> iv S)) (v : nat -> iv S) (limit : S) (ofuel : nat).
Variables (f : (nat -> R) -> R) (Dom : (nat -> R) -> Prop).
Hypothesis FI : forall X Y x, g X = Ok Y -> vin 2 X x -> Dom x -> isin Y (f x).
Hypothesis VV : vvalid 2 v.
Hypothesis VF : vfin 2 v.
Hypothesis FDom : forall X G x, fD X = Ok G -> vin 2 X x -> Dom x.
Hypothesis FG : forall X G x, fD X = Ok G -> vin 2 X x -> exists h, (forall i, (i < 2)%nat -> isin (G i) (h i)) /\ grad 2 f x h.
Hypothesis FO : forall X G x i s, fD X = Ok G -> vin 2 X x -> (i < 2)%nat -> exists d, 0 < d /\ forall t, Rabs t < d -> Dom (along i s x t).
Lemma grad_opp x h : grad 2 f x h -> grad 2 (fun y => - f y) x (fun i => - h i).
Proof.
  intros H c w C. specialize (H c w C). apply is_derive_Reals in H. apply is_derive_Reals. apply (is_derive_opp (V := R_NormedModule)) in H.
  replace (vsum 2 (fun i => - h i * w i)) with (- vsum 2 (fun i => h i * w i)) by (unfold vsum; simpl; ring). exact H.
Qed.
Lemma dnc_range_ok r x1 x2 : (forall x, vin 2 v x -> Dom x) -> vin 2 v x1 -> vin 2 v x2 -> (forall x, vin 2 v x -> f x1 <= f x <= f x2) ->
  dnc_range g fD limit ofuel v = Ok r -> forall x, vin 2 v x -> isin r (f x).
Proof using OK NN MID MAX FI VV VF FDom FG FO.
  intros DV B1 B2 Q H. unfold dnc_range in H. apply bind_ok in H as (lo_ & E1 & H). apply bind_ok in H as (hi_ & E2 & H). injection H as <-.
  assert (R1 : isin lo_ (f x1)).
  { apply bind_ok in E1 as (bs & Eb & Ev).
    destruct (optimize_ok OK NN MID MAX 2 g fD v limit false f Dom FI VV VF ofuel bs FDom FG FO Eb) as [A1 A2].
    assert (MN : OptProofs.minimiser 2 v f Dom x1). { split; [exact B1|]. split; [auto|]. intros y Hy _. apply Q, Hy. }
    exact (proj2 (value_ok OK NN 2 g v f Dom FI bs lo_ x1 A1 MN (A2 _ MN) Ev) DV). }
  assert (FN : forall X Y x, negr g X = Ok Y -> vin 2 X x -> Dom x -> isin Y (- f x)).
  { intros X Y x H HX Dx. apply bind_ok in H as (y & Ey & H). injection H as <-. apply (isin_neg OK). now apply (FI X). }
  assert (R2 : isin hi_ (- f x2)).
  { apply bind_ok in E2 as (bs & Eb & Ev).
    destruct (optimize_ok OK NN MID MAX 2 (negr g) (negd fD) v limit false (fun x => - f x) Dom FN VV VF ofuel bs) as [A1 A2]; auto.
    - intros X G x H1 H2. apply bind_ok in H1 as (q & H1 & _). now apply (FDom X q).
    - intros X G x H1 H2. apply bind_ok in H1 as (q & H1 & H3). injection H3 as <-. destruct (FG X q x H1 H2) as (h & G1 & G2). exists (fun i => - h i). split; [|now apply grad_opp].
      intros i Hi. apply (isin_neg OK). now apply G1.
    - intros X G x i s H1 H2 Hi. apply bind_ok in H1 as (q & H1 & _). now apply (FO X q).
    - assert (MN : OptProofs.minimiser 2 v (fun x => - f x) Dom x2). { split; [exact B2|]. split; [auto|]. intros y Hy _. apply Ropp_le_contravar, Q, Hy. }
      exact (proj2 (value_ok OK NN 2 (negr g) v (fun x => - f x) Dom FN bs hi_ x2 A1 MN (A2 _ MN) Ev) DV). }
  intros x Hx. apply (isin_neg OK) in R2. rewrite Ropp_involutive in R2. apply (isin_hull_mid OK lo_ (ineg hi_) (f x1) (f x2)); auto.
Qed.
End Range.
