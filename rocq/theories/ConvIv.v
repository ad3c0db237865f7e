(* interval<double> and texts, for all back ends.
   rop<double>::fromstring_up/down, print_up/down: rdouble-hwround.hpp 99-141,
   rdouble-nohwround.hpp 435-477, rdouble-avx512.hpp 123-165 (the same code three times). *)
From Coq Require Import ZArith Reals Lra Lia List Bool Ascii.
From Flocq Require Import Core BinarySingleNaN.
From Verif Require Import Fp64 RDoubleHw NohwModel NohwDiv Backends.
From Verif Require Import Ext Scalar IntervalModel IntervalSpec IntervalProofs IntervalEncl IntervalSets IntervalMore.
From Verif Require Import ConvModel ConvSpec ConvProofs ConvIn ConvIn2 ConvRead ConvOut ConvFmt.
Import ListNotations.
Open Scope Z_scope.

Definition of64 (b : backend) : b64 -> bscal b :=
  match b with BHw => fun x => x | BAvx => fun x => x | BNohw _ => fun x => x end.
Definition to64 (b : backend) : bscal b -> b64 :=
  match b with BHw => fun x => x | BAvx => fun x => x | BNohw _ => fun x => x end.
Lemma sval_of64 b x : sval (of64 b x) = v64 x.
Proof. destruct b; reflexivity. Qed.
Lemma v64_to64 b (x : bscal b) : v64 (to64 b x) = sval x.
Proof. destruct b; reflexivity. Qed.
Lemma swf_of64 b x : swf (of64 b x).
Proof. destruct b; exact Logic.I. Qed.

Definition fromstring_up (b : backend) (s : list ascii) : res (bscal b) :=
  do x <- stringtod s 1; Ok (of64 b x).
Definition fromstring_down (b : backend) (s : list ascii) : res (bscal b) :=
  do x <- stringtod s (-1); Ok (of64 b x).

(* interval.hpp 128-131, 144-148 *)
Definition istring (b : backend) (s : list ascii) : res (iv (bscal b)) :=
  do l <- fromstring_down b s; do u <- fromstring_up b s; Ok (mkiv l u).
(* interval.hpp 133-136 *)
Definition istring2 (b : backend) (s t : list ascii) : res (iv (bscal b)) :=
  do l <- fromstring_down b s; do u <- fromstring_up b t; Ok (mkiv l u).
(* comparisons with a text, interval.hpp 735-737, 743-745, 756-758, 764-766, 777-779, 785-787,
   798-800, 806-808 *)
Definition ilt_str (b : backend) (x : iv (bscal b)) (s : list ascii) : res bool :=
  do y <- fromstring_down b s; Ok (slt (hi x) y).
Definition str_lt (b : backend) (s : list ascii) (x : iv (bscal b)) : res bool :=
  do y <- fromstring_up b s; Ok (slt y (lo x)).
Definition ile_str (b : backend) (x : iv (bscal b)) (s : list ascii) : res bool :=
  do y <- fromstring_down b s; Ok (sle (hi x) y).
Definition str_le (b : backend) (s : list ascii) (x : iv (bscal b)) : res bool :=
  do y <- fromstring_up b s; Ok (sle y (lo x)).
Definition igt_str (b : backend) (x : iv (bscal b)) (s : list ascii) : res bool :=
  do y <- fromstring_up b s; Ok (slt y (lo x)).
Definition str_gt (b : backend) (s : list ascii) (x : iv (bscal b)) : res bool :=
  do y <- fromstring_down b s; Ok (slt (hi x) y).
(* ==, interval.hpp 819-822, 828-831; != 839-841, 847-849 *)
Definition ieq_str (b : backend) (x : iv (bscal b)) (s : list ascii) : res bool :=
  do y <- istring b s; Ok (seqb (lo x) (hi x) && seqb (hi x) (lo y) && seqb (lo y) (hi y)).
Definition ine_str (b : backend) (x : iv (bscal b)) (s : list ascii) : res bool :=
  do y <- istring b s; Ok (negb (overlap x y)).

(* operator<<, interval.hpp 514-521 *)
Definition iprint (b : backend) (precision : Z) (f : fmt) (x : iv (bscal b)) : res (list ascii) :=
  do l <- dtostring (to64 b (lo x)) precision f (-1);
  do u <- dtostring (to64 b (hi x)) precision f 1;
  Ok (ch 91 :: l ++ ch 44 :: u ++ [ch 93]).

(* ---- proofs ---- *)
Lemma istring_ok b n X : wf_numeral n -> istring b (render n) = Ok X -> isin X (value n).
Proof.
  intros W E. unfold istring, fromstring_down, fromstring_up in E.
  apply bind_ok in E as (l & E1 & E). apply bind_ok in E1 as (l' & E1 & El).
  apply bind_ok in E as (u & E2 & E). apply bind_ok in E2 as (u' & E2 & Eu).
  injection El as <-. injection Eu as <-. injection E as <-.
  apply stringtod_ok in E1; auto. apply stringtod_ok in E2; auto.
  destruct E1 as (_ & E1). destruct E2 as (E2 & _).
  split; [apply swf_of64|]. split; [apply swf_of64|]. cbn [lo hi]. rewrite !sval_of64. split; auto.
Qed.

Lemma istring_total b n : wf_numeral n -> dsum (n_expd n) < 2 ^ 31 -> (value n <> 0%R \/ 0 <= n_e10 n) ->
  exists X, istring b (render n) = Ok X /\ isin X (value n).
Proof.
  intros W H1 H2.
  destruct (stringtod_total n (-1) W H1 H2) as (l & El). destruct (stringtod_total n 1 W H1 H2) as (u & Eu).
  exists (mkiv (of64 b l) (of64 b u)).
  assert (E : istring b (render n) = Ok (mkiv (of64 b l) (of64 b u))).
  { unfold istring, fromstring_down, fromstring_up. rewrite El, Eu. reflexivity. }
  split; [exact E|]. now apply istring_ok.
Qed.

Lemma istring2_ok b n m X : wf_numeral n -> wf_numeral m -> istring2 b (render n) (render m) = Ok X ->
  forall r, (value n <= r <= value m)%R -> isin X r.
Proof.
  intros W W' E r Hr. unfold istring2, fromstring_down, fromstring_up in E.
  apply bind_ok in E as (l & E1 & E). apply bind_ok in E1 as (l' & E1 & El).
  apply bind_ok in E as (u & E2 & E). apply bind_ok in E2 as (u' & E2 & Eu).
  injection El as <-. injection Eu as <-. injection E as <-.
  apply stringtod_ok in E1; auto. apply stringtod_ok in E2; auto.
  destruct E1 as (_ & E1). destruct E2 as (E2 & _). specialize (E1 eq_refl). specialize (E2 eq_refl).
  split; [apply swf_of64|]. split; [apply swf_of64|]. cbn [lo hi]. rewrite !sval_of64.
  revert E1 E2. destruct (v64 l'), (v64 u'); cbn [lb ub]; intros; split; try easy; lra.
Qed.

Section Cmp.
Variable b : backend.
Let OK := bscal_ok b.
Lemma ilt_str_ok n (X : iv (bscal b)) r : wf_numeral n -> isin X r -> ilt_str b X (render n) = Ok true -> (r < value n)%R.
Proof.
  intros W (W1 & W2 & L & U) E. unfold ilt_str, fromstring_down in E.
  apply bind_ok in E as (y & E1 & E). apply bind_ok in E1 as (l & E1 & El). injection El as <-. injection E as E.
  apply stringtod_ok in E1; auto. destruct E1 as (_ & E1). specialize (E1 eq_refl).
  apply (slt_true OK) in E; [|auto|apply swf_of64]. rewrite sval_of64 in E.
  revert E E1 U. destruct (sval (hi X)), (v64 l); cbn [lb ub xlt]; intros; try easy; lra.
Qed.
Lemma ile_str_ok n (X : iv (bscal b)) r : wf_numeral n -> isin X r -> ile_str b X (render n) = Ok true -> (r <= value n)%R.
Proof.
  intros W (W1 & W2 & L & U) E. unfold ile_str, fromstring_down in E.
  apply bind_ok in E as (y & E1 & E). apply bind_ok in E1 as (l & E1 & El). injection El as <-. injection E as E.
  apply stringtod_ok in E1; auto. destruct E1 as (_ & E1). specialize (E1 eq_refl).
  apply (sle_true OK) in E; [|auto|apply swf_of64]. rewrite sval_of64 in E.
  revert E E1 U. destruct (sval (hi X)), (v64 l); cbn [lb ub xle]; intros; try easy; lra.
Qed.
Lemma str_lt_ok n (X : iv (bscal b)) r : wf_numeral n -> isin X r -> str_lt b (render n) X = Ok true -> (value n < r)%R.
Proof.
  intros W (W1 & W2 & L & U) E. unfold str_lt, fromstring_up in E.
  apply bind_ok in E as (y & E1 & E). apply bind_ok in E1 as (l & E1 & El). injection El as <-. injection E as E.
  apply stringtod_ok in E1; auto. destruct E1 as (E1 & _). specialize (E1 eq_refl).
  apply (slt_true OK) in E; [|apply swf_of64|auto]. rewrite sval_of64 in E.
  revert E E1 L. destruct (sval (lo X)), (v64 l); cbn [lb ub xlt]; intros; try easy; lra.
Qed.
Lemma str_le_ok n (X : iv (bscal b)) r : wf_numeral n -> isin X r -> str_le b (render n) X = Ok true -> (value n <= r)%R.
Proof.
  intros W (W1 & W2 & L & U) E. unfold str_le, fromstring_up in E.
  apply bind_ok in E as (y & E1 & E). apply bind_ok in E1 as (l & E1 & El). injection El as <-. injection E as E.
  apply stringtod_ok in E1; auto. destruct E1 as (E1 & _). specialize (E1 eq_refl).
  apply (sle_true OK) in E; [|apply swf_of64|auto]. rewrite sval_of64 in E.
  revert E E1 L. destruct (sval (lo X)), (v64 l); cbn [lb ub xle]; intros; try easy; lra.
Qed.
Lemma ieq_str_ok n (X : iv (bscal b)) r : wf_numeral n -> isin X r -> ieq_str b X (render n) = Ok true -> r = value n.
Proof.
  intros W (W1 & W2 & L & U) E. unfold ieq_str in E.
  apply bind_ok in E as (Y & E1 & E). apply istring_ok in E1 as (V1 & V2 & L' & U'); auto.
  injection E as E. apply andb_true_iff in E as (E & E3). apply andb_true_iff in E as (E1 & E2).
  apply (ok_eq _ OK) in E1, E2, E3; auto.
  revert E1 E2 E3 L U L' U'. destruct (sval (lo X)), (sval (hi X)), (sval (lo Y)), (sval (hi Y)); cbn [lb ub xeq];
  intros; try easy; lra.
Qed.
Lemma ine_str_ok n (X : iv (bscal b)) r : wf_numeral n -> isin X r -> ine_str b X (render n) = Ok true -> r <> value n.
Proof.
  intros W H E ->. unfold ine_str in E.
  apply bind_ok in E as (Y & E1 & E). apply istring_ok in E1; auto. injection E as E.
  apply negb_true_iff in E.
  assert (overlap X Y = true); [|congruence].
  apply (overlap_spec OK); [| |exists (value n); auto]; eapply isin_valid; eauto.
Qed.
End Cmp.

(* texts of numerals do not contain the characters that delimit an interval *)
Definition plain (c : ascii) : Prop := c <> ascii_z 91 /\ c <> ascii_z 44 /\ c <> ascii_z 93.
Lemma plain_digits l : Forall digit l -> Forall plain (digits_text l).
Proof.
  induction 1 as [|d l Hd Hl IH]; cbn [digits_text map]; constructor; auto.
  assert (d = 0 \/ d = 1 \/ d = 2 \/ d = 3 \/ d = 4 \/ d = 5 \/ d = 6 \/ d = 7 \/ d = 8 \/ d = 9) as Q
    by (unfold digit in Hd; lia).
  repeat (destruct Q as [->|Q]); [..|subst d]; repeat split; vm_compute; discriminate.
Qed.
Lemma plain_sign s : Forall plain (sign_text s).
Proof. destruct s as [[|]|]; cbn [sign_text]; repeat constructor; vm_compute; discriminate. Qed.
Lemma plain_white l : Forall white l -> Forall plain l.
Proof.
  intros H. eapply Forall_impl; [|exact H]. intros c Hc. unfold white in Hc. cbn [map In] in Hc.
  repeat (destruct Hc as [<-|Hc]; [repeat split; vm_compute; discriminate|]). destruct Hc.
Qed.
Lemma render_plain n : wf_numeral n -> Forall plain (render n).
Proof.
  intros (H1 & H2 & H3 & H4 & _). unfold render. repeat (rewrite Forall_app; split).
  - now apply plain_white.
  - apply plain_sign.
  - now apply plain_digits.
  - unfold n_fracd in H3. destruct (n_frac n); [|constructor]. constructor; [repeat split; vm_compute; discriminate|].
    now apply plain_digits.
  - unfold n_expd in H4. destruct (n_exp n) as [[[u s] e]|]; [|constructor].
    constructor; [destruct u; repeat split; vm_compute; discriminate|].
    rewrite Forall_app. split; [apply plain_sign|now apply plain_digits].
Qed.

Lemma v64_fin_is (x : b64) r : v64 x = XR r -> is_finite x = true /\ B2R x = r.
Proof. destruct x as [s|[|]| |s m e H]; cbn; intros E; try discriminate; injection E as <-; auto. Qed.

Lemma iprint_ok b p f (X : iv (bscal b)) l u : prec_ok f p ->
  sval (lo X) = XR l -> sval (hi X) = XR u ->
  exists n m Y,
    iprint b p f X = Ok (ascii_z 91 :: render n ++ ascii_z 44 :: render m ++ [ascii_z 93]) /\
    wf_numeral n /\ wf_numeral m /\ Forall plain (render n) /\ Forall plain (render m) /\
    (value n <= l)%R /\ (u <= value m)%R /\
    istring2 b (render n) (render m) = Ok Y /\ (forall r, (l <= r <= u)%R -> isin Y r).
Proof.
  intros P HL HU. rewrite <- v64_to64 in HL, HU.
  apply v64_fin_is in HL as (F1 & <-). apply v64_fin_is in HU as (F2 & <-).
  destruct (dtostring_ok (to64 b (lo X)) p f (-1) F1 P) as (n & Wn & En & _ & Vn & Dn & Zn & _).
  destruct (dtostring_ok (to64 b (hi X)) p f 1 F2 P) as (m & Wm & Em & Vm & _ & Dm & Zm & _).
  specialize (Vn eq_refl). specialize (Vm eq_refl).
  destruct (stringtod_total n (-1) Wn Dn Zn) as (a & Ea). destruct (stringtod_total m 1 Wm Dm Zm) as (c & Ec).
  assert (E : istring2 b (render n) (render m) = Ok (mkiv (of64 b a) (of64 b c))).
  { unfold istring2, fromstring_down, fromstring_up. rewrite Ea, Ec. reflexivity. }
  exists n, m, (mkiv (of64 b a) (of64 b c)).
  split; [|do 7 (split; [auto using render_plain|])].
  - unfold iprint. rewrite En, Em. reflexivity.
  - intros r Hr. apply (istring2_ok b n m); auto. lra.
Qed.
