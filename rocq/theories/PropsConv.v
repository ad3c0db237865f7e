(* Property theorems: decimal texts and doubles (C30-C33); texts of any length, every finite double,
   every back end. *)
From Coq Require Import ZArith Reals Lra Lia List Bool Ascii String.
From Flocq Require Import Core BinarySingleNaN.
From Verif Require Import Fp64 Ext Scalar IntervalModel IntervalSpec Backends Ex64.
From Verif Require Import ConvModel ConvSpec ConvRead ConvFmt ConvIv.
Import ListNotations.
Open Scope Z_scope.

Definition txt (s : string) : list ascii := list_ascii_of_string s.
Definition onum (sg : option bool) i f e := mkn [] sg i f e.

(* ---- C30: reading is outward ---- *)
Theorem C30_reading_outward : forall n mode d, wf_numeral n -> stringtod (render n) mode = Ok d ->
  (mode = 1 -> ub (v64 d) (value n)) /\ (mode = -1 -> lb (v64 d) (value n)).
Proof. exact stringtod_ok. Qed.

Theorem C30_interval_contains : forall (b : backend) n X, wf_numeral n -> istring b (render n) = Ok X ->
  isin X (value n).
Proof. exact istring_ok. Qed.

Theorem C30_interval_two_texts : forall (b : backend) n m X, wf_numeral n -> wf_numeral m ->
  istring2 b (render n) (render m) = Ok X -> forall r, (value n <= r <= value m)%R -> isin X r.
Proof. exact istring2_ok. Qed.

(* comparisons of an interval with a text: a true answer holds for every point *)
Theorem C30_compare_text : forall (b : backend) n (X : iv (bscal b)) r, wf_numeral n -> isin X r ->
  (ilt_str b X (render n) = Ok true -> (r < value n)%R) /\
  (ile_str b X (render n) = Ok true -> (r <= value n)%R) /\
  (str_lt b (render n) X = Ok true -> (value n < r)%R) /\
  (str_le b (render n) X = Ok true -> (value n <= r)%R) /\
  (ieq_str b X (render n) = Ok true -> r = value n) /\
  (ine_str b X (render n) = Ok true -> r <> value n).
Proof.
  exact (fun b n X r W H => conj (ilt_str_ok b n X r W H) (conj (ile_str_ok b n X r W H)
    (conj (str_lt_ok b n X r W H) (conj (str_le_ok b n X r W H)
    (conj (ieq_str_ok b n X r W H) (ine_str_ok b n X r W H)))))).
Qed.

(* "-0.1e+1" is a numeral of value -1; 0.1 lies strictly inside interval("0.1") *)
Example C30_hyp1 :
  let n := onum (Some true) [0] (Some [1]) (Some (false, Some false, [1])) in
  wf_numeral n /\ render n = txt "-0.1e+1" /\ value n = (-1)%R /\
  match stringtod (txt "-0.1e+1") 1 with Ok d => B2SF d = B2SF (bdy (-1) 0) | Err _ => False end.
Proof.
  cbv zeta. split; [|split; [vm_compute; reflexivity|split; [|vm_compute; reflexivity]]].
  - repeat split; cbn; repeat constructor; unfold digit; try lia; discriminate.
  - unfold value, onum, n_e10, n_fracd; cbn [n_sign n_int n_frac n_exp dsum List.length sgn].
    change (powerRZ 10 (- Z.of_nat 1)) with (/ 10 ^ 1)%R. change (powerRZ 10 (1 * 10 ^ Z.of_nat 0 + 0)) with (10 ^ 1)%R.
    change (1 * 10 ^ Z.of_nat 0 + 0) with 1. change (0 * 10 ^ Z.of_nat 0 + 0) with 0. field.
Qed.
Example C30_hyp2 :
  render (onum None [0] (Some [1]) None) = txt "0.1" /\
  match istring BHw (txt "0.1") with
  | Ok X => B2SF (lo X) = B2SF (bdy 7205759403792793 (-56)) /\ B2SF (hi X) = B2SF (bdy 3602879701896397 (-55))
  | Err _ => False end.
Proof. split; [vm_compute; reflexivity|]. vm_compute. split; reflexivity. Qed.

(* ---- C31: printing is outward, and off by at most one unit of the last digit asked for
   (half a unit in the nearest mode; nothing in the full format) ---- *)
Theorem C31_printing_outward_partial : forall (x : b64) p f mode, is_finite x = true -> prec_ok f p ->
  exists n, wf_numeral n /\ dtostring x p f mode = Ok (render n) /\
    (mode = 1 -> (B2R x <= value n)%R) /\ (mode = -1 -> (value n <= B2R x)%R) /\
    (Rabs (value n - B2R x) <= out_err f p mode (B2R x))%R.
Proof.
  intros x p f mode F P. destruct (dtostring_ok x p f mode F P) as (n & H1 & H2 & H3 & H4 & _ & _ & H5).
  exists n. auto.
Qed.
(* missing from the above: 'g' with precision 0 (prec_ok asks for 1).  There the claim is false:
   the digit array is read outside its bounds. *)
Theorem C31_precision0_refuted :
  exists x : b64, is_finite x = true /\ B2R x = 5%R /\ dtostring x 0 FmtG 1 = Err EUB.
Proof.
  exists (bdy 5 0). split; [reflexivity|]. split.
  { apply v64_XR. rewrite bdy_v by (simpl; lia). f_equal. cbn. lra. }
  vm_compute. reflexivity.
Qed.

Example C31_hyp :
  dtostring (bdy 3602879701896397 (-55)) 3 FmtG 1 = Ok (txt "0.101") /\
  dtostring (bdy 3602879701896397 (-55)) 3 FmtG (-1) = Ok (txt "0.1") /\
  dtostring (bdy (-999) 0) 2 FmtE (-1) = Ok (txt "-9.99e+02") /\
  dtostring (bdy (-999) 0) 1 FmtE (-1) = Ok (txt "-1e+03") /\ prec_ok FmtE 1 /\ prec_ok FmtG 3.
Proof.
  split; [vm_compute; reflexivity|]. split; [vm_compute; reflexivity|]. split; [vm_compute; reflexivity|].
  split; [vm_compute; reflexivity|]. cbn. lia.
Qed.

(* ---- C32: reading is defined ---- *)
Theorem C32_defined_partial : forall n mode, wf_numeral n ->
  dsum (n_expd n) < 2 ^ 31 -> (value n <> 0%R \/ 0 <= n_e10 n) ->
  exists d, stringtod (render n) mode = Ok d.
Proof. exact stringtod_total. Qed.
(* missing: numerals that denote 0 with a negative exponent (result2.front() of an empty list), and
   exponents that do not fit an int (atoi) *)
Theorem C32_zero_refuted : exists n, wf_numeral n /\ render n = txt "0e-5" /\
  forall mode, stringtod (render n) mode = Err EUB.
Proof.
  exists (onum None [0] None (Some (false, Some true, [5]))).
  split; [repeat split; cbn; repeat constructor; unfold digit; try lia; discriminate|].
  split; [vm_compute; reflexivity|]. intros. vm_compute. reflexivity.
Qed.
Theorem C32_exponent_refuted : exists n, wf_numeral n /\ render n = txt "1e2147483648" /\
  forall mode, stringtod (render n) mode = Err EUB.
Proof.
  exists (onum None [1] None (Some (false, None, [2; 1; 4; 7; 4; 8; 3; 6; 4; 8]))).
  split; [repeat split; cbn; repeat constructor; unfold digit; try lia; discriminate|].
  split; [vm_compute; reflexivity|]. intros. vm_compute. reflexivity.
Qed.
Example C32_hyp :
  let n := onum None [] (Some [0; 0; 5]) (Some (true, Some true, [3; 0])) in
  wf_numeral n /\ render n = txt ".005E-30" /\ dsum (n_expd n) < 2 ^ 31 /\ value n <> 0%R.
Proof.
  cbv zeta. split; [repeat split; cbn; repeat constructor; unfold digit; try lia; discriminate|].
  split; [vm_compute; reflexivity|]. split; [vm_compute; reflexivity|].
  unfold value, onum, n_e10, n_fracd; cbn [n_sign n_int n_frac n_exp dsum List.length sgn].
  match goal with |- (1 * (?u + ?v * ?a) * ?c)%R <> _ => change u with 0%R; change v with 5%R;
    assert (0 < a)%R by (apply powerRZ_lt; lra); assert (0 < c)%R by (apply powerRZ_lt; lra);
    apply Rgt_not_eq; apply Rmult_lt_0_compat; [lra|auto] end.
Qed.

(* ---- C33: printing an interval and reading it back ---- *)
Theorem C33_print_read : forall (b : backend) p f (X : iv (bscal b)) l u, prec_ok f p ->
  sval (lo X) = XR l -> sval (hi X) = XR u ->
  exists n m Y,
    iprint b p f X = Ok (ascii_z 91 :: render n ++ ascii_z 44 :: render m ++ [ascii_z 93]) /\
    wf_numeral n /\ wf_numeral m /\ Forall plain (render n) /\ Forall plain (render m) /\
    (value n <= l)%R /\ (u <= value m)%R /\
    istring2 b (render n) (render m) = Ok Y /\ (forall r, (l <= r <= u)%R -> isin Y r).
Proof. exact iprint_ok. Qed.

Example C33_hyp :
  let X := mkiv (bdy 1 (-2) : bscal BHw) (bdy 5 (-3)) in
  sval (lo X) = XR (1 / 4) /\ sval (hi X) = XR (5 / 8) /\ prec_ok FmtG 2 /\
  iprint BHw 2 FmtG X = Ok (txt "[0.25,0.63]").
Proof.
  cbv zeta. split; [|split; [|split; [cbn; lia|vm_compute; reflexivity]]].
  - change (v64 (bdy 1 (-2)) = XR (1 / 4)). rewrite bdy_v by (simpl; lia). apply f_equal. cbn. lra.
  - change (v64 (bdy 5 (-3)) = XR (5 / 8)). rewrite bdy_v by (simpl; lia). apply f_equal. cbn. lra.
Qed.

Definition conv_all := (C30_reading_outward, C30_interval_contains, C30_interval_two_texts, C30_compare_text,
  C31_printing_outward_partial, C31_precision0_refuted, C32_defined_partial, C32_zero_refuted,
  C32_exponent_refuted, C33_print_read).
Print Assumptions conv_all.
