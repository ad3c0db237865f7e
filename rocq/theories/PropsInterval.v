(* Property theorems for kv/interval.hpp arithmetic and set operations.  Each is followed by a
   concrete instance of its hypotheses and by Print Assumptions. *)
From Coq Require Import Reals Lra Lia ZArith Bool.
From Flocq Require Import Core BinarySingleNaN.
From Verif Require Import Ext Scalar IntervalModel IntervalSpec IntervalProofs IntervalEncl IntervalSets
  IntervalDivPow IntervalMore Fp64 RDoubleHw Ex64.
Open Scope R_scope.

(* ---- C05 ---- *)
(* Any sequence of rop<double> calls between begin() and end(): every call returns its exact
   value rounded in the direction its name says, and the FPU is still in upward mode. *)
Theorem C05_hw_calls : forall cs : list ropcall, (forall c, List.In c cs -> call_defined c) ->
  List.map v64 (fst (run_calls cs hw_begin)) = List.map (fun c => xr (call_dir c) (call_exact c)) cs /\
  snd (run_calls cs hw_begin) = mode_UP.
Proof. exact run_calls_ok. Qed.
Example C05_hw_calls_ex : forall c,
  List.In c (CSqrtD (bdy 2 0) :: CDivD (bdy 1 0) (bdy 3 0) :: CAddD (bdy 1 (-60)) (bdy 1 0) :: nil)%list ->
  call_defined c.
Proof.
  intros c [<-|[<-|[<-|[]]]]; simpl; auto.
  change (v64 (bdy 3 0) <> XR 0). rewrite bdy_v by lia. simpl. intros E; injection E; lra.
Qed.
Print Assumptions C05_hw_calls.

(* The scalar laws used by all interval theorems hold for interval<double> with the hardware
   and with the AVX-512 back end. *)
Theorem C05_hw_scalar_laws : scal_ok D_hw.
Proof. exact D_hw_ok. Qed.
Print Assumptions C05_hw_scalar_laws.
Theorem C05_avx_scalar_laws : scal_ok D_avx.
Proof. exact D_avx_ok. Qed.
Print Assumptions C05_avx_scalar_laws.

Section Generic.
Context {S : scal} (OK : scal_ok S).

(* ---- C07 ---- *)
Theorem C07_add_sub_neg_enclose : forall (X Y : iv S) (x y : R), isin X x -> isin Y y ->
  isin (iadd X Y) (x + y) /\ isin (isub X Y) (x - y) /\ isin (ineg X) (- x).
Proof. intros; split; [|split]; [apply (isin_add OK)|apply (isin_sub OK)|apply (isin_neg OK)]; auto. Qed.
Theorem C07_add_sub_scalar_enclose : forall (X : iv S) (b : S) (x y : R), isin X x -> swf b -> sval b = XR y ->
  isin (iaddS X b) (x + y) /\ isin (iSadd b X) (y + x) /\ isin (isubS X b) (x - y) /\ isin (iSsub b X) (y - x).
Proof.
  intros; split; [|split; [|split]];
  [apply (isin_addS OK)|apply (isin_Sadd OK)|apply (isin_subS OK)|apply (isin_Ssub OK)]; auto.
Qed.

(* ---- C08 ---- *)
Theorem C08_mul_encloses : forall (X Y : iv S) (x y : R), isin X x -> isin Y y -> isin (imul X Y) (x * y).
Proof. exact (isin_mul OK). Qed.
Theorem C08_mul_scalar_encloses : forall (X : iv S) (b : S) (x y : R), isin X x -> swf b -> sval b = XR y ->
  isin (imulS X b) (x * y) /\ isin (iSmul b X) (y * x).
Proof. intros; split; [apply (isin_mulS OK)|apply (isin_Smul OK)]; auto. Qed.

(* ---- C09 ---- *)
Theorem C09_div_throws_iff : forall X Y : iv S, ivalid Y -> (idiv X Y = Err EDomain <-> isin Y 0).
Proof. exact (idiv_throws OK). Qed.
Theorem C09_div_encloses : forall X Y : iv S, ivalid Y -> ~ isin Y 0 ->
  exists Q, idiv X Y = Ok Q /\ forall x y, isin X x -> isin Y y -> isin Q (x / y).
Proof.
  intros X Y V N. destruct (idiv_total OK X Y V N) as [Q HQ]. exists Q; split; auto.
  intros x y Hx Hy. eapply (isin_div OK); eauto.
Qed.
Theorem C09_div_by_scalar : forall (X : iv S) (b : S) (y : R), swf b -> sval b = XR y ->
  (idivS X b = Err EDomain <-> y = 0) /\
  (y <> 0 -> exists Q, idivS X b = Ok Q /\ forall x, isin X x -> isin Q (x / y)).
Proof.
  intros X b y W E. split; [apply (idivS_throws OK); auto|]. intros N.
  destruct (idivS_total OK X b y W E N) as [Q HQ]. exists Q; split; auto.
  intros x Hx. eapply (isin_divS OK); eauto.
Qed.
Theorem C09_div_of_scalar : forall (a : S) (x : R) (Y : iv S), swf a -> sval a = XR x -> ivalid Y ->
  (iSdiv a Y = Err EDomain <-> isin Y 0) /\
  (~ isin Y 0 -> exists Q, iSdiv a Y = Ok Q /\ forall y, isin Y y -> isin Q (x / y)).
Proof.
  intros a x Y W E V. split; [apply (iSdiv_throws OK); auto|]. intros N.
  destruct (iSdiv_total OK a Y V N) as [Q HQ]. exists Q; split; auto.
  intros y Hy. eapply (isin_Sdiv OK); eauto.
Qed.

(* ---- C10 ---- *)
Theorem C10_division_parts_cover : forall (X Y : iv S) R1 parted, division_part1 X Y = Ok (R1, parted) ->
  forall x y, isin X x -> isin Y y -> y <> 0 ->
  isin R1 (x / y) \/ (parted = true /\ exists R2, division_part2 X Y = Ok R2 /\ isin R2 (x / y)).
Proof. intros. eapply (division_part_encl OK); eauto. Qed.
Theorem C10_throws_iff_zero_divisor : forall X Y : iv S, ivalid X -> ivalid Y ->
  (division_part1 X Y = Err EDomain <-> forall y, isin Y y -> y = 0).
Proof. exact (division_part1_throws OK). Qed.
Theorem C10_otherwise_returns : forall X Y : iv S, ivalid X -> ivalid Y ->
  (exists y, isin Y y /\ y <> 0) -> exists r, division_part1 X Y = Ok r.
Proof. exact (division_part1_total OK). Qed.
Theorem C10_parted_iff : forall (X Y : iv S) R1 parted, ivalid X -> ivalid Y ->
  division_part1 X Y = Ok (R1, parted) ->
  (parted = true <-> (exists y, isin Y y /\ y < 0) /\ (exists y, isin Y y /\ 0 < y) /\ ~ isin X 0).
Proof. exact (division_parted OK). Qed.

(* ---- C11 ---- *)
Theorem C11_sqrt_throws_iff : forall X : iv S, ivalid X ->
  (isqrt X = Err EDomain <-> exists x, isin X x /\ x < 0).
Proof. exact (isqrt_throws OK). Qed.
Theorem C11_sqrt_encloses : forall X : iv S, ivalid X -> (forall x, isin X x -> 0 <= x) ->
  exists Q, isqrt X = Ok Q /\ forall x, isin X x -> isin Q (sqrt x).
Proof.
  intros X V N. destruct (isqrt_total OK X V N) as [Q HQ]. exists Q; split; auto.
  intros. eapply (isin_sqrt OK); eauto.
Qed.

(* ---- C12 ---- *)
Theorem C12_closed_arith : forall X Y : iv S, ivalid X -> ivalid Y ->
  ivalid (iadd X Y) /\ ivalid (isub X Y) /\ ivalid (imul X Y) /\ ivalid (ineg X) /\
  (forall Q, idiv X Y = Ok Q -> ivalid Q) /\ (forall Q, isqrt X = Ok Q -> ivalid Q).
Proof.
  intros X Y VX VY. split; [|split; [|split; [|split; [|split]]]].
  - apply (valid_add OK); auto. - apply (valid_sub OK); auto. - apply (valid_mul OK); auto.
  - apply (valid_neg OK); auto. - intros; eapply (valid_div OK X Y); eauto. - intros; eapply (valid_sqrt OK X); eauto.
Qed.
Theorem C12_closed_sets : forall X Y : iv S, ivalid X -> ivalid Y ->
  ivalid (hull X Y) /\ ivalid (iabs X) /\ ivalid (imax X Y) /\ ivalid (imin X Y) /\
  (forall n Q, ipow X n = Ok Q -> ivalid Q).
Proof.
  intros X Y VX VY. split; [|split; [|split; [|split]]].
  - apply (valid_hull OK); auto. - apply (valid_abs OK); auto. - apply (valid_max OK); auto.
  - apply (valid_min OK); auto. - intros; eapply (valid_pow OK X); eauto.
Qed.
Theorem C12_closed_scalar_forms : forall (X : iv S) (b : S) (y : R), ivalid X -> swf b -> sval b = XR y ->
  ivalid (iaddS X b) /\ ivalid (iSadd b X) /\ ivalid (isubS X b) /\ ivalid (iSsub b X) /\
  ivalid (imulS X b) /\ ivalid (iSmul b X) /\
  (forall Q, idivS X b = Ok Q -> ivalid Q) /\ (forall Q, iSdiv b X = Ok Q -> ivalid Q) /\
  ivalid (hullIS X b) /\ ivalid (hullSI b X).
Proof. exact (valid_scalar OK). Qed.

(* ---- C15 ---- *)
Theorem C15_order_means_certainly : forall X Y : iv S, ivalid X -> ivalid Y ->
  (ilt X Y = true <-> forall x y, isin X x -> isin Y y -> x < y) /\
  (ile X Y = true <-> forall x y, isin X x -> isin Y y -> x <= y) /\
  (igt X Y = true <-> forall x y, isin X x -> isin Y y -> x > y) /\
  (ige X Y = true <-> forall x y, isin X x -> isin Y y -> x >= y).
Proof.
  intros X Y VX VY. split; [|split; [|split]];
  [apply (ilt_spec OK)|apply (ile_spec OK)|apply (igt_spec OK)|apply (ige_spec OK)]; auto.
Qed.
Theorem C15_order_with_scalar : forall (X : iv S) (b : S) (r : R), ivalid X -> swf b -> sval b = XR r ->
  (iltS X b = true <-> forall x, isin X x -> x < r) /\
  (ileS X b = true <-> forall x, isin X x -> x <= r) /\
  (igtS X b = true <-> forall x, isin X x -> x > r) /\
  (igeS X b = true <-> forall x, isin X x -> x >= r).
Proof.
  intros X b r V W E. split; [|split; [|split]];
  [apply (iltS_spec OK)|apply (ileS_spec OK)|apply (igtS_spec OK)|apply (igeS_spec OK)]; auto.
Qed.
Theorem C15_order_scalar_first : forall (X : iv S) (b : S) (r : R), ivalid X -> swf b -> sval b = XR r ->
  (iSlt b X = true <-> forall x, isin X x -> r < x) /\
  (iSle b X = true <-> forall x, isin X x -> r <= x) /\
  (iSgt b X = true <-> forall x, isin X x -> r > x) /\
  (iSge b X = true <-> forall x, isin X x -> r >= x).
Proof.
  intros X b r V W E. split; [|split; [|split]].
  - change (iSlt b X) with (igtS X b). rewrite (igtS_spec OK X b r V W E). split; intros H x Hx; apply Rgt_lt || apply Rlt_gt; now apply H.
  - change (iSle b X) with (igeS X b). rewrite (igeS_spec OK X b r V W E). split; intros H x Hx; apply Rge_le || apply Rle_ge; now apply H.
  - change (iSgt b X) with (iltS X b). rewrite (iltS_spec OK X b r V W E). split; intros H x Hx; apply Rgt_lt || apply Rlt_gt; now apply H.
  - change (iSge b X) with (ileS X b). rewrite (ileS_spec OK X b r V W E). split; intros H x Hx; apply Rge_le || apply Rle_ge; now apply H.
Qed.
Theorem C15_equality_with_scalar : forall (X : iv S) (b : S) (r : R), ivalid X -> swf b -> sval b = XR r ->
  (ieqS X b = true <-> forall x, isin X x -> x = r) /\
  (ineqS X b = true <-> forall x, isin X x -> x <> r).
Proof.
  intros X b r V W E. pose proof (valid_pt b r W E) as VB. split.
  - assert (Q : ieqS X b = ieq X (ipt b)).
    { unfold ieqS, ieq, ipt; cbn [lo hi]. replace (seqb b b) with true; [now rewrite andb_true_r|]. symmetry. apply (ok_eq _ OK); auto. rewrite E; simpl; reflexivity. }
    rewrite Q, (ieq_spec OK X (ipt b) V VB). split; intros H x; [intros Hx; apply (H x r Hx); now apply (isin_ipt_iff b r)|].
    intros y Hx Hy. apply (isin_ipt_iff b r) in Hy; auto. subst. auto.
  - change (ineqS X b) with (ineqb X (ipt b)). rewrite (ineqb_spec OK X (ipt b) V VB). split; intros H x; [intros Hx; apply (H x r Hx); now apply (isin_ipt_iff b r)|].
    intros y Hx Hy. apply (isin_ipt_iff b r) in Hy; auto. subst. auto.
Qed.
Theorem C15_equality : forall X Y : iv S, ivalid X -> ivalid Y ->
  (ieq X Y = true <-> forall x y, isin X x -> isin Y y -> x = y) /\
  (ineqb X Y = true <-> forall x y, isin X x -> isin Y y -> x <> y).
Proof. intros X Y VX VY. split; [apply (ieq_spec OK)|apply (ineqb_spec OK)]; auto. Qed.

(* ---- C16 ---- *)
Theorem C16_membership : forall (X : iv S) (a : S) (r : R), ivalid X -> swf a -> sval a = XR r ->
  (iin a X = true <-> isin X r) /\ (zero_in X = true <-> isin X 0).
Proof. intros X a r V W E. split; [apply (iin_spec OK)|apply (zero_in_spec OK)]; auto. Qed.
Theorem C16_relations : forall X Y : iv S, ivalid X -> ivalid Y ->
  (isubset X Y = true <-> forall r, isin X r -> isin Y r) /\
  (iproper X Y = true <-> (forall r, isin X r -> isin Y r) /\ (exists r, isin Y r /\ ~ isin X r)) /\
  (overlap X Y = true <-> exists r, isin X r /\ isin Y r).
Proof.
  intros X Y VX VY. split; [|split]; [apply (isubset_spec OK)|apply (iproper_spec OK)|apply (overlap_spec OK)]; auto.
Qed.
Theorem C16_intersection : forall X Y : iv S, ivalid X -> ivalid Y ->
  (forall r, isin (intersect X Y) r <-> isin X r /\ isin Y r) /\
  (slt (hi (intersect X Y)) (lo (intersect X Y)) = true <-> forall r, ~ (isin X r /\ isin Y r)).
Proof. intros X Y VX VY. split; [intros; apply (isin_intersect OK)|apply (intersect_empty OK)]; auto. Qed.
Theorem C16_hull : forall (X Y : iv S) (r : R), ivalid X -> ivalid Y ->
  (isin (hull X Y) r <-> exists p q, (isin X p \/ isin Y p) /\ (isin X q \/ isin Y q) /\ p <= r <= q).
Proof. exact (isin_hull OK). Qed.
Theorem C16_hull_scalars : forall (a b : S) (p q r : R), swf a -> swf b -> sval a = XR p -> sval b = XR q ->
  (isin (hullSS a b) r <-> Rmin p q <= r <= Rmax p q).
Proof. exact (isin_hullSS OK). Qed.

(* ---- C18 ---- *)
Theorem C18_mag_mig_exact : forall X : iv S, ivalid X ->
  (forall x, isin X x -> ub (sval (mag X)) (Rabs x) /\ lb (sval (mig X)) (Rabs x)) /\
  (forall r, (forall x, isin X x -> Rabs x <= r) -> xle (sval (mag X)) (XR r)) /\
  (forall r, (forall x, isin X x -> r <= Rabs x) -> xle (XR r) (sval (mig X))).
Proof.
  intros X V. split; [|split].
  - intros x Hx. split; [apply (mag_ub OK)|apply (mig_lb OK)]; auto.
  - intros; apply (mag_lub OK); auto.
  - intros; apply (mig_glb OK); auto.
Qed.
Theorem C18_abs_max_min_exact : forall (X Y : iv S) (r : R), ivalid X -> ivalid Y ->
  (isin (iabs X) r <-> exists x, isin X x /\ r = Rabs x) /\
  (isin (imax X Y) r <-> exists x y, isin X x /\ isin Y y /\ r = Rmax x y) /\
  (isin (imin X Y) r <-> exists x y, isin X x /\ isin Y y /\ r = Rmin x y).
Proof.
  intros X Y r VX VY. split; [|split]; [apply (isin_abs OK)|apply (isin_max OK)|apply (isin_min OK)]; auto.
Qed.

(* ---- C19 ---- *)
Theorem C19_pow_encloses : forall (X : iv S) (n : Z) Q, ipow X n = Ok Q ->
  forall x, isin X x -> ((n < 0)%Z -> x <> 0) /\ isin Q (powerRZ x n).
Proof. intros. eapply (ipow_encl OK); eauto. Qed.
Theorem C19_pow_nonneg_returns : forall (X : iv S) (n : Z), (0 <= n)%Z -> exists Q, ipow X n = Ok Q.
Proof. exact ipow_total_pos. Qed.
Theorem C19_pow_negative_throws : forall (X : iv S) (n : Z), (-2147483648 < n < 0)%Z -> isin X 0 ->
  ipow X n = Err EDomain.
Proof. intros. eapply (ipow_throws OK); eauto. Qed.
End Generic.
Print Assumptions C07_add_sub_neg_enclose.
Print Assumptions C07_add_sub_scalar_enclose.
Print Assumptions C08_mul_encloses.
Print Assumptions C08_mul_scalar_encloses.
Print Assumptions C09_div_throws_iff.
Print Assumptions C09_div_encloses.
Print Assumptions C09_div_by_scalar.
Print Assumptions C09_div_of_scalar.
Print Assumptions C10_division_parts_cover.
Print Assumptions C10_throws_iff_zero_divisor.
Print Assumptions C10_otherwise_returns.
Print Assumptions C10_parted_iff.
Print Assumptions C11_sqrt_throws_iff.
Print Assumptions C11_sqrt_encloses.
Print Assumptions C12_closed_arith.
Print Assumptions C12_closed_sets.
Print Assumptions C12_closed_scalar_forms.
Print Assumptions C15_order_means_certainly.
Print Assumptions C15_order_with_scalar.
Print Assumptions C15_order_scalar_first.
Print Assumptions C15_equality_with_scalar.
Print Assumptions C15_equality.
Print Assumptions C16_membership.
Print Assumptions C16_relations.
Print Assumptions C16_intersection.
Print Assumptions C16_hull.
Print Assumptions C16_hull_scalars.
Print Assumptions C18_mag_mig_exact.
Print Assumptions C18_abs_max_min_exact.
Print Assumptions C19_pow_encloses.
Print Assumptions C19_pow_nonneg_returns.
Print Assumptions C19_pow_negative_throws.

(* Concrete instances (interval<double>, hardware back end; D_hw_ok discharges scal_ok). *)
(* C07, C08, C12, C15, C16, C18: bounded, mixed-sign and unbounded operands *)
Example C07_ex : isin (qiv (-1) 0 3 (-1)) (1/2) /\ isin (qivl (-5) 2) (-30) /\ isin (qivr 0 0) 100.
Proof. split; [qin|split; qin]. Qed.
Example C07_scalar_ex : @sval D_hw (bdy 3 (-2)) = XR (3 * bpow radix2 (-2)) /\ @swf D_hw (bdy 3 (-2)).
Proof. split; [apply qv; lia|exact I]. Qed.
(* [0,0] * [0,+inf]: the 0*inf case *)
Example C08_ex : isin (qiv 0 0 0 0) 0 /\ isin (qivr 0 0) 7 /\ isin (imul (qiv 0 0 0 0) (qivr 0 0)) (0 * 7).
Proof.
  split; [qin|split; [qin|]]. apply (C08_mul_encloses D_hw_ok); qin.
Qed.
Example C09_ex : ivalid (qiv 1 0 3 0) /\ ~ isin (qiv 1 0 3 0) 0 /\ isin (qiv (-1) 0 3 0) 0.
Proof.
  split; [qval 2|split; [|qin]].
  intros (_ & _ & L & _). unfold qiv, lo in L. rewrite qv in L by lia. simpl in L. lra.
Qed.
Example C10_ex : exists R1 parted, division_part1 (qiv 1 0 2 0) (qiv (-1) 0 3 0) = Ok (R1, parted).
Proof.
  destruct (C10_otherwise_returns D_hw_ok (qiv 1 0 2 0) (qiv (-1) 0 3 0)) as [[R1 p] E].
  - qval 1. - qval 1. - exists 1; split; [qin|lra]. - eauto.
Qed.
Example C11_ex : ivalid (qiv 0 0 2 0) /\ (forall x, isin (qiv 0 0 2 0) x -> 0 <= x) /\
  ivalid (qiv (-1) 0 2 0) /\ (exists x, isin (qiv (-1) 0 2 0) x /\ x < 0).
Proof.
  split; [qval 1|split; [|split; [qval 1|exists (-1); split; [qin|lra]]]].
  intros x (_ & _ & L & _). unfold qiv, lo in L. rewrite qv in L by lia. simpl in L. lra.
Qed.
Example C12_ex : ivalid (qiv (-1) 0 2 0) /\ ivalid (@iwhole D_hw).
Proof. split; [qval 1|apply (isin_valid _ 0), (isin_whole D_hw_ok)]. Qed.
(* C15: a comparison and its converse both false *)
Example C15_ex : ilt (qiv 0 0 2 0) (qiv 1 0 3 0) = false /\ ige (qiv 0 0 2 0) (qiv 1 0 3 0) = false.
Proof. split; reflexivity. Qed.
Example C16_ex : isubset (qiv 0 0 2 0) (qiv 0 0 3 0) = true /\ iproper (qiv 0 0 2 0) (qiv 0 0 3 0) = true /\
  overlap (qiv 0 0 1 0) (qiv 2 0 3 0) = false.
Proof. repeat split; reflexivity. Qed.
Example C19_ex : exists Q, ipow (qiv (-3) 0 2 0) 4 = Ok Q /\ isin (qiv (-3) 0 2 0) (-2).
Proof. destruct (C19_pow_nonneg_returns (qiv (-3) 0 2 0) 4) as [Q E]; [lia|]. exists Q; split; auto. qin. Qed.
