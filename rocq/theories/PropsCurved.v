(* Property theorems: doubleint_curvededge and doubleint_curvededge_s (C110), for every double back end and all function objects. *)
From Coq Require Import Reals ZArith QArith Bool List Lra Lia Psatz Arith.
From Coquelicot Require Import Coquelicot.
From Flocq Require Import Core BinarySingleNaN.
From Verif Require Import Fp64 RDoubleHw.
From Verif Require Import Ext Scalar IntervalModel IntervalSpec IntervalProofs IntervalEncl IntervalSets Backends Ex64 ElemModel PropsElem.
From Verif Require Import RealFun ADModel ADReal ADProofs ADInst PsaModel PsaExpr PsaInst NcModel NcRule NcProofs PropsNc DncModel DncProofs PropsDnc CurvedModel.
Import List ListNotations.
Open Scope R_scope.

(* the integral over x of the integral from L(x) to H(x) *)
Definition curved_integral (F : R -> R -> R) (L H : R -> R) (a c J : R) : Prop :=
  (forall x, between a c x -> ex_RInt (F x) (L x) (H x)) /\ is_RInt (fun x => RInt (F x) (L x) (H x)) a c J.
(* f encloses F over the region, el and eh enclose L and H *)
Definition edge_encl {b} (el : iv (bscal b) -> res (iv (bscal b))) (L : R -> R) (a c : R) : Prop := forall X V x, between a c x -> el X = Ok V -> isin X x -> isin V (L x).
Definition region_encl {b} (f : iv (bscal b) -> iv (bscal b) -> res (iv (bscal b))) (F : R -> R -> R) (L H : R -> R) (a c : R) : Prop :=
  forall X Y V x y, between a c x -> between (L x) (H x) y -> f X Y = Ok V -> isin X x -> isin Y y -> isin V (F x y).
(* the integrand on the rectangle: height s between the edges *)
Definition strip (F : R -> R -> R) (L H : R -> R) (x s : R) : R := F x ((1 - s) * L x + s * H x) * (H x - L x).

Lemma strip_int F L H x J : is_RInt (F x) (L x) (H x) J -> is_RInt (strip F L H x) 0 1 J.
Proof.
  intros I. pose proof (is_RInt_comp_lin (V := R_NormedModule) (F x) (H x - L x) (L x) 0 1 J) as K.
  replace ((H x - L x) * 0 + L x) with (L x) in K by ring. replace ((H x - L x) * 1 + L x) with (H x) in K by ring.
  refine (is_RInt_ext _ _ _ _ _ _ (K I)). intros s _. change (Hierarchy.scal (H x - L x) (F x ((H x - L x) * s + L x))) with ((H x - L x) * F x ((H x - L x) * s + L x)). unfold strip.
  replace ((1 - s) * L x + s * H x) with ((H x - L x) * s + L x) by ring. apply Rmult_comm.
Qed.
Lemma strip_int2 F L H a c J : curved_integral F L H a c J -> integral2 (strip F L H) a c 0 1 J.
Proof.
  intros [E I]. split.
  - intros x Hx. destruct (E x Hx) as [l Hl]. exists l. now apply strip_int.
  - apply (is_RInt_ext (V := R_NormedModule) (fun x => RInt (F x) (L x) (H x))); [|exact I]. intros x Hx. symmetry. apply (is_RInt_unique (V := R_CompleteNormedModule)). apply strip_int. apply (RInt_correct (V := R_CompleteNormedModule)). apply E. split; lra.
Qed.
Lemma strip_encl b f F el eh L H a c : region_encl (b := b) f F L H a c -> edge_encl el L a c -> edge_encl eh H a c -> encloses2 (curved_edge f el eh) (strip F L H) a c 0 1.
Proof.
  intros EF EL EH X Y V x y Hx Hy R RX RY. unfold curved_edge in R. destruct (el X) as [t|] eqn:E1; [|discriminate R]. destruct (eh X) as [e|] eqn:E2; [|discriminate R]. cbn [bind] in R.
  destruct (f X (iadd t (imul Y (isub e t)))) as [v|] eqn:E3; [|discriminate R]. cbn [bind] in R. injection R as <-.
  pose proof (EL X t x Hx E1 RX) as T. pose proof (EH X e x Hx E2 RX) as T'. pose proof (isin_sub (bscal_ok b) _ _ _ _ T' T) as W. unfold strip. apply (isin_mul (bscal_ok b)); [|exact W].
  apply (EF X (iadd t (imul Y (isub e t))) v x ((1 - y) * L x + y * H x) Hx); [|exact E3|exact RX|].
  - unfold between in *. rewrite Rmin_left, Rmax_right in Hy by lra. unfold Rmin, Rmax. destruct (Rle_dec (L x) (H x)); nra.
  - replace ((1 - y) * L x + y * H x) with (L x + y * (H x - L x)) by ring. apply (isin_add (bscal_ok b)); [exact T|]. now apply (isin_mul (bscal_ok b)).
Qed.
Lemma pt0 b : isin (S := bscal b) (ipt s0) 0.
Proof. destruct (ok_s0 _ (bscal_ok b)) as [W E]. split; [exact W|]. split; [exact W|]. cbn [ipt lo hi]. rewrite E. simpl. lra. Qed.
Lemma pt1 b : isin (S := bscal b) (ipt s1) 1.
Proof. destruct (ok_s1 _ (bscal_ok b)) as [W E]. split; [exact W|]. split; [exact W|]. cbn [ipt lo hi]. rewrite E. simpl. lra. Qed.

(* ---- C110 ---- *)
(* PARTIAL: as C109, the ranges of the partial derivatives of the converted integrand are assumed right, and only n = 1, 2, 4, 6 *)
Theorem C110_curvededge_partial : forall b fuel f el eh F L H Gx Gy (hd_x hd_y start end_ r : iv (bscal b)) est1 est2 n m1 m2 a c J,
  In n [1; 2; 4; 6]%Z -> good_steps (steps2 m1 m2 est1 est2) -> region_encl f F L H a c -> edge_encl el L a c -> edge_encl eh H a c ->
  partials (strip F L H) Gx Gy a c 0 1 ->
  (forall x y, between a c x -> between 0 1 y -> isin hd_x (Gx (err_order n) x y) /\ isin hd_y (Gy (err_order n) x y)) ->
  isin start a -> isin end_ c -> curved_integral F L H a c J ->
  doubleint_curvededge (bpar b) fuel f el eh hd_x hd_y est1 est2 start end_ n m1 m2 = Ok r -> isin r J.
Proof.
  intros b fuel f el eh F L H Gx Gy HX HY A E r est1 est2 n m1 m2 a c J Hn GS EF EL EH PG HD RA RE HJ R. unfold doubleint_curvededge in R.
  refine (C109_encloses_partial b fuel _ (strip F L H) Gx Gy HX HY A E (ipt s0) (ipt s1) r est1 est2 n m1 m2 a c 0 1 J Hn GS PG _ HD RA RE (pt0 b) (pt1 b) (strip_int2 _ _ _ _ _ _ HJ) R). now apply strip_encl.
Qed.
(* the variant with the edges x = L(y), x = H(y); m1 is the number of steps in x *)
Theorem C110_curvededge_s_partial : forall b fuel f el eh F L H Gx Gy (hd_x hd_y start end_ r : iv (bscal b)) est1 est2 n m1 m2 a c J,
  In n [1; 2; 4; 6]%Z -> good_steps (steps2 m2 m1 est1 est2) -> (forall X Y V x y, between a c y -> between (L y) (H y) x -> f X Y = Ok V -> isin X x -> isin Y y -> isin V (F x y)) -> edge_encl el L a c -> edge_encl eh H a c ->
  partials (fun y s => F ((1 - s) * L y + s * H y) y * (H y - L y)) Gx Gy a c 0 1 ->
  (forall y s, between a c y -> between 0 1 s -> isin hd_x (Gx (err_order n) y s) /\ isin hd_y (Gy (err_order n) y s)) ->
  isin start a -> isin end_ c -> (forall y, between a c y -> ex_RInt (fun x => F x y) (L y) (H y)) -> is_RInt (fun y => RInt (fun x => F x y) (L y) (H y)) a c J ->
  doubleint_curvededge_s (bpar b) fuel f el eh hd_x hd_y est1 est2 start end_ n m1 m2 = Ok r -> isin r J.
Proof.
  intros b fuel f el eh F L H Gx Gy HX HY A E r est1 est2 n m1 m2 a c J Hn GS EF EL EH PG HD RA RE EX HJ R. unfold doubleint_curvededge_s in R.
  refine (C110_curvededge_partial b fuel (swap_xy f) el eh (fun y x => F x y) L H Gx Gy HX HY A E r est1 est2 n m2 m1 a c J Hn GS _ EL EH PG HD RA RE (conj EX HJ) R).
  intros X Y V y x Hy Hx RV HX' HY'. exact (EF Y X V x y Hy Hx RV HY' HX').
Qed.
Theorem C110_range : forall b fuel f el eh (hd_x hd_y start end_ : iv (bscal b)) est1 est2 n m1 m2, (n < 1 \/ 7 < n)%Z ->
  doubleint_curvededge (bpar b) fuel f el eh hd_x hd_y est1 est2 start end_ n m1 m2 = Err EDomain /\ doubleint_curvededge_s (bpar b) fuel f el eh hd_x hd_y est1 est2 start end_ n m1 m2 = Err EDomain.
Proof. intros. split; now apply C109_range. Qed.

(* ---- examples ---- *)
(* y over the triangle 0 <= y <= x <= 2, with n = 2 *)
Local Notation tri_run := (doubleint_curvededge (S := bscal BHw) (bpar BHw) 60 (mf 0 1) (fun _ => Ok (ipt s0)) (fun X => Ok X) (qiv 0 0 0 0) (qiv 0 0 0 0) 1 1 (qiv 0 0 0 0) (qiv 2 0 2 0) 2 2 4).
Lemma tri_r : inlim 1 2 tri_run = true.
Proof. vm_compute. reflexivity. Qed.
Lemma tri_partials : partials (strip (mF 0 1) (fun _ => 0) (fun x => x)) (mFx 2 1) (mFy 2 1) 0 2 0 1.
Proof.
  intros x y Hx Hy. destruct (mF_partials 2 1 0 2 0 1 x y Hx Hy) as (A & B & D). unfold strip. replace (mF 0 1 x ((1 - y) * 0 + y * x) * (x - 0)) with (mF 2 1 x y) by (unfold mF; simpl; ring). auto.
Qed.
Lemma tri_int : curved_integral (mF 0 1) (fun _ => 0) (fun x => x) 0 2 (4 / 3).
Proof.
  assert (K : forall x, is_RInt (mF 0 1 x) 0 x (/ 2 * x ^ 2)).
  { intros x. apply (is_RInt_ext (V := R_NormedModule) (fun y => y ^ 1)); [intros; unfold mF; simpl; ring|]. replace (/ 2 * x ^ 2) with (x ^ 2 / INR 2) by (simpl; field). apply pow_int. }
  split; [intros x _; eexists; apply K|]. apply (is_RInt_ext (V := R_NormedModule) (fun x => / 2 * x ^ 2)).
  - intros x _. symmetry. apply (is_RInt_unique (V := R_CompleteNormedModule)), K.
  - replace (4 / 3) with (/ 2 * (2 ^ 3 / INR 3)) by (simpl; field). apply (is_RInt_scal (V := R_NormedModule)), pow_int.
Qed.
Example C110_case : exists r, tri_run = Ok r /\ curved_integral (mF 0 1) (fun _ => 0) (fun x => x) 0 2 (4 / 3) /\ isin r (4 / 3).
Proof.
  pose proof tri_r as R. destruct tri_run as [r|] eqn:E; [|discriminate R]. clear R. exists r. split; [reflexivity|]. split; [exact tri_int|].
  apply (C110_curvededge_partial BHw 60 (mf 0 1) (fun _ => Ok (ipt s0)) (fun X => Ok X) (mF 0 1) (fun _ => 0) (fun x => x) (mFx 2 1) (mFy 2 1) (qiv 0 0 0 0) (qiv 0 0 0 0) (qiv 0 0 0 0) (qiv 2 0 2 0) r 1 1 2 2 4 0 2); auto using tri_partials, tri_int; try qin.
  - simpl; auto.
  - split; simpl; lia.
  - intros X Y V x y _ _. apply (mf_ok 0 1 x x y y); unfold between; rewrite Rmin_left, Rmax_left; lra.
  - intros X V x _ EV _. injection EV as <-. apply pt0.
  - intros X V x _ EV HX. injection EV as <-. exact HX.
  - intros x y _ _. change (err_order 2) with 4%nat. unfold mFx, mFy, Fm. split; (apply qiv_in; [reflexivity|simpl; lra]).
Qed.
(* x over the triangle 0 <= x <= y <= 2, with 4 steps in x and 2 in y *)
Local Notation tri_run_s := (doubleint_curvededge_s (S := bscal BHw) (bpar BHw) 60 (mf 1 0) (fun _ => Ok (ipt s0)) (fun X => Ok X) (qiv 0 0 0 0) (qiv 0 0 0 0) 1 1 (qiv 0 0 0 0) (qiv 2 0 2 0) 2 4 2).
Lemma tri_rs : inlim 1 2 tri_run_s = true.
Proof. vm_compute. reflexivity. Qed.
Example C110_case_s : exists r, tri_run_s = Ok r /\ isin r (4 / 3).
Proof.
  pose proof tri_rs as R. destruct tri_run_s as [r|] eqn:E; [|discriminate R]. clear R. exists r. split; [reflexivity|]. destruct tri_int as [I1 I2].
  assert (SW : forall y x, mF 0 1 y x = mF 1 0 x y) by (intros; unfold mF; ring).
  apply (C110_curvededge_s_partial BHw 60 (mf 1 0) (fun _ => Ok (ipt s0)) (fun X => Ok X) (mF 1 0) (fun _ => 0) (fun x => x) (mFx 2 1) (mFy 2 1) (qiv 0 0 0 0) (qiv 0 0 0 0) (qiv 0 0 0 0) (qiv 2 0 2 0) r 1 1 2 4 2 0 2); auto; try qin.
  - simpl; auto.
  - split; simpl; lia.
  - intros X Y V x y _ _. apply (mf_ok 1 0 x x y y); unfold between; rewrite Rmin_left, Rmax_left; lra.
  - intros X V x _ EV _. injection EV as <-. apply pt0.
  - intros X V x _ EV HX. injection EV as <-. exact HX.
  - intros y s Hy Hs. destruct (tri_partials y s Hy Hs) as (A & B & D). unfold strip in A, B. rewrite SW in A, B. auto.
  - intros x y _ _. change (err_order 2) with 4%nat. unfold mFx, mFy, Fm. split; (apply qiv_in; [reflexivity|simpl; lra]).
  - intros y Hy. apply (ex_RInt_ext (mF 0 1 y)); [intros; apply SW|now apply I1].
  - apply (is_RInt_ext (V := R_NormedModule) (fun x => RInt (mF 0 1 x) 0 x)); [|exact I2]. intros y _. apply RInt_ext. intros; apply SW.
Qed.
(* n = 3, 5, 7 are wrong here too: x^4 over 0 <= x <= 3, 0 <= y <= 1, ... *)
Local Notation c_run p g n := (doubleint_curvededge (S := bscal BHw) (bpar BHw) 60 (mf p 0) (fun _ => Ok (ipt s0)) (fun _ => Ok (ipt s1)) (qiv g 0 g 0) (qiv 0 0 0 0) 1 1 (qiv 0 0 0 0) (qiv n 0 n 0) n n n).
Theorem C110_odd_rules_refuted : forall n, In n [3; 5; 7]%Z -> exists f el eh F L H Gx Gy (hd_x hd_y start end_ r : iv (bscal BHw)) c J,
  region_encl (b := BHw) f F L H 0 c /\ edge_encl (b := BHw) el L 0 c /\ edge_encl (b := BHw) eh H 0 c /\ partials (strip F L H) Gx Gy 0 c 0 1 /\
  (forall x y, between 0 c x -> between 0 1 y -> isin hd_x (Gx (err_order n) x y) /\ isin hd_y (Gy (err_order n) x y)) /\
  isin start 0 /\ isin end_ c /\ curved_integral F L H 0 c J /\
  doubleint_curvededge (bpar BHw) 60 f el eh hd_x hd_y 1 1 start end_ n n n = Ok r /\ ~ isin r J.
Proof.
  assert (K : forall p n g l u, (1 <= n <= 7)%Z -> err_order n = p -> IZR g = INR (ff p p) -> (0 <= g <= 2 ^ 53)%Z -> (1 <= p)%nat -> (Z.abs u <= 2 ^ 53)%Z -> inlim l u (c_run p g n) = true -> IZR u < IZR n ^ S p / INR (S p) ->
    exists f el eh F L H Gx Gy (hd_x hd_y start end_ r : iv (bscal BHw)) c J,
  region_encl (b := BHw) f F L H 0 c /\ edge_encl (b := BHw) el L 0 c /\ edge_encl (b := BHw) eh H 0 c /\ partials (strip F L H) Gx Gy 0 c 0 1 /\
  (forall x y, between 0 c x -> between 0 1 y -> isin hd_x (Gx (err_order n) x y) /\ isin hd_y (Gy (err_order n) x y)) /\
  isin start 0 /\ isin end_ c /\ curved_integral F L H 0 c J /\
  doubleint_curvededge (bpar BHw) 60 f el eh hd_x hd_y 1 1 start end_ n n n = Ok r /\ ~ isin r J).
  { intros p n g l u Hn Ep Hg Hg2 P1 Hu R Q. destruct (c_run p g n) as [r|] eqn:E; [|discriminate R]. unfold inlim in R. apply andb_prop in R as [_ R].
    assert (PT : forall z w, (0 <= z <= 2 ^ 53)%Z -> w = IZR z -> isin (S := bscal BHw) (qiv z 0 z 0) w). { intros z w Hz ->. apply qiv_in; [rewrite !andb_true_iff, !Z.leb_le; lia|simpl; lra]. }
    exists (mf p 0), (fun _ => Ok (ipt s0)), (fun _ => Ok (ipt s1)), (mF p 0), (fun _ => 0), (fun _ => 1), (mFx p 0), (mFy p 0), (qiv g 0 g 0), (qiv 0 0 0 0), (qiv 0 0 0 0), (qiv n 0 n 0), r, (IZR n), (IZR n ^ S p / INR (S p)).
    split; [intros X Y V x y _ _; apply (mf_ok p 0 x x y y); unfold between; rewrite Rmin_left, Rmax_left; lra|].
    split; [intros X V x _ EV _; injection EV as <-; apply pt0|]. split; [intros X V x _ EV _; injection EV as <-; apply pt1|]. split.
    { intros x y Hx Hy. destruct (mF_partials p 0 0 (IZR n) 0 1 x y Hx Hy) as (A & B & D). unfold strip. replace (mF p 0 x ((1 - y) * 0 + y * 1) * (1 - 0)) with (mF p 0 x y) by (unfold mF; simpl; ring). auto. }
    split.
    { intros x y _ _. rewrite Ep. unfold mFx, mFy, Fm. split; apply PT; try lia; [rewrite Nat.sub_diag, Hg; simpl; ring|]. destruct p as [|p]; [lia|]. assert (Z0 : forall k, ff 0 (S k) = 0%nat) by (intros k; simpl; lia). rewrite Z0. simpl. ring. }
    do 2 (split; [apply PT; try lia; reflexivity|]). split; [|split; [exact E|]].
    - pose proof (mF_int p 0 (IZR n) 1) as J. replace (1 ^ 1 / INR 1) with 1 in J by (simpl; field). rewrite Rmult_1_r in J. exact J.
    - clear E. intros (_ & _ & _ & U). apply (ok_le _ (bok BHw)) in R; try exact Logic.I. change (bscal BHw) with D_hw in * . rewrite qv in R by lia.
      set (z := IZR n ^ S p / INR (S p)) in *. change (bpow radix2 0) with 1 in R. rewrite Rmult_1_r in R. destruct (sval (hi (r : iv D_hw))); cbn [xle ub] in R, U; try tauto. lra. }
  intros n [<-|[<-|[<-|[]]]].
  - apply (K 4%nat 3%Z 24%Z 46%Z 47%Z); [lia|reflexivity|simpl; lra|lia|lia|lia|vm_compute; reflexivity|simpl; lra].
  - apply (K 6%nat 5%Z 720%Z 11095%Z 11096%Z); [lia|reflexivity|simpl; lra|lia|lia|lia|vm_compute; reflexivity|simpl; lra].
  - apply (K 8%nat 7%Z 40320%Z 4479000%Z 4481000%Z); [lia|reflexivity| |lia|lia|lia|vm_compute; reflexivity|simpl; lra].
    cbn [ff]. rewrite !mult_INR. simpl. lra.
Qed.
Definition Curved_all := (C110_curvededge_partial, C110_curvededge_s_partial, C110_range, C110_case, C110_case_s, C110_odd_rules_refuted).
Print Assumptions Curved_all.
