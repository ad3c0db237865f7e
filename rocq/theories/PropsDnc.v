(* Property theorems: double_newtoncotes (C109), for every double back end and every function object. *)
From Coq Require Import Reals ZArith QArith Bool List Lra Lia Psatz Arith.
From Coquelicot Require Import Coquelicot.
From Flocq Require Import Core BinarySingleNaN.
From Verif Require Import Fp64 RDoubleHw.
From Verif Require Import Ext Scalar IntervalModel IntervalSpec IntervalProofs IntervalEncl IntervalSets IntervalMore Backends Ex64 ElemModel PropsElem.
From Verif Require Import LinAlg RealRn VecModel VecProofs VecInst KrawProofs OptModel OptProofs OptInst RealFun ADModel ADReal ADProofs ADInst PsaModel PsaExpr PsaInst NcModel NcRule NcProofs PropsNc DncModel DncProofs DncRange.
Import List ListNotations.
Open Scope R_scope.

Definition between (a c x : R) : Prop := Rmin a c <= x <= Rmax a c.
(* Fx k and Fy k are the partial derivatives of order k of F on the rectangle *)
Definition partials (F : R -> R -> R) (Fx Fy : nat -> R -> R -> R) (a c a' c' : R) : Prop :=
  forall x y, between a c x -> between a' c' y -> Fx O x y = F x y /\ Fy O x y = F x y /\
    forall k, is_derive (fun t => Fx k t y) x (Fx (S k) x y) /\ is_derive (fun t => Fy k x t) y (Fy (S k) x y).
Definition encloses2 {b} (f : iv (bscal b) -> iv (bscal b) -> res (iv (bscal b))) (F : R -> R -> R) (a c a' c' : R) : Prop :=
  forall X Y V x y, between a c x -> between a' c' y -> f X Y = Ok V -> isin X x -> isin Y y -> isin V (F x y).
(* the order of the derivative in the error term: 2, 4, 4, 6, 6, 8, 8 for n = 1, ..., 7 *)
Definition err_order (n : Z) : nat := Z.to_nat (2 * (n / 2) + 2).
Lemma err_order_eq n : (1 <= n <= 7)%Z -> Z.to_nat (nc_d (Z.to_nat n)) = err_order n.
Proof. intros H. assert (E : (n = 1 \/ n = 2 \/ n = 3 \/ n = 4 \/ n = 5 \/ n = 6 \/ n = 7)%Z) by lia. destruct E as [->|[->|[->|[->|[->|[->| ->]]]]]]; reflexivity. Qed.
(* the iterated integral *)
Definition integral2 (F : R -> R -> R) (a c a' c' J : R) : Prop :=
  (forall x, between a c x -> ex_RInt (F x) a' c') /\ is_RInt (fun x => RInt (F x) a' c') a c J.
(* the numbers of steps *)
Definition steps2 (m1 m2 est1 est2 : Z) : Z * Z := if (m1 =? 0)%Z || (m2 =? 0)%Z then (est1, est2) else (m1, m2).
Definition good_steps (s : Z * Z) : Prop := (1 <= fst s < 2 ^ 52)%Z /\ (1 <= snd s < 2 ^ 52)%Z.

(* ---- C109 ---- *)
(* PARTIAL: the ranges hd_x, hd_y of the derivatives (minimize_value and maximize_value of PartialDeriv) are assumed right; and only the rules with n = 1, 2, 4, 6 *)
Theorem C109_encloses_partial : forall b fuel f F Fx Fy (hd_x hd_y start1 end1 start2 end2 r : iv (bscal b)) est1 est2 n m1 m2 a c a' c' J,
  In n [1; 2; 4; 6]%Z -> good_steps (steps2 m1 m2 est1 est2) -> partials F Fx Fy a c a' c' -> encloses2 f F a c a' c' ->
  (forall x y, between a c x -> between a' c' y -> isin hd_x (Fx (err_order n) x y) /\ isin hd_y (Fy (err_order n) x y)) ->
  isin start1 a -> isin end1 c -> isin start2 a' -> isin end2 c' -> integral2 F a c a' c' J ->
  double_newtoncotes (bpar b) fuel f hd_x hd_y est1 est2 start1 end1 start2 end2 n m1 m2 = Ok r -> isin r J.
Proof.
  intros b fuel f F Fx Fy HX HY A E A' E' r est1 est2 n m1 m2 a c a' c' J Hn GS PF EF HD RA RE RA' RE' [_ HJ] R. unfold double_newtoncotes in R. unfold steps2 in GS.
  assert (N : (1 <= n <= 7)%Z) by (destruct Hn as [<-|[<-|[<-|[<-|[]]]]]; lia). destruct (Z.ltb_spec n 1); [lia|]. destruct (Z.ltb_spec 7 n); [lia|]. cbn [orb] in R.
  destruct (if (m1 =? 0)%Z || (m2 =? 0)%Z then (est1, est2) else (m1, m2)) as [s1 s2]. destruct GS as [G1 G2]. cbn [fst snd] in G1, G2.
  eapply (dnc_sum_ok b fuel Fx Fy F n s1 s2 _ f A E A' E' HX HY r a c a' c' J); [|lia|exact G1|exact G2|now apply nc_good_even| |exact RA|exact RE|exact RA'|exact RE'|exact HJ|exact R].
  - destruct Hn as [<-|[<-|[<-|[<-|[]]]]]; simpl; auto.
  - intros x y Hx Hy. rewrite err_order_eq by exact N. destruct (PF x y Hx Hy) as (P1 & P2 & P3). destruct (HD x y Hx Hy) as [D1 D2]. split; [exact P1|]. split; [exact P2|]. split; [exact D1|]. split; [exact D2|]. split; [|exact P3]. intros X Y W EW HX1 HY1. exact (EF X Y W x y Hx Hy EW HX1 HY1).
Qed.
(* g and dg are interval versions of the function G and its gradient on the open set dom *)
Definition deriv_object {b} (g : (nat -> iv (bscal b)) -> res (iv (bscal b))) (dg : (nat -> iv (bscal b)) -> res (nat -> iv (bscal b))) (G : R -> R -> R) (dom : R -> R -> Prop) : Prop :=
  (forall X V x y, dom x y -> g X = Ok V -> isin (X O) x -> isin (X 1%nat) y -> isin V (G x y)) /\
  (forall X D x y, dg X = Ok D -> isin (X O) x -> isin (X 1%nat) y -> dom x y /\ exists dx dy, isin (D O) dx /\ isin (D 1%nat) dy /\ differentiable_pt_lim G x y dx dy).
(* G takes a smallest and a largest value on X x Y *)
Definition has_extremes {S : scal} (G : R -> R -> R) (X Y : iv S) : Prop :=
  exists x1 y1 x2 y2, isin X x1 /\ isin Y y1 /\ isin X x2 /\ isin Y y2 /\ forall x y, isin X x -> isin Y y -> G x1 y1 <= G x y <= G x2 y2.
Lemma range2_ok b g dg limit ofuel (X Y r : iv (bscal b)) G dom : deriv_object g dg G dom -> (forall x y, dom x y -> locally_2d dom x y) ->
  ivalid X -> ivalid Y -> ifinite X -> ifinite Y -> (forall x y, isin X x -> isin Y y -> dom x y) -> has_extremes G X Y ->
  dnc_range g dg limit ofuel (fun i => match i with O => X | _ => Y end) = Ok r -> forall x y, isin X x -> isin Y y -> isin r (G x y).
Proof.
  intros [GI GG] OP VX VY FX FY DV (x1 & y1 & x2 & y2 & B1 & B2 & B3 & B4 & Q) RR x y Hx Hy.
  set (pr := fun (u w : R) (i : nat) => match i with O => u | _ => w end).
  assert (PI : forall u w, isin X u -> isin Y w -> vin 2 (fun i => match i with O => X | _ => Y end) (pr u w)) by (intros u w H1 H2 [|i] _; auto).
  apply (dnc_range_ok (bscal_ok b) (bscal_nan b) (bscal_mid b) (bscal_max b) g dg (fun i => match i with O => X | _ => Y end) limit ofuel (fun z => G (z O) (z 1%nat)) (fun z => dom (z O) (z 1%nat))) with (r := r) (x1 := pr x1 y1) (x2 := pr x2 y2) (x := pr x y); auto.
  - intros Z V z H1 H2 H3. apply (GI Z V); auto; apply H2; lia.
  - intros [|i] _; auto.
  - intros [|i] _; auto.
  - intros Z D z H1 H2. apply (GG Z D _ _ H1); apply H2; lia.
  - intros Z D z H1 H2. destruct (GG Z D (z O) (z 1%nat) H1 (H2 O ltac:(lia)) (H2 1%nat ltac:(lia))) as (_ & dx & dy & D1 & D2 & D3). exists (pr dx dy). split.
    + intros i Hi. destruct i as [|[|i]]; [exact D1|exact D2|lia].
    + intros c w [C0 CV]. pose proof (CV O ltac:(lia)) as K0. pose proof (CV 1%nat ltac:(lia)) as K1.
      replace (vsum 2 _) with (dx * w O + dy * w 1%nat) by (unfold vsum; simpl; ring). apply (derivable_pt_lim_comp_2d G (fun t => c t O) (fun t => c t 1%nat)); auto. rewrite !C0. exact D3.
  - intros Z D z i s H1 H2 Hi. destruct (GG Z D (z O) (z 1%nat) H1 (H2 O ltac:(lia)) (H2 1%nat ltac:(lia))) as (Dz & _). destruct (OP _ _ Dz) as [ep Hep]. pose proof (Rabs_pos s) as PS. pose proof (cond_pos ep) as PE.
    exists (ep / (Rabs s + 1)). split; [apply Rdiv_lt_0_compat; lra|]. intros t Ht.
    assert (ST : Rabs (s * t) < ep). { rewrite Rabs_mult. apply (Rmult_lt_compat_l (Rabs s + 1)) in Ht; [|lra]. replace ((Rabs s + 1) * (ep / (Rabs s + 1))) with (pos ep) in Ht by (field; lra). pose proof (Rabs_pos t). nra. }
    assert (Z1 : forall p, Rabs (p - p) < ep) by (intros p; rewrite Rminus_eq_0, Rabs_R0; lra). assert (Z2 : forall p, Rabs (p + s * t - p) < ep) by (intros p; replace (p + s * t - p) with (s * t) by ring; exact ST).
    unfold along. destruct i as [|[|i]]; [| |lia]; simpl; apply Hep; auto.
  - intros z Hz. apply DV; [apply (Hz O)|apply (Hz 1%nat)]; lia.
  - intros z Hz. apply Q; [apply (Hz O)|apply (Hz 1%nat)]; lia.
Qed.
(* with the ranges computed by minimize_value and maximize_value.  PARTIAL: PartialDeriv on interval and on autodif is assumed right, the two derivatives are assumed to have extremes; and n = 1, 2, 4, 6 *)
Theorem C109_optimised_partial : forall b fuel f F Fx Fy gx gy dgx dgy (dom : R -> R -> Prop) limit ofuel (start1 end1 start2 end2 r : iv (bscal b)) est1 est2 n m1 m2 a c a' c' J,
  In n [1; 2; 4; 6]%Z -> good_steps (steps2 m1 m2 est1 est2) -> partials F Fx Fy a c a' c' -> encloses2 f F a c a' c' ->
  (forall x y, dom x y -> locally_2d dom x y) -> (forall x y, isin (hull start1 end1) x -> isin (hull start2 end2) y -> dom x y) ->
  deriv_object gx dgx (Fx (err_order n)) dom -> deriv_object gy dgy (Fy (err_order n)) dom ->
  has_extremes (Fx (err_order n)) (hull start1 end1) (hull start2 end2) -> has_extremes (Fy (err_order n)) (hull start1 end1) (hull start2 end2) ->
  ifinite start1 -> ifinite end1 -> ifinite start2 -> ifinite end2 ->
  isin start1 a -> isin end1 c -> isin start2 a' -> isin end2 c' -> integral2 F a c a' c' J ->
  double_newtoncotes_opt (bpar b) fuel f gx gy dgx dgy limit ofuel est1 est2 start1 end1 start2 end2 n m1 m2 = Ok r -> isin r J.
Proof.
  intros b fuel f F Fx Fy gx gy dgx dgy dom limit ofuel A E A' E' r est1 est2 n m1 m2 a c a' c' J Hn GS PF EF OP DV Gx Gy Ex Ey F1 F2 F3 F4 RA RE RA' RE' HJ R. unfold double_newtoncotes_opt in R.
  destruct (_ || _); [discriminate R|]. apply bind_ok in R as (HX & R1 & R). apply bind_ok in R as (HY & R2 & R).
  assert (SG : forall (X Y : iv (bscal b)) p q t, isin X p -> isin Y q -> between p q t -> isin (hull X Y) t).
  { intros X Y p q t H1 H2 [H3 H4]. apply (isin_hull_mid (bscal_ok b) X Y p q); auto. unfold Rmin, Rmax in *. destruct (Rle_dec p q); lra. }
  assert (V1 : ivalid (hull A E)) by (apply (valid_hull (bscal_ok b)); eapply isin_valid; eauto). assert (V2 : ivalid (hull A' E')) by (apply (valid_hull (bscal_ok b)); eapply isin_valid; eauto).
  refine (C109_encloses_partial b fuel f F Fx Fy HX HY A E A' E' r est1 est2 n m1 m2 a c a' c' J Hn GS PF EF _ RA RE RA' RE' HJ R).
  intros x y Hx Hy. pose proof (SG A E a c x RA RE Hx) as IX. pose proof (SG A' E' a' c' y RA' RE' Hy) as IY. split.
  - apply (range2_ok b gx dgx limit ofuel (hull A E) (hull A' E') HX _ dom); auto using hull_fin.
  - apply (range2_ok b gy dgy limit ofuel (hull A E) (hull A' E') HY _ dom); auto using hull_fin.
Qed.
(* the other three rules with the constants -1/80, -55/12096, -1169/518400 *)
Theorem C109_corrected_partial : forall b fuel f F Fx Fy (hd_x hd_y start1 end1 start2 end2 r : iv (bscal b)) n m1 m2 a c a' c' J,
  In n [3; 5; 7]%Z -> good_steps (m1, m2) -> partials F Fx Fy a c a' c' -> encloses2 f F a c a' c' ->
  (forall x y, between a c x -> between a' c' y -> isin hd_x (Fx (err_order n) x y) /\ isin hd_y (Fy (err_order n) x y)) ->
  isin start1 a -> isin end1 c -> isin start2 a' -> isin end2 c' -> integral2 F a c a' c' J ->
  dnc_sum (B := Ibase (bpar b) fuel) (nc_row (Z.to_nat n)) (nc_fix n) (nc_d (Z.to_nat n)) f start1 end1 start2 end2 hd_x hd_y n m1 m2 = Ok r -> isin r J.
Proof.
  intros b fuel f F Fx Fy HX HY A E A' E' r n m1 m2 a c a' c' J Hn [G1 G2] PF EF HD RA RE RA' RE' [_ HJ] R. cbn [fst snd] in G1, G2.
  assert (N : (1 <= n <= 7)%Z) by (destruct Hn as [<-|[<-|[<-|[]]]]; lia).
  eapply (dnc_sum_ok b fuel Fx Fy F n m1 m2 (nc_fix n) f A E A' E' HX HY r a c a' c' J); [|lia|exact G1|exact G2|now apply nc_good_odd| |exact RA|exact RE|exact RA'|exact RE'|exact HJ|exact R].
  - destruct Hn as [<-|[<-|[<-|[]]]]; simpl; auto 10.
  - intros x y Hx Hy. rewrite err_order_eq by exact N. destruct (PF x y Hx Hy) as (P1 & P2 & P3). destruct (HD x y Hx Hy) as [D1 D2]. split; [exact P1|]. split; [exact P2|]. split; [exact D1|]. split; [exact D2|]. split; [|exact P3]. intros X Y W EW HX1 HY1. exact (EF X Y W x y Hx Hy EW HX1 HY1).
Qed.
Theorem C109_range : forall b fuel f (hd_x hd_y start1 end1 start2 end2 : iv (bscal b)) est1 est2 n m1 m2, (n < 1 \/ 7 < n)%Z ->
  double_newtoncotes (bpar b) fuel f hd_x hd_y est1 est2 start1 end1 start2 end2 n m1 m2 = Err EDomain.
Proof. intros. unfold double_newtoncotes. destruct (Z.ltb_spec n 1); [reflexivity|]. destruct (Z.ltb_spec 7 n); [reflexivity|lia]. Qed.

(* ---- examples: x^p * y^q ---- *)
Definition mpow (X : iv (bscal BHw)) (k : nat) : iv (bscal BHw) := Nat.iter k (fun v => imul v X) (ipt s1).
Definition mf (p q : nat) (X Y : iv (bscal BHw)) : res (iv (bscal BHw)) := Ok (imul (mpow X p) (mpow Y q)).
Definition mF (p q : nat) (x y : R) : R := x ^ p * y ^ q.
Definition mFx (p q k : nat) (x y : R) : R := Fm p k x * y ^ q.
Definition mFy (p q k : nat) (x y : R) : R := x ^ p * Fm q k y.
Lemma mpow_ok X k x : isin X x -> isin (mpow X k) (x ^ k).
Proof.
  intros H. induction k; simpl.
  - destruct (ok_s1 _ (bscal_ok BHw)) as [W E]. change (isin (S := bscal BHw) (ipt s1) 1). split; [exact W|]. split; [exact W|]. change (lb (sval (@s1 (bscal BHw))) 1 /\ ub (sval (@s1 (bscal BHw))) 1). rewrite E. simpl. lra.
  - rewrite Rmult_comm. apply (isin_mul (bscal_ok BHw)); auto.
Qed.
Lemma mf_ok p q a c a' c' : encloses2 (b := BHw) (mf p q) (mF p q) a c a' c'.
Proof. intros X Y V x y _ _ E HX HY. injection E as <-. apply (isin_mul (bscal_ok BHw)); now apply mpow_ok. Qed.
Lemma mF_partials p q a c a' c' : partials (mF p q) (mFx p q) (mFy p q) a c a' c'.
Proof.
  assert (Z0 : forall k x, Fm k 0 x = x ^ k) by (intros; unfold Fm; rewrite Nat.sub_0_r; simpl; ring).
  intros x y _ _. unfold mFx, mFy, mF. rewrite !Z0. split; [reflexivity|]. split; [reflexivity|]. intros k. destruct (em_derivs p) as (D & _). destruct (em_derivs q) as (D' & _). split.
  - apply (is_derive_ext (fun t => y ^ q * Fm p k t)); [intros; apply Rmult_comm|]. rewrite Rmult_comm. apply is_derive_scal. apply D. exact Logic.I.
  - apply is_derive_scal. apply D'. exact Logic.I.
Qed.
Lemma pow_int p c : is_RInt (fun t => t ^ p) 0 c (c ^ S p / INR (S p)).
Proof. apply (is_RInt_ext (V := R_NormedModule) (fun t => rval (em p) (fun _ => t))); [intros t _; simpl rval; now rewrite <- pow_powerRZ|apply em_int]. Qed.
Lemma mF_int p q c c' : integral2 (mF p q) 0 c 0 c' (c ^ S p / INR (S p) * (c' ^ S q / INR (S q))).
Proof.
  assert (K : forall x, is_RInt (mF p q x) 0 c' (x ^ p * (c' ^ S q / INR (S q)))) by (intros x; apply (is_RInt_scal (V := R_NormedModule)), pow_int).
  split; [intros x _; eexists; apply K|]. apply (is_RInt_ext (V := R_NormedModule) (fun x => c' ^ S q / INR (S q) * x ^ p)).
  - intros x _. rewrite (is_RInt_unique _ _ _ _ (K x)). apply Rmult_comm.
  - rewrite (Rmult_comm (c ^ S p / INR (S p))). apply (is_RInt_scal (V := R_NormedModule)), pow_int.
Qed.
Local Notation d_run p q hx hx' c c' n := (double_newtoncotes (S := bscal BHw) (bpar BHw) 60 (mf p q) (qiv hx 0 hx' 0) (qiv 0 0 0 0) 1 1 (qiv 0 0 0 0) (qiv c 0 c 0) (qiv 0 0 0 0) (qiv c' 0 c' 0) n n n).
(* x^4 * y over [0,2] x [0,2], n = 2 *)
Lemma d_case : inlim 12 14 (d_run 4 1 0 48 2 2 2) = true.
Proof. vm_compute. reflexivity. Qed.
Example C109_case : exists r, d_run 4 1 0 48 2 2 2 = Ok r /\ integral2 (mF 4 1) 0 2 0 2 (64 / 5) /\ isin r (64 / 5).
Proof.
  pose proof d_case as R. destruct (d_run 4 1 0 48 2 2 2) as [r|] eqn:E; [|discriminate R]. clear R. exists r. split; [reflexivity|].
  assert (J : integral2 (mF 4 1) 0 2 0 2 (64 / 5)). { replace (64 / 5) with (2 ^ 5 / INR 5 * (2 ^ 2 / INR 2)) by (simpl; field). apply mF_int. } split; [exact J|].
  apply (C109_encloses_partial BHw 60 (mf 4 1) (mF 4 1) (mFx 4 1) (mFy 4 1) (qiv 0 0 48 0) (qiv 0 0 0 0) (qiv 0 0 0 0) (qiv 2 0 2 0) (qiv 0 0 0 0) (qiv 2 0 2 0) r 1 1 2 2 2 0 2 0 2); auto using mf_ok, mF_partials; try qin.
  - simpl; auto.
  - split; simpl; lia.
  - intros x y _ Hy. unfold between in Hy. rewrite Rmin_left, Rmax_right in Hy by lra. change (err_order 2) with 4%nat. unfold mFx, mFy, Fm. split; [apply qiv_in; [reflexivity|simpl; lra]|apply qiv_in; [reflexivity|simpl; lra]].
Qed.
(* the same with computed ranges: the derivatives of order 4 of x^4 * y are 24 * y and 0 *)
Definition o_gx (X : nat -> iv (bscal BHw)) : res (iv (bscal BHw)) := Ok (imul (qiv 24 0 24 0) (X 1%nat)).
Definition o_dgx (X : nat -> iv (bscal BHw)) : res (nat -> iv (bscal BHw)) := Ok (fun i => match i with O => qiv 0 0 0 0 | _ => qiv 24 0 24 0 end).
Definition o_gy (X : nat -> iv (bscal BHw)) : res (iv (bscal BHw)) := Ok (qiv 0 0 0 0).
Definition o_dgy (X : nat -> iv (bscal BHw)) : res (nat -> iv (bscal BHw)) := Ok (fun i => qiv 0 0 0 0).
Local Notation o_run := (double_newtoncotes_opt (S := bscal BHw) (bpar BHw) 60 (mf 4 1) o_gx o_gy o_dgx o_dgy (sdy 1 0) 100 1 1 (qiv 0 0 0 0) (qiv 2 0 2 0) (qiv 0 0 0 0) (qiv 2 0 2 0) 2 2 2).
Lemma o_case : inlim 12 14 o_run = true.
Proof. vm_compute. reflexivity. Qed.
Lemma o_hull : inlim 0 2 (Ok (hull (qiv 0 0 0 0) (qiv 2 0 2 0))) = true.
Proof. vm_compute. reflexivity. Qed.
Lemma lin_diff k x y : differentiable_pt_lim (fun _ v => k * v) x y 0 k.
Proof. intros ep. exists (mkposreal 1 Rlt_0_1). intros u v _ _. replace (k * v - k * y - (0 * (u - x) + k * (v - y))) with 0 by ring. rewrite Rabs_R0. apply Rmult_le_pos; [left; apply cond_pos|]. eapply Rle_trans; [apply Rabs_pos|apply Rmax_l]. Qed.
Lemma diff_ext (G H : R -> R -> R) x y p q : (forall u v, G u v = H u v) -> differentiable_pt_lim G x y p q -> differentiable_pt_lim H x y p q.
Proof. intros E D ep. destruct (D ep) as [d K]. exists d. intros u v H1 H2. rewrite <- !E. now apply K. Qed.
Example C109_optimised_case : exists r, o_run = Ok r /\ isin r (64 / 5).
Proof.
  pose proof o_case as R0. destruct o_run as [r|] eqn:E; [|discriminate R0]. clear R0. exists r. split; [reflexivity|].
  assert (J : integral2 (mF 4 1) 0 2 0 2 (64 / 5)). { replace (64 / 5) with (2 ^ 5 / INR 5 * (2 ^ 2 / INR 2)) by (simpl; field). apply mF_int. }
  assert (Ex : forall x y, 24 * y = mFx 4 1 (err_order 2) x y) by (intros; change (err_order 2) with 4%nat; unfold mFx, Fm; simpl; ring).
  assert (Ey : forall x y, 0 * y = mFy 4 1 (err_order 2) x y) by (intros; change (err_order 2) with 4%nat; unfold mFy, Fm; simpl; ring).
  assert (I0 : isin (S := bscal BHw) (qiv 0 0 0 0) 0) by qin. assert (I24 : isin (S := bscal BHw) (qiv 24 0 24 0) 24) by qin. assert (I2 : isin (S := bscal BHw) (qiv 2 0 2 0) 2) by qin.
  set (A := qiv 0 0 0 0 : iv (bscal BHw)) in *. set (C := qiv 2 0 2 0 : iv (bscal BHw)) in *.
  assert (HU : forall x, isin (hull A C) x <-> 0 <= x <= 2).
  { intros x. split.
    - intros (_ & _ & L & U). pose proof o_hull as K. unfold inlim in K. apply andb_prop in K as [K1 K2]. apply (ok_le _ (bok BHw)) in K1, K2; try exact Logic.I. change (bscal BHw) with D_hw in * . rewrite qv in K1, K2 by lia. change (bpow radix2 0) with 1 in K1, K2. fold A C in K1, K2.
      destruct (sval (lo (hull A C))); cbn [xle lb] in K1, L; try tauto; destruct (sval (hi (hull A C))); cbn [xle ub] in K2, U; try tauto; lra.
    - intros H. apply (isin_hull_mid (bscal_ok BHw) A C 0 2); auto. }
  assert (FI : ifinite A /\ ifinite C). { split; (split; (change (bscal BHw) with D_hw; unfold A, C; cbn [qiv lo hi]; rewrite qv by lia; exact Logic.I)). }
  apply (C109_optimised_partial BHw 60 (mf 4 1) (mF 4 1) (mFx 4 1) (mFy 4 1) o_gx o_gy o_dgx o_dgy (fun _ _ => True) (sdy 1 0) 100 A C A C r 1 1 2 2 2 0 2 0 2); auto using mf_ok, mF_partials; try (now apply FI).
  - simpl; auto.
  - split; simpl; lia.
  - intros. exists (mkposreal 1 Rlt_0_1). auto.
  - split.
    + intros X V x y _ EV _ HY. injection EV as <-. rewrite <- Ex. now apply (isin_mul (bscal_ok BHw)).
    + intros X D x y ED _ _. injection ED as <-. split; [exact Logic.I|]. exists 0, 24. split; [exact I0|]. split; [exact I24|]. apply (diff_ext (fun _ v => 24 * v)); [exact Ex|apply lin_diff].
  - split.
    + intros X V x y _ EV _ HY. injection EV as <-. rewrite <- Ey, Rmult_0_l. exact I0.
    + intros X D x y ED _ _. injection ED as <-. split; [exact Logic.I|]. exists 0, 0. split; [exact I0|]. split; [exact I0|]. apply (diff_ext (fun _ v => 0 * v)); [exact Ey|apply lin_diff].
  - exists 0, 0, 0, 2. do 4 (split; [apply HU; lra|]). intros x y _ Hy. apply HU in Hy. rewrite <- !Ex. lra.
  - exists 0, 0, 0, 2. do 4 (split; [apply HU; lra|]). intros x y _ _. rewrite <- !Ey. lra.
Qed.
(* n = 3, 5, 7: x^4 over [0,3] x [0,1], x^6 over [0,5] x [0,1], x^8 over [0,7] x [0,1] with one panel: all the hypotheses of C109_encloses_partial but the one on n hold *)
Theorem C109_odd_rules_refuted : forall n, In n [3; 5; 7]%Z -> exists f F Fx Fy (hd_x hd_y start1 end1 start2 end2 r : iv (bscal BHw)) c J,
  partials F Fx Fy 0 c 0 1 /\ encloses2 (b := BHw) f F 0 c 0 1 /\ (forall x y, between 0 c x -> between 0 1 y -> isin hd_x (Fx (err_order n) x y) /\ isin hd_y (Fy (err_order n) x y)) /\
  isin start1 0 /\ isin end1 c /\ isin start2 0 /\ isin end2 1 /\ integral2 F 0 c 0 1 J /\
  double_newtoncotes (bpar BHw) 60 f hd_x hd_y 1 1 start1 end1 start2 end2 n n n = Ok r /\ ~ isin r J.
Proof.
  assert (K : forall p n g l u, (1 <= n <= 7)%Z -> err_order n = p -> IZR g = INR (ff p p) -> (0 <= g <= 2 ^ 53)%Z -> (1 <= p)%nat -> (Z.abs u <= 2 ^ 53)%Z -> inlim l u (d_run p 0 g g n 1 n) = true -> IZR u < IZR n ^ S p / INR (S p) ->
    exists f F Fx Fy (hd_x hd_y start1 end1 start2 end2 r : iv (bscal BHw)) c J,
  partials F Fx Fy 0 c 0 1 /\ encloses2 (b := BHw) f F 0 c 0 1 /\ (forall x y, between 0 c x -> between 0 1 y -> isin hd_x (Fx (err_order n) x y) /\ isin hd_y (Fy (err_order n) x y)) /\
  isin start1 0 /\ isin end1 c /\ isin start2 0 /\ isin end2 1 /\ integral2 F 0 c 0 1 J /\
  double_newtoncotes (bpar BHw) 60 f hd_x hd_y 1 1 start1 end1 start2 end2 n n n = Ok r /\ ~ isin r J).
  { intros p n g l u Hn Ep Hg Hg2 P1 Hu R Q. destruct (d_run p 0 g g n 1 n) as [r|] eqn:E; [|discriminate R]. unfold inlim in R. apply andb_prop in R as [_ R].
    assert (PT : forall z w, (0 <= z <= 2 ^ 53)%Z -> w = IZR z -> isin (S := bscal BHw) (qiv z 0 z 0) w). { intros z w Hz ->. apply qiv_in; [rewrite !andb_true_iff, !Z.leb_le; lia|simpl; lra]. }
    exists (mf p 0), (mF p 0), (mFx p 0), (mFy p 0), (qiv g 0 g 0), (qiv 0 0 0 0), (qiv 0 0 0 0), (qiv n 0 n 0), (qiv 0 0 0 0), (qiv 1 0 1 0), r, (IZR n), (IZR n ^ S p / INR (S p)).
    split; [apply mF_partials|]. split; [apply mf_ok|]. split.
    { intros x y _ _. rewrite Ep. unfold mFx, mFy, Fm. split; apply PT; try lia; [rewrite Nat.sub_diag, Hg; simpl; ring|]. destruct p as [|p]; [lia|]. assert (Z0 : forall k, ff 0 (S k) = 0%nat) by (intros k; simpl; lia). rewrite Z0. simpl. ring. }
    do 4 (split; [apply PT; try lia; reflexivity|]). split; [|split; [exact E|]].
    - pose proof (mF_int p 0 (IZR n) 1) as J. replace (1 ^ 1 / INR 1) with 1 in J by (simpl; field). rewrite Rmult_1_r in J. exact J.
    - clear E. intros (_ & _ & _ & U). apply (ok_le _ (bok BHw)) in R; try exact Logic.I. change (bscal BHw) with D_hw in * . rewrite qv in R by lia.
      set (z := IZR n ^ S p / INR (S p)) in *. change (bpow radix2 0) with 1 in R. rewrite Rmult_1_r in R. destruct (sval (hi (r : iv D_hw))); cbn [xle ub] in R, U; try tauto. lra. }
  intros n [<-|[<-|[<-|[]]]].
  - apply (K 4%nat 3%Z 24%Z 46%Z 47%Z); [lia|reflexivity|simpl; lra|lia|lia|lia|vm_compute; reflexivity|simpl; lra].
  - apply (K 6%nat 5%Z 720%Z 11095%Z 11096%Z); [lia|reflexivity|simpl; lra|lia|lia|lia|vm_compute; reflexivity|simpl; lra].
  - apply (K 8%nat 7%Z 40320%Z 4479000%Z 4481000%Z); [lia|reflexivity| |lia|lia|lia|vm_compute; reflexivity|simpl; lra].
    cbn [ff]. rewrite !mult_INR. simpl. lra.
Qed.
Definition Dnc_all := (C109_encloses_partial, C109_optimised_partial, C109_optimised_case, C109_corrected_partial, C109_range, C109_case, C109_odd_rules_refuted).
Print Assumptions Dnc_all.
