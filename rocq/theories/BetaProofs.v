(* Proofs about BetaModel.v, for every double back end. *)
From Coq Require Import Reals ZArith Bool List Lra Lia Psatz Arith.
From Coquelicot Require Import Coquelicot.
From Flocq Require Import Core BinarySingleNaN.
From Verif Require Import Fp64 RDoubleHw.
From Verif Require Import Ext Scalar IntervalModel IntervalSpec IntervalProofs IntervalEncl IntervalSets Backends Ex64 ElemModel ElemExp ElemLog ElemConst Elem64 PropsElem.
From Verif Require Import RealFun ADModel ADReal ADProofs ADInst PsaModel PsaReal PsaProofs PsaExpr PsaUseProofs PsaInst PsaHist PsaHistProofs PropsPsa PsaInt.
From Verif Require Import OdeModel OdeProofs OdeIndep PropsPsaHist DefintAuto DefintAutoProofs PropsDefint PropsBessel SingReal SingModel SingProofs PropsSing SingAuto SingAutoProofs PropsSingAuto PowEnv PropsPowPar GammaProofs BetaReal BetaModel.
Import List ListNotations.
Open Scope R_scope.

Lemma nadd_int b (y y' : bscal b) z z' : sval y = XR (IZR z) -> sval y' = XR (IZR z') -> (Z.abs (z + z') <= 2 ^ 53)%Z -> sval (nadd y y') = XR (IZR (z + z')).
Proof.
  intros E E' H. rewrite plus_IZR. destruct b as [| |f]; apply (plus_exact y y' (IZR z) (IZR z')); auto;
    try (rewrite <- plus_IZR; apply F_int; lia); (apply (small_max 53); [lia|]); rewrite <- plus_IZR, <- abs_IZR; change (bpow radix2 53) with (IZR (2 ^ 53)); apply IZR_le; lia.
Qed.
(* Defint_Reverse<Beta> and Defint_Reverse<Beta_s2> *)
Definition beta_rev_e : aexpr := XMul (XPow (XNeg (XVar 0)) (XSc SOsub 1 0 (XVar 1))) (XPow (XSc SOsubr 1 0 (XNeg (XVar 0))) (XSc SOsub 1 0 (XVar 2))).
Definition beta_s2_rev_e : aexpr := XPow (XNeg (XVar 0)) (XSc SOsub 1 0 (XVar 1)).
Lemma rev_beta {B : base} (x y : B) : hRev (pobj [x; y] beta_e) = pobj [x; y] beta_rev_e.
Proof. apply FunctionalExtensionality.functional_extensionality. intros t. reflexivity. Qed.
Lemma rev_s2 {B : base} (x : B) : hRev (pobj [x] beta_s2_e) = pobj [x] beta_s2_rev_e.
Proof. apply FunctionalExtensionality.functional_extensionality. intros t. reflexivity. Qed.
Section B.
Variables (b : backend) (fuel : nat) (root : bscal b -> nat -> bscal b) (proot : bscal b -> bscal b -> nat -> bscal b).
Variables (toint : bscal b -> Z) (order : Z) (n : nat) (fast : bool).
Notation I := (iv (bscal b)).
Hypothesis TO : forall (s : bscal b) z, sval s = XR (IZR z) -> (Z.abs z < 2 ^ 31)%Z -> toint s = z.
Hypothesis OR : (1 <= order < 2 ^ 52)%Z.
Notation br := (beta_r (bpar b) fuel root proot order n fast).
Notation bt := (beta (bpar b) fuel root proot toint order n fast).
Lemma half_in : isin (ipt (@sdy (bscal b) 1 (-1))) (/ 2).
Proof. destruct (ok_dy _ (bscal_ok b) 1 (-1) ltac:(lia) ltac:(lia)) as [W V]. apply isin_pt; auto. rewrite V. f_equal. simpl. lra. Qed.
Lemma one_in : isin (ipt (@s1 (bscal b))) 1.
Proof. destruct (ok_s1 _ (bscal_ok b)). apply isin_pt; auto. Qed.
Lemma beta_r_ok X Y x y v l l' st st' : isin X x -> isin Y y -> 0 < x -> 0 < y -> br X Y st = (Ok (v, (l, l')), st') -> steps_in l 0 (/ 2) -> steps_in l' (-1) (- / 2) ->
  exists G, is_beta x y G /\ isin v G.
Proof.
  clear TO. intros HX HY H H' R HL HL'. unfold beta_r in R. apply hb_ok in R as (a & s2 & R1 & R). apply hb_ok in R as (c & s3 & R2 & R).
  unfold hret, hlift in R. injection R as <- <- <- <-. destruct a as [a la]. destruct c as [c lc]. cbn [fst snd] in *.
  destruct (ok_s1 _ (bscal_ok b)) as [W1 V1].
  match type of R1 with context [isubS X s1] => idtac end. match type of R2 with context [isubS Y s1] => idtac end.
  unfold power_autostep_r in R2. rewrite rev_beta, rev_s2 in R2.
  destruct (C98_power_autostep b fuel root proot n fast beta_e beta_s1_e [X; Y] [Y] [x; y] [y] (ipt s0) (ipt (sdy 1 (-1))) (isubS X s1) a order (sdy 1 (-52)) st la s2 0 (/ 2) (x - 1)) as (J & HJ & HV); auto; try lra.
  - simpl. unfold lit. repeat split; lia.
  - unfold const_logs. simpl. intuition discriminate.
  - simpl. unfold lit. repeat split; lia.
  - unfold const_logs. simpl. intuition discriminate.
  - exact (zero_in_ b).
  - exact half_in.
  - apply (isin_subS (bscal_ok b)); auto.
  - intros t Ht. simpl. rewrite Rminus_0_r. unfold Rpower, dy. simpl. replace (1 * 1) with 1 by ring. reflexivity.
  - destruct (C98_power_autostep b fuel root proot n fast beta_rev_e beta_s2_rev_e [X; Y] [X] [x; y] [x] (ineg (ipt s1)) (ineg (ipt (sdy 1 (-1)))) (isubS Y s1) c order (sdy 1 (-52)) s2 lc s3 (-1) (- / 2) (y - 1)) as (K & HK & HW); auto; try lra.
    + simpl. unfold lit. repeat split; lia.
    + unfold const_logs. simpl. intuition discriminate.
    + simpl. unfold lit. repeat split; lia.
    + unfold const_logs. simpl. intuition discriminate.
    + replace (-1) with (- (1)) by ring. apply (isin_neg (bscal_ok b)), one_in.
    + apply (isin_neg (bscal_ok b)), half_in.
    + apply (isin_subS (bscal_ok b)); auto.
    + intros t Ht. simpl. unfold Rpower, dy. simpl. replace (1 * 1 - - t) with (t - -1) by ring. replace (1 * 1) with 1 by ring. ring.
    + exists (J + K). split; [|apply (isin_add (bscal_ok b)); auto]. apply beta_split.
      * intros eps He. destruct (HJ eps He) as (d & Hd & A). exists d. split; auto. intros u Hu Hu'. destruct (A u Hu Hu') as (w & Iw & Lw). exists w. split; auto.
        apply (is_RInt_ext (fun t => Rpower (t - 0) (x - 1) * rval beta_s1_e (with_params [y] t))); auto. intros t _. unfold bint. simpl. rewrite Rminus_0_r. unfold Rpower, dy. simpl. replace (1 * 1) with 1 by ring. reflexivity.
      * intros eps He. destruct (HK eps He) as (d & Hd & A). exists d. split; auto. intros u Hu Hu'. destruct (A u Hu Hu') as (w & Iw & Lw). exists w. split; auto.
        apply (is_RInt_ext (fun t => Rpower (t - -1) (y - 1) * rval beta_s2_rev_e (with_params [x] t))); auto. intros t _. unfold bint. simpl. unfold Rpower, dy. simpl. replace (1 - - t) with (t - -1) by ring. replace (1 * 1) with 1 by ring. ring.
Qed.
Lemma b_mul_ok (Z_ : I) s k : isin Z_ s -> forall i r R, (Z.abs i + Z.of_nat k <= 2 ^ 53)%Z -> isin r R -> isin (b_mul Z_ k i r) (R * mulk s i k).
Proof.
  clear TO OR. intros HZ. induction k as [|k IH]; intros i r R K Hr; cbn [b_mul mulk]. { now rewrite Rmult_1_r. }
  rewrite <- Rmult_assoc. apply IH; [lia|]. apply (isin_mul (bscal_ok b)); auto. apply sub_int; auto. lia.
Qed.
Lemma b_div_ok (Z_ : I) s k : isin Z_ s -> forall i r R q, (Z.abs i + Z.of_nat k <= 2 ^ 53)%Z -> isin r R -> b_div Z_ k i r = Ok q -> isin q (R / mulk s i k).
Proof.
  clear TO OR. intros HZ. induction k as [|k IH]; intros i r R q K Hr E; cbn [b_div mulk] in *. { injection E as <-. now replace (R / 1) with R by field. }
  unfold bind in E. destruct (idiv r (isubS Z_ (sdy i 0))) as [d|] eqn:D; [|discriminate].
  destruct (isin_div (bscal_ok b) _ _ _ _ _ D Hr (sub_int b Z_ s i HZ ltac:(lia))) as [N HD]. apply (IH (i + 1)%Z d _ q ltac:(lia) HD) in E.
  replace (R / ((s - IZR i) * mulk s (i + 1) k)) with (R / (s - IZR i) / mulk s (i + 1) k); auto. unfold Rdiv. rewrite Rinv_mult. ring.
Qed.
Lemma one_le (m : bscal b) N : sval m = XR (IZR N) -> sle s1 m = (1 <=? N)%Z.
Proof.
  clear TO OR. intros E. destruct (ok_s1 _ (bscal_ok b)) as [W1 V1]. pose proof (ok_le _ (bok b) s1 m (wfb b _) (wfb b _)) as L. rewrite V1, E in L. simpl in L.
  destruct (sle s1 m), (Z.leb_spec 1 N) as [Q|Q]; auto; exfalso.
  - destruct L as [L _]. specialize (L eq_refl). apply le_IZR in L. lia.
  - destruct L as [_ L]. assert (false = true) by (apply L; apply IZR_le in Q; exact Q). discriminate.
Qed.
Lemma next_int (m : bscal b) N : sval m = XR (IZR N) -> (Z.abs N < 2 ^ 31 - 1)%Z -> toint (nadd m s1) = (N + 1)%Z.
Proof. intros E H. apply TO; [|lia]. apply nadd_int; auto; [|lia]. exact (proj2 (ok_s1 _ (bscal_ok b))). Qed.
Lemma b_times_ok (Z_ : I) s (m : bscal b) N r R v : isin Z_ s -> sval m = XR (IZR N) -> (Z.abs N < 2 ^ 31 - 1)%Z -> isin r R -> b_times toint Z_ m r = Ok v -> isin v (R * Qz N s).
Proof.
  intros HZ E H Hr EV. unfold b_times in EV. rewrite (one_le m N E), (TO m N E), (next_int m N E H) in EV by lia. unfold Qz. destruct (Z.leb_spec 1 N).
  - injection EV as <-. apply b_mul_ok; auto. lia.
  - replace (1 - (N + 1))%Z with (- N)%Z in EV by lia. apply (b_div_ok Z_ s _ HZ _ _ R) in EV; auto. lia.
Qed.
Lemma b_over_ok (Z_ : I) s (m : bscal b) N r R v : isin Z_ s -> sval m = XR (IZR N) -> (Z.abs N < 2 ^ 31 - 1)%Z -> isin r R -> b_over toint Z_ m r = Ok v -> isin v (R / Qz N s).
Proof.
  intros HZ E H Hr EV. unfold b_over in EV. rewrite (one_le m N E), (TO m N E), (next_int m N E H) in EV by lia. unfold Qz. destruct (Z.leb_spec 1 N).
  - apply (b_div_ok Z_ s _ HZ _ _ R) in EV; auto. lia.
  - replace (1 - (N + 1))%Z with (- N)%Z in EV by lia. injection EV as <-. unfold Rdiv. rewrite Rinv_inv. apply b_mul_ok; auto. lia.
Qed.
Theorem beta_ok X Y x y zx zy v l l' st st' : isin X x -> isin Y y -> no_pole x -> no_pole y -> floor_of b X zx -> floor_of b Y zy -> (Z.abs zx < 2 ^ 30 - 1)%Z -> (Z.abs zy < 2 ^ 30 - 1)%Z ->
  bt X Y st = (Ok (v, (l, l')), st') -> steps_in l 0 (/ 2) -> steps_in l' (-1) (- / 2) -> exists G, is_Beta x y G /\ isin v G.
Proof.
  intros HX HY Px Py FX FY ZX ZY R HL HL'. unfold beta in R. apply hb_ok in R as (r & s1_ & R1 & R).
  apply hb_ok in R as (q1 & s2 & R2 & R). unfold hlift in R2. injection R2 as R2 <-.
  apply hb_ok in R as (q2 & s3 & R3 & R). unfold hlift in R3. injection R3 as R3 <-.
  apply hb_ok in R as (q3 & s4 & R4 & R). unfold hlift in R4. injection R4 as R4 <-.
  unfold hret, hlift in R. injection R as <- ER <-. destruct r as [r lr]. cbn [fst snd] in *. subst lr.
  destruct (nsub_int b _ zx (floor_v b X zx FX) ltac:(lia)) as [WX NX]. destruct (nsub_int b _ zy (floor_v b Y zy FY) ltac:(lia)) as [WY NY].
  pose proof (floor_le b X x zx FX HX) as LX. pose proof (floor_le b Y y zy FY HY) as LY.
  assert (PX : 0 < x - IZR (zx - 1)) by (rewrite minus_IZR; lra). assert (PY : 0 < y - IZR (zy - 1)) by (rewrite minus_IZR; lra).
  assert (IX : isin (isubS X (nsub (sfloor (lo X)) s1)) (x - IZR (zx - 1))) by (apply (isin_subS (bscal_ok b)); auto).
  assert (IY : isin (isubS Y (nsub (sfloor (lo Y)) s1)) (y - IZR (zy - 1))) by (apply (isin_subS (bscal_ok b)); auto).
  destruct (beta_r_ok _ _ _ _ r l l' st s1_ IX IY PX PY R1 HL HL') as (G & HG & Hr).
  exists (bW (zx - 1) (zy - 1) x y G). split; [apply Beta_shift; auto|].
  apply (b_times_ok X x _ (zx - 1) r G) in R2; auto; [|lia].
  apply (b_over_ok (iadd X Y) (x + y) _ (zx - 1 + (zy - 1)) q1 (G * Qz (zx - 1) x)) in R3; auto; [|apply (isin_add (bscal_ok b)); auto|apply nadd_int; auto; lia|lia].
  apply (b_times_ok Y y _ (zy - 1) q2 (G * Qz (zx - 1) x / Qz (zx - 1 + (zy - 1)) (x + y))) in R4; auto. lia.
Qed.
End B.
