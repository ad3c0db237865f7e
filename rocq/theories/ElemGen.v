(* Enclosure proofs for the loops of the elementary functions, for any scalar type satisfying
   scal_ok.  Nothing here depends on the stopping tests of the loops. *)
From Coq Require Import Reals Lra Lia ZArith Bool.
From Flocq Require Import Core.
From Verif Require Import Ext Scalar IntervalModel IntervalSpec IntervalProofs IntervalEncl IntervalSets
  IntervalDivPow IntervalMore ElemModel RealFun.
Open Scope R_scope.

Section Gen.
Context {S : scal} (OK : scal_ok S).
Implicit Types X Y Q RR : iv S.

Lemma sint_ok i : (Z.abs i <= 2 ^ 53)%Z -> swf (sint S i) /\ sval (sint S i) = XR (IZR i).
Proof.
  intros H. unfold sint. destruct (ok_dy _ OK i 0) as [W E]; try lia. split; auto. rewrite E. simpl. f_equal. ring.
Qed.
Lemma sint_wf i : (Z.abs i <= 2 ^ 53)%Z -> swf (sint S i). Proof. intros; now apply sint_ok. Qed.
Lemma sint_v i : (Z.abs i <= 2 ^ 53)%Z -> sval (sint S i) = XR (IZR i). Proof. intros; now apply sint_ok. Qed.
Lemma s1_wf : swf (@s1 S). Proof. apply (ok_s1 _ OK). Qed.
Lemma s1_v : sval (@s1 S) = XR 1. Proof. apply (ok_s1 _ OK). Qed.
Lemma s0_wf : swf (@s0 S). Proof. apply (ok_s0 _ OK). Qed.
Lemma s0_v : sval (@s0 S) = XR 0. Proof. apply (ok_s0 _ OK). Qed.
Lemma sneg_wf (a : S) : swf a -> swf (sneg a). Proof. intros; now apply (ok_neg _ OK). Qed.
Lemma sneg_v (a : S) : swf a -> sval (sneg a) = xneg (sval a). Proof. intros; now apply (ok_neg _ OK). Qed.
Lemma shalf_wf : swf (@shalf S). Proof. apply (shalf_ok OK). Qed.
Lemma shalf_v : sval (@shalf S) = XR (/ 2). Proof. apply (shalf_ok OK). Qed.
Lemma squart_ok : swf (squart S) /\ sval (squart S) = XR (/ 4).
Proof. unfold squart. destruct (ok_dy _ OK 1 (-2)) as [W E]; try lia. split; auto. rewrite E. f_equal. simpl. lra. Qed.
Lemma isin_1 : isin (ipt (@s1 S)) 1. Proof. apply isin_pt; [apply s1_wf|apply s1_v]. Qed.
Lemma isin_0 : isin (ipt (@s0 S)) 0. Proof. apply isin_pt; [apply s0_wf|apply s0_v]. Qed.
Lemma isin_m1 : isin (ipt (sneg (@s1 S))) (-1).
Proof. apply isin_pt; [apply sneg_wf, s1_wf|]. rewrite sneg_v, s1_v by apply s1_wf. simpl. f_equal; lra. Qed.
Lemma isin_pm1 d : -1 <= d <= 1 -> isin (ipm1 S) d.
Proof.
  intros H. unfold isin, ipm1; simpl. split; [apply sneg_wf, s1_wf|]. split; [apply s1_wf|].
  rewrite sneg_v, s1_v by apply s1_wf. simpl. lra.
Qed.
Lemma isin_mk X Y x y z : isin X x -> isin Y y -> x <= z <= y -> isin (mkiv (lo X) (hi Y)) z.
Proof.
  intros (A1&A2&A3&A4) (B1&B2&B3&B4) H. unfold isin; simpl. repeat split; auto.
  - eapply lb_le; eauto; lra. - eapply ub_le; eauto; lra.
Qed.
Lemma isin_ends X z : swf (lo X) -> swf (hi X) -> lb (sval (lo X)) z -> ub (sval (hi X)) z -> isin X z.
Proof. repeat split; auto. Qed.
Lemma isin_divi X i Q x : idivS X (sint S i) = Ok Q -> (Z.abs i <= 2 ^ 53)%Z -> isin X x -> isin Q (x / IZR i).
Proof. intros H Hi Hx. eapply (isin_divS OK); eauto; apply sint_ok; auto. Qed.

Lemma fuel_guard {A} i (a b : res A) v : (if (intmax <? i)%Z then Err EUB else a) = Ok v -> (i <= intmax)%Z /\ a = Ok v.
Proof. destruct (Z.ltb_spec intmax i); [discriminate|]. auto. Qed.

(* exp_point / expm1_origin loop: r encloses c + sum_{k<i} x^k/k!, y encloses x^(i-1)/(i-1)! *)
Lemma exp_loop_ok f : forall (x : S) v rem (n : nat) c RR Y Q,
  swf x -> sval x = XR v -> (forall t, btw v t -> isin rem (exp t)) ->
  isin RR (rsum (exp_term v) (n + 1) - c) -> isin Y (exp_term v n) ->
  exp_loop S f x rem (Z.of_nat n + 1) RR Y = Ok Q -> isin Q (exp v - c).
Proof.
  induction f as [|f IH]; intros x v rem n c RR Y Q Wx Ex HR HS HY H; simpl in H; [discriminate|].
  apply fuel_guard in H as [Hi H]; [|exact (Err EFuel)].
  apply bind_ok in H as (Y' & HD & H).
  assert (I1 : isin Y' (exp_term v (n + 1))).
  { replace (n + 1)%nat with (Datatypes.S n) by lia. rewrite exp_term_S.
    replace (INR (Datatypes.S n)) with (IZR (Z.of_nat n + 1)) by (rewrite S_INR, INR_IZR_INZ, plus_IZR; auto).
    eapply isin_divi; [exact HD|unfold intmax in Hi; lia|]. apply (isin_mulS OK); auto. }
  destruct (slt _ _).
  - injection H as <-. destruct (exp_taylor v (n + 1)) as (t & Bt & E). rewrite E.
    replace (rsum (exp_term v) (n + 1) + exp_term v (n + 1) * exp t - c)
      with ((rsum (exp_term v) (n + 1) - c) + exp_term v (n + 1) * exp t) by ring.
    apply (isin_add OK); auto. apply (isin_mul OK); auto.
  - replace (Z.of_nat n + 1 + 1)%Z with (Z.of_nat (n + 1) + 1)%Z in H by lia.
    eapply (IH x v rem (n + 1)%nat c); eauto.
    replace (rsum (exp_term v) (n + 1 + 1) - c) with ((rsum (exp_term v) (n + 1) - c) + exp_term v (n + 1)).
    + apply (isin_add OK); auto.
    + replace (n + 1 + 1)%nat with (Datatypes.S (n + 1)) by lia. cbn [rsum]. ring.
Qed.

(* log_point / log1p_origin loop: xn encloses (-1)^n x^n * -1..., cinv encloses 1/(1+c) *)
Lemma log_loop_ok f : forall (x : S) v cinv (n : nat) RR XN XN2 Q,
  swf x -> sval x = XR v -> -1 < v -> (forall t, btw v t -> isin cinv (/ (1 + t))) ->
  isin RR (rsum (fun k => match k with O => 0 | Datatypes.S j => (-1) ^ j * v ^ k / INR k end) (n + 1)) ->
  isin XN ((-1) ^ (n + 1) * v ^ n) ->
  (forall t, btw v t -> isin XN2 ((-1) ^ (n + 1) * (v / (1 + t)) ^ n)) ->
  log_loop S f x cinv (Z.of_nat n + 1) RR XN XN2 = Ok Q -> isin Q (ln (1 + v)).
Proof.
  induction f as [|f IH]; intros x v cinv n RR XN XN2 Q Wx Ex Hv HC HS HN HN2 H; simpl in H; [discriminate|].
  apply fuel_guard in H as [Hi H]; [|exact (Err EFuel)].
  apply bind_ok in H as (T & HD & H).
  assert (NZ : INR (n + 1) = IZR (Z.of_nat n + 1)) by (rewrite INR_IZR_INZ; f_equal; lia).
  assert (J1 : isin (imulS (ineg XN) x) ((-1) ^ (n + 1 + 1) * v ^ (n + 1))).
  { replace ((-1) ^ (n + 1 + 1) * v ^ (n + 1)) with (- ((-1) ^ (n + 1) * v ^ n) * v) by (rewrite !pow_add; simpl; ring).
    apply (isin_mulS OK); auto. apply (isin_neg OK); auto. }
  assert (J2 : forall t, btw v t -> isin (imulS (imul (ineg XN2) cinv) x) ((-1) ^ (n + 1 + 1) * (v / (1 + t)) ^ (n + 1))).
  { intros t Ht. replace ((-1) ^ (n + 1 + 1) * (v / (1 + t)) ^ (n + 1)) with (- ((-1) ^ (n + 1) * (v / (1 + t)) ^ n) * / (1 + t) * v)
      by (rewrite !(pow_add _ _ 1), !pow_1; unfold Rdiv; ring).
    apply (isin_mulS OK); auto. apply (isin_mul OK); auto. apply (isin_neg OK); auto. }
  destruct (slt _ _).
  - injection H as <-. destruct (ln_taylor v (n + 1) Hv) as (t & Bt & E); [lia|]. rewrite E.
    apply (isin_add OK); auto. replace (n + 1 - 1)%nat with n by lia.
    rewrite NZ. eapply isin_divi; [exact HD|unfold intmax in Hi; lia|].
    replace ((-1) ^ n) with ((-1) ^ (n + 1 + 1)) by (rewrite !pow_add; simpl; ring). auto.
  - apply bind_ok in H as (U & HU & H).
    replace (Z.of_nat n + 1 + 1)%Z with (Z.of_nat (n + 1) + 1)%Z in H by lia.
    eapply (IH x v cinv (n + 1)%nat); eauto.
    replace (n + 1 + 1)%nat with (Datatypes.S (n + 1)) by lia. cbn [rsum]. apply (isin_add OK); auto.
    replace (n + 1)%nat with (Datatypes.S n) at 1 by lia. cbv iota beta.
    rewrite NZ. eapply isin_divi; [exact HU|unfold intmax in Hi; lia|].
    replace ((-1) ^ n * v ^ (n + 1)) with ((-1) ^ (n + 1 + 1) * v ^ (n + 1)) by (rewrite !(pow_add _ _ 1); simpl; ring). auto.
Qed.

Lemma zmod2 k : (Z.of_nat k mod 2 =? 0)%Z = Nat.even k.
Proof.
  destruct (Nat.even k) eqn:E.
  - apply Nat.even_spec in E as [j ->]. replace (Z.of_nat (2 * j)) with (Z.of_nat j * 2)%Z by lia. rewrite Z.mod_mul by lia. auto.
  - assert (OM : Nat.odd k = true) by (rewrite <- Nat.negb_even, E; auto).
    apply Nat.odd_spec in OM as [j ->]. replace (Z.of_nat (2 * j + 1)) with (1 + Z.of_nat j * 2)%Z by lia. rewrite Z.mod_add by lia. auto.
Qed.
(* sin_origin / cos_origin loops *)
Definition scF (odd : bool) : nat -> R := fun k => if odd then sinF k 0 else cosF k 0.
Definition scf (odd : bool) : R -> R := if odd then sin else cos.
Lemma sc_taylor odd x n : exists d, -1 <= d <= 1 /\
  scf odd x = rsum (fun k => scF odd k * exp_term x k) n + exp_term x n * d.
Proof. destruct odd; [apply sin_taylor|apply cos_taylor]. Qed.
Lemma sinF_mod k : sinF k 0 = (if (Z.of_nat k mod 2 =? 0)%Z then 0 else if (Z.of_nat k mod 4 =? 1)%Z then 1 else -1).
Proof.
  assert (H : forall m, sinF (4 * m) 0 = 0 /\ sinF (4 * m + 1) 0 = 1 /\ sinF (4 * m + 2) 0 = 0 /\ sinF (4 * m + 3) 0 = -1).
  { induction m; [simpl; rewrite sin_0, cos_0; repeat split; lra|].
    replace (4 * Datatypes.S m)%nat with (Datatypes.S (Datatypes.S (Datatypes.S (Datatypes.S (4 * m))))) by lia.
    repeat (change (sinF (Datatypes.S (Datatypes.S ?k)) 0) with (- sinF k 0)).
    cbn [sinF plus]. rewrite !Ropp_involutive. auto. }
  pose proof (Nat.div_mod k 4 ltac:(lia)) as E. pose proof (Nat.mod_upper_bound k 4 ltac:(lia)) as UB.
  destruct (H (k / 4)%nat) as (H0 & H1 & H2 & H3).
  set (q := (k / 4)%nat) in *. set (r := (k mod 4)%nat) in *. clearbody q r.
  assert (C : (r = 0 \/ r = 1 \/ r = 2 \/ r = 3)%nat) by lia.
  destruct C as [-> | [-> | [-> | ->]]]; subst k; rewrite ?Nat.add_0_r.
  - rewrite H0. replace (Z.of_nat (4 * q) mod 2)%Z with 0%Z; auto. symmetry. replace (Z.of_nat (4 * q)) with ((2 * Z.of_nat q) * 2)%Z by lia. apply Z.mod_mul; lia.
  - rewrite H1. replace (Z.of_nat (4 * q + 1) mod 2)%Z with 1%Z; [replace (Z.of_nat (4 * q + 1) mod 4)%Z with 1%Z; auto|].
    + replace (Z.of_nat (4 * q + 1)) with (1 + Z.of_nat q * 4)%Z by lia. rewrite Z.mod_add; auto; lia.
    + replace (Z.of_nat (4 * q + 1)) with (1 + (2 * Z.of_nat q) * 2)%Z by lia. rewrite Z.mod_add; auto; lia.
  - rewrite H2. replace (Z.of_nat (4 * q + 2) mod 2)%Z with 0%Z; auto. symmetry. replace (Z.of_nat (4 * q + 2)) with ((2 * Z.of_nat q + 1) * 2)%Z by lia. apply Z.mod_mul; lia.
  - rewrite H3. replace (Z.of_nat (4 * q + 3) mod 2)%Z with 1%Z; [replace (Z.of_nat (4 * q + 3) mod 4)%Z with 3%Z; auto|].
    + replace (Z.of_nat (4 * q + 3)) with (3 + Z.of_nat q * 4)%Z by lia. rewrite Z.mod_add; auto; lia.
    + replace (Z.of_nat (4 * q + 3)) with (1 + (2 * Z.of_nat q + 1) * 2)%Z by lia. rewrite Z.mod_add; auto; lia.
Qed.
Lemma cosF_mod k : cosF k 0 = (if (Z.of_nat k mod 2 =? 0)%Z then if (Z.of_nat k mod 4 =? 0)%Z then 1 else -1 else 0).
Proof.
  unfold cosF. rewrite sinF_mod.
  pose proof (Z.div_mod (Z.of_nat k) 4 ltac:(lia)) as E. pose proof (Z.mod_pos_bound (Z.of_nat k) 4 ltac:(lia)).
  rewrite Nat2Z.inj_succ. set (q := (Z.of_nat k / 4)%Z) in *. set (r := (Z.of_nat k mod 4)%Z) in *. clearbody q r.
  assert (C : (r = 0 \/ r = 1 \/ r = 2 \/ r = 3)%Z) by lia.
  assert (M4 : forall r, (0 <= r < 4)%Z -> ((4 * q + r) mod 4 = r)%Z).
  { intros s Hs. replace (4 * q + s)%Z with (s + q * 4)%Z by lia. rewrite Z.mod_add by lia. apply Z.mod_small; lia. }
  assert (M2 : forall r, (0 <= r < 2)%Z -> ((4 * q + r) mod 2 = r /\ (4 * q + 2 + r) mod 2 = r)%Z).
  { intros s Hs. replace (4 * q + s)%Z with (s + (2 * q) * 2)%Z by lia. replace (4 * q + 2 + s)%Z with (s + (2 * q + 1) * 2)%Z by lia.
    rewrite !Z.mod_add by lia. rewrite !Z.mod_small by lia. auto. }
  destruct (M2 0%Z) as [A0 A2]; [lia|]. destruct (M2 1%Z) as [A1 A3]; [lia|]. rewrite !Z.add_0_r in *.
  assert (A4 : (Z.succ (4 * q + 3) mod 2 = 0)%Z).
  { replace (Z.succ (4 * q + 3)) with (0 + (2 * q + 2) * 2)%Z by lia. rewrite Z.mod_add by lia. auto. }
  rewrite E. destruct C as [-> | [-> | [-> | ->]]]; rewrite ?Z.add_0_r.
  - replace (Z.succ (4 * q)) with (4 * q + 1)%Z by lia. rewrite A1, A0, (M4 1%Z) by lia. auto.
  - replace (Z.succ (4 * q + 1)) with (4 * q + 2)%Z by lia. rewrite A2, A1. auto.
  - replace (Z.succ (4 * q + 2)) with (4 * q + 3)%Z by lia. rewrite A2.
    replace (4 * q + 3)%Z with (4 * q + 2 + 1)%Z at 1 by lia. rewrite A3, (M4 3%Z) by lia. auto.
  - rewrite A4. replace (4 * q + 3)%Z with (4 * q + 2 + 1)%Z by lia. rewrite A3. auto.
Qed.

Lemma sc_loop_ok f : forall odd X v (n : nat) RR Y Q, isin X v ->
  isin RR (rsum (fun k => scF odd k * exp_term v k) (n + 1)) -> isin Y (exp_term v n) ->
  sc_loop S f odd X (Z.of_nat n + 1) RR Y = Ok Q -> isin Q (scf odd v).
Proof.
  induction f as [|f IH]; intros odd X v n RR Y Q HX HS HY H; simpl in H; [discriminate|].
  apply fuel_guard in H as [Hi H]; [|exact (Err EFuel)].
  apply bind_ok in H as (Y' & HD & H).
  assert (I1 : isin Y' (exp_term v (n + 1))).
  { replace (n + 1)%nat with (Datatypes.S n) by lia. rewrite exp_term_S.
    replace (INR (Datatypes.S n)) with (IZR (Z.of_nat n + 1)) by (rewrite S_INR, INR_IZR_INZ, plus_IZR; auto).
    eapply isin_divi; [exact HD|unfold intmax in Hi; lia|]. apply (isin_mul OK); auto. }
  destruct (slt _ _).
  - injection H as <-. destruct (sc_taylor odd v (n + 1)) as (d & Bd & E). rewrite E.
    apply (isin_add OK); auto. apply (isin_mul OK); auto. apply isin_pm1; auto.
  - replace (Z.of_nat n + 1 + 1)%Z with (Z.of_nat (n + 1) + 1)%Z in H by lia.
    eapply (IH odd X v (n + 1)%nat); [exact HX| |exact I1|exact H].
    replace (n + 1 + 1)%nat with (Datatypes.S (n + 1)) by lia. cbn [rsum]. 
    replace (Z.of_nat n + 1)%Z with (Z.of_nat (n + 1)) by lia. 
    destruct odd; unfold scF at 2; [rewrite sinF_mod|rewrite cosF_mod];
      destruct (Z.of_nat (n + 1) mod 2 =? 0)%Z; simpl negb; cbv iota.
    + rewrite Rmult_0_l, Rplus_0_r. exact HS.
    + destruct (Z.of_nat (n + 1) mod 4 =? 1)%Z.
      * rewrite Rmult_1_l. apply (isin_add OK); auto.
      * replace (-1 * exp_term v (n + 1)) with (- exp_term v (n + 1)) by ring. apply (isin_sub OK); auto.
    + destruct (Z.of_nat (n + 1) mod 4 =? 0)%Z.
      * rewrite Rmult_1_l. apply (isin_add OK); auto.
      * replace (-1 * exp_term v (n + 1)) with (- exp_term v (n + 1)) by ring. apply (isin_sub OK); auto.
    + rewrite Rmult_0_l, Rplus_0_r. exact HS.
Qed.
Lemma sin_origin_ok f X v Q : isin X v -> sin_origin S f X = Ok Q -> isin Q (sin v).
Proof.
  intros HX H. apply (sc_loop_ok f true X v 0 (ipt s0) (ipt s1)); auto.
  - simpl. rewrite sin_0, Rmult_0_l, Rplus_0_r. apply isin_0.
  - rewrite exp_term_0. apply isin_1.
Qed.
Lemma cos_origin_ok f X v Q : isin X v -> cos_origin S f X = Ok Q -> isin Q (cos v).
Proof.
  intros HX H. apply (sc_loop_ok f false X v 0 (ipt s1) (ipt s1)); auto.
  - change (isin (ipt (@s1 S)) (0 + cos 0 * exp_term v 0)). rewrite exp_term_0, cos_0. replace (0 + 1 * 1) with 1 by ring. apply isin_1.
  - rewrite exp_term_0. apply isin_1.
Qed.

(* atan_origin: after i-1 iterations r encloses the sum of the odd terms below i *)
Lemma atan_loop_ok f : forall X v (n : nat) RR Y Q, isin X v ->
  isin RR (atS (Nat.div2 (n + 1)) v) -> isin Y (v ^ n) ->
  atan_loop S f X (Z.of_nat n + 1) RR Y = Ok Q -> isin Q (atan v).
Proof.
  induction f as [|f IH]; intros X v n RR Y Q HX HS HY H; simpl in H; [discriminate|].
  apply fuel_guard in H as [Hi H]; [|exact (Err EFuel)].
  apply bind_ok in H as (T & HT & H).
  assert (NZ : INR (n + 1) = IZR (Z.of_nat n + 1)) by (rewrite INR_IZR_INZ; f_equal; lia).
  assert (I1 : isin (imul Y X) (v ^ (n + 1))).
  { rewrite pow_add, pow_1. apply (isin_mul OK); auto. }
  pose proof (Nat.div2_odd (n + 1)) as DO.
  destruct (slt _ _).
  - injection H as <-. destruct (atan_rem (Nat.div2 (n + 1)) (n + 1) v) as (d & Bd & E);
      [destruct (Nat.odd (n + 1)); simpl in DO; lia|lia|].
    rewrite E. apply (isin_add OK); auto. rewrite NZ.
    eapply isin_divi; [exact HT|unfold intmax in Hi; lia|]. apply (isin_mul OK); auto. apply isin_pm1; auto.
  - replace (Z.of_nat n + 1 + 1)%Z with (Z.of_nat (n + 1) + 1)%Z in H by lia.
    assert (PA : ((Z.of_nat n + 1) mod 2 =? 0)%Z = negb (Nat.odd (n + 1))).
    { replace (Z.of_nat n + 1)%Z with (Z.of_nat (n + 1)) by lia. rewrite zmod2, Nat.negb_odd. auto. }
    rewrite PA, negb_involutive in H.
    destruct (Nat.odd (n + 1)) eqn:OD.
    + apply bind_ok in H as (U & HU & H). simpl Nat.b2n in DO.
      set (m := Nat.div2 (n + 1)) in *.
      assert (D2 : Nat.div2 (n + 1 + 1) = (m + 1)%nat).
      { rewrite DO. replace (2 * m + 1 + 1)%nat with (2 * (m + 1))%nat by lia. rewrite Nat.div2_double. auto. }
      assert (IU : isin U (v ^ (2 * m + 1) / INR (2 * m + 1))).
      { rewrite <- DO, NZ. eapply isin_divi; [exact HU|unfold intmax in Hi; lia|auto]. }
      eapply (IH X v (n + 1)%nat); [exact HX| |exact I1|exact H].
      rewrite D2. replace (m + 1)%nat with (Datatypes.S m) by lia. unfold atS. cbn [rsum].
      assert (M4 : ((Z.of_nat n + 1) mod 4 =? 1)%Z = Nat.even m).
      { replace (Z.of_nat n + 1)%Z with (Z.of_nat (2 * m + 1)) by lia.
        destruct (Nat.even m) eqn:EM.
        - apply Nat.even_spec in EM as [k ->]. replace (Z.of_nat (2 * (2 * k) + 1)) with (1 + Z.of_nat k * 4)%Z by lia.
          rewrite Z.mod_add by lia. reflexivity.
        - assert (OM : Nat.odd m = true) by (rewrite <- Nat.negb_even, EM; auto).
          apply Nat.odd_spec in OM as [k ->]. replace (Z.of_nat (2 * (2 * k + 1) + 1)) with (3 + Z.of_nat k * 4)%Z by lia.
          rewrite Z.mod_add by lia. reflexivity. }
      rewrite M4. destruct (Nat.even m) eqn:EM.
      * apply Nat.even_spec in EM as [k ->]. rewrite pow_1_even, Rmult_1_l. apply (isin_add OK); auto.
      * assert (OM : Nat.odd m = true) by (rewrite <- Nat.negb_even, EM; auto).
        apply Nat.odd_spec in OM as [k Em]. rewrite Em at 2. replace (2 * k + 1)%nat with (Datatypes.S (2 * k)) by lia. rewrite pow_1_odd.
        replace (-1 * v ^ (2 * m + 1) / INR (2 * m + 1)) with (- (v ^ (2 * m + 1) / INR (2 * m + 1))) by (unfold Rdiv; ring).
        apply (isin_sub OK); auto.
    + eapply (IH X v (n + 1)%nat); [exact HX| |exact I1|exact H].
      simpl Nat.b2n in DO. rewrite Nat.add_0_r in DO.
      assert (D2 : Nat.div2 (n + 1 + 1) = Nat.div2 (n + 1)).
      { rewrite DO at 1. replace (2 * Nat.div2 (n + 1) + 1)%nat with (Datatypes.S (2 * Nat.div2 (n + 1))) by lia.
        rewrite Nat.div2_succ_double. auto. }
      rewrite D2. auto.
Qed.
Lemma atan_origin_ok f X v Q : isin X v -> atan_origin S f X = Ok Q -> isin Q (atan v).
Proof.
  intros HX H. apply (atan_loop_ok f X v 0 (ipt s0) (ipt s1)); auto.
  - simpl. apply isin_0. - simpl. apply isin_1.
Qed.

(* sinh_origin: rem encloses [-cosh 1/2, cosh 1/2] *)
Lemma sinh_loop_ok f : forall (x : S) v rem (n : nat) RR Y Q,
  swf x -> sval x = XR v -> Rabs v <= / 2 -> (forall d, Rabs d <= cosh (/ 2) -> isin rem d) ->
  isin RR (rsum (fun k => (if Nat.even k then 0 else 1) * exp_term v k) (n + 1)) -> isin Y (exp_term v n) ->
  sinh_loop S f x rem (Z.of_nat n + 1) RR Y = Ok Q -> isin Q (sinh v).
Proof.
  induction f as [|f IH]; intros x v rem n RR Y Q Wx Ex Hv HR HS HY H; simpl in H; [discriminate|].
  apply fuel_guard in H as [Hi H]; [|exact (Err EFuel)].
  apply bind_ok in H as (Y' & HD & H).
  assert (I1 : isin Y' (exp_term v (n + 1))).
  { replace (n + 1)%nat with (Datatypes.S n) by lia. rewrite exp_term_S.
    replace (INR (Datatypes.S n)) with (IZR (Z.of_nat n + 1)) by (rewrite S_INR, INR_IZR_INZ, plus_IZR; auto).
    eapply isin_divi; [exact HD|unfold intmax in Hi; lia|]. apply (isin_mulS OK); auto. }
  destruct (slt _ _).
  - injection H as <-. destruct (sinh_taylor v (n + 1)) as (t & Bt & E). rewrite E.
    apply (isin_add OK); auto. apply (isin_mul OK); auto. apply HR, shF_bound.
    pose proof (btw_abs _ _ Bt). lra.
  - replace (Z.of_nat n + 1 + 1)%Z with (Z.of_nat (n + 1) + 1)%Z in H by lia.
    eapply (IH x v rem (n + 1)%nat); [exact Wx|exact Ex|exact Hv|exact HR| |exact I1|exact H].
    replace (n + 1 + 1)%nat with (Datatypes.S (n + 1)) by lia. cbn [rsum].
    assert (PA : ((Z.of_nat n + 1) mod 2 =? 0)%Z = Nat.even (n + 1)).
    { replace (Z.of_nat n + 1)%Z with (Z.of_nat (n + 1)) by lia. apply zmod2. }
    rewrite PA. destruct (Nat.even (n + 1)); simpl negb; cbv iota.
    + rewrite Rmult_0_l, Rplus_0_r. auto.
    + rewrite Rmult_1_l. apply (isin_add OK); auto.
Qed.
End Gen.
