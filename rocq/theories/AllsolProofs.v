(* The all-solution search of kv/allsol.hpp: what is kept, what is returned. *)
From Coq Require Import Reals Lra Lia Psatz ZArith Bool Arith List.
From Flocq Require Import Core.
From Verif Require Import Ext Scalar IntervalModel IntervalSpec IntervalProofs IntervalEncl IntervalSets IntervalDivPow IntervalMore.
From Verif Require Import LinAlg RealRn VecModel VecProofs KrawProofs AllsolModel.
Import ListNotations.
Open Scope R_scope.

Section A.
Context {S : scal} (OK : scal_ok S) (NN : scal_nan S).
Let W := nn_wf _ NN.

(* ---- extended division ---- *)
Lemma part2_eq X Y (R1 : iv S) : division_part1 X Y = Ok (R1, false) -> division_part2 X Y = Ok R1.
Proof.
  unfold division_part1, division_part2. destruct (slt s0 (lo Y) || slt (hi Y) s0).
  { destruct (idiv X Y); simpl; congruence. }
  destruct (seq0 (lo Y) && seq0 (hi Y)); [discriminate|].
  destruct (slt (lo Y) s0 && seq0 (hi Y)); [intros H; injection H as <-; auto|].
  destruct (seq0 (lo Y) && slt s0 (hi Y)); [intros H; injection H as <-; auto|].
  destruct (seq0 (lo X) && seq0 (hi X)); [intros H; injection H as <-; auto|].
  destruct (slt s0 (lo X)); [discriminate|]. destruct (slt (hi X) s0); [discriminate|]. intros H; injection H as <-; auto.
Qed.
Lemma parted_valid X Y (R1 : iv S) : ivalid X -> ivalid Y -> division_part1 X Y = Ok (R1, true) ->
  exists R2, division_part2 X Y = Ok R2 /\ ivalid R1 /\ ivalid R2.
Proof.
  intros VX VY H. destruct (division_parted OK X Y R1 true VX VY H) as [P _]. destruct (P eq_refl) as ((yn & Yn & N) & (yp & Yp & P0) & NX). clear P.
  destruct (valid_isin X VX) as [x Hx]. pose proof Hx as (_&_&A3&A4). pose proof Yn as (_&_&B3&B4). pose proof Yp as (_&_&B5&B6).
  assert (Yl : xlt (sval (lo Y)) (XR 0)) by (destruct (sval (lo Y)); simpl in *; try tauto; lra).
  assert (Yh : xlt (XR 0) (sval (hi Y))) by (destruct (sval (hi Y)); simpl in *; try tauto; lra).
  pose proof (xlt_nz _ Yl). pose proof (xlt_nz' _ Yh).
  revert H. unfold division_part1, division_part2.
  destruct (slt s0 (lo Y) || slt (hi Y) s0). { destruct (idiv X Y); simpl; discriminate. }
  destruct (seq0 (lo Y) && seq0 (hi Y)); [discriminate|].
  destruct (slt (lo Y) s0 && seq0 (hi Y)); [discriminate|].
  destruct (seq0 (lo Y) && slt s0 (hi Y)); [discriminate|].
  destruct (seq0 (lo X) && seq0 (hi X)); [discriminate|].
  destruct (slt s0 (lo X)) eqn:E.
  { apply (lt0_true OK) in E; auto. intros HH; injection HH as <-. apply xlt_xle in E. eexists. split; [reflexivity|]. split.
    - apply isin_valid with (x / yn). apply (isin_le_ub OK); auto. apply (divu_ub OK); auto. apply q1; auto.
    - apply isin_valid with (x / yp). apply (isin_ge_lb OK); auto. apply (divd_lb OK); auto. apply q3; auto. }
  destruct (slt (hi X) s0) eqn:E'; [|discriminate].
  apply (gt0_true OK) in E'; auto. intros HH; injection HH as <-. apply xlt_xle in E'. eexists. split; [reflexivity|]. split.
  - apply isin_valid with (x / yp). apply (isin_le_ub OK); auto. apply (divu_ub OK); auto. apply q4; auto.
  - apply isin_valid with (x / yn). apply (isin_ge_lb OK); auto. apply (divd_lb OK); auto. apply q2; auto.
Qed.

Variables (n : nat) (fI : (nat -> iv S) -> res (nat -> iv S)) (fD : (nat -> iv S) -> res ((nat -> iv S) * (nat -> nat -> iv S)))
  (inv : (nat -> nat -> S) -> option (nat -> nat -> S)) (giveup : S).
Variable f : (nat -> R) -> nat -> R.
Variable Dom : (nat -> R) -> Prop.
Hypothesis FI : forall X Y x, fI X = Ok Y -> vin n X x -> Dom x -> vin n Y (f x).
Hypothesis FD : slope_ext n fD f.
Hypothesis FDom : forall X Y J, fD X = Ok (Y, J) -> forall x, vin n X x -> Dom x.
Hypothesis INV : forall L Rs i j, inv L = Some Rs -> (i < n)%nat -> (j < n)%nat -> sval (Rs i j) <> Xp /\ sval (Rs i j) <> Xm.
Hypothesis MID : forall X : iv S, ivalid X -> ifinite X -> exists m, sval (mid X) = XR m /\ isin X m.
Hypothesis MIDI : forall X : iv S, ivalid X -> exists m, sval (mid_infinity X) = XR m /\ isin X m.
Hypothesis REC : forall X J : iv S, ivalid X -> ifinite X -> ivalid J -> ifinite J -> (forall r, isin X r -> isin J r) ->
  ivalid (recover1 X J) /\ (forall r, isin X r -> isin (recover1 X J) r) /\ (ifinite (recover1 X J) -> forall r, isin (recover1 X J) r -> isin J r).
Hypothesis REC2 : forall X J : iv S, ivalid X -> ivalid J -> ifinite J ->
  ivalid (recover21 X J) /\ (forall r, isin X r -> isin (recover21 X J) r).
Notation zero := (zero n f Dom).
Notation vvalid := (vvalid n). Notation vfin := (vfin n). Notation vsub := (vsub n).

Lemma inc_inf_fin (X : iv S) : ivalid X -> inc_inf X = false -> ifinite X.
Proof.
  intros (_&_&L&H&_) E. unfold inc_inf in E. apply orb_false_iff in E as [E1 E2].
  destruct (ok_ninf _ OK) as [_ VM]. destruct (ok_pinf _ OK) as [_ VP]. split.
  - destruct (sval (lo X)) eqn:Q; try contradiction; try exact I. exfalso. assert (seqb (lo X) sninf = true); [|congruence].
    apply (ok_eq _ OK); auto. rewrite Q, VM. exact I.
  - destruct (sval (hi X)) eqn:Q; try contradiction; try exact I. exfalso. assert (seqb (hi X) spinf = true); [|congruence].
    apply (ok_eq _ OK); auto. rewrite Q, VP. exact I.
Qed.
Lemma vinc_fin (X : nat -> iv S) : vvalid X -> vinc_inf n X = false -> vfin X.
Proof.
  intros V E i Hi. apply inc_inf_fin; auto. destruct (inc_inf (X i)) eqn:Q; auto. exfalso.
  assert (vinc_inf n X = true); [|congruence]. apply existsb_exists. exists i. split; auto. apply in_seq. lia.
Qed.
Lemma rec_vec (X J : nat -> iv S) : vvalid X -> vfin X -> vvalid J -> vfin J -> vsub X J ->
  vvalid (recover X J) /\ vsub X (recover X J) /\ (vfin (recover X J) -> vsub (recover X J) J).
Proof.
  intros VX FX VJ FJ SX. split; [|split].
  - intros i Hi. apply REC; auto.
  - intros i r Hi. apply REC; auto.
  - intros F i r Hi. apply REC; auto. apply F; auto.
Qed.

(* ---- interval shrinking ---- *)
Fixpoint sdR (k : nat) (g : nat -> R) : R := match k with O => 0 | Datatypes.S k => sdR k g + g (n - 1 - k)%nat end.
Lemma sdR_sum g k : (k <= n)%nat -> vsum n g = vsum (n - k) g + sdR k g.
Proof.
  induction k; simpl; intros H; [rewrite Nat.sub_0_r; ring|]. rewrite IHk by lia.
  replace (n - k)%nat with (Datatypes.S (n - 1 - k)) by lia. simpl vsum. replace (n - Datatypes.S k)%nat with (n - 1 - k)%nat by lia. ring.
Qed.
Lemma isin_sumdown a g : (forall i, (i < n)%nat -> isin (a i) (g i)) -> forall k, (k <= n)%nat -> isin (sumdown (S := S) n k a) (sdR k g).
Proof. intros H. induction k; simpl; intros L; [apply (isin_i0 OK)|]. apply (isin_add OK); [apply IHk; lia|apply H; lia]. Qed.

Section Trim.
Variables (I C fc : nat -> iv S) (fdi : nat -> nat -> iv S) (c : nat -> R).
Hypothesis VI : vvalid I.
Hypothesis FI' : vfin I.
Hypothesis Cc : vin n C c.
Hypothesis Fc : vin n fc (f c).
Hypothesis SLc : forall x, vin n I x -> exists J, min n fdi J /\ forall k, (k < n)%nat -> f x k - f c k = mv n J (fun j => x j - c j) k.
Hypothesis Ic : vin n I c.

Definition good (IR : nat -> iv S) : Prop := vvalid IR /\ vfin IR /\ vsub IR I /\ forall x, vin n I x -> zero x -> vin n IR x.
Definition tres_ok (t : trimres S) : Prop :=
  match t with
  | TGo IR _ => good IR
  | TNone risk => risk = true \/ forall x, vin n I x -> ~ zero x
  | TSplit I1 I2 => vvalid I1 /\ vvalid I2 /\ forall x, vin n I x -> zero x -> vin n I1 x \/ vin n I2 x
  end.

(* the equation of row i solved for variable j *)
Lemma row i j x A0 : (i < n)%nat -> (j < n)%nat -> A0 = tA0 n I C fdi i -> vin n I x -> zero x ->
  exists a b, isin (tA n fc i j A0) a /\ isin (fdi i j) b /\ b * (x j - c j) = - a.
Proof.
  intros Hi Hj -> Hx Zx. destruct (SLc x Hx) as (J & HJ & EJ). specialize (EJ i Hi). rewrite (proj2 Zx i Hi) in EJ.
  set (g := fun k => J i k * (x k - c k)).
  assert (HA : forall k, (k < n)%nat -> isin (tA0 n I C fdi i k) (g k)).
  { intros k Hk. unfold tA0. rewrite force_ext. apply (isin_mul OK); [apply HJ; auto|]. apply (isin_sub OK); auto. }
  exists (f c i + vsum j g + sdR (n - 1 - j) g), (J i j). split; [|split].
  - unfold tA. apply (isin_add OK); [apply (isin_add OK); [apply Fc; auto|]|].
    + apply (isin_isum OK). intros k Hk. apply HA. lia.
    + apply isin_sumdown; auto. lia.
  - apply HJ; auto.
  - change (mv n J (fun j => x j - c j) i) with (vsum n g) in EJ. rewrite (sdR_sum g (n - 1 - j)) in EJ by lia.
    replace (n - (n - 1 - j))%nat with (Datatypes.S j) in EJ by lia. simpl vsum in EJ. change (J i j * (x j - c j)) with (g j). lra.
Qed.
Lemma tA_valid i j A0 : (i < n)%nat -> (j < n)%nat -> A0 = tA0 n I C fdi i -> ivalid (tA n fc i j A0) /\ ivalid (fdi i j).
Proof.
  intros Hi Hj ->. destruct (SLc c Ic) as (J & HJ & _).
  assert (HA : forall k, (k < n)%nat -> isin (tA0 n I C fdi i k) (J i k * (c k - c k))).
  { intros k Hk. unfold tA0. rewrite force_ext. apply (isin_mul OK); [apply HJ; auto|]. apply (isin_sub OK); auto. }
  split; [|eapply isin_valid; apply HJ; eauto].
  apply isin_valid with (f c i + vsum j (fun k => J i k * (c k - c k)) + sdR (n - 1 - j) (fun k => J i k * (c k - c k))).
  unfold tA. apply (isin_add OK); [apply (isin_add OK); [apply Fc; auto|]|].
  - apply (isin_isum OK). intros k Hk. apply HA. lia.
  - apply isin_sumdown; auto. lia.
Qed.
Lemma upd_eq (IR : nat -> iv S) j y : upd n IR j y = fun i => if Nat.eqb i j then y else IR i.
Proof. unfold upd. apply force_ext. Qed.
Lemma cut_ok (IR : nat -> iv S) j (J : iv S) : vvalid IR -> vfin IR -> (j < n)%nat -> ivalid J -> overlap (IR j) J = true ->
  vvalid (upd n IR j (intersect (IR j) J)) /\ vfin (upd n IR j (intersect (IR j) J)) /\ vsub (upd n IR j (intersect (IR j) J)) IR /\
  forall x, vin n IR x -> isin J (x j) -> vin n (upd n IR j (intersect (IR j) J)) x.
Proof.
  intros V F Hj VJ O. rewrite upd_eq. apply (overlap_spec OK) in O; auto. destruct O as (r & R1 & R2). split; [|split; [|split]].
  - intros i Hi. destruct (Nat.eqb_spec i j) as [-> |]; auto. apply isin_valid with r. apply (isin_intersect OK); auto.
  - intros i Hi. destruct (Nat.eqb_spec i j) as [-> |]; [|apply F; auto]. apply (intersect_fin OK NN) with r; auto.
  - intros i q Hi. destruct (Nat.eqb_spec i j) as [-> |]; auto. intros Q. apply (isin_intersect OK) in Q; tauto || auto.
  - intros x Hx Hq i Hi. destruct (Nat.eqb_spec i j) as [-> |]; auto. apply (isin_intersect OK); auto.
Qed.
Lemma cut_good (IR : nat -> iv S) j (J : iv S) : good IR -> (j < n)%nat -> ivalid J -> overlap (IR j) J = true -> (forall x, vin n I x -> zero x -> isin J (x j)) ->
  good (upd n IR j (intersect (IR j) J)).
Proof.
  intros (G1 & G2 & G3 & G4) Hj VJ O HJ. destruct (cut_ok IR j J G1 G2 Hj VJ O) as (A & B & D & E).
  split; [auto|]. split; [auto|]. split; [intros i r Hi Hr; apply G3; auto; apply D; auto|]. auto.
Qed.
Lemma none_good (IR : nat -> iv S) j (J : iv S) : good IR -> (j < n)%nat -> ivalid J -> overlap (IR j) J = false -> (forall x, vin n I x -> zero x -> isin J (x j)) ->
  forall x, vin n I x -> ~ zero x.
Proof.
  intros (G1 & G2 & G3 & G4) Hj VJ O HJ x Hx Zx. assert (overlap (IR j) J = true); [|congruence].
  apply (overlap_spec OK); auto. exists (x j). split; auto. apply G4; auto.
Qed.

Lemma trim_entry_ok i j IR fl t : trim_entry n I C fc fdi i j (tA0 n I C fdi i) IR fl = Ok t -> (i < n)%nat -> (j < n)%nat ->
  good IR -> tres_ok t.
Proof.
  unfold trim_entry. intros H Hi Hj G. pose proof G as (G1 & G2 & G3 & G4).
  destruct (slt (width (I j)) _); [injection H as <-; exact G|]. cbv zeta in H.
  set (A := tA n fc i j (tA0 n I C fdi i)) in *. set (B := fdi i j) in *.
  assert (RW : forall x, vin n I x -> zero x -> exists a b, isin A a /\ isin B b /\ b * (x j - c j) = - a) by (intros; apply row; auto).
  destruct (tA_valid i j _ Hi Hj eq_refl) as [VA VB]. fold A in VA. fold B in VB.
  assert (QU : forall x a b, b * (x j - c j) = - a -> b <> 0 -> x j = c j - a / b).
  { intros x a b E N. assert (a / b = - (x j - c j)) by (apply (Rmult_eq_reg_l b); auto; replace (b * (a / b)) with a by (field; auto); lra). lra. }
  assert (VC : forall Q, ivalid Q -> ivalid (isub (C j) Q)).
  { intros Q VQ. destruct (valid_isin Q VQ) as [q Hq]. apply isin_valid with (c j - q). apply (isin_sub OK); auto. }
  destruct (zero_in B) eqn:ZB.
  - destruct (sle (rad B) s0); [injection H as <-; exact G|].
    apply bind_ok in H as ([R1 parted] & E1 & H). apply bind_ok in H as (R2 & E2 & H). cbn [fst] in H.
    destruct parted.
    + (* two parts: 0 is not in A *)
      destruct (division_parted OK A B R1 true VA VB E1) as [P _]. destruct (P eq_refl) as (_ & _ & NA). clear P.
      destruct (parted_valid A B R1 VA VB E1) as (R2' & E2' & V1 & V2). rewrite E2 in E2'. injection E2' as <-.
      assert (CV : forall x, vin n I x -> zero x -> isin (isub (C j) R1) (x j) \/ isin (isub (C j) R2) (x j)).
      { intros x Hx Zx. destruct (RW x Hx Zx) as (a & b & Ha & Hb & E). assert (Na : a <> 0) by (intros ->; auto).
        assert (Nb : b <> 0) by (intros ->; apply Na; lra). rewrite (QU x a b E Nb).
        destruct (division_part_encl OK A B R1 true a b E1 Ha Hb Nb) as [Q|(_ & R2' & E2' & Q)]; [left|right].
        - apply (isin_sub OK); auto.
        - rewrite E2 in E2'. injection E2' as <-. apply (isin_sub OK); auto. }
      set (J := isub (C j) R1) in *. set (J2 := isub (C j) R2) in *. assert (VJ : ivalid J) by (apply VC; auto). assert (VJ2 : ivalid J2) by (apply VC; auto).
      destruct (overlap (IR j) J) eqn:O1.
      * destruct (overlap (IR j) J2) eqn:O2.
        -- destruct (overlap J J2); injection H as <-; [exact G|]. rewrite !force_ext.
           destruct (cut_ok IR j J G1 G2 Hj VJ O1) as (A1 & A2 & A3 & A4). destruct (cut_ok IR j J2 G1 G2 Hj VJ2 O2) as (B1 & B2 & B3 & B4).
           destruct (rec_vec _ I A1 A2 VI FI') as (C1 & C2 & _); [intros k r Hk Hr; apply G3; auto; apply A3; auto|].
           destruct (rec_vec _ I B1 B2 VI FI') as (D1 & D2 & _); [intros k r Hk Hr; apply G3; auto; apply B3; auto|].
           split; [auto|]. split; auto. intros x Hx Zx. destruct (CV x Hx Zx) as [Q|Q]; [left|right].
           ++ intros k Hk. apply C2; auto. apply A4; auto.
           ++ intros k Hk. apply D2; auto. apply B4; auto.
        -- (* only the first part meets IR(j) *)
           assert (C1 : forall x, vin n I x -> zero x -> isin J (x j)).
           { intros x Hx Zx. destruct (CV x Hx Zx) as [|Q]; auto. exfalso. assert (overlap (IR j) J2 = true); [|congruence].
             apply (overlap_spec OK); auto. exists (x j). split; auto. apply G4; auto. }
           destruct (negb (isubset (IR j) J)); injection H as <-; [apply cut_good; auto|exact G].
      * assert (C2 : forall x, vin n I x -> zero x -> isin J2 (x j)).
        { intros x Hx Zx. destruct (CV x Hx Zx) as [Q|]; auto. exfalso. assert (overlap (IR j) J = true); [|congruence].
          apply (overlap_spec OK); auto. exists (x j). split; auto. apply G4; auto. }
        destruct (overlap (IR j) J2) eqn:O2.
        -- destruct (negb (isubset (IR j) J2)); injection H as <-; [apply cut_good; auto|exact G].
        -- injection H as <-. right. exact (none_good IR j J2 G Hj VJ2 O2 C2).
    + (* one part: both functions return the same interval *)
      pose proof (part2_eq A B R1 E1) as E2'. rewrite E2 in E2'. injection E2' as ->.
      assert (V1 : ivalid (isub (C j) R1)) by (apply VC; apply (valid_divpart OK A B R1 false VA VB E1 eq_refl)).
      set (J := isub (C j) R1) in *. destruct (overlap (IR j) J) eqn:O1.
      * assert (OJ : overlap J J = true). { apply (overlap_spec OK); auto. destruct (valid_isin J V1) as [q Hq]. eauto. }
        rewrite OJ in H. injection H as <-. exact G.
      * injection H as <-. simpl. destruct (zero_in A) eqn:ZA; [left; auto|right].
        apply (none_good IR j J G Hj V1 O1). intros x Hx Zx. destruct (RW x Hx Zx) as (a & b & Ha & Hb & E).
        assert (Na : a <> 0). { intros ->. assert (zero_in A = true); [|congruence]. apply (zero_in_spec OK); auto. }
        assert (Nb : b <> 0) by (intros ->; apply Na; lra). rewrite (QU x a b E Nb).
        destruct (division_part_encl OK A B R1 false a b E1 Ha Hb Nb) as [Q|[Q _]]; [|discriminate Q]. apply (isin_sub OK); auto.
  - apply bind_ok in H as (q & Eq & H).
    assert (CV : forall x, vin n I x -> zero x -> isin (isub (C j) q) (x j)).
    { intros x Hx Zx. destruct (RW x Hx Zx) as (a & b & Ha & Hb & E). destruct (isin_div OK A B q a b Eq Ha Hb) as [Nb Q].
      rewrite (QU x a b E Nb). apply (isin_sub OK); auto. }
    assert (VQ : ivalid (isub (C j) q)).
    { apply VC. destruct (valid_isin A VA) as [a Ha], (valid_isin B VB) as [b Hb]. eapply isin_valid. apply (isin_div OK A B q a b Eq Ha Hb). }
    set (J := isub (C j) q) in *. destruct (overlap (IR j) J) eqn:O1.
    + destruct (negb (isubset (IR j) J)); injection H as <-; [apply cut_good; auto|exact G].
    + injection H as <-. right. exact (none_good IR j J G Hj VQ O1 CV).
Qed.
Lemma trim_js_ok i : (i < n)%nat -> forall js IR fl t, Forall (fun j => (j < n)%nat) js ->
  trim_js n I C fc fdi js i (tA0 n I C fdi i) IR fl = Ok t -> good IR -> tres_ok t.
Proof.
  intros Hi. induction js as [|j js IH]; simpl; intros IR fl t L H G; [injection H as <-; exact G|]. inversion L; subst.
  apply bind_ok in H as (r & E & H). pose proof (trim_entry_ok i j IR fl r E Hi H2 G) as T. destruct r; try (injection H as <-; exact T). eapply IH; eauto.
Qed.
Lemma trim_ok t : trim n I C fc fdi = Ok t -> tres_ok t.
Proof.
  unfold trim. assert (G0 : good I) by (split; [auto|split; [auto|split; [intros i r; auto|auto]]]).
  assert (LT : Forall (fun j => (j < n)%nat) (seq 0 n)) by (apply Forall_forall; intros j Hj; apply in_seq in Hj; lia).
  generalize G0. pose proof LT as LT'. revert LT'. generalize I at 1 3. generalize false. generalize (seq 0 n) at 1 2. 
  intros is. induction is as [|i is IH]; simpl; intros fl IR L G H; [injection H as <-; exact G|]. inversion L; subst.
  apply bind_ok in H as (r & E & H). pose proof (trim_js_ok i H2 (seq 0 n) IR fl r LT E G) as T. destruct r; try (injection H as <-; exact T). eapply IH; eauto.
Qed.
(* a box that still contains C(j) in direction j is not discarded with 0 in A *)
Lemma trim_entry_norisk i j IR fl r : trim_entry n I C fc fdi i j (tA0 n I C fdi i) IR fl = Ok (TNone r) -> (i < n)%nat -> (j < n)%nat ->
  ivalid (IR j) -> isin (IR j) (c j) -> r = false.
Proof.
  unfold trim_entry. intros H Hi Hj G1 Gc.
  destruct (slt (width (I j)) _); [discriminate|]. cbv zeta in H.
  set (A := tA n fc i j (tA0 n I C fdi i)) in *. set (B := fdi i j) in *.
  destruct (tA_valid i j _ Hi Hj eq_refl) as [VA VB]. fold A in VA. fold B in VB.
  destruct (zero_in B) eqn:ZB.
  - destruct (sle (rad B) s0); [discriminate|].
    apply bind_ok in H as ([R1 parted] & E1 & H). apply bind_ok in H as (R2 & E2 & H). cbn [fst] in H.
    destruct (overlap (IR j) (isub (C j) R1)) eqn:O1.
    + destruct (overlap (IR j) (isub (C j) R2)); [destruct (overlap _ _) in H; discriminate H|destruct (negb _) in H; discriminate H].
    + destruct (overlap (IR j) (isub (C j) R2)); [destruct (negb _) in H; discriminate H|]. injection H as <-.
      destruct (zero_in A) eqn:ZA; auto. exfalso. apply (zero_in_spec OK) in ZA; auto.
      destruct (division_parted OK A B R1 parted VA VB E1) as [PT _]. destruct parted; [destruct (PT eq_refl) as (_ & _ & N); auto|].
      assert (exists y, isin B y /\ y <> 0) as [y [Hy Ny]].
      { destruct (Classical_Prop.classic (exists y, isin B y /\ y <> 0)) as [|N]; auto. exfalso.
        assert (division_part1 A B = Err EDomain) as Q; [|congruence]. apply (division_part1_throws OK); auto.
        intros y Hy. destruct (Req_dec y 0); auto. elim N. eauto. }
      destruct (division_part_encl OK A B R1 false 0 y E1 ZA Hy Ny) as [Q|[Q _]]; [|discriminate Q].
      replace (0 / y) with 0 in Q by (unfold Rdiv; ring).
      assert (QJ : isin (isub (C j) R1) (c j)) by (rewrite <- (Rminus_0_r (c j)); apply (isin_sub OK); auto).
      assert (overlap (IR j) (isub (C j) R1) = true); [|congruence]. apply (overlap_spec OK); [auto|eapply isin_valid; eauto|eauto].
  - apply bind_ok in H as (q & Eq & H). destruct (overlap _ _) in H; [destruct (negb _) in H; discriminate|]. injection H as <-. auto.
Qed.
Lemma trim_norisk r : n = 1%nat -> trim n I C fc fdi = Ok (TNone r) -> r = false.
Proof.
  unfold trim. intros E H. replace (seq 0 n) with [0%nat] in H at 1 by (rewrite E; reflexivity). cbn [trim_is] in H.
  apply bind_ok in H as (t & H1 & H). replace (seq 0 n) with [0%nat] in H1 by (rewrite E; reflexivity). cbn [trim_js] in H1.
  apply bind_ok in H1 as (t' & H2 & H1). destruct t' as [IR fl|r'|]; [injection H1 as <-; discriminate| |injection H1 as <-; discriminate].
  injection H1 as <-. injection H as <-. eapply trim_entry_norisk; eauto; try lia. apply VI. lia. apply Ic. lia.
Qed.
End Trim.

(* ---- dividing ---- *)
Notation sol_ok := (sol_ok n f Dom). Notation same := (same n).
Definition finv (st : fstate S) : Prop :=
  Forall vvalid (ftargets st) /\ Forall vvalid (frest st) /\
  exists zs, Forall2 sol_ok (fsols st) zs /\ ForallOrdPairs (fun z z' => ~ same z z') zs.
Definition fcov (st : fstate S) (x : nat -> R) : Prop :=
  (exists B, In B (ftargets st) /\ vin n B x) \/ (exists s, In s (fsols st) /\ vin n (fst s) x) \/ (exists B, In B (frest st) /\ vin n B x).

Lemma push_ok st l : finv st -> Forall vvalid l ->
  finv (push st l) /\ (forall x, fcov st x -> fcov (push st l) x) /\ forall x, (exists B, In B l /\ vin n B x) -> fcov (push st l) x.
Proof.
  intros (A & B & C) V. split; [|split].
  - split; [|auto]. simpl. apply Forall_app; auto.
  - intros x [(Q & I1 & H)|H]; [left|right; exact H]. exists Q. split; auto. simpl. apply in_or_app; auto.
  - intros x (Q & I1 & H). left. exists Q. split; auto. simpl. apply in_or_app; auto.
Qed.
Lemma unify_pass_ok : forall (rest : list (nat -> iv S)) (I : nat -> iv S) k I1 fl, unify_pass n rest I = (k, I1, fl) -> Forall vvalid rest -> vvalid I ->
  Forall vvalid k /\ vvalid I1 /\ (forall x, vin n I x -> vin n I1 x) /\
  forall x, (exists B, In B rest /\ vin n B x) -> (exists B, In B k /\ vin n B x) \/ vin n I1 x.
Proof.
  induction rest as [|p rest IH]; simpl; intros I k I1 fl H V VI.
  - injection H as <- <- <-. split; [auto|]. split; [auto|]. split; [auto|]. intros x (B & [] & _).
  - inversion V as [|? ? VP VR]; subst. destruct (voverlap n p I).
    + destruct (unify_pass n rest _) as [[k' I1'] fl'] eqn:E. injection H as <- <- <-. rewrite force_ext in E.
      destruct (IH _ _ _ _ E VR) as (A & B & C & D). { intros i Hi. apply (valid_hull OK); auto. }
      split; [auto|]. split; [auto|]. split.
      * intros x Hx. apply C. intros i Hi. apply (isin_hull_l OK); auto.
      * intros x (Q & [<- |IQ] & Hx); [right|apply D; eauto]. apply C. intros i Hi. apply (isin_hull_r OK); auto.
    + destruct (unify_pass n rest I) as [[k' I1'] fl'] eqn:E. injection H as <- <- <-.
      destruct (IH _ _ _ _ E VR VI) as (A & B & C & D). split; [constructor; auto|]. split; [auto|]. split; [auto|].
      intros x (Q & [<- |IQ] & Hx); [left; exists p; split; [left|]; auto|].
      destruct (D x) as [(Q' & I' & H')|]; eauto. left. exists Q'. split; [right|]; auto.
Qed.
Lemma unify_ok : forall fuel (rest : list (nat -> iv S)) (I : nat -> iv S) r, unify n fuel rest I = Ok r -> Forall vvalid rest -> vvalid I ->
  Forall vvalid r /\ forall x, (exists B, In B rest /\ vin n B x) \/ vin n I x -> exists B, In B r /\ vin n B x.
Proof.
  induction fuel as [|fuel IH]; intros rest I r H V VI; [discriminate|]. simpl in H.
  destruct (unify_pass n rest I) as [[k I1] fl] eqn:E. destruct (unify_pass_ok _ _ _ _ _ E V VI) as (A & B & C & D).
  assert (K : forall x, (exists B, In B rest /\ vin n B x) \/ vin n I x -> (exists B, In B k /\ vin n B x) \/ vin n I1 x).
  { intros x [H'|H']; auto. }
  destruct fl.
  - destruct (IH _ _ _ H A B) as (P & Q). split; auto.
  - injection H as <-. split; [apply Forall_app; auto|]. intros x Hx. destruct (K x Hx) as [(Q & IQ & HQ)|HQ].
    + exists Q. split; auto. apply in_or_app; auto.
    + exists I1. split; auto. apply in_or_app. right; left; auto.
Qed.
Lemma smf_in : forall is I m mi mi2, smf_loop (S := S) is I m mi = Some mi2 -> mi = Some mi2 \/ In mi2 is /\ inc_inf (I mi2) = false.
Proof.
  induction is as [|i is IH]; simpl; intros I m mi mi2 H; auto. destruct (inc_inf (I i)) eqn:E.
  - destruct (IH _ _ _ _ H) as [|[]]; auto.
  - destruct (slt m (wwidth (I i))); destruct (IH _ _ _ _ H) as [Q|[]]; auto. injection Q as <-. auto.
Qed.
Lemma smi_in : forall is I r m mi mi2, smi_loop (S := S) is I r m mi = Some mi2 -> mi = Some mi2 \/ In mi2 is.
Proof.
  induction is as [|i is IH]; simpl; intros I r m mi mi2 H; auto.
  destruct (seqb (lo (I i)) sninf && seqb (hi (I i)) spinf); [injection H as <-; auto|].
  destruct (if seqb (lo (I i)) sninf then _ else _) as [tr tmp].
  destruct ((tr && negb r) || (Bool.eqb tr r && slt m tmp)); destruct (IH _ _ _ _ _ H) as [Q|]; auto. injection Q as <-. auto.
Qed.
Lemma halves (I : nat -> iv S) k (t : S) m : vvalid I -> (k < n)%nat -> sval t = XR m -> isin (I k) m ->
  vvalid (upd n I k (mkiv (lo (I k)) t)) /\ vvalid (upd n I k (mkiv t (hi (I k)))) /\
  forall x, vin n I x -> vin n (upd n I k (mkiv (lo (I k)) t)) x \/ vin n (upd n I k (mkiv t (hi (I k)))) x.
Proof.
  intros V Hk Em (W1 & W2 & Lm & Um). rewrite !upd_eq. split; [|split].
  - intros i Hi. destruct (Nat.eqb_spec i k) as [-> |]; auto. apply isin_valid with m. unfold isin; cbn [lo hi]. rewrite Em. simpl. repeat split; auto. lra.
  - intros i Hi. destruct (Nat.eqb_spec i k) as [-> |]; auto. apply isin_valid with m. unfold isin; cbn [lo hi]. rewrite Em. simpl. repeat split; auto. lra.
  - intros x Hx. destruct (Rle_dec (x k) m) as [L|L]; [left|right]; intros i Hi; destruct (Nat.eqb_spec i k) as [-> |]; auto;
      destruct (Hx k Hi) as (? & ? & ? & ?); unfold isin; cbn [lo hi]; rewrite Em; simpl; repeat split; auto. lra.
Qed.
Lemma cut_finite_ok (I1 : nat -> iv S) mi I1' l : cut_finite n I1 mi = (I1', l) -> vvalid I1 ->
  Forall vvalid (I1' :: l) /\ forall x, vin n I1 x -> exists B, In B (I1' :: l) /\ vin n B x.
Proof.
  unfold cut_finite. intros H V.
  assert (TR : I1' = I1 -> l = [] -> Forall vvalid (I1' :: l) /\ forall x, vin n I1 x -> exists B, In B (I1' :: l) /\ vin n B x).
  { intros -> ->. split; auto. intros x Hx. exists I1. split; [left|]; auto. }
  destruct (inc_inf (I1 mi)); [|injection H as <- <-; auto].
  destruct (search_maxwidth_finite n I1) as [mi2|] eqn:E; [|injection H as <- <-; auto].
  destruct (smf_in _ _ _ _ _ E) as [Q|[IN NF]]; [discriminate Q|]. apply in_seq in IN.
  destruct (MID (I1 mi2)) as (m & Em & Im); [apply V; lia|apply inc_inf_fin; auto; apply V; lia|].
  cbv zeta in H. injection H as <- <-. destruct (halves I1 mi2 _ m V ltac:(lia) Em Im) as (A & B & D).
  split; [constructor; auto|]. intros x Hx. destruct (D x Hx) as [Q|Q]; eexists; (split; [|exact Q]); simpl; auto.
Qed.
Lemma fdivide_ok st (I : nat -> iv S) Iorg st' : fdivide n giveup st I Iorg = Ok st' -> vvalid I -> finv st ->
  finv st' /\ (forall x, fcov st x -> fcov st' x) /\ ftrim st' = ftrim st /\ frisk st' = frisk st /\ forall x, vin n I x -> fcov st' x.
Proof.
  unfold fdivide. intros H V IO. destruct (negb (vinc_inf n I) && _).
  { injection H as <-. destruct (push_ok st [I] IO) as (A & B & D); [auto|]. split; [auto|]. split; [auto|]. split; [auto|]. split; [auto|].
    intros x Hx. apply D. exists I. split; [left|]; auto. }
  destruct (search_maxwidth_infinity n I) as [mi|] eqn:EM; [|discriminate]. cbv zeta in H.
  destruct (_ || _ || _) in H.
  { apply bind_ok in H as (r & E & H). injection H as <-. destruct IO as (A & B & D). destruct (unify_ok _ _ _ _ E B V) as (P & Q).
    split; [split; auto|]. split; [|split; [auto|split; [auto|]]].
    - intros x [C|[C|C]]; [left; exact C|right; left; exact C|right; right]. apply Q. left. exact C.
    - intros x Hx. right; right. apply Q. auto. }
  destruct (smi_in _ _ _ _ _ _ EM) as [Q|IN]; [discriminate Q|]. apply in_seq in IN.
  destruct (MIDI (I mi)) as (m & Em & Im); [apply V; lia|]. destruct (halves I mi _ m V ltac:(lia) Em Im) as (A & B & D).
  destruct (cut_finite n (upd n I mi (mkiv (lo (I mi)) _)) mi) as [I1 l1] eqn:E1. destruct (cut_finite n (upd n I mi (mkiv _ (hi (I mi)))) mi) as [I2 l2] eqn:E2.
  injection H as <-. destruct (cut_finite_ok _ _ _ _ E1 A) as (P1 & Q1). destruct (cut_finite_ok _ _ _ _ E2 B) as (P2 & Q2).
  inversion P1; subst. inversion P2; subst.
  destruct (push_ok st (l1 ++ l2 ++ [I1; I2]) IO) as (G1 & G2 & G3).
  { apply Forall_app; split; auto. apply Forall_app; split; auto. }
  split; [auto|]. split; [auto|]. split; [auto|]. split; [auto|]. intros x Hx. apply G3.
  destruct (D x Hx) as [K|K]; [destruct (Q1 x K) as (T & [<- |IT] & HT)|destruct (Q2 x K) as (T & [<- |IT] & HT)]; eexists; (split; [|exact HT]);
    repeat (rewrite in_app_iff); simpl; auto.
Qed.

(* ---- iterative refinement ---- *)
Lemma fimprove_ok fuel x : zero x -> forall Rs K K', fimprove n fI fD inv fuel Rs K = Ok K' ->
  (exists Rm, forall i j, (i < n)%nat -> (j < n)%nat -> acts (Rs i j) (Rm i j)) -> vfin K -> vin n K x -> vsub K' K /\ vin n K' x.
Proof.
  intros Zx. induction fuel as [|fuel IH]; intros Rs K K' H (Rm & HR) FK Kx; [discriminate|]. simpl in H.
  apply bind_ok in H as ([fi fdi] & ED & H). cbn [snd] in H. apply bind_ok in H as (K1 & E1 & H).
  destruct (FD _ _ _ ED) as [_ SL]. pose proof (FDom _ _ _ ED) as DK.
  set (Rs' := match inv (mmid fdi) with Some R => R | None => Rs end) in *.
  assert (HR' : exists Rm, forall i j, (i < n)%nat -> (j < n)%nat -> acts (Rs' i j) (Rm i j)).
  { unfold Rs'. destruct (inv (mmid fdi)) as [R'|] eqn:ER; [|exists Rm; auto]. eapply (acts_inv OK NN); eauto. }
  destruct HR' as (Rm' & HR').
  destruct (refine_ok OK NN n fI f Dom FI MID Rs' Rm' fdi K K K1 x E1 HR' SL DK ltac:(intros i r _ Hr; exact Hr) FK Kx Zx) as (S1 & F1 & X1).
  destruct (slt p9 _).
  - injection H as <-. auto.
  - destruct (IH _ _ _ H (ex_intro _ Rm' HR') F1 X1) as (A & B). split; auto. intros i r Hi Hr. auto.
Qed.

(* ---- one iteration ---- *)
Lemma fdivide_trim st (I : nat -> iv S) Iorg st' : fdivide n giveup st I Iorg = Ok st' -> ftrim st' = ftrim st /\ frisk st' = frisk st.
Proof.
  unfold fdivide. intros H. destruct (_ && _) in H; [injection H as <-; auto|]. destruct (search_maxwidth_infinity n I); [|discriminate]. cbv zeta in H.
  destruct (_ || _ || _) in H; [apply bind_ok in H as (r & _ & H); injection H as <-; auto|].
  destruct (cut_finite _ _ _) in H. destruct (cut_finite _ _ _) in H. injection H as <-. auto.
Qed.
Lemma fexist_trim fuel st (I C fc : nat -> iv S) fdi Iorg st' : fexist n fI fD inv giveup fuel st I C fc fdi Iorg = Ok st' -> ftrim st' = ftrim st /\ frisk st' = frisk st.
Proof.
  unfold fexist. intros H. cbv zeta in H. destruct (negb _) in H; [eapply fdivide_trim; eauto|].
  destruct (inv (mmid fdi)) as [Rs|]; [|eapply fdivide_trim; eauto]. destruct (negb _) in H; [injection H as <-; auto|].
  destruct (_ && slt _ p8) in H.
  { apply bind_ok in H as (r & _ & H). destruct (fst r); [apply bind_ok in H as (K2 & _ & H)|]; injection H as <-; auto. }
  destruct (_ && _) in H; [injection H as <-; auto|eapply fdivide_trim; eauto].
Qed.
Definition keeps (st st' : fstate S) (P : (nat -> R) -> Prop) : Prop :=
  finv st' /\ (forall x, fcov st x -> fcov st' x) /\ incl (ftrim st) (ftrim st') /\ (frisk st = true -> frisk st' = true) /\
  (frisk st' = false -> forall x, P x -> fcov st' x).
Lemma keeps_refl st (P : (nat -> R) -> Prop) : finv st -> (forall x, P x -> False) -> keeps st st P.
Proof. intros H N. split; [auto|]. split; [auto|]. split; [apply incl_refl|]. split; auto. intros _ x Hx. elim (N x Hx). Qed.
Lemma keeps_div st st' (I : nat -> iv S) Iorg (P : (nat -> R) -> Prop) : fdivide n giveup st I Iorg = Ok st' -> vvalid I -> finv st -> (forall x, P x -> vin n I x) -> keeps st st' P.
Proof.
  intros H V IO X. destruct (fdivide_ok _ _ _ _ H V IO) as (A & B & C & D & E).
  split; [auto|]. split; [auto|]. split; [rewrite C; apply incl_refl|]. split; [congruence|]. auto.
Qed.
Lemma keeps_push st l (P : (nat -> R) -> Prop) : finv st -> Forall vvalid l -> (forall x, P x -> exists B, In B l /\ vin n B x) -> keeps st (push st l) P.
Proof.
  intros IO V X. destruct (push_ok st l IO V) as (A & B & C).
  split; [auto|]. split; [auto|]. split; [apply incl_refl|]. split; [auto|]. auto.
Qed.

Lemma fexist_ok fuel st (I C fc : nat -> iv S) fdi Iorg st' c : fexist n fI fD inv giveup fuel st I C fc fdi Iorg = Ok st' ->
  finv st -> vvalid I -> vfin I -> vvalid Iorg -> vfin Iorg -> vsub I Iorg -> vin n C c -> vin n I c -> vin n fc (f c) ->
  (forall x y, vin n I x -> vin n I y -> exists J, min n fdi J /\ forall k, (k < n)%nat -> f y k - f x k = mv n J (fun j => y j - x j) k) ->
  (forall x, vin n I x -> Dom x) ->
  keeps st st' (fun x => vin n I x /\ zero x).
Proof.
  unfold fexist. intros H IO V F VO FO SO Cc Ic Fc SL DI. cbv zeta in H.
  assert (DV : fdivide n giveup st I Iorg = Ok st' -> keeps st st' (fun x => vin n I x /\ zero x)) by (intros Q; eapply keeps_div; eauto; tauto).
  destruct (negb (vzero_in n _)) in H; [auto|].
  destruct (inv (mmid fdi)) as [Rs|] eqn:ER; [|auto].
  destruct (acts_inv OK NN n inv INV _ _ ER) as (Rm & HR). rewrite !force_ext in H.
  set (M := fun i j => iSsub (idS i j) (mmSI n Rs fdi i j)) in *.
  set (K := fun i => iadd (isub (C i) (mvSI n Rs fc i)) (mvI n M (fun j => isub (I j) (C j)) i)) in *.
  assert (KO : forall J x i, min n fdi J -> vin n I x -> (i < n)%nat ->
     isin (K i) (c i - mv n Rm (f c) i + vsum n (fun j => (dlt i j - mm n Rm J i j) * (x j - c j)))).
  { intros J x i HJ Hx Hi. apply (kraw_op2_in OK NN n C (mvSI n Rs fc) I Rs fdi c (mv n Rm (f c)) Rm J x i); auto.
    intros k Hk. apply (acts_mvSI OK); auto. }
  assert (KZ : forall x, vin n I x -> zero x -> vin n K x).
  { intros x Hx Zx i Hi. destruct (SL c x Ic Hx) as (J & HJ & EJ). rewrite (krawczyk_zero n f Rm J c x EJ (proj2 Zx) i Hi). apply KO; auto. }
  assert (VK : vvalid K).
  { intros i Hi. destruct (SL c c Ic Ic) as (J & HJ & _). eapply isin_valid. apply (KO J c i HJ Ic Hi). }
  destruct (voverlap n K I) eqn:OV; cbn [negb] in H.
  2:{ injection H as <-. apply keeps_refl; auto. intros x [Hx Zx].
      apply (not_overlap OK n K I x x OV (KZ x Hx Zx) Hx). intros i Hi; auto. }
  destruct (vproper n K I && slt (widthratio_max n K I) p8) eqn:PR.
  { apply andb_true_iff in PR as [PR _].
    assert (SUB : vsub K I).
    { intros i r Hi Hr. unfold vproper in PR. rewrite vall_spec in PR. specialize (PR i Hi).
      apply (iproper_spec OK) in PR; auto. apply PR; auto. }
    assert (FK : vfin K).
    { intros i Hi. unfold vproper in PR. rewrite vall_spec in PR. specialize (PR i Hi).
      unfold iproper, isubset in PR. apply andb_prop in PR as [PR _]. apply andb_prop in PR as [P1 P2].
      apply (sle_true OK) in P1; auto. apply (sle_true OK) in P2; auto. destruct (F i Hi) as [F1 F2]. destruct (VK i Hi) as (_ & _ & L & U & _).
      split; [destruct (sval (lo (I i))), (sval (lo (K i)))|destruct (sval (hi (I i))), (sval (hi (K i)))]; simpl in *; auto; contradiction. }
    destruct (kraw_core OK NN n I K f c Rm (min n fdi) Ic SL KO FK PR) as (x & Kx & Zx0 & UX0).
    assert (Zx : zero x) by (split; [apply DI; apply (vin_sub n K); auto|auto]).
    assert (UX : only_zero n f Dom I x) by (intros y Hy [_ Zy] i Hi; apply UX0; auto).
    destruct IO as (VT & VR & zs & F2 & DS).
    apply bind_ok in H as ([b K1] & ED & H). cbn [fst snd] in H.
    destruct (find_dup_ok OK NN n fI fD inv f Dom FI FD FDom INV MID Rs Rm fdi I x HR SL DI Zx UX fuel (fsols st) zs F2 K b K1 ED SUB FK Kx) as (A1 & A2 & A3 & A4).
    destruct b.
    - apply bind_ok in H as (K2 & EI & H). injection H as <-.
      destruct (fimprove_ok fuel x Zx Rs K1 K2 EI (ex_intro _ Rm HR) A2 A3) as (B1 & B2).
      split; [|split; [|split; [|split]]].
      + split; [auto|]. split; [auto|]. simpl. exists (zs ++ [x]). split.
        * apply Forall2_app; auto. constructor; auto. split; [auto|]. split; [auto|]. split; auto. intros i r Hi Hr. apply A1; auto.
        * apply fop_app; auto. apply Forall_impl with (2 := A4). intros z Hz Q. apply Hz. intros i Hi. symmetry. auto.
      + intros y [Q|[(s & Is & Hs)|Q]]; [left; auto|right; left|right; right; auto]. exists s. split; auto. simpl. apply in_or_app; auto.
      + simpl. apply incl_refl.
      + auto.
      + intros _ y [Hy Zy]. right; left. exists (K2, I). split; [simpl; apply in_or_app; right; left; auto|]. simpl.
        apply (vin_same n K2 x y); auto. intros i Hi. symmetry. apply UX; auto.
    - injection H as <-. split; [split; auto; split; auto; exists zs; auto|]. split; [auto|]. split; [apply incl_refl|]. split; [auto|].
      intros _ y [Hy Zy]. right; left. destruct A4 as (s & Is & Hs). exists s. split; auto.
      apply (vin_same n (fst s) x y); auto. intros i Hi. symmetry. apply UX; auto. }
  destruct (negb (vinc_inf n I) && slt (widthratio_max n K I) p9).
  { injection H as <-. apply keeps_push; auto.
    - constructor; auto. intros i Hi. apply REC2; auto.
    - intros x [Hx Zx]. exists (recover2 K Iorg). split; [left; auto|]. intros i Hi. apply REC2; auto. apply KZ; auto. }
  assert (OVi : forall i, (i < n)%nat -> exists r, isin (K i) r /\ isin (I i) r).
  { intros i Hi. unfold voverlap in OV. rewrite vall_spec in OV. specialize (OV i Hi). apply (overlap_spec OK) in OV; auto. }
  destruct (rec_vec (vintersect I K) Iorg) as (R1 & R2 & _); auto.
  - intros i Hi. destruct (OVi i Hi) as (r & Q1 & Q2). unfold vintersect. apply isin_valid with r. apply (isin_intersect OK); auto.
  - intros i Hi. destruct (OVi i Hi) as (r & Q1 & Q2). unfold vintersect. apply (intersect_fin OK NN) with r; auto.
  - intros i r Hi Hr. unfold vintersect in Hr. apply (isin_intersect OK) in Hr; auto. apply SO; tauto.
  - eapply keeps_div; eauto. intros x [Hx Zx] i Hi. apply R2; auto. unfold vintersect. apply (isin_intersect OK); auto. split; auto. apply KZ; auto.
Qed.

Lemma fstep_ok fuel st (I : nat -> iv S) st' : fstep n fI fD inv giveup fuel st I = Ok st' -> vvalid I -> finv st ->
  (forall B, In B (ftrim st') -> vfin B) -> keeps st st' (fun x => vin n I x /\ zero x).
Proof.
  unfold fstep. intros H V IO FT. cbv zeta in H.
  assert (DV : fdivide n giveup st I I = Ok st' -> keeps st st' (fun x => vin n I x /\ zero x)) by (intros Q; eapply keeps_div; eauto; tauto).
  destruct (fI I) as [fi0|[]] eqn:E0; try discriminate; auto.
  destruct (vzero_in n fi0) eqn:Z0; cbn [negb] in H.
  2:{ injection H as <-. apply keeps_refl; auto. intros x [Hx Zx].
      rewrite (zero_in_vec OK n fi0 (f x)) in Z0; [discriminate| |apply Zx]. eapply FI; eauto. apply Zx. }
  destruct (fD I) as [[fi fdi]|[]] eqn:E2; try discriminate; auto. rewrite !force_ext in H.
  destruct (FD _ _ _ E2) as [_ SL]. pose proof (FDom _ _ _ E2) as DI.
  assert (MC : exists c, vin n (fun i => ipt (mid_infinity (I i))) c /\ vin n I c).
  { destruct (fin_choice 0 n (fun i m => sval (mid_infinity (I i)) = XR m /\ isin (I i) m)) as [c Hc]; [intros i Hi; apply MIDI; auto|].
    exists c. split; intros i Hi; destruct (Hc i Hi); auto. apply (isin_pt (S := S)); auto. }
  destruct MC as (c & Cc & Ic). set (C := fun i => ipt (mid_infinity (I i))) in *.
  destruct (fI C) as [fc|[]] eqn:E1; try discriminate; auto.
  assert (Fc : vin n fc (f c)) by (eapply FI; eauto).
  assert (MV : forall (I' C' fc' : nat -> iv S) c', vsub I' I -> vin n C' c' -> vin n I' c' -> vin n fc' (f c') ->
     vzero_in n (fun i => iadd (fc' i) (mvI n fdi (fun j => isub (I' j) (C' j)) i)) = false -> forall x, vin n I' x -> zero x -> False).
  { intros I' C' fc' c' SI Cc' Ic' Fc' Z1 x Hx Zx. destruct (SL c' x) as (J & HJ & EJ); [eapply vin_sub; eauto|eapply vin_sub; eauto|].
    rewrite (zero_in_vec OK n _ (f x)) in Z1; [discriminate| |apply Zx]. intros i Hi.
    replace (f x i) with (f c' i + mv n J (fun j => x j - c' j) i) by (rewrite <- EJ by auto; ring).
    apply (isin_add OK); auto. apply (isin_mvI OK); [intros; apply HJ; auto|]. intros j Hj. apply (isin_sub OK); [auto|]. apply (Cc' j Hj). }
  destruct (vzero_in n _) eqn:Z1 in H; cbn [negb] in H.
  2:{ injection H as <-. apply keeps_refl; auto. intros x [Hx Zx]. apply (MV I C fc c) with x; auto. intros i r _ Hr; exact Hr. }
  destruct (vinc_inf n I) eqn:NI; auto. pose proof (vinc_fin I V NI) as F.
  apply bind_ok in H as (t & ET & H).
  pose proof (trim_ok I C fc fdi c V F Cc Fc (fun x Hx => SL c x Ic Hx) Ic t ET) as TO.
  destruct t as [IR [|]|risk|I1 I2].
  - (* shrunk *)
    destruct TO as (T1 & T2 & T3 & T4). destruct (rec_vec IR I T1 T2 V F T3) as (R1 & R2 & R3).
    set (I' := recover IR I) in *. rewrite !force_ext in H.
    set (st1 := mkfst (ftargets st) (fsols st) (frest st) (ftrim st ++ [I']) (frisk st)) in *.
    assert (IO1 : finv st1) by exact IO.
    assert (TS : ftrim st' = ftrim st1).
    { enough (ftrim st' = ftrim st1 /\ frisk st' = frisk st1) by tauto. destruct (fI _) as [fc2|[]] in H; try discriminate; [|eapply fdivide_trim; eauto].
      destruct (negb _) in H; [injection H as <-; auto|eapply fexist_trim; eauto]. }
    assert (Q : vfin I'). { apply FT. rewrite TS. apply in_or_app. right; left; auto. }
    assert (K : keeps st1 st' (fun x => vin n I' x /\ zero x)).
    { pose proof (R3 Q) as SB. destruct (mid_vec NN n MID I' R1 Q) as (c2 & Cc2 & Ic2).
      set (C2 := fun i => ipt (mid (I' i))) in *.
      destruct (fI C2) as [fc2|[]] eqn:E3; try discriminate.
      2:{ eapply keeps_div; eauto. tauto. }
      assert (Fc2 : vin n fc2 (f c2)) by (eapply FI; eauto; apply DI; eapply vin_sub; eauto).
      destruct (vzero_in n _) eqn:Z2 in H; cbn [negb] in H.
      2:{ injection H as <-. apply keeps_refl; auto. intros x [Hx Zx]. apply (MV I' C2 fc2 c2) with x; auto. }
      eapply fexist_ok; eauto; intros; [apply SL; eapply vin_sub; eauto|apply DI; eapply vin_sub; eauto]. }
    destruct K as (K1 & K2 & K3 & K4 & K5). split; [auto|]. split; [auto|]. split; [|split; [auto|]].
    + rewrite TS. apply incl_appl, incl_refl.
    + intros NR x [Hx Zx]. apply K5; auto. split; auto. intros i Hi. apply R2; auto. apply T4; auto.
  - eapply fexist_ok; eauto. intros i r _ Hr; exact Hr.
  - injection H as <-. destruct TO as [-> |N].
    + rewrite orb_true_r. split; [exact IO|]. split; [auto|]. split; [apply incl_refl|]. split; [auto|]. discriminate.
    + split; [exact IO|]. split; [auto|]. split; [apply incl_refl|]. split; [simpl; intros ->; auto|]. intros _ x [Hx Zx]. elim (N x Hx Zx).
  - injection H as <-. destruct TO as (T1 & T2 & T3). apply keeps_push; auto.
    intros x [Hx Zx]. destruct (T3 x Hx Zx) as [Q|Q]; eexists; (split; [|exact Q]); simpl; auto.
Qed.
Lemma fstep_trim fuel st (I : nat -> iv S) st' : fstep n fI fD inv giveup fuel st I = Ok st' -> incl (ftrim st) (ftrim st').
Proof.
  unfold fstep. intros H. cbv zeta in H.
  assert (DV : forall J K, fdivide n giveup st J K = Ok st' -> incl (ftrim st) (ftrim st')) by (intros J K Q; apply fdivide_trim in Q as [Q _]; rewrite Q; apply incl_refl).
  destruct (fI I) as [fi0|[]] eqn:E0; try discriminate; eauto.
  destruct (negb _) in H; [injection H as <-; apply incl_refl|].
  destruct (fD I) as [[fi fdi]|[]] eqn:E2; try discriminate; eauto.
  destruct (fI _) as [fc|[]] in H; try discriminate; eauto.
  destruct (negb _) in H; [injection H as <-; apply incl_refl|].
  destruct (vinc_inf n I); eauto.
  apply bind_ok in H as (t & ET & H). destruct t as [IR [|]|risk|I1 I2].
  - destruct (fI _) as [fc2|[]] in H; try discriminate.
    + destruct (negb _) in H; [injection H as <-|apply fexist_trim in H as [H _]; rewrite H]; simpl; apply incl_appl, incl_refl.
    + apply fdivide_trim in H as [H _]; rewrite H. simpl. apply incl_appl, incl_refl.
  - apply fexist_trim in H as [H _]; rewrite H. apply incl_refl.
  - injection H as <-. apply incl_refl.
  - injection H as <-. apply incl_refl.
Qed.
Lemma fstep_risk1 fuel st (I : nat -> iv S) st' : n = 1%nat -> fstep n fI fD inv giveup fuel st I = Ok st' -> vvalid I -> frisk st' = frisk st.
Proof.
  unfold fstep. intros E1 H V. cbv zeta in H.
  assert (DV : forall s J K, fdivide n giveup s J K = Ok st' -> frisk st' = frisk s) by (intros s J K Q; apply fdivide_trim in Q as [_ Q]; auto).
  destruct (fI I) as [fi0|[]] eqn:E0; try discriminate; eauto.
  destruct (negb _) in H; [injection H as <-; auto|].
  destruct (fD I) as [[fi fdi]|[]] eqn:E2; try discriminate; eauto.
  destruct (FD _ _ _ E2) as [_ SL]. pose proof (FDom _ _ _ E2) as DI. rewrite !force_ext in H.
  assert (MC : exists c, vin n (fun i => ipt (mid_infinity (I i))) c /\ vin n I c).
  { destruct (fin_choice 0 n (fun i m => sval (mid_infinity (I i)) = XR m /\ isin (I i) m)) as [c Hc]; [intros i Hi; apply MIDI; auto|].
    exists c. split; intros i Hi; destruct (Hc i Hi); auto. apply (isin_pt (S := S)); auto. }
  destruct MC as (c & Cc & Ic). set (C := fun i => ipt (mid_infinity (I i))) in *.
  destruct (fI C) as [fc|[]] eqn:E3; try discriminate; eauto.
  assert (Fc : vin n fc (f c)) by (eapply FI; eauto).
  destruct (negb _) in H; [injection H as <-; auto|].
  destruct (vinc_inf n I) eqn:NI; eauto.
  apply bind_ok in H as (t & ET & H). destruct t as [IR [|]|risk|I1 I2].
  - destruct (fI _) as [fc2|[]] in H; try discriminate.
    + destruct (negb _) in H; [injection H as <-; auto|apply fexist_trim in H as [_ H]; auto].
    + apply fdivide_trim in H as [_ H]; auto.
  - apply fexist_trim in H as [_ H]; auto.
  - injection H as <-. simpl. rewrite (trim_norisk I C fc fdi c V Cc Fc (fun x Hx => SL c x Ic Hx) Ic risk E1 ET). apply orb_false_r.
  - injection H as <-. auto.
Qed.
Lemma floop_trim fuel : forall st st', floop n fI fD inv giveup fuel st = Ok st' -> incl (ftrim st) (ftrim st').
Proof.
  induction fuel as [|fuel IH]; intros st st' H; simpl in H; destruct (ftargets st) as [|B rest] eqn:ET; try discriminate;
    try (injection H as <-; apply incl_refl).
  apply bind_ok in H as (st1 & E1 & H). apply IH in H. apply fstep_trim in E1. eapply incl_tran; eauto.
Qed.
Lemma floop_ok fuel : forall st st', floop n fI fD inv giveup fuel st = Ok st' -> (forall B, In B (ftrim st') -> vfin B) -> finv st ->
  ftargets st' = [] /\ finv st' /\ (frisk st = true -> frisk st' = true) /\ (frisk st' = false -> forall x, zero x -> fcov st x -> fcov st' x).
Proof.
  induction fuel as [|fuel IH]; intros st st' H FS IO; simpl in H; destruct (ftargets st) as [|B rest] eqn:ET; try discriminate;
    try (injection H as <-; auto).
  apply bind_ok in H as (st1 & E1 & H).
  destruct IO as (VT & VR & ZS). rewrite ET in VT. inversion VT as [|? ? VB VRT]; subst.
  assert (FS1 : forall Q, In Q (ftrim st1) -> vfin Q) by (intros Q HQ; apply FS; apply (floop_trim _ _ _ H); auto).
  destruct (fstep_ok _ _ _ _ E1 VB) as (I1 & M1 & _ & K1 & C1); auto; [split; auto|].
  destruct (IH _ _ H FS I1) as (T & I2 & K2 & C2). split; auto. split; auto. split; [auto|].
  intros NR x Zx Cx.
  assert (NR1 : frisk st1 = false) by (destruct (frisk st1); auto; rewrite K2 in NR; auto).
  apply C2; auto. destruct Cx as [(Q & IQ & Hx)|Cx].
  - rewrite ET in IQ. destruct IQ as [<- |IQ]; [auto|]. apply M1. left. exists Q. auto.
  - apply M1. right. exact Cx.
Qed.
Lemma floop_risk1 fuel : n = 1%nat -> forall st st', floop n fI fD inv giveup fuel st = Ok st' -> (forall B, In B (ftrim st') -> vfin B) -> finv st ->
  frisk st' = frisk st.
Proof.
  intros E. induction fuel as [|fuel IH]; intros st st' H FS IO; simpl in H; destruct (ftargets st) as [|B rest] eqn:ET; try discriminate;
    try (injection H as <-; auto).
  apply bind_ok in H as (st1 & E1 & H).
  destruct IO as (VT & VR & ZS). rewrite ET in VT. inversion VT as [|? ? VB VRT]; subst.
  assert (FS1 : forall Q, In Q (ftrim st1) -> vfin Q) by (intros Q HQ; apply FS; apply (floop_trim _ _ _ H); auto).
  destruct (fstep_ok _ _ _ _ E1 VB) as (I1 & M1 & _ & K1 & C1); auto; [split; auto|].
  rewrite (IH _ _ H FS I1). apply (fstep_risk1 _ _ _ _ E E1 VB).
Qed.
Theorem allsol_risk1 fuel ts rest0 st' : n = 1%nat -> allsol_list n fI fD inv giveup fuel ts rest0 = Ok st' ->
  Forall vvalid ts -> Forall vvalid rest0 -> (forall B, In B (ftrim st') -> vfin B) -> frisk st' = false.
Proof.
  intros E H V V' FS. apply (floop_risk1 fuel E _ _ H FS). split; [exact V|split; [exact V'|exists []; split; constructor]].
Qed.
Theorem allsol_complete fuel ts rest0 st' : allsol_list n fI fD inv giveup fuel ts rest0 = Ok st' ->
  Forall vvalid ts -> Forall vvalid rest0 -> (forall B, In B (ftrim st') -> vfin B) -> frisk st' = false ->
  forall x, zero x -> (exists T, In T (ts ++ rest0) /\ vin n T x) ->
    (exists s, In s (fsols st') /\ vin n (fst s) x) \/ (exists B, In B (frest st') /\ vin n B x).
Proof.
  intros H V V' FS NR x Zx (T & IT & Hx).
  destruct (floop_ok _ _ _ H FS) as (E & _ & _ & CV); [split; [exact V|split; [exact V'|exists []; split; constructor]]|].
  destruct (CV NR x Zx) as [(Q & I1 & _)|C]; [|rewrite E in I1; elim I1|exact C].
  apply in_app_or in IT as [IT|IT]; [left|right; right]; exists T; auto.
Qed.
Theorem allsol_exact fuel ts rest0 st' : allsol_list n fI fD inv giveup fuel ts rest0 = Ok st' ->
  Forall vvalid ts -> Forall vvalid rest0 -> (forall B, In B (ftrim st') -> vfin B) ->
  exists zs, Forall2 sol_ok (fsols st') zs /\ ForallOrdPairs (fun z z' => ~ same z z') zs.
Proof.
  intros H V V' FS.
  destruct (floop_ok _ _ _ H FS) as (_ & (_ & _ & E) & _); [split; [exact V|split; [exact V'|exists []; split; constructor]]|]. exact E.
Qed.
End A.
