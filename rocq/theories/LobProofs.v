(* Proofs about LobModel.v, for every double back end. *)
From Coq Require Import Reals ZArith Bool List Lra Lia Psatz Arith.
From Coquelicot Require Import Coquelicot.
From Flocq Require Import Core BinarySingleNaN.
From Verif Require Import Fp64 RDoubleHw ElemGen.
From Verif Require Import Ext Scalar IntervalModel IntervalSpec IntervalProofs IntervalEncl IntervalSets Backends Ex64 ElemModel ElemExp ElemLog ElemConst Elem64 PropsElem.
From Verif Require Import RealFun ADModel ADReal ADProofs ADInst PsaModel PsaReal PsaProofs PsaExpr PsaUse PsaUseProofs PsaInst PsaHist PropsPsa PsaInt.
From Verif Require Import OdeModel OdeProofs PropsPsaHist DefintAuto DefintAutoProofs SingReal SingModel SingProofs PropsSing SingAuto SingAutoProofs PropsSingAuto SingLog SingLogProofs PropsSingLog GammaProofs LobReal LobModel IntervalTight ElemTrig.
Import List ListNotations.
Open Scope R_scope.

Lemma nolog_v y : fun_of lob_nolog_e y = 2 * sin y.
Proof. simpl. unfold dy. simpl. ring. Qed.
Lemma nolog_ok : fun_ok lob_nolog_e.
Proof. split; [simpl; unfold lit; repeat split; lia|split; [simpl; intuition discriminate|reflexivity]]. Qed.
Lemma lob_e_ok : fun_ok lob_e.
Proof. split; [simpl; unfold lit; repeat split; lia|split; [simpl; intuition discriminate|reflexivity]]. Qed.
Lemma nolog_zero : zero_order 1 (fun t => fun_of lob_nolog_e (0 + t)).
Proof.
  exists 2, 1. split; [lra|]. intros t Ht. rewrite nolog_v, Rplus_0_l. change (Z.to_nat 1) with 1%nat. assert (0 < sin t) by (apply sin_p; pose proof PI2_3_2; lra).
  pose proof (sin_lt_x t ltac:(lra)). rewrite Rabs_pos_eq by lra. lra.
Qed.
Section Run.
Variables (b : backend) (fuel : nat).
Notation S_ := (bscal b).
Notation B := (Ibase (bpar b) fuel).
Notation I := (iv S_).
Notation P := (bpar b).
Variable root : S_ -> nat -> S_.
Variables (lgc : nat -> S_) (order : Z) (n : nat).
Hypothesis OR : (1 <= order < 2 ^ 25)%Z.
Notation lines := (list (I * I * I)).
Definition fits (l : lines) (c : R) : Prop := steps_in l 0 c /\ short_first l 0.
Notation origin := (lobachevsky_origin P fuel root lgc order n false).
Notation point := (lobachevsky_point P fuel root lgc order n false).
Lemma origin_ok (x : I) c v l st st' : isin x c -> 0 < c < PI -> origin x st = (Ok (v, l), st') -> fits l c -> exists L, is_lob c L /\ isin v L.
Proof.
  intros HX HC R [H1 H2]. unfold lobachevsky_origin in R. destruct (ieqS x s0) eqn:E0.
  - exfalso. unfold ieqS in E0. apply andb_prop in E0 as [_ E0]. destruct HX as (_ & W & _ & U). destruct (ok_s0 _ (bscal_ok b)) as [W0 V0]. apply (ok_eq _ (bscal_ok b)) in E0; auto. rewrite V0 in E0. destruct (sval (hi x)); simpl in *; try tauto; try discriminate; try (injection E0 as E0); lra.
  - apply hb_ok in R as ([r l1] & s1 & R1 & R). unfold hret, hlift in R. cbn [fst snd] in R. injection R as <- <- <-.
    match type of R1 with defint_log2_autostep _ _ _ _ _ false lob_e (hobj lob_nolog_e) (ipt s0) x _ 1 _ _ = _ => idtac end.
    destruct (C92_log2_autostep_partial b fuel root lgc n lob_e lob_nolog_e (ipt s0) x r order 1 (sdy 1 (-52)) st l1 s1 0 c OR ltac:(lia) nolog_ok lob_e_ok (zero_in_ b) HX ltac:(lra) nolog_zero) as (J & HJ & HV); auto.
    + intros y Hy. rewrite nolog_v. pose proof (sin_p y ltac:(lra)). lra.
    + exists (- J). split; [|now apply (isin_neg (bscal_ok b))]. apply Lobp; auto. revert HJ. apply improper_ext. intros y _. unfold lsin. now rewrite nolog_v.
Qed.
Lemma origin_zero (x : I) v l st st' : sval (lo x) = XR 0 -> sval (hi x) = XR 0 -> origin x st = (Ok (v, l), st') -> isin v 0.
Proof.
  intros EL EU R. unfold lobachevsky_origin in R. replace (ieqS x s0) with true in R; [unfold hret, hlift in R; injection R as <- _ _; apply zero_in_|].
  symmetry. unfold ieqS. destruct (ok_s0 _ (bscal_ok b)) as [W0 V0]. rewrite (proj2 (seqb_v b _ _ _ _ EL EU) eq_refl), (proj2 (seqb_v b _ _ _ _ EU V0) eq_refl). reflexivity.
Qed.
Definition traced (ls : list lines) (z : R) : Prop := - PI < z < PI /\ (0 < z -> fits (last ls []) z) /\ (z < 0 -> fits (hd [] ls) (- z)).
Lemma ends_fin (x : I) y : isin x y -> (forall z, isin x z -> - PI < z < PI) -> exists lw uw, sval (lo x) = XR lw /\ sval (hi x) = XR uw /\ forall z, lw <= z <= uw -> isin x z.
Proof.
  intros (W1 & W2 & L & U) H. destruct (sval (lo x)) as [lw| | |] eqn:EL; try (simpl in L; tauto).
  - destruct (sval (hi x)) as [uw| | |] eqn:EU; try (simpl in U; tauto).
    + exists lw, uw. split; [reflexivity|]. split; [reflexivity|]. intros z Hz. split; [exact W1|]. split; [exact W2|]. rewrite EL, EU. simpl. lra.
    + exfalso. assert (- PI < Rmax y PI < PI); [|pose proof (Rmax_r y PI); lra]. apply H. split; [exact W1|]. split; [exact W2|]. rewrite EL, EU. simpl. split; [|exact Logic.I]. simpl in L. pose proof (Rmax_l y PI). lra.
  - exfalso. assert (- PI < Rmin y (- PI) < PI); [|pose proof (Rmin_r y (- PI)); lra]. apply H. split; [exact W1|]. split; [exact W2|]. rewrite EL. split; [exact Logic.I|]. pose proof (Rmin_l y (- PI)). destruct (sval (hi x)); simpl in *; try tauto; lra.
Qed.
Lemma point_base g (x : I) y v ls st st' : sle (hi (imulS (c_pi P) shalf)) (lo x) = false -> point (Datatypes.S g) x st = (Ok (v, ls), st') -> (forall z, isin x z -> traced ls z) -> isin x y ->
  exists L, is_lob y L /\ isin v L.
Proof.
  intros HG R HT HY. pose proof PI_RGT_0 as PP. destruct (ends_fin x y HY (fun z Hz => proj1 (HT z Hz))) as (lw & uw & EL & EU & HI). assert (HB : lw <= y <= uw) by (destruct HY as (_ & _ & A & C); rewrite EL in A; rewrite EU in C; simpl in *; lra).
  destruct (ok_s0 _ (bscal_ok b)) as [W0 V0]. cbn [lobachevsky_point] in R. rewrite HG in R. destruct (zero_in x) eqn:Z.
  - apply (zero_in_spec (bscal_ok b) x (isin_valid _ _ HY)) in Z. assert (LU : lw <= 0 <= uw) by (destruct Z as (_ & _ & A & C); rewrite EL in A; rewrite EU in C; simpl in *; lra).
    apply hb_ok in R as ([v1 l1] & s1 & R1 & R). apply hb_ok in R as ([v2 l2] & s2 & R2 & R). unfold hret, hlift in R. cbn [fst snd] in R. injection R as <- <- <-.
    match type of R1 with origin (mkiv s0 (sneg (lo x))) _ = _ => idtac end. match type of R2 with origin (mkiv s0 (hi x)) _ = _ => idtac end.
    assert (EN : sval (sneg (lo x)) = XR (- lw)) by (rewrite (sneg_v (bscal_ok b)) by apply wfb; rewrite EL; reflexivity).
    assert (A : forall z, 0 < z <= - lw -> exists L, is_lob z L /\ isin v1 L).
    { intros z Hz. destruct (HT (- z) (HI (- z) ltac:(lra))) as (T1 & _ & T2). specialize (T2 ltac:(lra)). rewrite Ropp_involutive in T2. cbn [hd] in T2.
      apply (origin_ok (mkiv s0 (sneg (lo x))) z v1 l1 st s1); auto; [|lra]. split; [apply wfb|]. split; [apply wfb|]. cbn [lo hi]. rewrite V0, EN. simpl. lra. }
    assert (C : forall z, 0 < z <= uw -> exists L, is_lob z L /\ isin v2 L).
    { intros z Hz. destruct (HT z (HI z ltac:(lra))) as (T1 & T2 & _). specialize (T2 ltac:(lra)). cbn [last] in T2.
      apply (origin_ok (mkiv s0 (hi x)) z v2 l2 s1 s2); auto; [|lra]. split; [apply wfb|]. split; [apply wfb|]. cbn [lo hi]. rewrite V0, EU. simpl. lra. }
    assert (A0 : exists p, isin v1 p /\ 0 <= p).
    { destruct (Rle_or_lt 0 lw) as [N|N].
      - exists 0. split; [|lra]. apply (origin_zero (mkiv s0 (sneg (lo x))) v1 l1 st s1); auto. cbn [hi]. rewrite EN. f_equal. lra.
      - set (z := Rmin (- lw) (PI / 6)). pose proof (Rmin_l (- lw) (PI / 6)). pose proof (Rmin_r (- lw) (PI / 6)). assert (0 < z) by (apply Rmin_glb_lt; lra).
        destruct (A z) as (L & HL & HV); [unfold z in *; lra|]. exists L. split; auto. apply (lob_up z); auto; unfold z in *; lra. }
    assert (C0 : exists q, isin v2 q /\ 0 <= q).
    { destruct (Rle_or_lt uw 0) as [N|N].
      - exists 0. split; [|lra]. apply (origin_zero (mkiv s0 (hi x)) v2 l2 s1 s2); auto. cbn [hi]. rewrite EU. f_equal. lra.
      - set (z := Rmin uw (PI / 6)). pose proof (Rmin_l uw (PI / 6)). pose proof (Rmin_r uw (PI / 6)). assert (0 < z) by (apply Rmin_glb_lt; lra).
        destruct (C z) as (L & HL & HV); [unfold z in *; lra|]. exists L. split; auto. apply (lob_up z); auto; unfold z in *; lra. }
    destruct A0 as (p & Hp & P0). destruct C0 as (q & Hq & Q0). assert (Hp' : isin (ineg v1) (- p)) by (now apply (isin_neg (bscal_ok b))).
    destruct (Rtotal_order y 0) as [N|[->|N]].
    + destruct (A (- y)) as (L & HL & HV); [lra|]. exists (- L). split; [now apply Lobneg|]. apply (isin_hull_l (bscal_ok b)); [now apply (isin_neg (bscal_ok b))|exact (isin_valid _ _ Hq)].
    + exists 0. split; [apply Lob0|]. apply (btw_hull b _ _ (- p) q); auto. left. lra.
    + destruct (C y) as (L & HL & HV); [lra|]. exists L. split; auto. apply (isin_hull_r (bscal_ok b)); auto. exact (isin_valid _ _ Hp').
  - assert (NZ : ~ (lw <= 0 <= uw)). { intros K. apply (HI 0) in K. apply (zero_in_spec (bscal_ok b) x (isin_valid _ _ HY)) in K. congruence. }
    destruct (slt s0 (lo x)) eqn:C.
    + apply (slt0_v b _ _ EL) in C. apply hb_ok in R as ([r l] & s1 & R1 & R). unfold hret, hlift in R. cbn [fst snd] in R. injection R as <- <- <-.
      destruct (HT y HY) as (T1 & T2 & _). specialize (T2 ltac:(lra)). cbn [last] in T2. apply (origin_ok x y r l st s1); auto. lra.
    + assert (N : lw <= 0) by (destruct (Rlt_or_le 0 lw) as [Q|Q]; auto; apply (slt0_v b _ _ EL) in Q; congruence).
      apply hb_ok in R as ([r l] & s1 & R1 & R). unfold hret, hlift in R. cbn [fst snd] in R. injection R as <- <- <-. match type of R1 with origin (ineg x) _ = _ => idtac end.
      destruct (HT y HY) as (T1 & _ & T2). specialize (T2 ltac:(lra)). cbn [hd] in T2. destruct (origin_ok (ineg x) (- y) r l st s1) as (L & HL & HV); auto; [now apply (isin_neg (bscal_ok b))|lra|].
      exists (- L). split; [apply Lobneg; auto; lra|now apply (isin_neg (bscal_ok b))].
Qed.
(* x after k subtractions of pi *)
Fixpoint less_pi (k : nat) (x : I) : I := match k with O => x | Datatypes.S k' => less_pi k' (isub x (c_pi P)) end.
Definition past (x : I) : Prop := sle (hi (imulS (c_pi P) shalf)) (lo x) = true.
Lemma past_v (x : I) y : past x -> isin x y -> PI / 2 <= y.
Proof.
  intros H HX. destruct (C28_table_constants b) as [HP _]. pose proof (isin_half (bscal_ok b) _ _ HP) as HH. unfold past in H. apply (ok_le _ (bscal_ok b)) in H; try apply wfb.
  destruct HX as (_ & _ & L & U). destruct HH as (_ & _ & L1 & U1). cbn [lo hi] in *. destruct (sval (hi (imulS (c_pi P) shalf))), (sval (lo x)); simpl in *; try tauto; lra.
Qed.
Lemma point_ok k : forall g (x : I) y v ls st st', (forall j, (j < k)%nat -> past (less_pi j x)) -> ~ past (less_pi k x) -> point g x st = (Ok (v, ls), st') ->
  (forall z, isin (less_pi k x) z -> traced ls z) -> isin x y -> exists L, is_lob y L /\ isin v L.
Proof.
  induction k as [|k IH]; intros [|g] x y v ls st st' HJ HN R HT HY; try discriminate.
  - apply (point_base g x y v ls st st'); auto. simpl in HN. unfold past in HN. destruct (sle _ (lo x)); auto. now elim HN.
  - pose proof (HJ 0%nat ltac:(lia)) as H0. simpl in H0. pose proof H0 as H0'. unfold past in H0'. cbn [lobachevsky_point] in R. rewrite H0' in R. match type of R with point g (isub x (c_pi P)) _ = _ => idtac end.
    destruct (C28_table_constants b) as [HP _]. pose proof (past_v x y H0 HY).
    destruct (IH g (isub x (c_pi P)) (y - PI) v ls st st') as (L & HL & HV); auto.
    + intros j Hj. apply (HJ (Datatypes.S j)). lia.
    + now apply (isin_sub (bscal_ok b)).
    + exists L. split; auto. now apply lob_shift.
Qed.
(* ---- lobachevsky ---- *)
(* the lines printed for lobachevsky_point(x) *)
Definition followed (x : I) (ls : list lines) : Prop :=
  exists k, (forall j, (j < k)%nat -> past (less_pi j x)) /\ ~ past (less_pi k x) /\ (forall z, isin (less_pi k x) z -> traced ls z).
Lemma point_followed g (x : I) y v ls st st' : point g x st = (Ok (v, ls), st') -> followed x ls -> isin x y -> exists L, is_lob y L /\ isin v L.
Proof. intros R (k & K1 & K2 & K3) HY. exact (point_ok k g x y v ls st st' K1 K2 R K3 HY). Qed.
Notation lob := (lobachevsky P fuel root lgc order n false).
Notation pi16 := (lob_pi16 P).
Lemma isin_convex (v : I) p q r : isin v p -> isin v q -> p <= r <= q -> isin v r.
Proof.
  intros (W1 & W2 & A & _) (_ & _ & _ & C) H. split; [exact W1|]. split; [exact W2|]. split; [destruct (sval (lo v)); simpl in *; auto; lra|destruct (sval (hi v)); simpl in *; auto; lra].
Qed.
Lemma with_old (c x2 m r : I) z M : isin r z -> isin m M -> isin (lob_with c x2 m r) z.
Proof. intros H HM. unfold lob_with. destruct (isubset c x2); auto. apply (isin_hull_l (bscal_ok b)); auto. exact (isin_valid _ _ HM). Qed.
Lemma with_new (c x2 m r : I) z M : isin r z -> isin m M -> isubset c x2 = true -> isin (lob_with c x2 m r) M.
Proof. intros H HM E. unfold lob_with. rewrite E. apply (isin_hull_r (bscal_ok b)); auto. exact (isin_valid _ _ H). Qed.
Lemma width_v (x2 : I) lw y : sval (lo x2) = XR lw -> isin x2 y -> igeS (isubS (ipt (hi x2)) (lo x2)) (hi (c_pi P)) = false -> exists uw, sval (hi x2) = XR uw /\ uw - lw <= 4.
Proof.
  intros EL HY H. destruct (tl_pihi _ _ (btrig b)) as (p & EP & HP). unfold igeS, isubS in H. cbn [lo hi ipt] in H.
  assert (N : ~ xle (sval (hi (c_pi P))) (sval (subd (hi x2) (lo x2)))) by (intros K; apply (ok_le _ (bscal_ok b)) in K; try apply wfb; congruence).
  assert (M : ~ xle (XR p) (xsub (sval (hi x2)) (XR lw))). { intros K. apply N. apply (be_subd _ (bscal_best b)). rewrite EP, EL. exact K. }
  destruct HY as (_ & _ & _ & U). destruct (sval (hi x2)) as [uw| | |]; try (simpl in U; tauto).
  - exists uw. split; [reflexivity|]. simpl in M. lra.
Qed.
Lemma six_v : sval (sdy 6 0 : S_) = XR 6. Proof. apply (int_v b 6). lia. Qed.
Lemma lob_ok f g (x p16 x2 : I) y L lw v tr st st' : pi16 = Ok p16 -> lob_reduced P f x = Ok x2 -> is_fin (sval (lo x)) -> sval (lo x2) = XR lw -> isin x y -> is_lob y L ->
  lob f g x st = (Ok (v, tr), st') -> followed p16 (nth 0 tr []) -> followed (ipt (lo x2)) (nth 1 tr []) -> followed (ipt (hi x2)) (nth 2 tr []) ->
  (forall e c, In (e, c) [(- (PI / 6), ineg p16); (PI / 6, p16); (5 * (PI / 6), imulS p16 (sdy 5 0)); (7 * (PI / 6), imulS p16 (sdy 7 0))] -> isin x2 e -> forall z, isin c z -> isin x2 z) -> isin v L.
Proof.
  intros EP ER FX EL HX HL R H0 H1 H2 HE. pose proof PI_RGT_0 as PP. destruct (C28_table_constants b) as [HP _].
  destruct (tl_pihhi _ _ (btrig b)) as [hp EH].
  destruct (reduce_ok (bscal_ok b) P (btrig b) f (hi (pih P)) (c_pi P) PI x y x2) as [N|(k & l & HI & EL' & BL)]; auto using wfb. { rewrite EH. exact Logic.I. } { congruence. }
  rewrite EL in EL'. injection EL' as <-. specialize (BL _ EH). set (y' := y - IZR k * PI) in *. assert (HL' : is_lob y' L) by (now apply lob_int).
  assert (LU : lw < PI / 2) by (apply (tl_adj _ _ (btrig b) (lo x2) lw hp); auto using wfb; apply BL).
  assert (LD : - (PI / 2) < lw). { enough (- lw < PI / 2) by lra. apply (tl_adj _ _ (btrig b) (sneg (lo x2)) (- lw) hp); auto using wfb; [rewrite (sneg_v (bscal_ok b)) by apply wfb; now rewrite EL|]. destruct BL. lra. }
  destruct (isin_divS (bscal_ok b) _ _ _ _ _ EP HP (wfb b _) six_v) as [_ HP16].
  unfold lobachevsky in R. apply hb_ok in R as (q & s0' & R0 & R). unfold hlift in R0. injection R0 as R0 <-. rewrite EP in R0. injection R0 as <-.
  apply hb_ok in R as ([m lm] & s1 & RM & R). apply hb_ok in R as (q & s2 & R0 & R). unfold hlift in R0. injection R0 as R0 <-. rewrite ER in R0. injection R0 as <-. cbn [fst snd] in R.
  match type of RM with point g p16 _ = _ => idtac end.
  destruct (igeS _ _) eqn:EW.
  - unfold hret, hlift in R. injection R as <- <- _. cbn [nth] in H0. destruct (point_followed g p16 (PI / 6) m lm st s1 RM H0 HP16) as (M & HM & VM). pose proof (lob_max M HM y L HL) as HB.
    destruct VM as (_ & _ & _ & VM). split; [apply wfb|]. split; [apply wfb|]. cbn [lo hi]. rewrite (sneg_v (bscal_ok b)) by apply wfb. destruct (sval (hi m)); simpl in *; try tauto; lra.
  - apply hb_ok in R as ([a la] & s3 & RA & R). apply hb_ok in R as ([c lc] & s4 & RC & R). unfold hret, hlift in R. cbn [fst snd] in R. injection R as <- <- _. cbn [nth] in H0, H1, H2.
    match type of RA with point g (ipt (lo x2)) _ = _ => idtac end. match type of RC with point g (ipt (hi x2)) _ = _ => idtac end.
    destruct (width_v x2 lw y' EL HI EW) as (uw & EU & WU). assert (HB : lw <= y' <= uw) by (destruct HI as (_ & _ & A & C); rewrite EL in A; rewrite EU in C; simpl in *; lra).
    destruct (point_followed g p16 (PI / 6) m lm st s1 RM H0 HP16) as (M & HM & VM).
    destruct (point_followed g (ipt (lo x2)) lw a la s1 s3 RA H1) as (La & HLa & VA); [apply isin_pt; auto using wfb|].
    destruct (point_followed g (ipt (hi x2)) uw c lc s3 s4 RC H2) as (Lc & HLc & VC); [apply isin_pt; auto using wfb|].
    assert (VM' : isin (ineg m) (- M)) by (now apply (isin_neg (bscal_ok b))).
    assert (IX : forall e, lw <= e <= uw -> isin x2 e). { intros e He. split; [apply wfb|]. split; [apply wfb|]. rewrite EL, EU. simpl. lra. }
    assert (SUB : forall e d, In (e, d) [(- (PI / 6), ineg p16); (PI / 6, p16); (5 * (PI / 6), imulS p16 (sdy 5 0)); (7 * (PI / 6), imulS p16 (sdy 7 0))] -> isin d e -> lw <= e <= uw -> isubset d x2 = true).
    { intros e d Hd He Hb. apply (isubset_spec (bscal_ok b)); [exact (isin_valid _ _ He)|exact (isin_valid _ _ HI)|]. exact (HE e d Hd (IX e Hb)). }
    assert (V5 : isin (imulS p16 (sdy 5 0)) (5 * (PI / 6))). { rewrite Rmult_comm. apply (isin_mulS (bscal_ok b)); auto using wfb. apply (int_v b 5). lia. }
    assert (V7 : isin (imulS p16 (sdy 7 0)) (7 * (PI / 6))). { rewrite Rmult_comm. apply (isin_mulS (bscal_ok b)); auto using wfb. apply (int_v b 7). lia. }
    assert (VN : isin (ineg p16) (- (PI / 6))) by (now apply (isin_neg (bscal_ok b))).
    set (r0 := hull a c). assert (Q0 : isin r0 La) by (apply (isin_hull_l (bscal_ok b)); [exact VA|exact (isin_valid _ _ VC)]). assert (Q0' : isin r0 Lc) by (apply (isin_hull_r (bscal_ok b)); [exact (isin_valid _ _ VA)|exact VC]).
    set (r1 := lob_with (ineg p16) x2 (ineg m) r0). assert (K1 : forall z, isin r0 z -> isin r1 z) by (intros z Hz; exact (with_old _ _ _ _ _ _ Hz VM')).
    set (r2 := lob_with p16 x2 m r1). assert (K2 : forall z, isin r1 z -> isin r2 z) by (intros z Hz; exact (with_old _ _ _ _ _ _ Hz VM)).
    set (r3 := lob_with (imulS p16 (sdy 5 0)) x2 (ineg m) r2). assert (K3 : forall z, isin r2 z -> isin r3 z) by (intros z Hz; exact (with_old _ _ _ _ _ _ Hz VM')).
    set (r4 := lob_with (imulS p16 (sdy 7 0)) x2 m r3). assert (K4 : forall z, isin r3 z -> isin r4 z) by (intros z Hz; exact (with_old _ _ _ _ _ _ Hz VM)).
    pose proof PI2_3_2. apply (lob_between lw uw y' (isin r4) La Lc L); auto; try lra.
    + intros p q r. apply isin_convex.
    + intros e He Hb. destruct He as [-> |[-> |[-> | ->]]].
      * exists (- M). split; [now apply lob_neg_all|]. apply K4, K3, K2. apply (with_new _ _ _ _ La); auto. apply (SUB (- (PI / 6))); auto. simpl. auto.
      * exists M. split; [exact HM|]. apply K4, K3. apply (with_new _ _ _ _ La); auto. apply (SUB (PI / 6)); auto. simpl. auto.
      * exists (- M). split; [replace (5 * (PI / 6)) with (PI - PI / 6) by lra; now apply lob_shift_in|]. apply K4. apply (with_new _ _ _ _ La); auto. apply (SUB (5 * (PI / 6))); auto. simpl. auto.
      * exists M. split; [replace (7 * (PI / 6)) with (PI / 6 + PI) by lra; now apply lob_per|]. apply (with_new _ _ _ _ La); auto. apply (SUB (7 * (PI / 6))); auto. simpl. auto.
Qed.
End Run.

(* ---- the enclosures of the extremal points and the doubles near them ---- *)
Definition u51 : R := bpow radix2 (-51).
Definition u53 : R := bpow radix2 (-53).
Section Gap.
Variable b : backend.
Notation P := (bpar b).
Lemma dbl_v m e : (Z.abs m <= 2 ^ 53)%Z -> (-1074 <= e <= 970)%Z -> sval (@sdy (bscal b) m e) = XR (IZR m * bpow radix2 e).
Proof. intros H1 H2. destruct b; exact (bdy_v m e H1 H2). Qed.
Lemma pi_ends : sval (lo (c_pi P)) = XR plo /\ sval (hi (c_pi P)) = XR phi.
Proof. destruct b; split; first [exact plo_v|exact phi_v]. Qed.
Lemma dbl_grid (s : bscal b) v k : sval s = XR v -> bpow radix2 k <= v -> exists m, v = IZR m * bpow radix2 (k - 52).
Proof.
  intros E H. assert (FV : generic_format radix2 FX v) by (destruct b; exact (proj1 (v64_F _ _ E))). pose proof (bpow_gt_0 radix2 k). apply F_grid; auto. rewrite Rabs_pos_eq by lra. exact H.
Qed.
Lemma u51_53 : u51 = 4 * u53. Proof. unfold u51, u53. change (-51)%Z with (2 + -53)%Z. rewrite bpow_plus. reflexivity. Qed.
Lemma u53_0 : 0 < u53. Proof. apply bpow_gt_0. Qed.
Lemma p16_bounds p16 : lob_pi16 P = Ok p16 -> (exists l, sval (lo p16) = XR l /\ 4716158501352293 * u53 <= l) /\ (exists h, sval (hi p16) = XR h /\ h <= 4716158501352294 * u53).
Proof.
  intros H. unfold lob_pi16, idivS in H. pose proof (six_v b) as V6. assert (C : slt (@s0 (bscal b)) (sdy 6 0) = true) by (apply (slt0_v b _ _ V6); lra). rewrite C in H. injection H as <-. cbn [lo hi].
  destruct pi_ends as [EL EH]. destruct plo_phi as (Q1 & Q2 & Q3 & _). pose proof u51_53 as U. pose proof u53_0. assert (N6 : sval (@sdy (bscal b) 6 0) <> XR 0) by (rewrite V6; intros K; injection K; lra).
  assert (XD : forall r, xdiv (XR r) (XR 6) = XR (r / 6)) by (intros r; unfold xdiv; destruct (Req_EM_T 6 0); [lra|reflexivity]).
  split.
  - pose proof (be_divd _ (bscal_best b) (lo (c_pi P)) (sdy 6 0) (sdy 4716158501352293 (-53)) N6) as K. destruct (ok_divd _ (bscal_ok b) (lo (c_pi P)) (sdy 6 0) (wfb b _) (wfb b _) N6) as [_ D].
    rewrite EL, V6, XD in D, K. rewrite dbl_v in K by lia. fold u53 in K. assert (K0 : xle (XR (4716158501352293 * u53)) (XR (plo / 6))) by (simpl; unfold plo; fold u51; lra). specialize (K K0). destruct (sval (divd (lo (c_pi P)) (sdy 6 0))) as [l| | |]; simpl in *; try tauto. exists l. split; [reflexivity|lra].
  - pose proof (be_divu _ (bscal_best b) (hi (c_pi P)) (sdy 6 0) (sdy 4716158501352294 (-53)) N6) as K. destruct (ok_divu _ (bscal_ok b) (hi (c_pi P)) (sdy 6 0) (wfb b _) (wfb b _) N6) as [_ D].
    rewrite EH, V6, XD in D, K. rewrite dbl_v in K by lia. fold u53 in K. assert (K0 : xle (XR (phi / 6)) (XR (4716158501352294 * u53))) by (simpl; unfold phi; fold u51; lra). specialize (K K0). destruct (sval (divu (hi (c_pi P)) (sdy 6 0))) as [l| | |]; simpl in *; try tauto. exists l. split; [reflexivity|lra].
Qed.
(* no double between the ends of pi / 6. *)
Lemma gap6 (s : bscal b) v : sval s = XR v -> (v <= PI / 6 -> v <= 4716158501352293 * u53) /\ (PI / 6 <= v -> 4716158501352294 * u53 <= v).
Proof.
  intros E. destruct plo_phi as (Q1 & Q2 & _). pose proof u51_53 as U. pose proof u53_0. unfold plo, phi in Q1. fold u51 in Q1.
  destruct (Rle_or_lt (bpow radix2 (-1)) v) as [N|N].
  - destruct (dbl_grid s v (-1) E N) as (m & ->). change (-1 - 52)%Z with (-53)%Z. fold u53. split; intros K.
    + apply Rmult_le_compat_r; [lra|]. apply IZR_le. enough (m < 4716158501352294)%Z by lia. apply lt_IZR. apply Rmult_lt_reg_r with u53; lra.
    + apply Rmult_le_compat_r; [lra|]. apply IZR_le. enough (4716158501352293 < m)%Z by lia. apply lt_IZR. apply Rmult_lt_reg_r with u53; lra.
  - assert (bpow radix2 (-1) <= 4716158501352293 * u53). { change (bpow radix2 (-1)) with (bpow radix2 (52 + -53)). rewrite bpow_plus. fold u53. apply Rmult_le_compat_r; [lra|]. simpl. lra. } split; intros K; [lra|]. simpl in N. pose proof PI2_3_2. lra.
Qed.
(* one double lies between 5 pi / 6 and the upper end of its enclosure, and one at 7 pi / 6 *)
Lemma gap_up (s : bscal b) v e k : sval s = XR v -> e <= v -> IZR k * u51 < e -> (4503599627370496 <= k)%Z -> v <> IZR (k + 1) * u51 -> IZR (k + 2) * u51 <= v.
Proof.
  intros E H K K0 N. pose proof u51_53. pose proof u53_0. assert (T : bpow radix2 1 <= v). { change (bpow radix2 1) with (bpow radix2 (52 + -51)). rewrite bpow_plus. fold u51. apply Rle_trans with (IZR k * u51); [apply Rmult_le_compat_r; [lra|]; change (bpow radix2 52) with (IZR 4503599627370496); now apply IZR_le|lra]. }
  destruct (dbl_grid s v 1 E T) as (m & ->). change (1 - 52)%Z with (-51)%Z in *. fold u51 in *. apply Rmult_le_compat_r; [lra|]. apply IZR_le.
  assert (k < m)%Z by (apply lt_IZR; apply Rmult_lt_reg_r with u51; lra). assert (m <> k + 1)%Z by (intros ->; now apply N). lia.
Qed.
Lemma times_up (p : iv (bscal b)) h z k : sval (hi p) = XR h -> (1 <= z <= 2 ^ 53)%Z -> h * IZR z <= IZR k * u51 -> (Z.abs k <= 2 ^ 53)%Z -> xle (sval (hi (imulS p (sdy z 0)))) (XR (IZR k * u51)).
Proof.
  intros E Z H K. assert (VZ : sval (@sdy (bscal b) z 0) = XR (IZR z)) by (apply (int_v b z); lia). assert (1 <= IZR z) by (apply IZR_le; lia). unfold imulS. assert (C : slt (@s0 (bscal b)) (sdy z 0) = true) by (apply (slt0_v b _ _ VZ); lra). rewrite C. cbn [hi].
  pose proof (be_mulu _ (bscal_best b) (hi p) (sdy z 0) (sdy k (-51))) as Q. rewrite E, VZ, dbl_v in Q by lia. apply Q. simpl. exact H.
Qed.
Lemma times_dn (p : iv (bscal b)) l z k : sval (lo p) = XR l -> (1 <= z <= 2 ^ 53)%Z -> IZR k * u51 <= l * IZR z -> (Z.abs k <= 2 ^ 53)%Z -> xle (XR (IZR k * u51)) (sval (lo (imulS p (sdy z 0)))).
Proof.
  intros E Z H K. assert (VZ : sval (@sdy (bscal b) z 0) = XR (IZR z)) by (apply (int_v b z); lia). assert (1 <= IZR z) by (apply IZR_le; lia). unfold imulS. assert (C : slt (@s0 (bscal b)) (sdy z 0) = true) by (apply (slt0_v b _ _ VZ); lra). rewrite C. cbn [lo].
  pose proof (be_muld _ (bscal_best b) (lo p) (sdy z 0) (sdy k (-51))) as Q. rewrite E, VZ, dbl_v in Q by lia. apply Q. simpl. exact H.
Qed.
Lemma inside (c x2 : iv (bscal b)) lw uw : sval (lo x2) = XR lw -> sval (hi x2) = XR uw -> (forall z, isin c z -> lw <= z <= uw) -> forall z, isin c z -> isin x2 z.
Proof. intros EL EU H z Hz. specialize (H z Hz). split; [apply wfb|]. split; [apply wfb|]. rewrite EL, EU. simpl. lra. Qed.
Lemma no_gap p16 (x2 : iv (bscal b)) lw uw : lob_pi16 P = Ok p16 -> sval (lo x2) = XR lw -> sval (hi x2) = XR uw -> lw < PI / 2 -> uw <> 5895198126690367 * u51 -> uw <> 8253277377366514 * u51 ->
  forall e c, In (e, c) [(- (PI / 6), ineg p16); (PI / 6, p16); (5 * (PI / 6), imulS p16 (sdy 5 0)); (7 * (PI / 6), imulS p16 (sdy 7 0))] -> isin x2 e -> forall z, isin c z -> isin x2 z.
Proof.
  intros EP EL EU LW N5 N7 e c He HI. destruct (p16_bounds p16 EP) as [(l & El & Bl) (h & Eh & Bh)]. destruct plo_phi as (Q1 & Q2 & _). pose proof u51_53 as U. pose proof u53_0. pose proof PI2_3_2. unfold plo, phi in Q1. fold u51 in Q1.
  assert (HB : lw <= e <= uw) by (destruct HI as (_ & _ & A & C); rewrite EL in A; rewrite EU in C; simpl in *; lra). destruct (C28_table_constants b) as [HP _]. destruct (isin_divS (bscal_ok b) _ _ _ _ _ EP HP (wfb b _) (six_v b)) as [_ HP16].
  assert (IN : forall z, isin p16 z -> l <= z <= h) by (intros z (_ & _ & A & C); rewrite El in A; rewrite Eh in C; simpl in *; lra).
  apply (inside c x2 lw uw EL EU). intros z Hz. destruct He as [He|[He|[He|[He|[]]]]]; injection He as <- <-.
  - assert (EN : sval (sneg (lo x2)) = XR (- lw)) by (rewrite (sneg_v (bscal_ok b)) by apply wfb; now rewrite EL). assert (EM : sval (sneg (hi x2)) = XR (- uw)) by (rewrite (sneg_v (bscal_ok b)) by apply wfb; now rewrite EU).
    destruct (gap6 _ _ EN) as [_ G1]. destruct (gap6 _ _ EM) as [G2 _]. specialize (G1 ltac:(lra)). specialize (G2 ltac:(lra)).
    destruct Hz as (_ & _ & A & C). unfold ineg in A, C. cbn [lo hi] in A, C. rewrite (sneg_v (bscal_ok b)) in A, C by apply wfb. rewrite Eh in A. rewrite El in C. simpl in A, C. lra.
  - destruct (gap6 _ _ EL) as [G1 _]. destruct (gap6 _ _ EU) as [_ G2]. specialize (G1 ltac:(lra)). specialize (G2 ltac:(lra)). specialize (IN z Hz). lra.
  - pose proof (gap_up (hi x2) uw (5 * (PI / 6)) 5895198126690366 EU ltac:(lra) ltac:(lra) ltac:(lia) N5) as G. pose proof (times_up p16 h 5 5895198126690368 Eh ltac:(lia) ltac:(lra) ltac:(lia)) as T.
    pose proof (times_dn p16 l 5 5895198126690366 El ltac:(lia) ltac:(lra) ltac:(lia)) as T1. assert (Z1 : lw <= z) by (destruct Hz as (_ & _ & A & _); destruct (sval (lo (imulS p16 (sdy 5 0)))); simpl in *; try tauto; lra).
    split; [exact Z1|]. destruct Hz as (_ & _ & _ & C). simpl in G. destruct (sval (hi (imulS p16 (sdy 5 0)))); simpl in *; try tauto; lra.
  - pose proof (gap_up (hi x2) uw (7 * (PI / 6)) 8253277377366513 EU ltac:(lra) ltac:(lra) ltac:(lia) N7) as G. pose proof (times_up p16 h 7 8253277377366515 Eh ltac:(lia) ltac:(lra) ltac:(lia)) as T.
    pose proof (times_dn p16 l 7 8253277377366512 El ltac:(lia) ltac:(lra) ltac:(lia)) as T1. assert (Z1 : lw <= z) by (destruct Hz as (_ & _ & A & _); destruct (sval (lo (imulS p16 (sdy 7 0)))); simpl in *; try tauto; lra).
    split; [exact Z1|]. destruct Hz as (_ & _ & _ & C). simpl in G. destruct (sval (hi (imulS p16 (sdy 7 0)))); simpl in *; try tauto; lra.
Qed.
Lemma no_gap_all p16 (x2 : iv (bscal b)) lw : lob_pi16 P = Ok p16 -> sval (lo x2) = XR lw -> lw < PI / 2 -> sval (hi x2) <> XR (5895198126690367 * u51) -> sval (hi x2) <> XR (8253277377366514 * u51) ->
  forall e c, In (e, c) [(- (PI / 6), ineg p16); (PI / 6, p16); (5 * (PI / 6), imulS p16 (sdy 5 0)); (7 * (PI / 6), imulS p16 (sdy 7 0))] -> isin x2 e -> forall z, isin c z -> isin x2 z.
Proof.
  intros EP EL LW N5 N7 e c He HI. destruct (sval (hi x2)) as [uw| | |] eqn:EU.
  - apply (no_gap p16 x2 lw uw EP EL EU LW) with e; auto; intros ->; auto.
  - intros z Hz. set (x3 := mkiv (lo x2) (@sdy (bscal b) 10 0)). assert (E3 : sval (hi x3) = XR 10) by exact (proj2 (int_v b 10 ltac:(lia))). assert (EL3 : sval (lo x3) = XR lw) by exact EL. pose proof u51_53 as U. pose proof PI_4. pose proof PI_RGT_0. destruct plo_phi as (Q1 & Q2 & _). unfold plo, phi in Q1. fold u51 in Q1.
    assert (U1 : u51 * 2251799813685248 = 1) by (unfold u51; replace 2251799813685248 with (bpow radix2 51) by (simpl; reflexivity); rewrite <- bpow_plus; reflexivity).
    assert (HB : lw <= e <= 10). { destruct HI as (_ & _ & A & _). rewrite EL in A. simpl in A. split; [exact A|]. destruct He as [He|[He|[He|[He|[]]]]]; injection He as <- _; lra. }
    assert (H3 : isin x3 e) by (split; [apply wfb|]; split; [apply wfb|]; rewrite EL3, E3; simpl; lra).
    destruct (no_gap p16 x3 lw 10 EP EL3 E3 LW ltac:(lra) ltac:(lra) e c He H3 z Hz) as (_ & _ & A & _). rewrite EL3 in A.
    split; [apply wfb|]. split; [apply wfb|]. rewrite EL, EU. simpl in *. auto.
  - destruct HI as (_ & _ & _ & A). rewrite EU in A. contradiction.
  - destruct HI as (_ & _ & _ & A). rewrite EU in A. contradiction.
Qed.
End Gap.
Section Run2.
Variables (b : backend) (fuel : nat) (root : bscal b -> nat -> bscal b) (lgc : nat -> bscal b) (order : Z) (n : nat).
Hypothesis OR : (1 <= order < 2 ^ 25)%Z.
Lemma lob_two f g (x p16 x2 : iv (bscal b)) y L lw v tr st st' : lob_pi16 (bpar b) = Ok p16 -> lob_reduced (bpar b) f x = Ok x2 -> is_fin (sval (lo x)) -> sval (lo x2) = XR lw -> isin x y -> is_lob y L ->
  lobachevsky (bpar b) fuel root lgc order n false f g x st = (Ok (v, tr), st') -> followed b p16 (nth 0 tr []) -> followed b (ipt (lo x2)) (nth 1 tr []) -> followed b (ipt (hi x2)) (nth 2 tr []) ->
  sval (hi x2) <> XR (5895198126690367 * u51) -> sval (hi x2) <> XR (8253277377366514 * u51) -> isin v L.
Proof.
  intros EP ER FX EL HX HL R H0 H1 H2 N5 N7. apply (lob_ok b fuel root lgc order n OR f g x p16 x2 y L lw v tr st st' EP ER FX EL HX HL R H0 H1 H2).
  destruct (C28_table_constants b) as [HP _]. destruct (tl_pihhi _ _ (btrig b)) as [hp EH].
  destruct (reduce_ok (bscal_ok b) (bpar b) (btrig b) f (hi (pih (bpar b))) (c_pi (bpar b)) PI x y x2) as [N|(k & l & HI & EL' & BL)]; auto using wfb. { rewrite EH. exact Logic.I. } { congruence. }
  rewrite EL in EL'. injection EL' as <-. specialize (BL _ EH).
  assert (LU : lw < PI / 2) by (apply (tl_adj _ _ (btrig b) (lo x2) lw hp); auto using wfb; apply BL).
  exact (no_gap_all b p16 x2 lw EP EL LU N5 N7).
Qed.
End Run2.
