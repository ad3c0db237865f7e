(* Proofs about the model of defint_newtoncotes. *)
From Coq Require Import Reals ZArith QArith Qreals Bool List Lra Lia Arith.
From Coquelicot Require Import Coquelicot.
From Verif Require Import Ext Scalar RealFun RealConst IntervalModel IntervalSpec IntervalProofs IntervalEncl IntervalSets IntervalMore ElemModel ElemGen ElemExp ElemLog ElemTrig.
From Verif Require Import LinAlg RealRn VecModel VecProofs KrawProofs ADModel ADReal ADProofs ADOpen ADInst ADSys PsaModel PsaReal PsaProofs PsaExpr PsaInt PsaUse PsaUseProofs OptModel OptProofs OptInst.
From Verif Require Import Fp64 Backends NcReal NcModel NcRule.
Import ListNotations.
Open Scope R_scope.

Section SumP.
Variable B : base.
Variable rel : B -> R -> Prop.
Hypothesis OK : base_ok B rel.
Definition smallp (p : Z * Z) : bool := (1 <=? snd p)%Z && (Z.abs (fst p) <? 2 ^ 53)%Z && (snd p <? 2 ^ 53)%Z.
Lemma frac_ok p X : smallp p = true -> frac p = Ok X -> rel X (Q2R (toQ p)).
Proof.
  intros S H. unfold smallp in S. apply andb_prop in S as [S S3]. apply andb_prop in S as [S1 S2]. apply Z.leb_le in S1. apply Z.ltb_lt in S2, S3.
  unfold frac in H. assert (C : rel (bcst (fst p) 0) (IZR (fst p))) by (rewrite <- dy_int; apply (bk_cst _ _ OK), lit_int; lia).
  unfold toQ, Q2R. cbn [Qnum Qden]. rewrite Z2Pos.id by lia. destruct (Z.eqb_spec (snd p) 1) as [E|E].
  - apply oki in H. subst X. rewrite E, Rinv_1, Rmult_1_r. exact C.
  - destruct (bk_divS _ _ OK _ _ _ _ _ (lit_int (snd p) ltac:(lia)) H C) as [_ Q]. rewrite dy_int in Q. exact Q.
Qed.
Variables (row : list (Z * Z)) (f : B -> res B) (fr : R -> R) (a h : R) (A H : B) (n : nat) (m : Z).
Hypothesis RS : forallb smallp row = true.
Hypothesis RA : rel A a.
Hypothesis RH : rel H h.
Hypothesis MS : (m <= 2 ^ 53)%Z.
Hypothesis RF : forall X Y i, (0 <= i <= m)%Z -> f X = Ok Y -> rel X (a + IZR i * h) -> rel Y (fr (a + IZR i * h)).
Lemma row_small i : smallp (nth i row (0, 1)%Z) = true.
Proof.
  destruct (Nat.lt_ge_cases i (length row)) as [L|L]; [|now rewrite nth_overflow by auto].
  rewrite forallb_forall in RS. apply RS, nth_In, L.
Qed.
Lemma nc_loop_ok cnt i X x Y : (0 <= i)%Z -> (i + Z.of_nat cnt <= m + 1)%Z -> rel X x -> nc_loop row f A H (Z.of_nat n) m cnt i X = Ok Y ->
  rel Y (x + lsum (fun u => fr (a + u * h)) n (map toQ row) m cnt i).
Proof.
  revert i X x. induction cnt as [|cnt IH]; intros i X x I0 I1 HX E; cbn [nc_loop lsum] in *.
  - apply oki in E. subst Y. rewrite Rplus_0_r. exact HX.
  - cbv zeta in E. apply bind_ok in E as (k & Ek & E). apply bind_ok in E as (y & Ey & E).
    pose proof (frac_ok _ _ (row_small _) Ek) as HK.
    assert (HN : rel (badd A (bSmul i 0 H)) (a + IZR i * h)). { apply (bk_add _ _ OK); auto. rewrite <- (dy_int i). apply (bk_Smul _ _ OK); auto. apply lit_int. lia. }
    pose proof (RF _ _ i ltac:(lia) Ey HN) as HY.
    apply (IH (i + 1)%Z _ (x + Q2R (toQ (nth (nc_idx (Z.of_nat n) m i) row (0, 1)%Z)) * fr (a + IZR i * h))) in E; try lia.
    + unfold cw. change 0%Q with (toQ (0, 1)%Z). rewrite map_nth. rewrite Rplus_assoc in E. exact E.
    + apply (bk_add _ _ OK); auto. apply (bk_mul _ _ OK); auto.
Qed.
End SumP.

Lemma round_ok n m : (1 <= n)%Z -> (1 <= m)%Z -> exists M, nc_round n m = Z.of_nat (Z.to_nat n * S M) /\ (m <= nc_round n m < m + n)%Z.
Proof.
  intros N M. unfold nc_round. pose proof (Z.mod_pos_bound (- m) n ltac:(lia)) as MB.
  assert (D : (m + (- m) mod n)%Z = (n * (- ((- m) / n)))%Z) by (pose proof (Z.div_mod (- m) n ltac:(lia)); lia).
  set (q := (- ((- m) / n))%Z) in *. assert (1 <= q)%Z by nia. exists (Z.to_nat (q - 1)). split; [|lia]. rewrite D, Nat2Z.inj_mul, Z2Nat.id by lia. f_equal. lia.
Qed.

Section SumT.
Variable B : base.
Variable rel : B -> R -> Prop.
Hypothesis OK : base_ok B rel.
Hypothesis CV : forall X p q r, rel X p -> rel X q -> p <= r <= q -> rel X r.
Theorem nc_sum_ok (F : nat -> R -> R) (dom : R -> Prop) n m err (f : B -> res B) A E HD Y a b :
  (1 <= n)%Z -> (1 <= m)%Z -> (m < 2 ^ 52)%Z -> (n < 2 ^ 52)%Z -> nc_good (Z.to_nat n) err = true ->
  (forall k y, dom y -> is_derive (F k) y (F (S k) y)) -> (forall x, Rmin a b <= x <= Rmax a b -> dom x) ->
  (forall X Y x, dom x -> f X = Ok Y -> rel X x -> rel Y (F 0%nat x)) -> rel A a -> rel E b ->
  (forall x, Rmin a b <= x <= Rmax a b -> rel HD (F (Z.to_nat (nc_d (Z.to_nat n))) x)) ->
  nc_sum (nc_row (Z.to_nat n)) err (nc_d (Z.to_nat n)) f A E HD n m = Ok Y ->
  exists I, is_RInt (F 0%nat) a b I /\ rel Y I.
Proof using OK CV.
  intros N1 M1 M2 N2 GD FM SEG FF RA RE RHD H. unfold nc_sum in H. cbv zeta in H.
  destruct (round_ok n m N1 M1) as (M & EM & BM). set (m' := nc_round n m) in *. set (n' := Z.to_nat n) in *. set (d := nc_d n') in *.
  apply bind_ok in H as (h & Eh & H). apply bind_ok in H as (r & Er & H). apply bind_ok in H as (q & Eq & H). apply bind_ok in H as (et & Ee & H). apply oki in H. subst Y.
  assert (RW : rel (bsub E A) (b - a)) by (apply (bk_sub _ _ OK); auto).
  destruct (bk_divS _ _ OK _ _ _ _ _ (lit_int m' ltac:(lia)) Eh RW) as [NZ Rh]. rewrite dy_int in NZ, Rh.
  set (hr := (b - a) / IZR m') in *. assert (HH : b - a = hr * INR (n' * S M)) by (rewrite INR_IZR_INZ, <- EM; unfold hr; field; auto).
  assert (NP : 0 < INR (n' * S M)) by (rewrite INR_IZR_INZ, <- EM; apply IZR_lt; lia).
  destruct (rule_ok F dom FM a b hr n' M err GD HH SEG) as (x1 & x2 & z & B1 & B2 & BZ & HI).
  eexists. split; [exact HI|].
  assert (GD2 := GD). unfold nc_good in GD2. apply andb_prop in GD2 as [GD3 SM]. cbn [forallb] in SM. apply andb_prop in SM as [SE SR].
  assert (DE : (0 <= d)%Z). { unfold d, nc_d. clear. do 8 (destruct n' as [|n']; [cbn; lia|]). destruct n'; cbn; lia. }
  apply (bk_add _ _ OK).
  - unfold rule. rewrite Rmult_comm. apply (bk_mul _ _ OK); auto.
    assert (EC : Z.to_nat (m' + 1) = (n' * S M + 1)%nat) by lia. rewrite EC in Er.
    assert (En : n = Z.of_nat n') by (unfold n'; lia). rewrite En, EM in Er.
    rewrite <- (Rplus_0_l (lsum _ _ _ _ _ _)).
    apply (nc_loop_ok B rel OK (nc_row n') f (F 0%nat) a hr A h n' (Z.of_nat (n' * S M))) with (X := t0); auto; try lia.
    + intros X Y i Hi HY HX. apply (FF X); auto. apply SEG.
      assert (0 <= IZR i <= INR (n' * S M)). { rewrite INR_IZR_INZ. split; [apply (IZR_le 0); lia|apply IZR_le; lia]. }
      unfold Rmin, Rmax. destruct (Rle_dec a b).
      * assert (0 <= hr) by (destruct (Rle_lt_dec 0 hr); auto; nra). nra.
      * assert (hr <= 0) by (destruct (Rle_lt_dec hr 0); auto; nra). nra.
    + apply (rel0 B rel OK).
  - apply (bk_mul _ _ OK); [|apply (frac_ok B rel OK); auto].
    apply (bk_mul _ _ OK).
    + apply (bk_mul _ _ OK); auto. apply (CV _ (F (Z.to_nat d) x1) (F (Z.to_nat d) x2)); auto.
    + destruct (bk_pow _ _ OK _ _ _ _ Eq Rh) as [_ Q]. rewrite <- (Z2Nat.id d) in Q by auto. rewrite <- pow_powerRZ in Q. exact Q.
Qed.
End SumT.

(* ---- the range of the derivative, and the whole function ---- *)
Lemma grad1 (G : (nat -> R) -> R) (q q' : R -> R) x : (forall y, G y = q (y O)) -> is_derive q (x O) (q' (x O)) -> grad 1 G x (fun _ => q' (x O)).
Proof.
  intros EG DV c v [C0 CV]. specialize (CV O ltac:(lia)). apply is_derive_Reals in CV.
  assert (E : is_derive (fun t => q (c t O)) 0 (v O * q' (x O))). { apply (is_derive_comp q (fun t => c t O)); auto. rewrite C0. exact DV. }
  apply is_derive_Reals. eapply is_derive_ext; [intros t; symmetry; apply EG|]. replace (vsum 1 _) with (v O * q' (x O)); [exact E|]. unfold vsum; simpl. ring.
Qed.
Section NcFull.
Context {S : scal} (OK : scal_ok S) (NN : scal_nan S) (P : elemp S) (LE : exp_laws S P) (LL : log_laws S P) (LT : trig_laws S P).
Hypothesis MID : forall X : iv S, ivalid X -> ifinite X -> exists m, sval (mid X) = XR m /\ isin X m.
Hypothesis MAX : forall (a : S) q r, sval a = XR q -> sval (@smax S) = XR r -> q <= r.
Variables (fuel : nat) (e : aexpr) (D : iv S) (fD : (nat -> iv S) -> res (nat -> iv S)) (limit : S) (ofuel : nat).
Notation B := (Ibase P fuel).
Let BOK : base_ok B (@isin S) := Ibase_ok OK P LE LL LT fuel.
Hypothesis WF : awf 1 e.
Hypothesis PL : plog e.
Variables (F : nat -> R -> R) (dom : R -> Prop).
Hypothesis FM : forall k y, dom y -> is_derive (F k) y (F (Datatypes.S k) y).
Hypothesis OP : forall x, dom x -> locally x dom.
Hypothesis F0 : forall y, dom y -> F O y = rval e (fun _ => y).
Hypothesis DA : forall y, dom y -> adom e (fun _ => y).
Variable d : Z.
Hypothesis D1 : (1 <= d)%Z.
Hypothesis D2 : (d < 2 ^ 52)%Z.
Let k := Z.to_nat d.
(* the autodif evaluation encloses the next derivative *)
Hypothesis GD : forall X G x, fD X = Ok G -> isin (X O) x -> dom x /\ isin (G O) (F (Datatypes.S k) x).

Lemma nc_hd_ok X Y x : nc_hd P fuel e D d X = Ok Y -> vin 1 X x -> dom (x O) -> isin Y (F k (x O)).
Proof using OK LE LL LT WF PL FM OP F0 D1 D2.
  intros H HX Dx. unfold nc_hd in H. apply bind_ok in H as (v & E & H). apply oki in H. subst Y.
  destruct (hd_run_deriv B (@isin S) BOK D e (X O) d false v (x O) F dom D1 D2 WF PL (HX O ltac:(lia)) E FM (OP _ Dx) F0) as [L Q].
  exact (Q k ltac:(unfold k; lia)).
Qed.
Lemma open1 i s x : dom (x O) -> (i < 1)%nat -> exists dl, 0 < dl /\ forall t, Rabs t < dl -> dom (along i s x t O).
Proof.
  intros Dx Hi. assert (i = O) by lia. subst i. destruct (OP _ Dx) as [ep Hep]. pose proof (Rabs_pos s) as PS. pose proof (cond_pos ep) as PE.
  exists (ep / (Rabs s + 1)). split; [apply Rdiv_lt_0_compat; lra|]. intros t Ht. apply Hep. unfold along. simpl.
  change (Rabs (x O + s * t - x O) < ep). replace (x O + s * t - x O) with (s * t) by ring. rewrite Rabs_mult.
  apply (Rmult_lt_compat_l (Rabs s + 1)) in Ht; [|lra]. replace ((Rabs s + 1) * (ep / (Rabs s + 1))) with (pos ep) in Ht by (field; lra).
  pose proof (Rabs_pos t). nra.
Qed.
Lemma nc_range_ok v r : ivalid v -> ifinite v -> (forall x, isin v x -> dom x) -> nc_range P fuel e D fD limit ofuel v d = Ok r ->
  forall x, isin v x -> isin r (F k x).
Proof using OK NN LE LL LT MID MAX WF PL FM OP F0 D1 D2 GD.
  intros V FV DV H. unfold nc_range in H. apply bind_ok in H as (lo_ & E1 & H). apply bind_ok in H as (hi_ & E2 & H). apply oki in H. subst r.
  assert (ED : exists L U, sval (lo v) = XR L /\ sval (hi v) = XR U) by (destruct FV as [A1 A2]; destruct (sval (lo v)) as [q| | |], (sval (hi v)) as [q'| | |]; try (exfalso; exact A1); try (exfalso; exact A2); exists q, q'; auto).
  destruct ED as (L & U & EL & EU).
  assert (IV : forall x, isin v x <-> L <= x <= U). { intros x. unfold isin. rewrite EL, EU. destruct V as (W1 & W2 & _). simpl. tauto. }
  assert (LU : L <= U). { destruct V as (_ & _ & _ & _ & Q). rewrite EL, EU in Q. exact Q. }
  assert (CF : forall x, L <= x <= U -> continuity_pt (F k) x).
  { intros x Hx. apply continuity_pt_filterlim. apply (ex_derive_continuous (V := R_NormedModule)). eexists. apply FM, DV, IV, Hx. }
  destruct (continuity_ab_min (F k) L U LU CF) as (x1 & Q1 & B1). destruct (continuity_ab_maj (F k) L U LU CF) as (x2 & Q2 & B2).
  assert (VV : vvalid 1 (fun _ : nat => v)) by (intros i Hi; auto). assert (VF : vfin 1 (fun _ : nat => v)) by (intros i Hi; auto).
  assert (R1 : isin lo_ (F k x1)).
  { apply bind_ok in E1 as (bs & Eb & Ev).
    destruct (optimize_ok OK NN MID MAX 1 (nc_hd P fuel e D d) fD (fun _ => v) limit false (fun x => F k (x O)) (fun x => dom (x O))
      (fun X Y x H1 H2 H3 => nc_hd_ok X Y x H1 H2 H3) VV VF ofuel bs) as [A1 A2]; auto.
    - intros X G x H1 H2. apply (GD X G (x O) H1). apply H2. lia.
    - intros X G x H1 H2. exists (fun _ => F (Datatypes.S k) (x O)). destruct (GD X G (x O) H1 (H2 O ltac:(lia))) as [G1 G2]. split.
      + intros i Hi. assert (i = O) by lia. subst i. exact G2.
      + apply (grad1 _ (F k) (F (Datatypes.S k))); auto.
    - intros X G x i s H1 H2 Hi. apply open1; auto. apply (GD X G (x O) H1). apply H2. lia.
    - assert (MN : OptProofs.minimiser 1 (fun _ => v) (fun x => F k (x O)) (fun x => dom (x O)) (fun _ => x1)).
      { split; [intros i Hi; apply IV, B1|]. split; [apply DV, IV, B1|]. intros y Hy _. apply Q1, IV, Hy. lia. }
      refine (proj2 (value_ok OK NN 1 (nc_hd P fuel e D d) (fun _ => v) (fun x => F k (x O)) (fun x => dom (x O))
        (fun X Y x H1 H2 H3 => nc_hd_ok X Y x H1 H2 H3) bs lo_ (fun _ => x1) A1 MN (A2 _ MN) Ev) _).
      intros y Hy. apply DV, Hy. lia. }
  assert (FN : forall X Y x, negr (nc_hd P fuel e D d) X = Ok Y -> vin 1 X x -> dom (x O) -> isin Y (- F k (x O))).
  { intros X Y x H HX Dx. apply bind_ok in H as (y & Ey & H). apply oki in H. subst Y. apply (isin_neg OK). now apply (nc_hd_ok X). }
  assert (R2 : isin hi_ (- F k x2)).
  { apply bind_ok in E2 as (bs & Eb & Ev).
    destruct (optimize_ok OK NN MID MAX 1 (negr (nc_hd P fuel e D d)) (negd fD) (fun _ => v) limit false (fun x => - F k (x O)) (fun x => dom (x O))
      FN VV VF ofuel bs) as [A1 A2]; auto.
    - intros X G x H1 H2. apply bind_ok in H1 as (g & H1 & _). apply (GD X g (x O) H1). apply H2. lia.
    - intros X G x H1 H2. apply bind_ok in H1 as (g & H1 & H3). apply oki in H3. subst G. exists (fun _ => - F (Datatypes.S k) (x O)).
      destruct (GD X g (x O) H1 (H2 O ltac:(lia))) as [G1 G2]. split.
      + intros i Hi. assert (i = O) by lia. subst i. apply (isin_neg OK). exact G2.
      + apply (grad1 _ (fun x => - F k x) (fun x => - F (Datatypes.S k) x)); auto. apply (is_derive_opp (V := R_NormedModule)). now apply FM.
    - intros X G x i s H1 H2 Hi. apply open1; auto. apply bind_ok in H1 as (g & H1 & _). apply (GD X g (x O) H1). apply H2. lia.
    - assert (MN : OptProofs.minimiser 1 (fun _ => v) (fun x => - F k (x O)) (fun x => dom (x O)) (fun _ => x2)).
      { split; [intros i Hi; apply IV, B2|]. split; [apply DV, IV, B2|]. intros y Hy _. apply Ropp_le_contravar. apply Q2, IV, Hy. lia. }
      refine (proj2 (value_ok OK NN 1 (negr (nc_hd P fuel e D d)) (fun _ => v) (fun x => - F k (x O)) (fun x => dom (x O))
        FN bs hi_ (fun _ => x2) A1 MN (A2 _ MN) Ev) _).
      intros y Hy. apply DV, Hy. lia. }
  intros x Hx. apply (isin_neg OK) in R2. rewrite Ropp_involutive in R2. apply (isin_hull_mid OK lo_ (ineg hi_) (F k x1) (F k x2)); auto.
  left. split; [apply Q1|apply Q2]; now apply IV.
Qed.
Theorem newtoncotes_tab_ok n err est A E m Y a b : (1 <= n)%Z -> (n < 2 ^ 52)%Z -> nc_good (Z.to_nat n) err = true -> d = nc_d (Z.to_nat n) ->
  (let m' := if (m =? 0)%Z then est else m in (1 <= m' < 2 ^ 52)%Z) ->
  isin A a -> isin E b -> ifinite A -> ifinite E -> (forall x, isin (hull A E) x -> dom x) ->
  newtoncotes_tab P fuel e err D fD limit ofuel est A E n m = Ok Y -> exists I, is_RInt (F 0%nat) a b I /\ isin Y I.
Proof using OK NN LE LL LT MID MAX WF PL FM OP F0 DA D1 D2 GD.
  intros N1 N2 G ED HM IA IE FA FE HD H. unfold newtoncotes_tab in H. cbv zeta in H, HM. rewrite <- ED in H. apply bind_ok in H as (r & Er & H).
  set (m' := if (m =? 0)%Z then est else m) in *.
  assert (VA : ivalid A) by (eapply isin_valid; eauto). assert (VE : ivalid E) by (eapply isin_valid; eauto).
  assert (SG : forall x, Rmin a b <= x <= Rmax a b -> isin (hull A E) x).
  { intros x Hx. apply (isin_hull_mid OK A E a b); auto. unfold Rmin, Rmax in Hx. destruct (Rle_dec a b); lra. }
  pose proof (nc_range_ok (hull A E) r (valid_hull OK A E VA VE) (hull_fin A E FA FE) HD Er) as RR.
  rewrite ED in H.
  apply (nc_sum_ok B (@isin S) BOK) with (f := fun X => optI P fuel e (fun _ => X)) (A := A) (E := E) (HD := r) (n := n) (m := m') (dom := dom) (err := err); auto; try lia.
  - intros X p q s. apply isin_btw.
  - intros X Y' x Dx HY HX. rewrite F0 by auto. apply (optI_ok OK P LE LL LT fuel 1 e WF (fun _ => X)); auto. intros i Hi. exact HX.
  - intros x Hx. rewrite <- ED. apply RR. auto.
Qed.
End NcFull.
