(* Property theorems: defint_newtoncotes (C86), for every double back end and every expression. *)
From Coq Require Import Reals ZArith QArith Bool List Lra Lia Psatz Arith.
From Coquelicot Require Import Coquelicot.
From Flocq Require Import Core BinarySingleNaN.
From Verif Require Import Fp64 RDoubleHw.
From Verif Require Import Ext Scalar IntervalModel IntervalSpec IntervalProofs IntervalEncl IntervalSets Backends Ex64 ElemModel PropsElem.
From Verif Require Import VecModel VecProofs VecInst RealFun ADModel ADReal ADProofs ADInst PsaModel PsaExpr PsaUse PsaInst OptModel OptProofs OptInst PropsPsa PropsPsaHist.
From Verif Require Import NcModel NcRule NcProofs.
Import List ListNotations.
Open Scope R_scope.

(* F is the sequence of derivatives of the expression on the open set dom *)
Definition derivs (e : aexpr) (F : nat -> R -> R) (dom : R -> Prop) : Prop :=
  (forall k y, dom y -> is_derive (F k) y (F (S k) y)) /\ (forall x, dom x -> locally x dom) /\
  forall y, dom y -> adom e (fun _ => y) /\ F O y = rval e (fun _ => y).
(* fD is right about the derivative of order d: the partial derivative it returns on a box encloses the derivative of order d + 1 *)
Definition next_deriv {K : scal} (F : nat -> R -> R) (dom : R -> Prop) (d : Z) (fD : (nat -> iv K) -> res (nat -> iv K)) : Prop :=
  forall X G x, fD X = Ok G -> isin (X O) x -> dom x /\ isin (G O) (F (S (Z.to_nat d)) x).
(* the number of steps *)
Definition steps (m est : Z) : Z := if (m =? 0)%Z then est else m.

(* ---- C86 ---- *)
(* PARTIAL: the evaluation of the derivative on autodif<interval> (f on psa<autodif<interval>>) is not modelled, it is assumed
   right; and only the rules with n = 1, 2, 4, 6 *)
Theorem C86_encloses_partial : forall b fuel e D fD limit ofuel est (start end_ : iv (bscal b)) n m r F dom x y,
  In n [1; 2; 4; 6]%Z -> (1 <= steps m est < 2 ^ 52)%Z -> awf 1 e -> plog e -> derivs e F dom -> next_deriv F dom (nc_d (Z.to_nat n)) fD ->
  isin start x -> isin end_ y -> ifinite start -> ifinite end_ -> (forall z, isin (hull start end_) z -> dom z) ->
  newtoncotes (bpar b) fuel e D fD limit ofuel est start end_ n m = Ok r ->
  exists I, is_RInt (fun t => rval e (fun _ => t)) x y I /\ isin r I.
Proof.
  intros b fuel e D fD limit ofuel est A E n m r F dom x y Hn Hm W P (FM & OP & FE) GD HA HE FA FB HD H.
  assert (Q : exists I, is_RInt (F O) x y I /\ isin r I).
  { assert (N : (1 <= n <= 7)%Z) by (simpl in Hn; lia). unfold newtoncotes in H. destruct (Z.ltb_spec n 1); [lia|]. destruct (Z.ltb_spec 7 n); [lia|]. cbn [orb] in H. destruct (nc_d_range n ltac:(lia)) as [D1 D2].
    apply (newtoncotes_tab_ok (bscal_ok b) (bscal_nan b) (bpar b) (bexp b) (blog b) (btrig b) (bscal_mid b) (bscal_max b)
      fuel e D fD limit ofuel W P F dom FM OP (fun z Hz => proj2 (FE z Hz)) (fun z Hz => proj1 (FE z Hz)) _ D1 D2 GD n (nth (Z.to_nat n) nc_err (0, 1)%Z) est A E m r x y); auto; try lia. now apply nc_good_even. }
  destruct Q as (I & Q1 & Q2). exists I. split; [|exact Q2]. eapply is_RInt_ext; [|exact Q1]. intros t Ht. apply FE. apply HD.
  apply (isin_hull_mid (bscal_ok b) A E x y); auto. unfold Rmin, Rmax in Ht. destruct (Rle_dec x y); lra.
Qed.
(* the other three rules with the constants -1/80, -55/12096, -1169/518400 in place of those of the table (nc_fix) *)
Theorem C86_corrected_partial : forall b fuel e D fD limit ofuel est (start end_ : iv (bscal b)) n m r F dom x y,
  In n [3; 5; 7]%Z -> (1 <= steps m est < 2 ^ 52)%Z -> awf 1 e -> plog e -> derivs e F dom -> next_deriv F dom (nc_d (Z.to_nat n)) fD ->
  isin start x -> isin end_ y -> ifinite start -> ifinite end_ -> (forall z, isin (hull start end_) z -> dom z) ->
  newtoncotes_tab (bpar b) fuel e (nc_fix n) D fD limit ofuel est start end_ n m = Ok r ->
  exists I, is_RInt (fun t => rval e (fun _ => t)) x y I /\ isin r I.
Proof.
  intros b fuel e D fD limit ofuel est A E n m r F dom x y Hn Hm W P (FM & OP & FE) GD HA HE FA FB HD H.
  assert (Q : exists I, is_RInt (F O) x y I /\ isin r I).
  { assert (N : (1 <= n <= 7)%Z) by (simpl in Hn; lia). destruct (nc_d_range n ltac:(lia)) as [D1 D2].
    apply (newtoncotes_tab_ok (bscal_ok b) (bscal_nan b) (bpar b) (bexp b) (blog b) (btrig b) (bscal_mid b) (bscal_max b)
      fuel e D fD limit ofuel W P F dom FM OP (fun z Hz => proj2 (FE z Hz)) (fun z Hz => proj1 (FE z Hz)) _ D1 D2 GD n (nc_fix n) est A E m r x y); auto; try lia. now apply nc_good_odd. }
  destruct Q as (I & Q1 & Q2). exists I. split; [|exact Q2]. eapply is_RInt_ext; [|exact Q1]. intros t Ht. apply FE. apply HD.
  apply (isin_hull_mid (bscal_ok b) A E x y); auto. unfold Rmin, Rmax in Ht. destruct (Rle_dec x y); lra.
Qed.

(* ---- examples: x^p, its derivatives, and the zero gradient of the derivative of order p ---- *)
Fixpoint ff (p k : nat) : nat := match k with O => 1 | S k => ff p k * (p - k) end.
Definition Fm (p k : nat) (x : R) : R := INR (ff p k) * x ^ (p - k)%nat.
Definition em (p : nat) : aexpr := XPowZ (XVar 0) (Z.of_nat p).
Lemma em_derivs p : derivs (em p) (Fm p) (fun _ => True).
Proof.
  split; [|split].
  - intros k y _. unfold Fm. evar_last. { apply is_derive_scal. apply is_derive_pow. apply is_derive_id. }
    simpl ff. rewrite mult_INR. replace (p - S k)%nat with (Nat.pred (p - k)) by lia. set (q := (p - k)%nat).
    change (INR (ff p k) * (INR q * 1 * y ^ Nat.pred q) = INR (ff p k) * INR q * y ^ Nat.pred q). ring.
  - intros x _. exists (mkposreal 1 Rlt_0_1). auto.
  - intros y _. split; [simpl; split; auto; lia|]. unfold Fm, em. simpl rval. rewrite Nat.sub_0_r, <- pow_powerRZ. simpl. ring.
Qed.
Definition zgrad (X : nat -> iv (bscal BHw)) : res (nat -> iv (bscal BHw)) := Ok (fun _ => ipt s0).
Lemma zgrad_ok p d : Z.to_nat d = p -> next_deriv (Fm p) (fun _ => True) d zgrad.
Proof.
  intros E X G x H _. split; auto. injection H as <-. unfold Fm. rewrite E. simpl ff. rewrite Nat.sub_diag, Nat.mul_0_r, Rmult_0_l.
  apply (ElemGen.isin_0 (bscal_ok BHw)).
Qed.
Local Notation nc_run p c n m := (newtoncotes (S := bscal BHw) (bpar BHw) 0 (em p) (qiv 0 0 0 0) zgrad (sdy c 0) 20 1 (qiv 0 0 0 0) (qiv c 0 c 0) n m).
Definition inlim (lo_ hi_ : Z) (r : res (iv (bscal BHw))) : bool := match r with Ok r => Bleb (bdy lo_ 0) (lo r : b64) && Bleb (hi r : b64) (bdy hi_ 0) | _ => false end.
(* x^4 over [0,4] with two panels of n = 2, x^6 over [0,8] with n = 4 *)
Example C86_case : awf 1 (em 4) /\ plog (em 4) /\ inlim 204 205 (nc_run 4 4 2 4) = true /\ inlim 299593 299594 (nc_run 6 8 4 8) = true.
Proof. split; [simpl; lia|]. split; [exact Logic.I|]. split; vm_compute; reflexivity. Qed.
(* the integral of x^p over [0,c] *)
Lemma em_int p c : is_RInt (fun t => rval (em p) (fun _ => t)) 0 c (c ^ S p / INR (S p)).
Proof.
  assert (N : INR (S p) <> 0) by (apply not_0_INR; lia).
  replace (c ^ S p / INR (S p)) with (minus (c ^ S p / INR (S p)) (0 ^ S p / INR (S p))) by (unfold minus, plus, opp; simpl pow; change (c * c ^ p / INR (S p) + - (0 * 0 ^ p / INR (S p)) = c * c ^ p / INR (S p)); field; auto).
  apply (is_RInt_derive (fun t => t ^ S p / INR (S p))); intros t _.
  - evar_last. { apply (is_derive_ext (fun t => / INR (S p) * t ^ S p)); [intros; unfold Rdiv; apply Rmult_comm|]. apply is_derive_scal, is_derive_pow, is_derive_id. }
    unfold em. simpl rval. rewrite <- pow_powerRZ. change (/ INR (S p) * (INR (S p) * 1 * t ^ p) = t ^ p). field. auto.
  - apply (ex_derive_continuous (V := R_NormedModule)). exists (Fm p 1 t). destruct (em_derivs p) as (A & _ & C).
    apply (is_derive_ext (Fm p 0)); [intros y; apply C, Logic.I|]. apply A, Logic.I.
Qed.
(* n = 3, 5, 7: the error terms are n times too large; x^4 over [0,3], x^6 over [0,5], x^8 over [0,7] with one panel.
   All the hypotheses of C86_encloses_partial but the one on n hold *)
Theorem C86_odd_rules_refuted : forall n, In n [3; 5; 7]%Z ->
  exists p c r I, derivs (em p) (Fm p) (fun _ => True) /\ next_deriv (Fm p) (fun _ => True) (nc_d (Z.to_nat n)) zgrad /\
    nc_run p c n n = Ok r /\ is_RInt (fun t => rval (em p) (fun _ => t)) 0 (IZR c) I /\ ~ isin r I.
Proof.
  assert (K : forall p c n l u, Z.to_nat (nc_d (Z.to_nat n)) = p -> (Z.abs u <= 2 ^ 53)%Z -> inlim l u (nc_run p c n n) = true -> IZR u < IZR c ^ S p / INR (S p) ->
    exists p c r I, derivs (em p) (Fm p) (fun _ => True) /\ next_deriv (Fm p) (fun _ => True) (nc_d (Z.to_nat n)) zgrad /\
    nc_run p c n n = Ok r /\ is_RInt (fun t => rval (em p) (fun _ => t)) 0 (IZR c) I /\ ~ isin r I).
  { intros p c n l u Ep Hu R Q. exists p, c. destruct (nc_run p c n n) as [r|] eqn:E; [|discriminate R]. clear E. unfold inlim in R. apply andb_prop in R as [_ R].
    exists r, (IZR c ^ S p / INR (S p)). split; [apply em_derivs|]. split; [now apply zgrad_ok|]. split; [reflexivity|]. split; [apply em_int|].
    intros (_ & _ & _ & U). apply (ok_le _ (bok BHw)) in R; try exact Logic.I. change (bscal BHw) with D_hw in * . rewrite qv in R by lia.
    set (z := IZR c ^ S p / INR (S p)) in *. change (bpow radix2 0) with 1 in R. rewrite Rmult_1_r in R. destruct (sval (hi (r : iv D_hw))); cbn [xle ub] in R, U; try tauto. lra. }
  intros n [<-|[<-|[<-|[]]]].
  - apply (K 4%nat 3%Z 3%Z 46%Z 47%Z); [reflexivity|lia|vm_compute; reflexivity|simpl; lra].
  - apply (K 6%nat 5%Z 5%Z 11095%Z 11096%Z); [reflexivity|lia|vm_compute; reflexivity|simpl; lra].
  - apply (K 8%nat 7%Z 7%Z 4479000%Z 4481000%Z); [reflexivity|lia|vm_compute; reflexivity|simpl; lra].
Qed.
(* a negative number of steps: no node is summed; x^1 over [0,1] with n = 1, m = -1 gives 0, the integral is 1/2 *)
Theorem C86_negative_steps_refuted : exists r, derivs (em 1) (Fm 1) (fun _ => True) /\ nc_run 1 1 1 (-1) = Ok r /\ is_RInt (fun t => rval (em 1) (fun _ => t)) 0 1 (/ 2) /\ ~ isin r (/ 2).
Proof.
  assert (R : inlim 0 0 (nc_run 1 1 1 (-1)) = true) by (vm_compute; reflexivity).
  destruct (nc_run 1 1 1 (-1)) as [r|] eqn:E; [|discriminate R]. clear E. unfold inlim in R. apply andb_prop in R as [_ R].
  exists r. split; [apply em_derivs|]. split; [reflexivity|]. split.
  - replace (/ 2) with (1 ^ 2 / INR 2) by (simpl; field). apply em_int.
  - intros (_ & _ & _ & U). apply (ok_le _ (bok BHw)) in R; try exact Logic.I. change (bscal BHw) with D_hw in * . rewrite qv in R by lia.
    destruct (sval (hi (r : iv D_hw))); simpl in *; try tauto. lra.
Qed.
(* start and end the same point: the limit is pow(0, 1) = 0 and minimize subdivides a box of width 0 in the direction mi, which was never set *)
Theorem C86_degenerate_refuted : forall n, In n [1; 2; 4; 6]%Z -> exists e, derivs (em 2) (Fm 2) (fun _ => True) /\
  e = Err EUB /\ newtoncotes (S := bscal BHw) (bpar BHw) 0 (em 2) (qiv 0 0 0 0) zgrad (sdy 0 0) 20 1 (qiv 1 0 1 0) (qiv 1 0 1 0) n n = e.
Proof.
  assert (UB : forall r : res (iv (bscal BHw)), match r with Err EUB => true | _ => false end = true -> r = Err EUB) by (intros [|[]] H; try discriminate H; reflexivity).
  intros n Hn. eexists. split; [apply em_derivs|]. split; [reflexivity|]. destruct Hn as [<-|[<-|[<-|[<-|[]]]]]; apply UB; vm_compute; reflexivity.
Qed.
(* and 1 <= n <= 7 is required *)
Theorem C86_range : forall b fuel e D fD limit ofuel est (start end_ : iv (bscal b)) n m, (n < 1 \/ 7 < n)%Z ->
  newtoncotes (bpar b) fuel e D fD limit ofuel est start end_ n m = Err EDomain.
Proof.
  intros b fuel e D fD limit ofuel est A E n m H. unfold newtoncotes. destruct (Z.ltb_spec n 1); [reflexivity|]. destruct (Z.ltb_spec 7 n); [reflexivity|lia].
Qed.
Definition Nc_all := (C86_encloses_partial, C86_corrected_partial, C86_odd_rules_refuted, C86_negative_steps_refuted, C86_degenerate_refuted, C86_range).
Print Assumptions Nc_all.
