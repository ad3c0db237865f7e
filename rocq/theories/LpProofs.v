(* lp_minimize_verified with round = -1 returns a lower bound of the objective on the feasible set. *)
From Coq Require Import FunctionalExtensionality Reals Lra Lia ZArith Bool List Arith.
From Flocq Require Import Core.
From Verif Require Import Ext Scalar IntervalModel IntervalSpec IntervalProofs IntervalEncl LinAlg VecModel VecProofs AffModel AffSpec AffProofs LpModel.
Import ListNotations.
Open Scope R_scope.

Section Spec.
Context {S : scal}.
(* c1 x_1 + c2 x_2 + ... *)
Fixpoint dotf (l : list S) (x : nat -> R) (k : nat) : R :=
  match l with [] => 0 | a :: l => rv a * x k + dotf l x (1 + k) end.
(* c0 + c1 x_1 + ... *)
Definition lin (l : list S) (x : nat -> R) : R := match l with [] => 0 | c :: l => rv c + dotf l x 1 end.
(* every tableau of the run has finite entries only *)
Definition tabfin (m n : nat) (st : lpst S) : Prop := forall i j, (i <= m)%nat -> (j <= n)%nat -> fin (lpa st i j).
Fixpoint runfin (m n : nat) (round : Z) (fuel : nat) (st : lpst S) : Prop :=
  tabfin m n st /\
  match fuel with
  | O => True
  | Datatypes.S f => match lp_step m n round fuel st with Ok (Some st') => runfin m n round f st' | _ => True end
  end.
Definition lp_finite (fuel : nat) (obj : list S) (cs : list (list S)) (round : Z) : Prop :=
  match lp_init obj cs with
  | Ok st => runfin (length cs) (length obj - 1 + length cs) round fuel st
  | Err _ => True
  end.
End Spec.

(* sums over the non-basic columns *)
Definition nbs (n : nat) (isb : nat -> bool) (f : nat -> R) : R :=
  vsum (1 + n) (fun j => if (j =? 0) || isb j then 0 else f j).
Lemma vsum_upd k n f g : (k < n)%nat -> (forall i, (i < n)%nat -> i <> k -> f i = g i) -> vsum n f = vsum n g + (f k - g k).
Proof.
  intros H E. assert (vsum n (fun i => f i - g i) = f k - g k) as D.
  { apply (vsum_single n k (fun i => f i - g i)); auto. intros i A B. rewrite E by auto. ring. }
  rewrite vsum_minus in D. lra.
Qed.

Lemma Ok_inj {A} (a b : A) : Ok a = Ok b -> a = b. Proof. intros H; injection H; auto. Qed.

Section Proofs.
Context {S : scal} (OK : scal_ok S) (AL : aff_laws S).
Notation iv := (iv S).
Variables m n : nat.

Definition rowv (a : nat -> nat -> S) (isb : nat -> bool) (y : nat -> R) (i : nat) : R :=
  rv (a i 0%nat) - nbs n isb (fun j => rv (a i j) * y j).
(* for the feasible point under consideration, whose objective is z, the non-basic variables have
   values y >= 0 that make the basic ones >= 0 and the objective row at most z *)
Record inv (z : R) (a : nat -> nat -> S) (isb : nat -> bool) (bas : nat -> nat) : Prop := mkinv {
  iv_z : isb 0%nat = false;
  iv_b : forall i, (1 <= i <= m)%nat -> (1 <= bas i <= n)%nat /\ isb (bas i) = true;
  iv_i : forall i i', (1 <= i <= m)%nat -> (1 <= i' <= m)%nat -> bas i = bas i' -> i = i';
  iv_u : forall i i', (1 <= i <= m)%nat -> (i' <= m)%nat -> rv (a i' (bas i)) = if Nat.eqb i' i then 1 else 0;
  iv_y : exists y, (forall j, (1 <= j <= n)%nat -> isb j = false -> 0 <= y j) /\
         (forall i, (1 <= i <= m)%nat -> 0 <= rowv a isb y i) /\ rowv a isb y 0 <= z }.

Lemma s1_rv : rv (@s1 S) = 1. Proof. exact (proj2 (rv_ex (S:=S) _ _ (proj2 (ok_s1 _ OK)))). Qed.
Lemma s0_rv : rv (@s0 S) = 0. Proof. exact (proj2 (rv_ex (S:=S) _ _ (proj2 (ok_s0 _ OK)))). Qed.

Lemma pcol_some a isb k p : fst (pcol (S:=S) a isb k) = Some p -> (1 <= p <= k)%nat /\ isb p = false.
Proof.
  induction k; cbn [pcol]; [discriminate|]. destruct (pcol a isb k) as [q mm]. cbn [fst] in IHk.
  destruct (isb (Datatypes.S k)) eqn:E; cbn [fst]. { intros H. apply IHk in H. split; [lia|tauto]. }
  destruct (slt mm (a 0%nat (Datatypes.S k))); cbn [fst]; intros H.
  - injection H as <-. split; [lia|auto].
  - apply IHk in H. split; [lia|tauto].
Qed.
(* when no column is found, all reduced costs are <= 0 *)
Lemma pcol_none a isb k : (forall j, (j <= k)%nat -> fin (a 0%nat j)) -> fst (pcol (S:=S) a isb k) = None ->
  snd (pcol a isb k) = s0 /\ forall j, (1 <= j <= k)%nat -> isb j = false -> rv (a 0%nat j) <= 0.
Proof.
  induction k; cbn [pcol]; intros F. { split; auto. intros; lia. }
  destruct (pcol a isb k) as [q mm]. cbn [fst snd] in IHk.
  destruct (isb (Datatypes.S k)) eqn:E; cbn [fst snd].
  { intros H. destruct (IHk ltac:(auto) H) as [A B]. split; auto. intros j J NB. destruct (Nat.eq_dec j (Datatypes.S k)) as [-> |]; [congruence|]. apply B; auto. lia. }
  destruct (slt mm (a 0%nat (Datatypes.S k))) eqn:L; cbn [fst snd]; [discriminate|].
  intros H. destruct (IHk ltac:(auto) H) as [A B]. split; auto. intros j J NB. destruct (Nat.eq_dec j (Datatypes.S k)) as [-> |]; [|apply B; auto; lia].
  subst mm. pose proof (F (Datatypes.S k) ltac:(lia)) as F1. apply fin_ex in F1.
  apply (slt_false OK) in L; try apply (af_wf _ AL); rewrite ?F1, ?(proj2 (ok_s0 _ OK)); try discriminate.
  rewrite F1, (proj2 (ok_s0 _ OK)) in L. exact L.
Qed.
Lemma prow_some a p k r : (forall i, (i <= k)%nat -> fin (a i p)) -> fst (prow (S:=S) a p k) = Some r -> (1 <= r <= k)%nat /\ 0 < rv (a r p).
Proof.
  induction k; cbn [prow]; [discriminate|]. intros F. destruct (prow a p k) as [q mm]. cbn [fst] in IHk.
  destruct (sle (a (Datatypes.S k) p) s0) eqn:E; cbn [fst]. { intros H. apply IHk in H; auto. split; [lia|tauto]. }
  destruct (slt _ mm); cbn [fst]; intros H.
  - injection H as <-. split; [lia|]. pose proof (F (Datatypes.S k) ltac:(lia)) as F1. apply fin_ex in F1.
    apply (sle_false OK) in E; try apply (af_wf _ AL); rewrite ?F1, ?(proj2 (ok_s0 _ OK)); try discriminate.
    rewrite F1, (proj2 (ok_s0 _ OK)) in E. exact E.
  - apply IHk in H; auto. split; [lia|tauto].
Qed.

(* raising a right-hand side *)
Lemma up1 (x : S) : fin (hi (iaddS (ipt x) sdmin)) -> fin x /\ rv x <= rv (hi (iaddS (ipt x) sdmin)).
Proof.
  cbn [iaddS ipt hi]. intros F. destruct (addu_f OK AL _ _ F) as (F1 & F2 & D). split; auto.
  destruct (ok_dmin _ OK) as [_ (d & E & P)]. apply rv_ex in E as [_ E]. lra.
Qed.
Lemma raise_ok fuel Imin (x y x' : S) : raise fuel Imin x y = Ok x' -> fin x' -> fin x /\ rv x <= rv x'.
Proof.
  revert x. induction fuel; intros x; cbn [raise]; [discriminate|]. destruct (idivS (ipt x) y) as [It|]; [|discriminate]. cbn [bind].
  destruct (slt (hi Imin) (lo It)). { intros H F. apply Ok_inj in H as <-. split; auto. lra. }
  intros H F. destruct (IHfuel _ H F) as [F1 D]. apply up1 in F1 as [F2 D2]. split; auto. lra.
Qed.
(* the rows other than r may have a larger right-hand side afterwards, nothing else changes *)
Definition grown (r : nat) (a a' : nat -> nat -> S) : Prop :=
  (forall i j, j <> 0%nat \/ i = r \/ i = 0%nat -> a' i j = a i j) /\ forall i, fin (a' i 0%nat) -> fin (a i 0%nat) /\ rv (a i 0%nat) <= rv (a' i 0%nat).
Lemma grown_refl r a : grown r a a. Proof. split; auto. intros; split; auto; lra. Qed.
Lemma ties_ok fuel r p Imin a l a' : ties (-1) fuel r p Imin a l = Ok a' -> (forall i, In i l -> i <> 0%nat) -> grown r a a'.
Proof.
  revert Imin a. induction l as [|i l IH]; intros Imin a; cbn [ties].
  { intros H _. apply Ok_inj in H as <-. apply grown_refl. }
  intros H NZ. assert (NZ' : forall i, In i l -> i <> 0%nat) by (intros; apply NZ; right; auto).
  destruct (sle (a i p) s0); [eauto|]. destruct (Nat.eqb_spec i r) as [|NR]; [eauto|]. rewrite (Z.eqb_refl (-1)) in H.
  destruct (raise fuel Imin (a i 0%nat) (a i p)) as [x|] eqn:E; [|discriminate H]. cbn [bind] in H.
  destruct (IH _ _ H NZ') as [A B]. pose proof (NZ i (or_introl eq_refl)) as NI. split.
  - intros i0 j D. rewrite A by auto. unfold upd. destruct (Nat.eqb_spec i0 i) as [-> |]; auto. destruct (Nat.eqb_spec j 0) as [-> |]; auto. lia.
  - intros i0 F. destruct (B i0 F) as [B1 B2]. unfold upd in B1, B2. destruct (Nat.eqb_spec i0 i) as [-> |]; auto. cbn [Nat.eqb] in *.
    destruct (raise_ok _ _ _ _ _ E B1). split; auto. lra.
Qed.

Lemma divrow_ok a isb r p k Ir : divrow (S:=S) a isb r p k = Ok Ir -> forall j, (j < k)%nat -> isb j = false -> iSdiv (a r j) (ipt (a r p)) = Ok (Ir j).
Proof.
  revert Ir. induction k; intros Ir; cbn [divrow]; [lia|]. destruct (divrow a isb r p k) as [f|]; [|discriminate]. cbn [bind].
  destruct (isb k) eqn:E.
  - intros H j J NB. apply Ok_inj in H as <-. apply IHk; auto. destruct (Nat.eq_dec j k) as [-> |]; [congruence|lia].
  - destruct (iSdiv (a r k) (ipt (a r p))) as [q|] eqn:D; [|discriminate]. cbn [bind]. intros H j J NB. apply Ok_inj in H as <-.
    unfold upd. destruct (Nat.eqb_spec j k) as [-> |]; auto. apply IHk; auto. lia.
Qed.

Lemma hi_ge (X : iv) v : isin X v -> fin (hi X) -> v <= rv (hi X).
Proof. intros (_ & _ & _ & U) F. rewrite (fin_ex _ F) in U. exact U. Qed.
Lemma lo_le (X : iv) v : isin X v -> fin (lo X) -> rv (lo X) <= v.
Proof. intros (_ & _ & L & _) F. rewrite (fin_ex _ F) in L. exact L. Qed.

Lemma force2_ext (f : nat -> nat -> S) : force2 m n f = f.
Proof. unfold force2. rewrite force_ext. apply functional_extensionality. intros i. apply force_ext. Qed.

(* one pivot step *)
Lemma step_inv z fuel st st' : lp_step m n (-1) fuel st = Ok (Some st') -> tabfin m n st -> tabfin m n st' ->
  inv z (lpa st) (lpis st) (lpb st) -> inv z (lpa st') (lpis st') (lpb st').
Proof.
  unfold lp_step. destruct (fst (pcol (lpa st) (lpis st) n)) as [p|] eqn:EP; [|discriminate].
  destruct (fst (prow (lpa st) p m)) as [r|] eqn:ER; [|discriminate]. intros H F F'.
  destruct (idivS _ _) as [Imin|]; [|discriminate H]. cbn [bind] in H.
  destruct (ties _ _ _ _ _ _ _) as [a1|] eqn:ET; [|discriminate H]. cbn [bind] in H.
  set (a := lpa st) in *. set (isb := lpis st) in *. set (bas := lpb st) in *.
  set (isb' := upd (upd isb (bas r) false) p true) in *.
  destruct (divrow a1 isb' r p (1 + n)) as [Ir|] eqn:ED; [|discriminate H]. cbn [bind] in H. apply Ok_inj in H.
  assert (st' = mklp (force2 m n (elim (-1) a1 isb' r p Ir)) (force (1 + n) isb') (force (1 + m) (upd bas r p))) as -> by congruence. clear H.
  unfold tabfin in F'. cbn [lpa lpis lpb] in *. rewrite force2_ext in *.
  assert (F1 : forall i j, (i <= m)%nat -> (j <= n)%nat -> fin (elim (-1) a1 isb' r p Ir i j)).
  { intros i j I J. exact (F' i j I J). }
  clear F'. rewrite !force_ext.
  intros [IZ IB II IU (y & Y1 & Y2 & Y3)].
  destruct (pcol_some _ _ _ _ EP) as [RP NBP]. clear EP. destruct (prow_some a p m r) as [RR PP]; auto. { intros i I. apply F; lia. } clear ER.
  apply ties_ok in ET. 2: { intros i I. apply in_seq in I. lia. } destruct ET as [G1 G2].
  destruct (IB r RR) as [RB BB]. set (b := bas r) in *.
  assert (NPB : p <> b) by (intros ->; congruence).
  assert (I0 : isb' 0%nat = false). { unfold isb', upd. destruct (Nat.eqb_spec 0 p); [lia|]. destruct (Nat.eqb_spec 0 b); auto. }
  assert (IP : isb' p = true). { unfold isb', upd. now rewrite Nat.eqb_refl. }
  assert (IBb : isb' b = false). { unfold isb', upd. destruct (Nat.eqb_spec b p); [lia|]. now rewrite Nat.eqb_refl. }
  assert (IO : forall j, j <> p -> j <> b -> isb' j = isb j).
  { intros j A B. unfold isb', upd. destruct (Nat.eqb_spec j p); [lia|]. destruct (Nat.eqb_spec j b); [lia|auto]. }
  (* the real quantities *)
  set (al i j := if (j =? 0) then rv (a1 i 0%nat) else rv (a i j)).
  assert (AE : forall i j, j <> 0%nat -> a1 i j = a i j) by (intros; apply G1; auto).
  assert (AL1 : forall i j, rv (a1 i j) = al i j).
  { intros i j. unfold al. destruct (Nat.eqb_spec j 0) as [-> |]; auto. now rewrite AE. }
  assert (FA : forall i j, (i <= m)%nat -> (j <= n)%nat -> fin (a1 i j)).
  { intros i j I J. destruct (Nat.eq_dec j 0) as [-> |NJ]; [|rewrite AE by auto; apply F; auto].
    destruct (Nat.eq_dec i r) as [-> |NR]; [rewrite G1 by auto; apply F; auto|].
    specialize (F1 i 0%nat I ltac:(lia)). unfold elim in F1. rewrite I0 in F1. destruct (Nat.eqb_spec i r); [lia|]. cbn [Nat.eqb xorb] in F1.
    destruct (i =? 0); cbn [xorb negb Z.eqb] in F1; cbn [iSsub lo hi] in F1.
    - now destruct (subd_f OK AL _ _ F1) as (_ & _ & _); destruct (subd_f OK AL _ _ F1) as (? & _).
    - now destruct (subu_f OK AL _ _ F1) as (? & _). }
  set (q j := al r j / al r p). set (ex i j := if i =? r then q j else al i j - q j * al i p).
  assert (VP : al r p = rv (a r p)). { unfold al. destruct (Nat.eqb_spec p 0); [lia|auto]. }
  assert (Q : forall j, (j <= n)%nat -> isb' j = false -> isin (Ir j) (q j)).
  { intros j J NB. pose proof (divrow_ok _ _ _ _ _ _ ED j ltac:(lia) NB) as D. unfold q. rewrite <- !AL1.
    apply (isin_Sdiv OK _ _ _ (rv (a1 r j)) (rv (a1 r p)) D); [apply (af_wf _ AL)|apply fin_ex, FA; lia|].
    apply isin_pt; [apply (af_wf _ AL)|apply fin_ex, FA; lia]. }
  assert (EX : forall i j, (i <= m)%nat -> (j <= n)%nat -> isb' j = false -> i <> r ->
    isin (iSsub (a1 i j) (imul (Ir j) (ipt (a1 i p)))) (al i j - q j * al i p)).
  { intros i j I J NB NR. rewrite <- !AL1. apply (isin_Ssub OK); [apply (af_wf _ AL)|apply fin_ex, FA; lia|].
    apply (isin_mul OK); [apply Q; auto|]. apply isin_pt; [apply (af_wf _ AL)|apply fin_ex, FA; lia]. }
  (* directions of rounding *)
  assert (R0 : forall i, (1 <= i <= m)%nat -> ex i 0%nat <= rv (elim (-1) a1 isb' r p Ir i 0%nat)).
  { intros i I. pose proof (F1 i 0%nat ltac:(lia) ltac:(lia)) as F2. clear F1; unfold elim, ex in F2 |- *. rewrite I0 in F2 |- *. destruct (Nat.eqb_spec i r) as [-> |NR]; cbn [Nat.eqb xorb Z.eqb negb] in F2 |- *.
    - apply hi_ge; auto. apply Q; auto; lia.
    - destruct (Nat.eqb_spec i 0); [lia|]. cbn [xorb] in F2 |- *. apply hi_ge; auto. apply EX; auto; lia. }
  assert (RJ : forall i j, (1 <= i <= m)%nat -> (1 <= j <= n)%nat -> isb' j = false -> rv (elim (-1) a1 isb' r p Ir i j) <= ex i j).
  { intros i j I J NB. pose proof (F1 i j ltac:(lia) ltac:(lia)) as F2. clear F1; unfold elim, ex in F2 |- *. rewrite NB in F2 |- *. destruct (Nat.eqb_spec j 0); [lia|].
    destruct (Nat.eqb_spec i r) as [-> |NR]; cbn [xorb Z.eqb negb] in F2 |- *.
    - apply lo_le; auto. apply Q; auto; lia.
    - destruct (Nat.eqb_spec i 0); [lia|]. cbn [xorb] in F2 |- *. apply lo_le; auto. apply EX; auto; lia. }
  assert (R00 : rv (elim (-1) a1 isb' r p Ir 0%nat 0%nat) <= ex 0%nat 0%nat).
  { pose proof (F1 0%nat 0%nat ltac:(lia) ltac:(lia)) as F2. clear F1; unfold elim, ex in F2 |- *. rewrite I0 in F2 |- *. destruct (Nat.eqb_spec 0 r) as [|NR]; [lia|]. cbn [Nat.eqb xorb Z.eqb negb] in F2 |- *.
    apply lo_le; auto. apply EX; auto; lia. }
  assert (R0J : forall j, (1 <= j <= n)%nat -> isb' j = false -> ex 0%nat j <= rv (elim (-1) a1 isb' r p Ir 0%nat j)).
  { intros j J NB. pose proof (F1 0%nat j ltac:(lia) ltac:(lia)) as F2. clear F1; unfold elim, ex in F2 |- *. rewrite NB in F2 |- *. destruct (Nat.eqb_spec j 0); [lia|].
    destruct (Nat.eqb_spec 0 r) as [|NR]; [lia|]. cbn [Nat.eqb xorb Z.eqb negb] in F2 |- *. apply hi_ge; auto. apply EX; auto; lia. }
  (* the new values of the variables *)
  set (rw i := al i 0%nat - nbs n isb (fun j => al i j * y j)).
  assert (RW : forall i, (1 <= i <= m)%nat -> 0 <= rw i).
  { intros i I. specialize (Y2 i I). unfold rowv in Y2. unfold rw.
    assert (nbs n isb (fun j => al i j * y j) = nbs n isb (fun j => rv (a i j) * y j)) as ->.
    { apply vsum_ext. intros j _. destruct (Nat.eqb_spec j 0); auto. cbn [orb]. unfold al. destruct (Nat.eqb_spec j 0); [lia|auto]. }
    unfold al. cbn [Nat.eqb]. destruct (G2 i ltac:(apply FA; lia)). lra. }
  assert (RW0 : rw 0%nat <= z).
  { unfold rowv in Y3. unfold rw.
    assert (nbs n isb (fun j => al 0%nat j * y j) = nbs n isb (fun j => rv (a 0%nat j) * y j)) as ->.
    { apply vsum_ext. intros j _. destruct (Nat.eqb_spec j 0); auto. cbn [orb]. unfold al. destruct (Nat.eqb_spec j 0); [lia|auto]. }
    unfold al. cbn [Nat.eqb]. rewrite G1 by auto. exact Y3. }
  set (y' := upd y b (rw r)).
  set (t i := vsum (1 + n) (fun j => if (j =? 0) || isb j || (j =? p) then 0 else al i j * y j)).
  assert (T1 : forall i, nbs n isb (fun j => al i j * y j) = t i + al i p * y p).
  { intros i. unfold nbs, t. rewrite (vsum_upd p (1 + n) _ (fun j => if (j =? 0) || isb j || (j =? p) then 0 else al i j * y j)).
    - rewrite Nat.eqb_refl, NBP, orb_true_r. destruct (Nat.eqb_spec p 0); [lia|]. cbn [orb]. ring.
    - lia.
    - intros j J N. destruct (Nat.eqb_spec j p); [lia|]. now rewrite orb_false_r. }
  assert (T2 : forall i, nbs n isb' (fun j => al i j * y' j) = t i + al i b * rw r).
  { intros i. unfold nbs, t. rewrite (vsum_upd b (1 + n) _ (fun j => if (j =? 0) || isb j || (j =? p) then 0 else al i j * y j)).
    - rewrite BB, IBb, orb_true_r. destruct (Nat.eqb_spec b 0); [lia|]. cbn [orb]. unfold y', upd. rewrite Nat.eqb_refl. ring.
    - lia.
    - intros j J N. destruct (Nat.eqb_spec j p) as [-> |NP]. { rewrite IP, !orb_true_r. auto. }
      rewrite IO, orb_false_r by auto. unfold y', upd. destruct (Nat.eqb_spec j b); [lia|auto]. }
  assert (UB : forall i, (i <= m)%nat -> al i b = if i =? r then 1 else 0).
  { intros i I. unfold al. destruct (Nat.eqb_spec b 0); [lia|]. apply IU; auto. }
  assert (P0 : al r p <> 0) by (rewrite VP; lra).
  assert (SQ : nbs n isb' (fun j => q j * y' j) = al r 0%nat / al r p - y p).
  { assert (nbs n isb' (fun j => q j * y' j) = / al r p * nbs n isb' (fun j => al r j * y' j)) as ->.
    { unfold nbs. rewrite <- vsum_scal. apply vsum_ext. intros j _. destruct (_ || _); [ring|]. unfold q. field. auto. }
    rewrite T2, UB by lia. rewrite Nat.eqb_refl. unfold rw. rewrite T1. field. auto. }
  assert (KEY : forall i, (i <= m)%nat -> ex i 0%nat - nbs n isb' (fun j => ex i j * y' j) = if i =? r then y p else rw i).
  { intros i I. unfold ex. destruct (Nat.eqb_spec i r) as [-> |NR].
    - rewrite SQ. unfold q. ring.
    - assert (nbs n isb' (fun j => (al i j - q j * al i p) * y' j) = nbs n isb' (fun j => al i j * y' j) - al i p * nbs n isb' (fun j => q j * y' j)) as ->.
      { unfold nbs. rewrite <- vsum_scal, <- vsum_minus. apply vsum_ext. intros j _. destruct (_ || _); ring. }
      rewrite T2, SQ, UB by auto. destruct (Nat.eqb_spec i r); [lia|]. unfold rw at 2. rewrite T1. unfold q. ring. }
  assert (Y' : forall j, (1 <= j <= n)%nat -> isb' j = false -> 0 <= y' j).
  { intros j J NB. unfold y', upd. destruct (Nat.eqb_spec j b) as [|NB']; [apply RW; auto|].
    apply Y1; auto. rewrite <- NB. symmetry. apply IO; auto. intros ->. congruence. }
  constructor.
  - exact I0.
  - intros i I. unfold upd. destruct (Nat.eqb_spec i r) as [-> |NR]; [split; [lia|exact IP]|]. destruct (IB i I) as [B1 B2]. split; auto.
    destruct (Nat.eq_dec (bas i) p) as [EQ|NE]; [rewrite EQ; exact IP|]. rewrite IO; [exact B2|exact NE|]. intros E. exact (NR (II i r I RR E)).
  - intros i i' I I' E. unfold upd in E. destruct (Nat.eqb_spec i r) as [-> |NR], (Nat.eqb_spec i' r) as [-> |NR']; auto.
    + exfalso. destruct (IB i' I') as [_ B]. rewrite <- E in B. congruence.
    + exfalso. destruct (IB i I) as [_ B]. rewrite E in B. congruence.
  - intros i i' I I'. unfold upd at 1. destruct (Nat.eqb_spec i r) as [-> |NR].
    + unfold elim. rewrite IP, Nat.eqb_refl. destruct (i' =? r); [apply s1_rv|apply s0_rv].
    + destruct (IB i I) as [B1 B2]. assert (bas i <> b) by (intros E; apply NR, II; auto).
      assert (bas i <> p) by (intros E; rewrite E in B2; congruence).
      unfold elim. rewrite IO, B2 by auto. destruct (Nat.eqb_spec (bas i) p); [lia|]. rewrite AE by lia. apply IU; auto.
  - exists y'. split; [exact Y'|]. split.
    + intros i I. apply Rle_trans with (ex i 0%nat - nbs n isb' (fun j => ex i j * y' j)).
      * rewrite KEY by lia. destruct (i =? r); [apply Y1; auto; lia|apply RW; auto].
      * unfold rowv. apply Rplus_le_compat; [apply R0; auto|]. apply Ropp_le_contravar. apply vsum_le. intros j J.
        destruct (Nat.eqb_spec j 0); cbn [orb]; [lra|]. destruct (isb' j) eqn:NB; [lra|]. apply Rmult_le_compat_r; [apply Y'; auto; lia|]. apply RJ; auto; lia.
    + apply Rle_trans with (ex 0%nat 0%nat - nbs n isb' (fun j => ex 0%nat j * y' j)).
      * unfold rowv. apply Rplus_le_compat; [exact R00|]. apply Ropp_le_contravar. apply vsum_le. intros j J.
        destruct (Nat.eqb_spec j 0); cbn [orb]; [lra|]. destruct (isb' j) eqn:NB; [lra|]. apply Rmult_le_compat_r; [apply Y'; auto; lia|]. apply R0J; auto; lia.
      * rewrite KEY by lia. destruct (Nat.eqb_spec 0 r); [lia|exact RW0].
Qed.

Lemma loop_ok z fuel st st' : lp_loop m n (-1) fuel st = Ok st' -> runfin m n (-1) fuel st -> inv z (lpa st) (lpis st) (lpb st) -> rv (lpa st' 0%nat 0%nat) <= z.
Proof.
  revert st. induction fuel; intros st; cbn [lp_loop]; [discriminate|]. cbn [runfin].
  destruct (lp_step m n (-1) (Datatypes.S fuel) st) as [[st1|]|] eqn:E; [| |discriminate]; cbn [bind]; intros H [F F1] I.
  - apply (IHfuel st1 H F1). apply (step_inv z _ _ _ E F); auto. destruct fuel; [discriminate H|]. apply F1.
  - apply Ok_inj in H as <-. unfold lp_step in E. destruct (fst (pcol (lpa st) (lpis st) n)) eqn:EP.
    { destruct (fst (prow _ _ _)); [|discriminate E]. destruct (idivS _ _); [|discriminate E]. cbn [bind] in E. destruct (ties _ _ _ _ _ _ _); [|discriminate E].
      cbn [bind] in E. destruct (divrow _ _ _ _ _); discriminate E. }
    apply pcol_none in EP as [_ C]. 2: { intros j J. apply F; lia. }
    destruct I as [_ _ _ _ (y & Y1 & _ & Y3)]. eapply Rle_trans; [|exact Y3]. unfold rowv.
    assert (nbs n (lpis st) (fun j => rv (lpa st 0%nat j) * y j) <= 0); [|lra].
    rewrite <- (vsum_0 (1 + n)). apply vsum_le. intros j J. destruct (Nat.eqb_spec j 0); cbn [orb]; [lra|]. destruct (lpis st j) eqn:NB; [lra|].
    specialize (C j ltac:(lia) NB). specialize (Y1 j ltac:(lia) NB). nra.
Qed.
End Proofs.

Lemma vsum_first n f : vsum (1 + n) f = f 0%nat + vsum n (fun j => f (1 + j)%nat).
Proof. induction n; [simpl; ring|]. change (vsum (1 + Datatypes.S n) f) with (vsum (1 + n) f + f (1 + n)%nat). rewrite IHn. simpl. ring. Qed.
Lemma vsum_trunc n k f : (forall j, (n <= j < n + k)%nat -> f j = 0) -> vsum (n + k) f = vsum n f.
Proof.
  induction k; intros H; [now rewrite Nat.add_0_r|]. rewrite Nat.add_succ_r. simpl. rewrite IHk by (intros; apply H; lia). rewrite H by lia. ring.
Qed.
Lemma nbs_init n k f : nbs (n + k) (fun i => n <? i) f = vsum n (fun j => f (1 + j)%nat).
Proof.
  unfold nbs. rewrite vsum_first. cbn [Nat.eqb orb]. rewrite vsum_trunc.
  - rewrite Rplus_0_l. apply vsum_ext. intros j J. destruct (Nat.eqb_spec (1 + j) 0); [lia|]. destruct (Nat.ltb_spec n (1 + j)); [lia|auto].
  - intros j J. destruct (Nat.ltb_spec n (1 + j)); [|lia]. now rewrite orb_true_r.
Qed.

Section Init.
Context {S : scal} (OK : scal_ok S) (AL : aff_laws S).
Lemma sneg_rv (x : S) : rv (sneg x) = - rv x.
Proof. unfold rv. rewrite (proj2 (ok_neg _ OK x (af_wf _ AL x))). destruct (sval x); simpl; ring. Qed.
Lemma dotf_sum (l : list S) x k : dotf l x k = vsum (length l) (fun j => rv (nth j l s0) * x (k + j)%nat).
Proof.
  revert k. induction l; intros k; [auto|]. cbn [length dotf]. rewrite (vsum_first (length l)). cbn [nth]. rewrite Nat.add_0_r. f_equal. rewrite IHl.
  apply vsum_ext. intros j _. cbn [nth plus]. f_equal. f_equal. lia.
Qed.
Lemma lin_sum (l : list S) x N : l <> [] -> (length l <= 1 + N)%nat ->
  lin l x = rv (nth 0 l s0) + vsum N (fun j => rv (nth (1 + j) l s0) * x (1 + j)%nat).
Proof.
  destruct l as [|c l]; [congruence|]. intros _ L. cbn [lin nth length] in *. f_equal. rewrite dotf_sum.
  replace N with (length l + (N - length l))%nat by lia. rewrite vsum_trunc; auto.
  intros j J. cbn [nth plus]. rewrite nth_overflow by lia. rewrite (s0_rv OK). ring.
Qed.
Lemma cons_ne (cs : list (list S)) u : cons_ok cs = Ok u -> forall c, In c cs -> c <> [].
Proof.
  induction cs as [|[|c0 c] cs IH]; cbn [cons_ok]; [intros _ ? []|discriminate|]. destruct (slt s0 c0); [discriminate|].
  intros H c' [<-|I]; [discriminate|]. apply IH; auto.
Qed.
Lemma init_inv (obj : list S) cs st x : lp_init obj cs = Ok st -> (forall c, In c cs -> (length c <= length obj)%nat) ->
  (forall j, (1 <= j)%nat -> 0 <= x j) -> (forall c, In c cs -> lin c x <= 0) ->
  inv (length cs) (length obj - 1 + length cs) (lin obj x) (lpa st) (lpis st) (lpb st).
Proof.
  unfold lp_init. destruct (Nat.eqb_spec (length obj) 0) as [|NE]; [discriminate|]. destruct (cons_ok cs) as [u|] eqn:EC; [|discriminate]. cbn [bind].
  intros H L X FE. apply Ok_inj in H. set (N := (length obj - 1)%nat) in *. set (m := length cs) in *.
  assert (st = mklp (lp_a obj cs) (fun i => N <? i) (fun i => (N + i)%nat)) as ->.
  { rewrite <- H, force2_ext, force_ext. reflexivity. }
  clear H. cbn [lpa lpis lpb].
  assert (IN : forall i, (1 <= i <= m)%nat -> In (nth (i - 1) cs []) cs) by (intros i I; apply nth_In; fold m; lia).
  constructor.
  - destruct (Nat.ltb_spec N 0); [lia|auto].
  - intros i I. split; [lia|]. apply Nat.ltb_lt. lia.
  - intros. lia.
  - intros i i' I I'. unfold lp_a. fold N. destruct i' as [|i'].
    + destruct (Nat.eqb_spec (N + i) 0); [lia|]. destruct (Nat.leb_spec (N + i) N); [lia|]. destruct (Nat.eqb_spec 0 i); [lia|apply (s0_rv OK)].
    + destruct (Nat.eqb_spec (N + i) 0); [lia|]. destruct (Nat.leb_spec (N + i) N); [lia|].
      destruct (Nat.eqb_spec (N + i' + 1) (N + i)), (Nat.eqb_spec (Datatypes.S i') i); try lia; [apply (s1_rv OK)|apply (s0_rv OK)].
  - exists x. split; [intros; apply X; lia|]. unfold rowv. split.
    + intros i I. specialize (FE _ (IN i I)). specialize (L _ (IN i I)). pose proof (cons_ne _ _ EC _ (IN i I)) as CN.
      rewrite (lin_sum _ x N CN ltac:(lia)) in FE. rewrite nbs_init. unfold lp_a. fold N. destruct i as [|i]; [lia|].
      replace (Datatypes.S i - 1)%nat with i in * by lia. set (c := nth i cs []) in *. cbn [Nat.eqb]. rewrite sneg_rv.
      match goal with |- 0 <= - ?p - ?q => assert (q = vsum N (fun j => rv (nth (1 + j) c s0) * x (1 + j)%nat)) as ->; [|lra] end.
      apply vsum_ext. intros j J. destruct (Nat.eqb_spec (1 + j) 0); [lia|]. destruct (Nat.leb_spec (1 + j) N); [|lia].
      destruct (Nat.ltb_spec (1 + j) (length c)); auto. rewrite nth_overflow by lia. auto.
    + rewrite nbs_init. unfold lp_a. fold N. cbn [Nat.eqb]. rewrite (lin_sum obj x N); [|intros ->; apply NE; reflexivity|lia].
      match goal with |- _ - ?q <= _ => assert (q = - vsum N (fun j => rv (nth (1 + j) obj s0) * x (1 + j)%nat)) as ->; [|lra] end.
      replace (- vsum N (fun j => rv (nth (1 + j) obj s0) * x (1 + j)%nat)) with (-1 * vsum N (fun j => rv (nth (1 + j) obj s0) * x (1 + j)%nat)) by ring.
      rewrite <- vsum_scal. apply vsum_ext. intros j J. destruct (Nat.eqb_spec (1 + j) 0); [lia|]. destruct (Nat.leb_spec (1 + j) N); [|lia].
      rewrite sneg_rv. ring.
Qed.
Theorem lp_lower fuel (obj : list S) cs r x : lp_minimize_verified fuel obj cs (-1) = Ok r -> lp_finite fuel obj cs (-1) ->
  (forall c, In c cs -> (length c <= length obj)%nat) -> (forall j, (1 <= j)%nat -> 0 <= x j) -> (forall c, In c cs -> lin c x <= 0) -> rv r <= lin obj x.
Proof.
  unfold lp_minimize_verified, lp_finite. destruct (lp_init obj cs) as [st|] eqn:EI; [|discriminate]. cbn [bind].
  destruct (lp_loop _ _ _ _ _) as [st'|] eqn:EL; [|discriminate]. cbn [bind]. intros H F L X FE. apply Ok_inj in H as <-.
  apply (loop_ok OK AL _ _ _ _ _ _ EL F). apply init_inv; auto.
Qed.
End Init.
