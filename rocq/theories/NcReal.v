(* Composite Newton-Cotes rules with their error terms, by Peano kernels.  On a panel of n unit steps the kernel is a list of n
   polynomials with rational coefficients, one on each step; its properties are decided by computation. *)
From Coq Require Import Reals ZArith QArith Qreals Bool List Lra Lia Arith.
From Coquelicot Require Import Coquelicot.
Import ListNotations.
Open Scope R_scope.

(* ---- polynomials with rational coefficients ---- *)
Fixpoint qev (p : list Q) (u : Q) : Q := match p with [] => 0%Q | c :: p => Qred (c + u * qev p u)%Q end.
Fixpoint rev_ (p : list Q) (u : R) : R := match p with [] => 0 | c :: p => Q2R c + u * rev_ p u end.
Fixpoint padd (p q : list Q) : list Q :=
  match p, q with [], q => q | p, [] => p | a :: p, b :: q => Qred (a + b) :: padd p q end.
Fixpoint pder (p : list Q) : list Q := match p with [] => [] | c :: p => padd p (0%Q :: pder p) end.
Definition pscale (c : Q) (p : list Q) : list Q := map (fun a => Qred (c * a)) p.
Fixpoint allz (q : list Q) : bool := match q with [] => true | b :: q => Qeq_bool b 0 && allz q end.
Fixpoint peq (p q : list Q) : bool :=
  match p, q with
  | [], q => allz q
  | p, [] => allz p
  | a :: p, b :: q => Qeq_bool a b && peq p q
  end.

Lemma Q2R_0 : Q2R 0 = 0. Proof. unfold Q2R; simpl; lra. Qed.
Lemma Q2R_1 : Q2R 1 = 1. Proof. unfold Q2R; simpl; lra. Qed.
Lemma Q2R_red q : Q2R (Qred q) = Q2R q. Proof. apply Qeq_eqR, Qred_correct. Qed.
Lemma qev_ok p u : Q2R (qev p u) = rev_ p (Q2R u).
Proof. induction p; cbn [qev rev_]; [apply Q2R_0|]. rewrite Q2R_red, Q2R_plus, Q2R_mult, IHp. reflexivity. Qed.
Lemma padd_ok p q u : rev_ (padd p q) u = rev_ p u + rev_ q u.
Proof.
  revert q. induction p as [|a p IH]; intros [|b q]; cbn [padd rev_]; try ring. rewrite Q2R_red, Q2R_plus, IH. ring.
Qed.
Lemma pscale_ok c p u : rev_ (pscale c p) u = Q2R c * rev_ p u.
Proof. unfold pscale. induction p; cbn [map rev_]; [ring|]. rewrite Q2R_red, Q2R_mult, IHp. ring. Qed.
Lemma pder_ok p u : is_derive (rev_ p) u (rev_ (pder p) u).
Proof.
  induction p as [|c p IH]; [exact (is_derive_const (K := R_AbsRing) (V := R_NormedModule) 0 u)|]. cbn [pder]. rewrite padd_ok. cbn [rev_]. rewrite Q2R_0.
  apply (is_derive_ext (fun u => Q2R c + u * rev_ p u)); [reflexivity|].
  evar_last. { apply @is_derive_plus; [apply is_derive_const|]. apply @is_derive_mult; [apply is_derive_id|exact IH|apply Rmult_comm]. }
  change (0 + (1 * rev_ p u + u * rev_ (pder p) u) = rev_ p u + (0 + u * rev_ (pder p) u)). ring.
Qed.
Lemma allz_ok q u : allz q = true -> rev_ q u = 0.
Proof.
  induction q as [|b q IH]; simpl; auto. intros H. apply andb_prop in H as [H1 H2]. rewrite IH by auto.
  apply Qeq_bool_eq, Qeq_eqR in H1. rewrite H1, Q2R_0. ring.
Qed.
Lemma peq_ok p q u : peq p q = true -> rev_ p u = rev_ q u.
Proof.
  revert q. induction p as [|a p IH]; intros q H.
  - cbn [peq] in H. cbn [rev_]. symmetry. now apply allz_ok.
  - destruct q as [|b q]; [now rewrite (allz_ok (a :: p))|]. cbn [peq] in H. apply andb_prop in H as [H1 H2]. cbn [rev_]. rewrite (IH q H2).
    apply Qeq_bool_eq, Qeq_eqR in H1. rewrite H1. reflexivity.
Qed.
Lemma rev_cont p u : continuous (rev_ p) u.
Proof. apply (ex_derive_continuous (V := R_NormedModule)). eexists. apply pder_ok. Qed.

(* sign on [0,1]: coefficients with respect to u^i (1-u)^(d-i) *)
Fixpoint p1u (n : nat) : list Q := match n with O => [1%Q] | S n => let p := p1u n in padd p (0%Q :: pscale (-1) p) end.
Fixpoint bp (b : list Q) : list Q := match b with [] => [] | c :: b => padd (pscale c (p1u (length b))) (0%Q :: bp b) end.
Fixpoint tobern (d : nat) (p : list Q) : list Q :=
  match d with
  | O => [hd 0%Q p]
  | S k => let c := hd 0%Q p in c :: tobern k (tl (padd p (pscale (- c) (p1u d))))
  end.
Definition npos (d : nat) (p : list Q) : bool :=
  let b := tobern d p in forallb (fun c => Qle_bool c 0) b && peq (bp b) p.
Lemma p1u_ok n u : rev_ (p1u n) u = (1 - u) ^ n.
Proof. induction n; cbn [p1u rev_ pow]; [rewrite Q2R_1; ring|]. rewrite padd_ok. cbn [rev_]. rewrite pscale_ok, IHn, Q2R_0. unfold Q2R; simpl. field. Qed.
Lemma npos_ok d p u : npos d p = true -> 0 <= u <= 1 -> rev_ p u <= 0.
Proof.
  intros H Hu. apply andb_prop in H as [H1 H2]. rewrite <- (peq_ok _ _ u H2). generalize dependent (tobern d p). intros b H1 _.
  induction b as [|c b IH]; [simpl; lra|]. simpl in H1. apply andb_prop in H1 as [C1 C2]. specialize (IH C2).
  cbn [bp]. rewrite padd_ok, pscale_ok, p1u_ok. cbn [rev_]. rewrite Q2R_0.
  apply Qle_bool_iff, Qle_Rle in C1. rewrite Q2R_0 in C1. pose proof (pow_le (1 - u) (length b) ltac:(lra)) as P. nra.
Qed.

(* ---- integration by parts on one step ---- *)
Definition fam (G : nat -> R -> R) (A : R -> Prop) : Prop := forall j x, A x -> is_derive (G j) x (G (S j) x).
Section Kernel.
Variables (G : nat -> R -> R).
Fixpoint Hs (p : list Q) (d : nat) (k u : R) : R :=
  match d with O => 0 | S d' => rev_ p u * G d' (k + u) - Hs (pder p) d' k u end.
Fixpoint pders (d : nat) (p : list Q) : list Q := match d with O => p | S d => pders d (pder p) end.
Lemma Hs_der A p d k u : fam G A -> A (k + u) -> is_derive (Hs p d k) u (rev_ p u * G d (k + u) - (-1) ^ d * rev_ (pders d p) u * G 0%nat (k + u)).
Proof.
  intros FM HA. revert p. induction d as [|d IH]; intros p; simpl.
  - evar_last. { apply is_derive_const. } change (0 = rev_ p u * G 0%nat (k + u) - 1 * rev_ p u * G 0%nat (k + u)). ring.
  - evar_last.
    { apply @is_derive_minus; [|apply IH]. apply @is_derive_mult; [apply pder_ok| |apply Rmult_comm].
      apply (is_derive_comp (G d) (fun u => k + u)); [now apply FM|]. apply @is_derive_plus; [apply is_derive_const|apply is_derive_id]. }
    change (rev_ (pder p) u * G d (k + u) + rev_ p u * ((0 + 1) * G (S d) (k + u)) - (rev_ (pder p) u * G d (k + u) - (-1) ^ d * rev_ (pders d (pder p)) u * G 0%nat (k + u)) =
      rev_ p u * G (S d) (k + u) - -1 * (-1) ^ d * rev_ (pders d (pder p)) u * G 0%nat (k + u)). ring.
Qed.
(* the pieces p on the left and q on the right of a node fit: only the derivative of order d-1 jumps, by w *)
Fixpoint fits (p q : list Q) (w : Q) (d : nat) : bool :=
  match d with
  | O => false
  | S O => Qeq_bool (qev p 1 - qev q 0) w
  | S d' => Qeq_bool (qev p 1) (qev q 0) && fits (pder p) (pder q) w d'
  end.
Lemma fits_ok p q w d k k' : fits p q w (S d) = true -> k' = k + 1 -> Hs p (S d) k 1 - Hs q (S d) k' 0 = (-1) ^ d * Q2R w * G 0%nat k'.
Proof.
  intros F E. revert p q F. induction d as [|d IH]; intros p q F.
  - cbn [fits] in F. apply Qeq_bool_eq, Qeq_eqR in F. rewrite Q2R_minus, !qev_ok, Q2R_0, Q2R_1 in F. cbn [Hs]. rewrite <- F, Rplus_0_r, <- E. simpl. ring.
  - cbn [fits] in F. apply andb_prop in F as [F1 F2]. apply Qeq_bool_eq, Qeq_eqR in F1. rewrite !qev_ok, Q2R_0, Q2R_1 in F1.
    specialize (IH _ _ F2). cbn [Hs] in IH |- *. rewrite Rplus_0_r in IH |- *. rewrite <- E in IH |- *. rewrite F1.
    transitivity (- (rev_ (pder p) 1 * G d k' - Hs (pder (pder p)) d k 1 - (rev_ (pder q) 0 * G d k' - Hs (pder (pder q)) d k' 0))); [ring|].
    rewrite IH. simpl. ring.
Qed.
Lemma Hs_nil d k u : Hs [] d k u = 0.
Proof. induction d; simpl; [auto|]. rewrite IHd. ring. Qed.

(* a piece: degree d with leading coefficient 1/d!, not positive on [0,1]; its integral is k *)
Fixpoint pant (i : Z) (p : list Q) : list Q := match p with [] => [] | c :: p => (c / inject_Z i)%Q :: pant (i + 1) p end.
Definition pintg (p : list Q) : Q := qev (0%Q :: pant 1 p) 1.
Definition piece_ok (d : nat) (p : list Q) : bool :=
  peq (pders d p) [1%Q] && npos d p && peq (pder (0%Q :: pant 1 p)) p.
Lemma pintg_ok p : peq (pder (0%Q :: pant 1 p)) p = true -> is_RInt (rev_ p) 0 1 (Q2R (pintg p)).
Proof.
  intros H. set (a := 0%Q :: pant 1 p) in *. replace (Q2R (pintg p)) with (rev_ a 1 - rev_ a 0).
  - apply (is_RInt_derive (V := R_CompleteNormedModule) (rev_ a) (rev_ p)).
    + intros x _. rewrite <- (peq_ok _ _ x H). apply pder_ok.
    + intros x _. apply rev_cont.
  - unfold pintg. fold a. rewrite qev_ok, Q2R_1. replace (rev_ a 0) with 0; [ring|]. unfold a. simpl. rewrite Q2R_0. ring.
Qed.
Lemma fam_cont A j x : fam G A -> A x -> continuous (G j) x.
Proof. intros FM HA. apply (ex_derive_continuous (V := R_NormedModule)). eexists. apply (FM j x HA). Qed.
Lemma shift_cont A j k u : fam G A -> A (k + u) -> continuous (fun u => G j (k + u)) u.
Proof.
  intros FM HA. apply (continuous_comp (fun u => k + u) (G j)); [|eapply fam_cont; eauto].
  apply (continuous_plus (V := R_NormedModule)); [apply continuous_const|apply continuous_id].
Qed.
(* one step *)
Lemma step_int A d p k : (1 <= d)%nat -> Nat.even d = true -> piece_ok d p = true -> fam G A -> (forall x, k <= x <= k + 1 -> A x) ->
  exists I, is_RInt (G 0%nat) k (k + 1) (I - (Hs p d k 1 - Hs p d k 0)) /\
    (forall c, (forall x, k <= x <= k + 1 -> c <= G d x) -> I <= c * Q2R (pintg p)) /\
    (forall c, (forall x, k <= x <= k + 1 -> G d x <= c) -> c * Q2R (pintg p) <= I).
Proof.
  intros D1 DE PO FM HA. apply andb_prop in PO as [PO P3]. apply andb_prop in PO as [P1 P2].
  assert (CT : forall u, 0 <= u <= 1 -> continuous (fun u => rev_ p u * G d (k + u)) u).
  { intros u Hu. apply (continuous_mult (K := R_AbsRing)); [apply rev_cont|]. apply (shift_cont A); auto. apply HA. lra. }
  assert (EX : ex_RInt (fun u => rev_ p u * G d (k + u)) 0 1).
  { apply (ex_RInt_continuous (V := R_CompleteNormedModule)). rewrite Rmin_left, Rmax_right by lra. exact CT. }
  destruct EX as [I HI]. exists I. pose proof (pintg_ok p P3) as HP. split; [|split].
  - assert (SG : (-1) ^ d = 1). { apply Nat.even_spec in DE as [h ->]. apply pow_1_even. }
    assert (E1 : is_RInt (fun u => rev_ p u * G d (k + u) - (-1) ^ d * rev_ (pders d p) u * G 0%nat (k + u)) 0 1 (Hs p d k 1 - Hs p d k 0)).
    { apply (is_RInt_derive (V := R_CompleteNormedModule) (Hs p d k)); rewrite Rmin_left, Rmax_right by lra; intros u Hu.
      - apply (Hs_der A); auto. apply HA. lra.
      - apply (continuous_minus (V := R_NormedModule)); [now apply CT|].
        apply (continuous_mult (K := R_AbsRing)); [|apply (shift_cont A); auto; apply HA; lra].
        apply (continuous_mult (K := R_AbsRing)); [apply continuous_const|apply rev_cont]. }
    pose proof (is_RInt_minus (V := R_NormedModule) _ _ _ _ _ _ HI E1) as E2.
    assert (E3 : is_RInt (fun u => G 0%nat (k + u)) 0 1 (I - (Hs p d k 1 - Hs p d k 0))).
    { eapply is_RInt_ext; [|exact E2]. intros u _. change (rev_ p u * G d (k + u) - (rev_ p u * G d (k + u) - (-1) ^ d * rev_ (pders d p) u * G 0%nat (k + u)) = G 0%nat (k + u)).
      rewrite SG, (peq_ok _ _ u P1). simpl. rewrite Q2R_1. ring. }
    pose proof (is_RInt_comp_lin (V := R_NormedModule) (fun u => G 0%nat (k + u)) 1 (- k) k (k + 1) (I - (Hs p d k 1 - Hs p d k 0))) as E4.
    replace (1 * k + - k) with 0 in E4 by ring. replace (1 * (k + 1) + - k) with 1 in E4 by ring. specialize (E4 E3).
    eapply is_RInt_ext; [|exact E4]. intros x _. change (1 * G 0%nat (k + (1 * x + - k)) = G 0%nat x). rewrite Rmult_1_l. f_equal. ring.
  - intros c Hc. pose proof (is_RInt_scal (V := R_NormedModule) _ _ _ c _ HP) as HS.
    apply (is_RInt_le (fun u => rev_ p u * G d (k + u)) (fun u => c * rev_ p u) 0 1); auto; [lra|].
    intros u Hu. specialize (Hc (k + u) ltac:(lra)). pose proof (npos_ok d p u P2 ltac:(lra)) as N. nra.
  - intros c Hc. pose proof (is_RInt_scal (V := R_NormedModule) _ _ _ c _ HP) as HS.
    apply (is_RInt_le (fun u => c * rev_ p u) (fun u => rev_ p u * G d (k + u)) 0 1); auto; [lra|].
    intros u Hu. specialize (Hc (k + u) ltac:(lra)). pose proof (npos_ok d p u P2 ltac:(lra)) as N. nra.
Qed.

(* a panel *)
Fixpoint panel (d : nat) (prev : list Q) (ps : list (list Q)) (ws : list Q) : bool :=
  match ps, ws with
  | [], [w] => fits prev [] w d
  | p :: ps, w :: ws => fits prev p w d && piece_ok d p && panel d p ps ws
  | _, _ => false
  end.
Fixpoint wsum (ws : list Q) (k : R) : R := match ws with [] => 0 | w :: ws => Q2R w * G 0%nat k + wsum ws (k + 1) end.
Fixpoint ksum (ps : list (list Q)) : Q := match ps with [] => 0%Q | p :: ps => Qred (pintg p + ksum ps) end.
Lemma panel_int A d prev ps ws k : Nat.even d = true -> panel d prev ps ws = true -> fam G A -> (forall x, k <= x <= k + INR (length ps) -> A x) ->
  exists I, is_RInt (G 0%nat) k (k + INR (length ps)) (wsum ws k + I + Hs prev d (k - 1) 1) /\
    (forall c, (forall x, k <= x <= k + INR (length ps) -> c <= G d x) -> I <= c * Q2R (ksum ps)) /\
    (forall c, (forall x, k <= x <= k + INR (length ps) -> G d x <= c) -> c * Q2R (ksum ps) <= I).
Proof.
  intros DE. revert prev ws k. induction ps as [|p ps IH]; intros prev ws k H FM HA.
  - destruct ws as [|w [|]]; try discriminate H. cbn [panel] in H. destruct d as [|d]; [discriminate H|].
    pose proof (fits_ok prev [] w d (k - 1) k H ltac:(ring)) as F. rewrite Hs_nil in F.
    assert (SG : (-1) ^ d = -1). { assert (EO : Nat.odd d = true) by (rewrite Nat.even_succ in DE; auto). apply Nat.odd_spec in EO as [h ->]. replace (2 * h + 1)%nat with (S (2 * h)) by lia. apply pow_1_odd. }
    exists 0. cbn [length wsum ksum]. rewrite Q2R_0. change (INR 0) with 0. rewrite Rplus_0_r. split; [|split; intros; lra].
    replace (Q2R w * G 0%nat k + 0 + 0 + Hs prev (S d) (k - 1) 1) with 0. { apply (is_RInt_point (V := R_NormedModule)). }
    rewrite SG in F. lra.
  - destruct ws as [|w ws]; [discriminate H|]. cbn [panel] in H. apply andb_prop in H as [H H3]. apply andb_prop in H as [H1 H2].
    destruct d as [|d]; [discriminate H1|].
    assert (SG : (-1) ^ d = -1). { assert (EO : Nat.odd d = true) by (rewrite Nat.even_succ in DE; auto). apply Nat.odd_spec in EO as [h ->]. replace (2 * h + 1)%nat with (S (2 * h)) by lia. apply pow_1_odd. }
    pose proof (fits_ok prev p w d (k - 1) k H1 ltac:(ring)) as F. rewrite SG in F.
    assert (EL : k + INR (length (p :: ps)) = (k + 1) + INR (length ps)) by (cbn [length]; rewrite S_INR; ring).
    pose proof (pos_INR (length ps)) as PL. rewrite EL in *.
    destruct (step_int A (S d) p k ltac:(lia) DE H2 FM) as (I1 & J1 & J2 & J3). { intros x Hx. apply HA. lra. }
    destruct (IH p ws (k + 1) H3 FM) as (I2 & K1 & K2 & K3). { intros x Hx. apply HA. lra. }
    exists (I1 + I2). replace (k + 1 - 1) with k in K1 by ring. cbn [wsum ksum]. rewrite Q2R_red, Q2R_plus. split; [|split].
    + replace (Q2R w * G 0%nat k + wsum ws (k + 1) + (I1 + I2) + Hs prev (S d) (k - 1) 1) with
        ((I1 - (Hs p (S d) k 1 - Hs p (S d) k 0)) + (wsum ws (k + 1) + I2 + Hs p (S d) k 1)) by lra.
      eapply (is_RInt_Chasles (V := R_NormedModule)); eauto.
    + intros c Hc. specialize (J2 c ltac:(intros; apply Hc; lra)). specialize (K2 c ltac:(intros; apply Hc; lra)). lra.
    + intros c Hc. specialize (J3 c ltac:(intros; apply Hc; lra)). specialize (K3 c ltac:(intros; apply Hc; lra)). lra.
Qed.

(* M panels of n steps *)
Fixpoint psum (n : nat) (ws : list Q) (M : nat) (k : R) : R :=
  match M with O => 0 | S M => wsum ws k + psum n ws M (k + INR n) end.
Lemma panels_int A d ps ws M k : Nat.even d = true -> panel d [] ps ws = true -> fam G A ->
  (forall x, k <= x <= k + INR (length ps) * INR M -> A x) ->
  exists I, is_RInt (G 0%nat) k (k + INR (length ps) * INR M) (psum (length ps) ws M k + I) /\
    (forall c, (forall x, k <= x <= k + INR (length ps) * INR M -> c <= G d x) -> I <= c * (Q2R (ksum ps) * INR M)) /\
    (forall c, (forall x, k <= x <= k + INR (length ps) * INR M -> G d x <= c) -> c * (Q2R (ksum ps) * INR M) <= I).
Proof.
  intros DE HP FM. revert k. induction M as [|M IH]; intros k HA.
  - exists 0. cbn [psum]. change (INR 0) with 0. rewrite Rmult_0_r, !Rplus_0_r. split; [apply (is_RInt_point (V := R_NormedModule))|]. split; intros; lra.
  - pose proof (pos_INR (length ps)) as PL. pose proof (pos_INR M) as PM. rewrite S_INR in *.
    assert (EL : k + INR (length ps) * (INR M + 1) = (k + INR (length ps)) + INR (length ps) * INR M) by ring. rewrite EL in *.
    assert (0 <= INR (length ps) * INR M) by nra.
    destruct (panel_int A d [] ps ws k DE HP FM) as (I1 & J1 & J2 & J3). { intros x Hx. apply HA. lra. }
    destruct (IH (k + INR (length ps))) as (I2 & K1 & K2 & K3). { intros x Hx. apply HA. lra. }
    rewrite Hs_nil, Rplus_0_r in J1. exists (I1 + I2). cbn [psum]. split; [|split].
    + replace (wsum ws k + psum (length ps) ws M (k + INR (length ps)) + (I1 + I2)) with ((wsum ws k + I1) + (psum (length ps) ws M (k + INR (length ps)) + I2)) by ring.
      eapply (is_RInt_Chasles (V := R_NormedModule)); eauto.
    + intros c Hc. specialize (J2 c ltac:(intros; apply Hc; lra)). specialize (K2 c ltac:(intros; apply Hc; lra)). lra.
    + intros c Hc. specialize (J3 c ltac:(intros; apply Hc; lra)). specialize (K3 c ltac:(intros; apply Hc; lra)). lra.
Qed.
End Kernel.
