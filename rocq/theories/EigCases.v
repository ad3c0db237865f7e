(* Inputs for which eig.hpp is wrong, on hardware doubles: runs of the model computed for every C library that follows the C standard at 0 and 1. *)
From Coq Require Import Reals Lra Lia Psatz ZArith Bool Arith List FunctionalExtensionality SpecFloat.
From Coquelicot Require Import Complex.
From Flocq Require Import Core BinarySingleNaN.
From Verif Require Import Fp64 RDoubleHw Ext Scalar IntervalModel IntervalSpec IntervalProofs IntervalEncl Backends Ex64 ElemModel PropsElem.
From Verif Require Import LinAlg VecModel CplxModel CplxProofs EigModel EigProofs.
Import ListNotations.
Open Scope R_scope.

Notation SH := D_hw.
Definition sf_eqb (x y : spec_float) : bool :=
  match x, y with
  | S754_zero a, S754_zero b => Bool.eqb a b
  | S754_infinity a, S754_infinity b => Bool.eqb a b
  | S754_nan, S754_nan => true
  | S754_finite a m e, S754_finite b m' e' => Bool.eqb a b && Pos.eqb m m' && Z.eqb e e'
  | _, _ => false
  end.
Lemma sf_eqb_eq x y : sf_eqb x y = true -> x = y.
Proof.
  destruct x as [a|a| |a m e], y as [b|b| |b m' e']; simpl; try discriminate; try reflexivity; intros H; try (apply Bool.eqb_prop in H; now subst).
  apply andb_prop in H as [H H3]. apply andb_prop in H as [H1 H2]. apply Bool.eqb_prop in H1. apply Pos.eqb_eq in H2. apply Z.eqb_eq in H3. now subst.
Qed.
Lemma b2sf_inj (x y : b64) : B2SF x = B2SF y -> x = y.
Proof.
  destruct x as [a|a| |a m e B], y as [b|b| |b m' e' B']; simpl; try discriminate; intros H; try (injection H as ->; reflexivity); try reflexivity.
  injection H as -> -> ->. f_equal. apply Eqdep_dec.UIP_dec. apply bool_dec.
Qed.
Definition feq (x y : SH) : bool := sf_eqb (B2SF (x : b64)) (B2SF (y : b64)).
Lemma feq_eq x y : feq x y = true -> x = y. Proof. intros H. apply (b2sf_inj x y), sf_eqb_eq, H. Qed.
Fixpoint leq (x y : list SH) : bool := match x, y with [], [] => true | a :: x, b :: y => feq a b && leq x y | _, _ => false end.
Fixpoint meq (x y : list (list SH)) : bool := match x, y with [], [] => true | a :: x, b :: y => leq a b && meq x y | _, _ => false end.
Lemma leq_eq x : forall y, leq x y = true -> x = y.
Proof. induction x as [|a x IH]; intros [|b y] H; try discriminate H; auto. simpl in H. apply andb_prop in H as [H1 H2]. f_equal; [now apply feq_eq|now apply IH]. Qed.
Lemma meq_eq x : forall y, meq x y = true -> x = y.
Proof. induction x as [|a x IH]; intros [|b y] H; try discriminate H; auto. simpl in H. apply andb_prop in H as [H1 H2]. f_equal; [now apply leq_eq|now apply IH]. Qed.

Definition pz : SH := (B754_zero false : b64).
Definition nz : SH := (B754_zero true : b64).
(* ISO C, Annex F: the values at 0 and 1 (and pow(2^600, 2) overflows to infinity) *)
Definition c_annex_F (L : libm SH) : Prop :=
  lpow2 L pz = pz /\ lpow2 L nz = pz /\ lpow2 L s1 = s1 /\ lpow2 L (sdy 1 600) = spinf /\ latan2 L pz pz = pz /\ lcos L pz = s1 /\ lsin L pz = pz.
Definition ov_libm (L : libm SH) : libm SH :=
  mklibm SH (fun x => if feq x pz then pz else if feq x nz then pz else if feq x s1 then s1 else if feq x (sdy 1 600) then spinf else lpow2 L x)
    (fun y x => if feq y pz then if feq x pz then pz else latan2 L y x else latan2 L y x) (fun x => if feq x pz then s1 else lcos L x) (fun x => if feq x pz then pz else lsin L x).
Lemma ov_libm_eq L : c_annex_F L -> L = ov_libm L.
Proof.
  destruct L as [p a c s]. intros (H1 & H2 & H3 & H4 & H5 & H6 & H7). cbn [lpow2 latan2 lcos lsin] in *. unfold ov_libm. cbn [lpow2 latan2 lcos lsin]. f_equal.
  - extensionality x. destruct (feq x pz) eqn:E1; [apply feq_eq in E1; now subst|]. destruct (feq x nz) eqn:E2; [apply feq_eq in E2; now subst|].
    destruct (feq x s1) eqn:E3; [apply feq_eq in E3; now subst|]. destruct (feq x (sdy 1 600)) eqn:E4; [apply feq_eq in E4; now subst|reflexivity].
  - extensionality y. extensionality x. destruct (feq y pz) eqn:E1; [|reflexivity]. destruct (feq x pz) eqn:E2; [|reflexivity]. apply feq_eq in E1, E2. now subst.
  - extensionality x. destruct (feq x pz) eqn:E; [apply feq_eq in E; now subst|reflexivity].
  - extensionality x. destruct (feq x pz) eqn:E; [apply feq_eq in E; now subst|reflexivity].
Qed.
(* invert: the identity (the upper right block has the sign of -0) and a singular matrix *)
Definition id4 : list (list SH) := mtab 4 4 (fun i j => if Nat.eqb i j then s1 else pz).
Definition id4n : list (list SH) := mtab 4 4 (fun i j => if Nat.eqb i j then s1 else if (i <? 2)%nat && (2 <=? j)%nat then nz else pz).
Definition sg4n : list (list SH) := mtab 4 4 (fun i j => if Nat.eqb i j then (if Nat.even i then s1 else pz) else if (i <? 2)%nat && (2 <=? j)%nat then nz else pz).
Definition inverts (inv : list (list SH) -> option (list (list SH))) : Prop := inv id4n = Some id4 /\ inv sg4n = None.
Definition ov_inv (inv : list (list SH) -> option (list (list SH))) (M : list (list SH)) : option (list (list SH)) := if meq M id4n then Some id4 else if meq M sg4n then None else inv M.
Lemma ov_inv_eq inv : inverts inv -> inv = ov_inv inv.
Proof.
  intros [H1 H2]. extensionality M. unfold ov_inv. destruct (meq M id4n) eqn:E1; [apply meq_eq in E1; now subst|]. destruct (meq M sg4n) eqn:E2; [apply meq_eq in E2; now subst|reflexivity].
Qed.

(* veig of [[1, 1], [2^-60, 1]]: lower ends of the first at least 2, upper end of the second at most 1 + 2^-52 *)
Definition A1 : list (list SH) := [[s1; s1]; [sdy 1 (-60); s1]].
Definition A1i : list (list (iv SH)) := map (map (fun x => ipt x)) A1.
Definition wrong1 (r : res (list (cx SH))) : bool := match r with Ok [a; b] => sle (sdy 2 0) (lo (re a)) && sle (hi (re b)) (sdy 4503599627370497 (-52)) | _ => false end.
Lemma run1 L inv fuel : c_annex_F L -> inverts inv -> wrong1 (veig hw L inv fuel 2 A1) = true /\ wrong1 (veigI hw L inv fuel 2 A1i) = true.
Proof.
  intros HL HI. rewrite (ov_libm_eq L HL), (ov_inv_eq inv HI). destruct fuel as [|fuel]; split; vm_compute; reflexivity.
Qed.
(* veig of [[1, 2^600], [0, 2]] *)
Definition A2 : list (list SH) := [[s1; sdy 1 600]; [s0; sdy 2 0]].
Definition A2i : list (list (iv SH)) := map (map (fun x => ipt x)) A2.
Definition wrong2 (r : res (list (cx SH))) : bool := match r with Ok [a; b] => sle (hi (re a)) s0 && sle (hi (re b)) s0 | _ => false end.
Lemma run2 L inv fuel : c_annex_F L -> inverts inv -> wrong2 (veig hw L inv fuel 2 A2) = true /\ wrong2 (veigI hw L inv fuel 2 A2i) = true.
Proof.
  intros HL HI. rewrite (ov_libm_eq L HL), (ov_inv_eq inv HI). destruct fuel as [|fuel]; split; vm_compute; reflexivity.
Qed.
(* the zero matrix of size 3 *)
Definition Z3 : list (list SH) := mtab 3 3 (fun _ _ => pz).
Definition franH (n : nat) (H : list (list SH)) (p : nat) := let r := fran_step hw n H p in (fst (fst (fst r)), snd (fst (fst r))).
Lemma stay : franH 3 Z3 3 = (Z3, 3%nat).
Proof. vm_compute. reflexivity. Qed.
Lemma fran_loop fuel : forall Q, francisQR hw fuel 3 Q Z3 3 = Err EFuel.
Proof.
  pose proof stay as ST. unfold franH in ST. destruct (fran_step hw 3 Z3 3) as [[[H p] acc] [q T]] eqn:E. cbn [fst snd] in ST. injection ST as -> ->.
  induction fuel as [|fuel IH]; intros Q; cbn [francisQR Nat.ltb Nat.leb]; [reflexivity|]. rewrite E. apply IH.
Qed.
Lemma hess_Z3 : snd (hess hw 3 Z3) = Z3. Proof. vm_compute. reflexivity. Qed.
Lemma eig_loop L fuel : eig hw L fuel 3 Z3 = Err EFuel.
Proof. unfold eig. pose proof hess_Z3 as H. destruct (hess hw 3 Z3) as [Q H']. cbn [snd] in H. rewrite H, fran_loop. reflexivity. Qed.
Lemma eig_one {S : scal} (P : elemp S) L fuel a : eig P L fuel 1 [[a]] = Err EUB.
Proof. destruct fuel; reflexivity. Qed.

(* the exact matrices and their eigenvalues *)
Definition A1R (i j : nat) : R := if Nat.eqb i j then 1 else if Nat.eqb i 0 then 1 else bpow radix2 (-60).
Definition A2R (i j : nat) : R := if Nat.eqb i 0 then (if Nat.eqb j 0 then 1 else bpow radix2 600) else if Nat.eqb j 0 then 0 else 2.
Lemma dyv m e c : (Z.abs m <= 2 ^ 53)%Z -> (-900 <= e <= 900)%Z -> IZR m * bpow radix2 e = c -> sval (@sdy SH m e) = XR c.
Proof. intros H1 H2 <-. exact (proj2 (ok_dy _ (bok BHw) m e H1 H2)). Qed.
Lemma one_v : sval (@s1 SH) = XR 1. Proof. exact (proj2 (ok_s1 _ (bok BHw))). Qed.
Lemma zero_v : sval (@s0 SH) = XR 0. Proof. exact (proj2 (ok_s0 _ (bok BHw))). Qed.
Lemma A1_val i j : (i < 2)%nat -> (j < 2)%nat -> sval (mget s0 A1 i j) = XR (A1R i j).
Proof.
  intros Hi Hj. destruct i as [|[|]], j as [|[|]]; try lia.
  - exact one_v. - exact one_v. - change (sval (@sdy SH 1 (-60)) = XR (bpow radix2 (-60))). apply dyv; try lia. ring. - exact one_v.
Qed.
Lemma A2_val i j : (i < 2)%nat -> (j < 2)%nat -> sval (mget s0 A2 i j) = XR (A2R i j).
Proof.
  intros Hi Hj. destruct i as [|[|]], j as [|[|]]; try lia.
  - exact one_v. - change (sval (@sdy SH 1 600) = XR (bpow radix2 600)). apply dyv; try lia. ring. - exact zero_v.
  - change (sval (@sdy SH 2 0) = XR 2). apply dyv; try lia. simpl. ring.
Qed.
Lemma A1_iv i j : (i < 2)%nat -> (j < 2)%nat -> isin (mget i0 A1i i j) (A1R i j).
Proof. intros Hi Hj. replace (mget i0 A1i i j) with (ipt (mget s0 A1 i j)) by (destruct i as [|[|]], j as [|[|]]; try lia; reflexivity). apply isin_pt; [exact (bwf BHw _)|now apply A1_val]. Qed.
Lemma A2_iv i j : (i < 2)%nat -> (j < 2)%nat -> isin (mget i0 A2i i j) (A2R i j).
Proof. intros Hi Hj. replace (mget i0 A2i i j) with (ipt (mget s0 A2 i j)) by (destruct i as [|[|]], j as [|[|]]; try lia; reflexivity). apply isin_pt; [exact (bwf BHw _)|now apply A2_val]. Qed.
Definition mu1 : C := RtoC (1 + bpow radix2 (-30)).
Lemma A1_eig : eigenvalue 2 A1R mu1.
Proof.
  exists (fun k => if Nat.eqb k 0 then RtoC (bpow radix2 30) else RtoC 1). split; [exists 1%nat; split; [lia|]; simpl; intros E; apply (f_equal fst) in E; simpl in E; lra|].
  intros i Hi. destruct i as [|[|]]; try lia; apply Cpair; unfold cvsum, mu1, A1R; cbn [vsum Nat.eqb fst snd RtoC Cmult]; simpl; lra.
Qed.
Lemma A2_eig : eigenvalue 2 A2R (RtoC 1).
Proof.
  exists (fun k => if Nat.eqb k 0 then RtoC 1 else RtoC 0). split; [exists 0%nat; split; [lia|]; simpl; intros E; apply (f_equal fst) in E; simpl in E; lra|].
  intros i Hi. destruct i as [|[|]]; try lia; apply Cpair; unfold cvsum, A2R; cbn [vsum Nat.eqb fst snd RtoC Cmult]; generalize (bpow radix2 600); intros q; simpl; ring.
Qed.
Lemma above (x : cx SH) c r z : sle c (lo (re x)) = true -> sval c = XR r -> cin x z -> r <= fst z.
Proof.
  intros H E [(W1 & W2 & L & U) _]. apply (sle_true (bok BHw)) in H; try exact Logic.I. change (xle (sval c) (sval (lo (re x)))) in H. rewrite E in H.
  destruct (sval (lo (re x))); simpl in *; try tauto; lra.
Qed.
Lemma below (x : cx SH) c r z : sle (hi (re x)) c = true -> sval c = XR r -> cin x z -> fst z <= r.
Proof.
  intros H E [(W1 & W2 & L & U) _]. apply (sle_true (bok BHw)) in H; try exact Logic.I. change (xle (sval (hi (re x))) (sval c)) in H. rewrite E in H.
  destruct (sval (hi (re x))); simpl in *; try tauto; lra.
Qed.
(* no component of the result contains z *)
Definition misses (n : nat) (r : res (list (cx SH))) (z : C) : Prop := exists v, r = Ok v /\ length v = n /\ forall i, (i < n)%nat -> ~ cin (nth i v (cofS s0)) z.
Lemma wrong1_misses r : wrong1 r = true -> misses 2 r mu1.
Proof.
  intros H. unfold wrong1 in H. destruct r as [[|a [|d [|]]]|]; try discriminate H. apply andb_prop in H as [H1 H2]. exists [a; d]. split; [reflexivity|]. split; [reflexivity|]. intros i Hi K.
  destruct i as [|[|]]; [| |lia]; cbn [nth] in K.
  - pose proof (above a _ 2 _ H1 ltac:(apply dyv; try lia; simpl; ring) K) as Q. unfold mu1 in Q. simpl in Q. lra.
  - pose proof (below d _ (4503599627370497 * bpow radix2 (-52)) _ H2 ltac:(apply dyv; try lia; reflexivity) K) as Q. unfold mu1 in Q. simpl in Q. lra.
Qed.
Lemma wrong2_misses r : wrong2 r = true -> misses 2 r (RtoC 1).
Proof.
  intros H. unfold wrong2 in H. destruct r as [[|a [|d [|]]]|]; try discriminate H. apply andb_prop in H as [H1 H2]. exists [a; d]. split; [reflexivity|]. split; [reflexivity|]. intros i Hi K.
  destruct i as [|[|]]; [| |lia]; cbn [nth] in K.
  - pose proof (below a _ 0 _ H1 zero_v K) as Q. simpl in Q. lra.
  - pose proof (below d _ 0 _ H2 zero_v K) as Q. simpl in Q. lra.
Qed.
(* a case that meets the hypotheses of veig_exact: the matrix diag(1, 2) *)
Definition A3 : list (list SH) := [[s1; s0]; [s0; sdy 2 0]].
Definition A3R (i j : nat) : R := if Nat.eqb i j then (if Nat.eqb i 0 then 1 else 2) else 0.
Definition all2 (m n : nat) (p : nat -> nat -> bool) : bool := forallb (fun i => forallb (p i) (seq 0 n)) (seq 0 m).
Lemma all2_ok m n p : all2 m n p = true -> forall i j, (i < m)%nat -> (j < n)%nat -> p i j = true.
Proof.
  intros H i j Hi Hj. unfold all2 in H. rewrite forallb_forall in H. specialize (H i ltac:(apply in_seq; lia)). rewrite forallb_forall in H. apply H. apply in_seq. lia.
Qed.
Definition ffin (x : SH) : bool := is_finite (x : b64).
Definition C3 (V : list (list (@cs SH))) (i j : nat) : cx SH := csum 2 (fun k => cSmul (mget s0 A3 i k) (veig_X V k j)).
Definition good3 (r : res (list (list (@cs SH)) * list (@cs SH))) : bool :=
  match r with
  | Err _ => false
  | Ok (V, _) => all2 2 2 (fun i j => feq (cre (mget z0 V i j)) (if Nat.eqb i j then s1 else s0) && feq (cim (mget z0 V i j)) s0) && meq (mtab 4 4 (mmid (veig_BA 2 V))) id4n &&
      match vleq_mat 4 (veig_BA 2 V) (veig_BC 2 (C3 V)) (Some (mget s0 id4)) with None => false | Some G => all2 4 2 (fun i j => ffin (lo (G i j)) && ffin (hi (G i j))) end
  end.
Lemma run3 L fuel : c_annex_F L -> good3 (eig hw L fuel 2 A3) = true.
Proof. intros HL. rewrite (ov_libm_eq L HL). destruct fuel as [|fuel]; vm_compute; reflexivity. Qed.
Lemma ffin_ok x : ffin x = true -> is_fin (sval x).
Proof. destruct x; intros H; try discriminate H; exact Logic.I. Qed.
Lemma A3_val i j : (i < 2)%nat -> (j < 2)%nat -> sval (mget s0 A3 i j) = XR (A3R i j).
Proof.
  intros Hi Hj. destruct i as [|[|]], j as [|[|]]; try lia.
  - exact one_v. - exact zero_v. - exact zero_v. - change (sval (@sdy SH 2 0) = XR 2). apply dyv; try lia. simpl. ring.
Qed.
Lemma opt_some {A} (o : option A) (p : A -> bool) : match o with None => false | Some G => p G end = true -> exists G, o = Some G /\ p G = true.
Proof. destruct o as [G|]; [|discriminate]. intros H. exists G. auto. Qed.
Lemma case3 L inv fuel : c_annex_F L -> inverts inv -> exists v V D, veig hw L inv fuel 2 A3 = Ok v /\ eig hw L fuel 2 A3 = Ok (V, D) /\
  exact_vectors 2 V A3R (fun i => RtoC (if Nat.eqb i 0 then 1 else 2)) /\ solved 2 V (fun i j => csum 2 (fun k => cSmul (mget s0 A3 i k) (veig_X V k j))) inv.
Proof.
  intros HL HI. pose proof (run3 L fuel HL) as H. unfold veig. destruct (eig hw L fuel 2 A3) as [[V D]|e]; [|discriminate H]. cbn [bind fst]. unfold good3 in H.
  apply andb_prop in H as [H H3]. apply andb_prop in H as [H1 H2].
  eexists; exists V, D. split; [reflexivity|]. split; [reflexivity|]. split.
  - exists (fun i j => RtoC (if Nat.eqb i j then 1 else 0)). split.
    + intros i j Hi Hj. pose proof (all2_ok _ _ _ H1 i j Hi Hj) as K. cbv beta in K. apply andb_prop in K as [K1 K2]. apply feq_eq in K1, K2. pose proof (f_equal (@sval SH) K1) as Q1. pose proof (f_equal (@sval SH) K2) as Q2. rewrite zero_v in Q2.
      split; [|exact Q2]. refine (eq_trans Q1 _). destruct (Nat.eqb i j); [exact one_v|exact zero_v].
    + intros i j Hi Hj. destruct i as [|[|]], j as [|[|]]; try lia; apply Cpair; unfold cvsum, A3R; cbn [vsum Nat.eqb fst snd RtoC Cmult]; ring.
  - destruct (opt_some _ _ H3) as (G & E & H4). clear H3. rename H4 into H3.
    exists id4, G. apply meq_eq in H2. split; [|split; [|split]].
    + exact (eq_trans (f_equal inv H2) (proj1 HI)).
    + intros i j Hi Hj. apply (ffin_ok (mget s0 id4 i j)). revert i j Hi Hj. apply (all2_ok 4 4 (fun i j => ffin (mget s0 id4 i j))). vm_compute. reflexivity.
    + exact E.
    + intros i j Hi Hj. pose proof (all2_ok _ _ _ H3 i j Hi Hj) as K. cbv beta in K. apply andb_prop in K as [K1 K2]. split; [exact (ffin_ok _ K1)|exact (ffin_ok _ K2)].
Qed.
Definition L0 : libm SH := ov_libm (mklibm SH (fun x => x) (fun y _ => y) (fun x => x) (fun x => x)).
Definition inv0 : list (list SH) -> option (list (list SH)) := ov_inv (fun _ => None).
Lemma L0_ok : c_annex_F L0. Proof. repeat split; apply feq_eq; vm_compute; reflexivity. Qed.
Lemma inv0_ok : inverts inv0. Proof. split; reflexivity. Qed.
