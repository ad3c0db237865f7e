(* Property theorems: veig of eig.hpp (C85). *)
From Coq Require Import Reals Lra Lia Psatz ZArith Bool Arith List.
From Coquelicot Require Import Complex.
From Flocq Require Import Core BinarySingleNaN.
From Verif Require Import Fp64 RDoubleHw Ext Scalar IntervalModel IntervalSpec IntervalProofs IntervalEncl Backends Ex64 ElemModel PropsElem.
From Verif Require Import LinAlg VecModel CplxModel CplxProofs EigModel EigProofs EigCases.
Import ListNotations.
Open Scope R_scope.

(* ---- C85 ---- *)
(* The full claim (every eigenvalue of A is in some component of v) is false, see the refutations below.  What holds: if the vectors V computed by eig
   are exact eigenvectors and the linear system in veig is solved with a finite approximate inverse and bounded results, then component i contains the
   eigenvalue of column i, and every eigenvalue is in some component. *)
Theorem C85_exact_vectors_partial : forall b (P : elemp (bscal b)) L invert fuel n (A : list (list (bscal b))) v V D A' lam,
  veig P L invert fuel n A = Ok v -> eig P L fuel n A = Ok (V, D) -> (forall i j, (i < n)%nat -> (j < n)%nat -> sval (mget s0 A i j) = XR (A' i j)) ->
  exact_vectors n V A' lam -> solved n V (fun i j => csum n (fun k => cSmul (mget s0 A i k) (veig_X V k j))) invert ->
  (forall i, (i < n)%nat -> eigenvalue n A' (lam i) /\ cin (nth i v (cofS s0)) (lam i)) /\ (forall mu, eigenvalue n A' mu -> exists i, (i < n)%nat /\ cin (nth i v (cofS s0)) mu).
Proof. exact veig_exact. Qed.
Theorem C85_exact_vectors_interval_partial : forall b (P : elemp (bscal b)) L invert fuel n (A : list (list (iv (bscal b)))) v V D A' lam,
  veigI P L invert fuel n A = Ok v -> eig P L fuel n (mtab n n (fun i j => mid (mget i0 A i j))) = Ok (V, D) -> (forall i j, (i < n)%nat -> (j < n)%nat -> isin (mget i0 A i j) (A' i j)) ->
  exact_vectors n V A' lam -> solved n V (fun i j => csum n (fun k => cImul (mget i0 A i k) (veig_X V k j))) invert ->
  (forall i, (i < n)%nat -> eigenvalue n A' (lam i) /\ cin (nth i v (cofS s0)) (lam i)) /\ (forall mu, eigenvalue n A' mu -> exists i, (i < n)%nat /\ cin (nth i v (cofS s0)) mu).
Proof. exact veigI_exact. Qed.
(* the hypotheses hold for diag(1, 2), for every C library that follows Annex F at 0 and 1 *)
Example C85_diag L inv fuel : c_annex_F L -> inverts inv -> exists v V D, veig hw L inv fuel 2 A3 = Ok v /\ eig hw L fuel 2 A3 = Ok (V, D) /\
  (forall i j, (i < 2)%nat -> (j < 2)%nat -> sval (mget s0 A3 i j) = XR (A3R i j)) /\
  exact_vectors 2 V A3R (fun i => RtoC (if Nat.eqb i 0 then 1 else 2)) /\ solved 2 V (fun i j => csum 2 (fun k => cSmul (mget s0 A3 i k) (veig_X V k j))) inv.
Proof. intros HL HI. destruct (case3 L inv fuel HL HI) as (v & V & D & H1 & H2 & H3 & H4). exists v, V, D. split; [exact H1|]. split; [exact H2|]. split; [exact A3_val|]. split; [exact H3|exact H4]. Qed.
Example C85_libraries : c_annex_F L0 /\ inverts inv0. Proof. split; [exact L0_ok|exact inv0_ok]. Qed.

(* The error terms of a row are added with their signs, not as radii: [[1, 1], [2^-60, 1]] has the eigenvalue 1 + 2^-30, veig gives two sets without it. *)
Theorem C85_row_sums_refuted : exists (A : list (list D_hw)) (Ai : list (list (iv D_hw))) A' mu,
  (forall i j, (i < 2)%nat -> (j < 2)%nat -> sval (mget s0 A i j) = XR (A' i j)) /\ (forall i j, (i < 2)%nat -> (j < 2)%nat -> isin (mget i0 Ai i j) (A' i j)) /\ eigenvalue 2 A' mu /\
  forall L inv fuel, c_annex_F L -> inverts inv -> misses 2 (veig hw L inv fuel 2 A) mu /\ misses 2 (veigI hw L inv fuel 2 Ai) mu.
Proof.
  exists A1, A1i, A1R, mu1. split; [exact A1_val|]. split; [exact A1_iv|]. split; [exact A1_eig|]. intros L inv fuel HL HI. destruct (run1 L inv fuel HL HI) as [H1 H2].
  split; [exact (wrong1_misses _ H1)|exact (wrong1_misses _ H2)].
Qed.
(* The result of vleq is ignored: for [[1, 2^600], [0, 2]] a norm in eig overflows, vleq fails, veig returns true with sets that contain no eigenvalue 1. *)
Theorem C85_failed_solve_refuted : exists (A : list (list D_hw)) (Ai : list (list (iv D_hw))) A' mu,
  (forall i j, (i < 2)%nat -> (j < 2)%nat -> sval (mget s0 A i j) = XR (A' i j)) /\ (forall i j, (i < 2)%nat -> (j < 2)%nat -> isin (mget i0 Ai i j) (A' i j)) /\ eigenvalue 2 A' mu /\
  forall L inv fuel, c_annex_F L -> inverts inv -> misses 2 (veig hw L inv fuel 2 A) mu /\ misses 2 (veigI hw L inv fuel 2 Ai) mu.
Proof.
  exists A2, A2i, A2R, (RtoC 1). split; [exact A2_val|]. split; [exact A2_iv|]. split; [exact A2_eig|]. intros L inv fuel HL HI. destruct (run2 L inv fuel HL HI) as [H1 H2].
  split; [exact (wrong2_misses _ H1)|exact (wrong2_misses _ H2)].
Qed.
(* eig does not return for the zero matrix of size 3: no number of iterations is enough *)
Theorem C85_zero_matrix_refuted : exists A : list (list D_hw), (forall i j, (i < 3)%nat -> (j < 3)%nat -> sval (mget s0 A i j) = XR 0) /\ forall L inv fuel, eig hw L fuel 3 A = Err EFuel /\ veig hw L inv fuel 3 A = Err EFuel.
Proof.
  exists Z3. split; [intros i j Hi Hj; destruct i as [|[|[|]]], j as [|[|[|]]]; try lia; exact zero_v|]. intros L inv fuel. pose proof (eig_loop L fuel) as H. split; [exact H|]. unfold veig. rewrite H. reflexivity.
Qed.
(* eig reads an uninitialised index for every 1 x 1 matrix *)
Theorem C85_size_one_refuted : forall (S : scal) (P : elemp S) L inv fuel a, eig P L fuel 1 [[a]] = Err EUB /\ veig P L inv fuel 1 [[a]] = Err EUB.
Proof. intros S P L inv fuel a. pose proof (eig_one P L fuel a) as H. split; [exact H|]. unfold veig. rewrite H. reflexivity. Qed.
Definition C85_all := (C85_exact_vectors_partial, C85_exact_vectors_interval_partial, C85_row_sums_refuted, C85_failed_solve_refuted, C85_zero_matrix_refuted, C85_size_one_refuted).
Print Assumptions C85_all.
