(* Property theorems: KKT_equation (C84), for every double back end. *)
From Coq Require Import Reals Lra Lia Psatz ZArith Bool Arith List.
From Coquelicot Require Import Coquelicot.
From Flocq Require Import Core BinarySingleNaN.
From Verif Require Import Fp64 RDoubleHw Ext Scalar IntervalModel IntervalSpec IntervalProofs IntervalEncl IntervalSets Backends Ex64 ElemModel PropsElem SeriesModel SeriesProofs PropsSeries.
From Verif Require Import LinAlg RealRn VecModel ADModel ADReal ADProofs ADInst ADSys KktModel KktProofs.
Import ListNotations.
Open Scope R_scope.

(* ---- C84 ---- *)
Local Notation alpha_p t := (Rmax t 0 ^ 3).
Local Notation alpha_m t := (Rmax (- t) 0 ^ 3).
(* the autodif versions: along a curve c with derivative v at 0 the new gradient encloses the derivative of the composition *)
Theorem C84_autodif : forall b fuel (X Y : ad (Ibase (bpar b) fuel)) (c : R -> R) v k, isin (av X : iv (bscal b)) (c 0) -> is_derive c 0 v ->
  (k < length (adv X))%nat -> isin (ad_row X k : iv (bscal b)) v ->
  (alpha_plus_ad (bpar b) fuel X = Ok Y -> isin (av Y : iv (bscal b)) (Rmax (c 0) 0 ^ 3) /\ exists d, is_derive (fun t => Rmax (c t) 0 ^ 3) 0 d /\ isin (ad_row Y k : iv (bscal b)) d) /\
  (alpha_minus_ad (bpar b) fuel X = Ok Y -> isin (av Y : iv (bscal b)) (Rmax (- c 0) 0 ^ 3) /\ exists d, is_derive (fun t => Rmax (- c t) 0 ^ 3) 0 d /\ isin (ad_row Y k : iv (bscal b)) d).
Proof.
  intros b fuel X Y c v k H D L HK. split; intros E; apply bind_ok in E as (w & E1 & E); apply bind_ok in E as (d & E2 & E); apply oki in E; subst Y; (split; [cbn [av]|]).
  - exact (C63_alpha_plus_encloses b fuel _ w _ E1 H).
  - exists (v * (3 * Rmax (c 0) 0 ^ 2)). split; [exact (is_derive_comp (fun x => Rmax x 0 ^ 3) c 0 _ v (cube_plus_derive (c 0)) D)|]. rewrite Rmult_comm. exact (row_mul b fuel (adv X) d k _ _ L (alpha_plus_d_encl (bok b) (bpar b) (bexp b) (blog b) fuel _ d _ E2 H) HK).
  - exact (C63_alpha_minus_encloses b _ w _ E1 H).
  - exists (v * (-3 * Rmax (- c 0) 0 ^ 2)). split; [exact (is_derive_comp (fun x => Rmax (- x) 0 ^ 3) c 0 _ v (cube_minus_derive (c 0)) D)|]. rewrite Rmult_comm. exact (row_mul b fuel (adv X) d k _ _ L (alpha_minus_d_encl (bok b) _ d _ E2 H) HK).
Qed.
Example C84_autodif_case : returns (alpha_plus_ad hw 60 (@mkad (Ibase hw 60) (qiv 1 0 3 0) [qiv 1 0 1 0])) = true /\ returns (alpha_minus_ad hw 60 (@mkad (Ibase hw 60) (qiv (-1) 0 3 0) [qiv 1 0 1 0])) = true /\
  isin (qiv (-1) 0 3 0) 2 /\ isin (qiv 1 0 1 0) 1.
Proof. split; [vm_compute; reflexivity|]. split; [vm_compute; reflexivity|]. split; qin. Qed.

Theorem C84_encloses : forall b fuel sf sg sh f g h (X Y : nat -> iv (bscal b)) x,
  awf sf f /\ clog f -> (forall j, (j < sg)%nat -> awf sf (g j) /\ clog (g j)) -> (forall j, (j < sh)%nat -> awf sf (h j) /\ clog (h j)) ->
  kkt (bpar b) fuel sf sg sh f g h X = Ok Y -> (forall i, (i < sf + sg + sh)%nat -> isin (X i) (x i)) ->
  adom f x /\ (forall j, (j < sg)%nat -> adom (g j) x) /\ (forall j, (j < sh)%nat -> adom (h j) x) /\
  exists Gf Gg Gh, partials sf (rval f) x Gf /\ (forall j, (j < sg)%nat -> partials sf (rval (g j)) x (Gg j)) /\ (forall j, (j < sh)%nat -> partials sf (rval (h j)) x (Gh j)) /\
  (forall k, (k < sf)%nat -> isin (Y k) (Gf k + vsum sg (fun j => alpha_p (x (sf + j)%nat) * Gg j k) + vsum sh (fun j => x (sf + sg + j)%nat * Gh j k))) /\
  (forall j, (j < sg)%nat -> isin (Y (sf + j)%nat) (rval (g j) x + alpha_m (x (sf + j)%nat))) /\
  (forall j, (j < sh)%nat -> isin (Y (sf + sg + j)%nat) (rval (h j) x)).
Proof.
  intros b fuel sf sg sh f g h X Y x Wf Wg Wh E HX. destruct (kkt_ok b fuel sf sg sh f g h Wf Wg Wh X Y x E HX) as (A1 & A2 & A3 & Gf & Gg & Gh & B1 & B2 & B3 & B4).
  split; [exact A1|]. split; [exact A2|]. split; [exact A3|]. exists Gf, Gg, Gh. split; [now apply grad_partials|]. split; [intros j L; now apply grad_partials, B2|]. split; [intros j L; now apply grad_partials, B3|]. exact B4.
Qed.
(* a zero of the map is a KKT point with the multipliers alpha_plus(z) *)
Theorem C84_zero_is_kkt : forall sf sg sh gx hx Gf Gg Gh (z m : nat -> R),
  (forall k, (k < sf)%nat -> Gf k + vsum sg (fun j => alpha_p (z j) * Gg j k) + vsum sh (fun j => m j * Gh j k) = 0) -> (forall j, (j < sg)%nat -> gx j + alpha_m (z j) = 0) -> (forall j, (j < sh)%nat -> hx j = 0) ->
  kkt_point sf sg sh gx hx Gf Gg Gh (fun j => alpha_p (z j)) m.
Proof. intros. now apply kkt_zero. Qed.
(* every KKT point is a zero of the map, for some z *)
Theorem C84_kkt_is_zero : forall sf sg sh gx hx Gf Gg Gh l m, kkt_point sf sg sh gx hx Gf Gg Gh l m ->
  exists z, (forall j, (j < sg)%nat -> alpha_p (z j) = l j) /\ (forall k, (k < sf)%nat -> Gf k + vsum sg (fun j => alpha_p (z j) * Gg j k) + vsum sh (fun j => m j * Gh j k) = 0) /\
  (forall j, (j < sg)%nat -> gx j + alpha_m (z j) = 0) /\ (forall j, (j < sh)%nat -> hx j = 0).
Proof. intros. now apply kkt_lift. Qed.
(* minimise x0^2 + x1 with x0 - 1 <= 0 and x0 + x1 = 0 *)
Definition C84_f : aexpr := XAdd (XMul (XVar 0) (XVar 0)) (XVar 1).
Definition C84_g (j : nat) : aexpr := XSc SOsub 1 0 (XVar 0).
Definition C84_h (j : nat) : aexpr := XAdd (XVar 0) (XVar 1).
Example C84_case : returns (kkt hw 60 2 1 1 C84_f C84_g C84_h (fun _ => qiv (-1) 0 1 0)) = true /\ awf 2 C84_f /\ clog C84_f /\ awf 2 (C84_g 0) /\ clog (C84_g 0) /\ awf 2 (C84_h 0) /\ clog (C84_h 0).
Proof. split; [vm_compute; reflexivity|]. repeat split; simpl; try lia; try exact Logic.I. Qed.
(* at x0 = 1/2, x1 = -1/2, multiplier 0 for g and -1 for h the conditions hold *)
Example C84_point : kkt_point 2 1 1 (fun _ => rval (C84_g 0) (fun i => match i with O => / 2 | _ => - / 2 end)) (fun _ => rval (C84_h 0) (fun i => match i with O => / 2 | _ => - / 2 end))
  (fun k => match k with O => 1 | _ => 1 end) (fun _ k => match k with O => 1 | _ => 0 end) (fun _ _ => 1) (fun _ => 0) (fun _ => -1).
Proof. split; [|split]; [intros [|[|k]] L; simpl; try lra; lia| |]; intros [|j] L; try lia; simpl; unfold dy; simpl; lra. Qed.
(* a constant objective (its gradient is empty) is undefined behaviour *)
Theorem C84_constant_objective_refuted : forall b fuel sg sh g h (X : nat -> iv (bscal b)) n, kkt (bpar b) fuel (S n) sg sh (XCst 1 0) g h X = Err EUB.
Proof. reflexivity. Qed.
Definition Kkt_all := (C84_autodif, C84_encloses, C84_zero_is_kkt, C84_kkt_is_zero, C84_constant_objective_refuted).
Print Assumptions Kkt_all.
