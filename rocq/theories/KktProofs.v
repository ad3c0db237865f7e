(* Proofs about kkt.hpp: KKT_equation encloses the KKT map, whose zeros are the KKT points. *)
From Coq Require Import Reals Lra Lia Psatz ZArith Bool Arith List.
From Coquelicot Require Import Coquelicot.
From Verif Require Import Ext Scalar IntervalModel IntervalSpec IntervalProofs IntervalEncl IntervalSets IntervalDivPow Backends ElemModel ElemConst PropsElem SeriesModel SeriesProofs.
From Verif Require Import LinAlg RealRn VecModel VecProofs ADModel ADReal ADProofs ADInst ADSys PsaInst KktModel.
Import ListNotations.
Open Scope R_scope.

(* the specification: kkt.hpp 25-48 on real numbers *)
Definition ap (t : R) : R := Rmax t 0 ^ 3.
Definition am (t : R) : R := Rmax (- t) 0 ^ 3.
(* x is a point (with multipliers l, m) where the first-order conditions hold: Gf, Gg j, Gh j are the gradients there *)
Definition kkt_point (sf sg sh : nat) (gx hx : nat -> R) (Gf : nat -> R) (Gg Gh : nat -> nat -> R) (l m : nat -> R) : Prop :=
  (forall k, (k < sf)%nat -> Gf k + vsum sg (fun j => l j * Gg j k) + vsum sh (fun j => m j * Gh j k) = 0) /\
  (forall j, (j < sg)%nat -> 0 <= l j /\ gx j <= 0 /\ l j * gx j = 0) /\ (forall j, (j < sh)%nat -> hx j = 0).

Lemma ap_ge t : 0 <= ap t. Proof. apply pow_le, Rmax_r. Qed.
Lemma am_ge t : 0 <= am t. Proof. apply pow_le, Rmax_r. Qed.
Lemma ap_am t : ap t * am t = 0. Proof. unfold ap, am, Rmax. destruct (Rle_dec t 0), (Rle_dec (- t) 0); simpl; lra. Qed.

Lemma oki {A} (x y : A) : Ok x = Ok y -> x = y. Proof. congruence. Qed.
Lemma row_mul b fuel (l : list (iv (bscal b))) (d : iv (bscal b)) k u v : (k < length l)%nat -> isin d u -> isin (nth k l (ipt (sdy 0 0))) v ->
  isin (@ad_row (Ibase (bpar b) fuel) (@mkad (Ibase (bpar b) fuel) d (map (fun y : iv (bscal b) => imul d y) l)) k : iv (bscal b)) (u * v).
Proof.
  intros L HD HV. unfold ad_row. cbn [adv]. change (bT (Ibase (bpar b) fuel)) with (iv (bscal b)). rewrite (nth_indep _ _ (imul d (ipt (sdy 0 0)))) by (rewrite map_length; exact L).
  rewrite (map_nth (fun y : iv (bscal b) => imul d y) l (ipt (sdy 0 0)) k). now apply (isin_mul (bok b)).
Qed.

Section Map.
Variables (b : backend) (fuel : nat).
Notation S_ := (bscal b).
Notation I := (iv S_).
Notation B := (Ibase (bpar b) fuel).
Variables (sf sg sh : nat) (f : aexpr) (g h : nat -> aexpr).
Hypothesis Wf : awf sf f /\ clog f.
Hypothesis Wg : forall k, (k < sg)%nat -> awf sf (g k) /\ clog (g k).
Hypothesis Wh : forall k, (k < sh)%nat -> awf sf (h k) /\ clog (h k).
Lemma split_ok m es (xx Y : nat -> I) J x : (forall k, (k < m)%nat -> awf sf (es k) /\ clog (es k)) -> (forall i, (i < sf)%nat -> isin (xx i) (x i)) -> kkt_split (bpar b) fuel sf m es xx = Ok (Y, J) ->
  exists G, forall k, (k < m)%nat -> adom (es k) x /\ isin (Y k) (rval (es k) x) /\ (forall j, (j < sf)%nat -> isin (J k j) (G k j)) /\ grad sf (rval (es k)) x (G k).
Proof.
  intros W HX E. unfold kkt_split in E. apply bind_ok in E as (r & E & E2). destruct (_ || _)%bool; [|discriminate E2]. injection E2 as <- <-.
  assert (H : forall k, exists G, (k < m)%nat -> adom (es k) x /\ isin (av (r k) : I) (rval (es k) x) /\ (forall j, (j < sf)%nat -> isin (ad_row (r k) j : I) (G j)) /\ grad sf (rval (es k)) x G).
  { intros k. destruct (Nat.lt_ge_cases k m) as [L|L]; [|exists (fun _ => 0); lia]. destruct (W k L) as [W1 W2].
    destruct (ad_value_gradient B (@isin S_) (Ibase_ok (bok b) (bpar b) (bexp b) (blog b) (btrig b) fuel) sf xx x (es k) (r k) HX W1 W2 (vecM_ok _ _ _ _ E k L)) as (A1 & A2 & G & A3 & A4). exists G. auto. }
  clear - H. induction m as [|m IH]; [exists (fun _ _ => 0); lia|]. destruct IH as [G HG]. { intros k. destruct (H k) as [G HG]. exists G. intros L. apply HG. lia. }
  destruct (H m) as [Gm HGm]. exists (fun k => if Nat.eq_dec k m then Gm else G k). intros k L. destruct (Nat.eq_dec k m) as [->|N]; [apply HGm; lia|]. apply HG. lia.
Qed.
Theorem kkt_ok (X Y : nat -> I) x : kkt (bpar b) fuel sf sg sh f g h X = Ok Y -> (forall i, (i < sf + sg + sh)%nat -> isin (X i) (x i)) ->
  adom f x /\ (forall j, (j < sg)%nat -> adom (g j) x) /\ (forall j, (j < sh)%nat -> adom (h j) x) /\
  exists Gf Gg Gh, grad sf (rval f) x Gf /\ (forall j, (j < sg)%nat -> grad sf (rval (g j)) x (Gg j)) /\ (forall j, (j < sh)%nat -> grad sf (rval (h j)) x (Gh j)) /\
  (forall k, (k < sf)%nat -> isin (Y k) (Gf k + vsum sg (fun j => ap (x (sf + j)%nat) * Gg j k) + vsum sh (fun j => x (sf + sg + j)%nat * Gh j k))) /\
  (forall j, (j < sg)%nat -> isin (Y (sf + j)%nat) (rval (g j) x + am (x (sf + j)%nat))) /\
  (forall j, (j < sh)%nat -> isin (Y (sf + sg + j)%nat) (rval (h j) x)).
Proof using Wf Wg Wh.
  intros E HX. unfold kkt in E. apply bind_ok in E as (fd & E1 & E). destruct (negb _); [discriminate E|]. apply bind_ok in E as ([gv gm] & E2 & E). apply bind_ok in E as (bb & E3 & E).
  apply bind_ok in E as (aa & E4 & E). cbv zeta in E. apply bind_ok in E as ([hv hm] & E5 & E). injection E as <-. cbn [fst snd].
  assert (HX' : forall i, (i < sf)%nat -> isin (X i) (x i)) by (intros; apply HX; lia).
  destruct Wf as [W1 W2]. destruct (ad_value_gradient B (@isin S_) (Ibase_ok (bok b) (bpar b) (bexp b) (blog b) (btrig b) fuel) sf X x f fd HX' W1 W2 E1) as (A1 & A2 & Gf & A3 & A4).
  destruct (split_ok sg g X gv gm x Wg HX' E2) as [Gg HG]. destruct (split_ok sh h X hv hm x Wh HX' E5) as [Gh HH].
  assert (Ab : forall j, (j < sg)%nat -> isin (bb j) (ap (x (sf + j)%nat))). { intros j L. refine (alpha_plus_encl (bok b) (bpar b) (bexp b) (blog b) fuel (X (sf + j)%nat) (bb j) _ (vecM_ok _ _ _ _ E3 j L) _). apply HX. lia. }
  assert (Aa : forall j, (j < sg)%nat -> isin (aa j) (am (x (sf + j)%nat))). { intros j L. refine (alpha_minus_encl (bok b) (X (sf + j)%nat) (aa j) _ (vecM_ok _ _ _ _ E4 j L) _). apply HX. lia. }
  split; [exact A1|]. split; [intros j L; apply (HG j L)|]. split; [intros j L; apply (HH j L)|]. exists Gf, Gg, Gh. split; [exact A4|]. split; [intros j L; apply (HG j L)|]. split; [intros j L; apply (HH j L)|].
  split; [|split].
  - intros k L. destruct (Nat.ltb_spec k sf); [|lia].
    assert (S1 : isin ((if (sg =? 0)%nat then fun k => ad_row fd k else fun k => iadd (ad_row fd k : I) (isum sg (fun j => imul (gm j k) (bb j)))) k) (Gf k + vsum sg (fun j => ap (x (sf + j)%nat) * Gg j k))).
    { destruct (Nat.eqb_spec sg 0) as [Z|Z]; [rewrite Z; simpl; rewrite Rplus_0_r; apply A3; exact L|]. apply (isin_add (bok b)); [apply A3; exact L|]. apply (isin_isum (bok b)). intros j Lj. rewrite Rmult_comm.
      apply (isin_mul (bok b)); [apply (HG j Lj); exact L|apply Ab; exact Lj]. }
    destruct (Nat.eqb_spec sh 0) as [Z|Z]; [rewrite Z; simpl vsum; rewrite Rplus_0_r; exact S1|]. apply (isin_add (bok b)); [exact S1|]. apply (isin_isum (bok b)). intros j Lj. rewrite Rmult_comm.
    apply (isin_mul (bok b)); [apply (HH j Lj); exact L|apply HX; lia].
  - intros j L. destruct (Nat.ltb_spec (sf + j) sf); [lia|]. destruct (Nat.ltb_spec (sf + j) (sf + sg)); [|lia]. replace (sf + j - sf)%nat with j by lia. apply (isin_add (bok b)); [apply (HG j L)|apply Aa; exact L].
  - intros j L. destruct (Nat.ltb_spec (sf + sg + j) sf); [lia|]. destruct (Nat.ltb_spec (sf + sg + j) (sf + sg)); [lia|]. replace (sf + sg + j - sf - sg)%nat with j by lia. apply (HH j L).
Qed.
End Map.

(* the zeros of the map are the KKT points *)
Lemma kkt_zero sf sg sh gx hx Gf Gg Gh (z m : nat -> R) :
  ((forall k, (k < sf)%nat -> Gf k + vsum sg (fun j => ap (z j) * Gg j k) + vsum sh (fun j => m j * Gh j k) = 0) /\ (forall j, (j < sg)%nat -> gx j + am (z j) = 0) /\ (forall j, (j < sh)%nat -> hx j = 0)) ->
  kkt_point sf sg sh gx hx Gf Gg Gh (fun j => ap (z j)) m.
Proof. intros (H1 & H2 & H3). split; [exact H1|]. split; [|exact H3]. intros j L. specialize (H2 j L). pose proof (ap_ge (z j)). pose proof (am_ge (z j)). pose proof (ap_am (z j)). repeat split; try lra. replace (gx j) with (- am (z j)) by lra. lra. Qed.
Lemma cbrt y : 0 <= y -> exists t, 0 <= t /\ t * t * t = y.
Proof.
  intros [H| <-]; [|exists 0; lra]. exists (Rpower y (/ 3)). assert (P0 : 0 < Rpower y (/ 3)) by apply exp_pos. split; [lra|]. rewrite <- !Rpower_plus. replace (/ 3 + / 3 + / 3) with 1 by field. now apply Rpower_1.
Qed.
Lemma kkt_lift1 l gx : 0 <= l -> gx <= 0 -> l * gx = 0 -> exists z, ap z = l /\ gx + am z = 0.
Proof.
  intros Hl Hg HZ. destruct Hl as [Hl|<-].
  - assert (G0 : gx = 0) by (apply Rmult_integral in HZ as [Z|Z]; lra). destruct (cbrt l) as (t & T0 & T3); [lra|]. exists t. unfold ap, am. rewrite Rmax_left, Rmax_right by lra. simpl. lra.
  - destruct (cbrt (- gx)) as (t & T0 & T3); [lra|]. exists (- t). unfold ap, am. rewrite Ropp_involutive, Rmax_right, Rmax_left by lra. simpl. lra.
Qed.
Lemma kkt_lift sf sg sh gx hx Gf Gg Gh l m : kkt_point sf sg sh gx hx Gf Gg Gh l m ->
  exists z, (forall j, (j < sg)%nat -> ap (z j) = l j) /\
  (forall k, (k < sf)%nat -> Gf k + vsum sg (fun j => ap (z j) * Gg j k) + vsum sh (fun j => m j * Gh j k) = 0) /\ (forall j, (j < sg)%nat -> gx j + am (z j) = 0) /\ (forall j, (j < sh)%nat -> hx j = 0).
Proof.
  intros (H1 & H2 & H3). assert (HZ : exists z, forall j, (j < sg)%nat -> ap (z j) = l j /\ gx j + am (z j) = 0).
  { clear - H2. induction sg as [|k IH]; [exists (fun _ => 0); lia|]. destruct IH as [z Hz]; [intros j L; apply H2; lia|]. destruct (H2 k) as (A1 & A2 & A3); [lia|]. destruct (kkt_lift1 _ _ A1 A2 A3) as (t & T1 & T2).
    exists (fun j => if Nat.eq_dec j k then t else z j). intros j L. destruct (Nat.eq_dec j k) as [->|N]; [auto|]. apply Hz. lia. }
  destruct HZ as [z Hz]. exists z. split; [intros j L; apply (Hz j L)|]. split; [|split; [intros j L; apply (Hz j L)|exact H3]].
  intros k L. rewrite <- (H1 k L). f_equal. f_equal. apply vsum_ext. intros j Lj. now rewrite (proj1 (Hz j Lj)).
Qed.
