(* Branch and bound of kv/optimize.hpp: no minimiser is lost; bounds for the minimum. *)
From Coq Require Import Reals Lra Lia Psatz ZArith Bool Arith List FunctionalExtensionality.
From Coquelicot Require Import Coquelicot.
From Verif Require Import Ext Scalar IntervalModel IntervalSpec IntervalProofs IntervalEncl IntervalSets IntervalMore.
From Verif Require Import LinAlg RealRn VecModel VecProofs KrawProofs ADReal ADProofs OptModel.
Import List ListNotations.
Open Scope R_scope.

(* real analysis: descent along a coordinate, mean value theorem along a segment *)
Lemma dl_shift (g : R -> R) (a l : R) : derivable_pt_lim (fun s => g (a + s)) 0 l -> derivable_pt_lim g a l.
Proof.
  intros H eps He. destruct (H eps He) as [d Hd]. exists d. intros h Hh Hl. specialize (Hd h Hh Hl).
  rewrite Rplus_0_l, Rplus_0_r in Hd. exact Hd.
Qed.
Lemma descent (g : R -> R) (l d : R) : derivable_pt_lim g 0 l -> l < 0 -> 0 < d -> exists t, 0 < t < d /\ g t < g 0.
Proof.
  intros H L D. destruct (H (- l) ltac:(lra)) as [e He]. pose proof (cond_pos e) as Pe.
  set (t := Rmin (d / 2) (e / 2)).
  assert (T : 0 < t) by (apply Rmin_glb_lt; lra). assert (T1 : t <= d / 2) by apply Rmin_l. assert (T2 : t <= e / 2) by apply Rmin_r.
  exists t. split; [lra|]. specialize (He t ltac:(lra) ltac:(rewrite Rabs_right; lra)). rewrite Rplus_0_l in He.
  apply Rabs_lt_between in He. assert (Q : (g t - g 0) / t < 0) by lra.
  apply Rmult_lt_compat_r with (r := t) in Q; auto. unfold Rdiv in Q. rewrite Rmult_assoc, Rinv_l, Rmult_1_r, Rmult_0_l in Q by lra. lra.
Qed.
Definition along (i : nat) (s : R) (x : nat -> R) (t : R) : nat -> R := fun j => if Nat.eq_dec j i then x j + s * t else x j.
Lemma along_curve n i s x : curve_at n (along i s x) x (fun j => s * dlt i j).
Proof.
  split.
  - apply functional_extensionality. intros j. unfold along. destruct Nat.eq_dec; ring.
  - intros j _. unfold along, dlt. destruct (Nat.eq_dec j i), (Nat.eq_dec i j); try congruence.
    + apply (dl_eq _ _ (0 + s * 1)); [|ring]. apply derivable_pt_lim_plus; [apply derivable_pt_lim_const|].
      apply (derivable_pt_lim_scal id s 0 1). apply derivable_pt_lim_id.
    + apply (dl_eq _ _ 0); [apply derivable_pt_lim_const|ring].
Qed.
Lemma vsum_along n i s (g : nat -> R) : (i < n)%nat -> vsum n (fun j => g j * (s * dlt i j)) = s * g i.
Proof.
  intros H. rewrite (vsum_ext n _ (fun j => dlt i j * (s * g j))) by (intros; ring).
  exact (mv_dlt n (fun j => s * g j) i H).
Qed.
Lemma mvt_segment n (f : (nat -> R) -> R) (c x : nat -> R) :
  (forall t, 0 <= t <= 1 -> exists g, grad n f (fun i => c i + t * (x i - c i)) g) ->
  exists t, 0 <= t <= 1 /\ forall g, grad n f (fun i => c i + t * (x i - c i)) g ->
    f x - f c = vsum n (fun i => g i * (x i - c i)).
Proof.
  intros H. set (p := fun t i => c i + t * (x i - c i)).
  assert (DG : forall t g, grad n f (p t) g -> derivable_pt_lim (fun t => f (p t)) t (vsum n (fun i => g i * (x i - c i)))).
  { intros t g G. apply (dl_shift (fun t => f (p t))). apply (G (fun s => p (t + s)) (fun i => x i - c i)). split.
    - apply functional_extensionality. intros i. unfold p. ring.
    - intros i _. unfold p. apply (dl_eq _ _ (0 + (1 * (x i - c i) + (t + 0) * 0))); [|ring].
      apply derivable_pt_lim_plus; [apply derivable_pt_lim_const|].
      apply (derivable_pt_lim_mult (fun s => t + s) (fun _ => x i - c i)); [|apply derivable_pt_lim_const].
      apply (dl_eq _ _ (0 + 1)); [|ring]. apply derivable_pt_lim_plus; [apply derivable_pt_lim_const|apply derivable_pt_lim_id]. }
  destruct (MVT_cor2 (fun t => f (p t)) (fun t => Derive (fun t => f (p t)) t) 0 1) as (t & Ht & T); [lra| |].
  { intros t T. destruct (H t T) as [g G]. pose proof (DG t g G) as E. rewrite <- (is_derive_unique _ _ _ (proj2 (is_derive_Reals _ _ _) E)) in E. exact E. }
  exists t. split; [lra|]. intros g G.
  assert (P0 : p 0 = c) by (apply functional_extensionality; intros; unfold p; ring).
  assert (P1 : p 1 = x) by (apply functional_extensionality; intros; unfold p; ring).
  rewrite P0, P1 in Ht. rewrite Ht, (is_derive_unique _ _ _ (proj2 (is_derive_Reals _ _ _) (DG t g G))). ring.
Qed.

Section Opt.
Context {S : scal} (OK : scal_ok S) (NN : scal_nan S).
Let W := nn_wf _ NN.
Hypothesis MID : forall X : iv S, ivalid X -> ifinite X -> exists m, sval (mid X) = XR m /\ isin X m.
Hypothesis MAX : forall (a : S) q r, sval a = XR q -> sval (@smax S) = XR r -> q <= r.
Variables (n : nat) (fI : (nat -> iv S) -> res (iv S)) (fD : (nat -> iv S) -> res (nat -> iv S)).
Variables (init : nat -> iv S) (limit : S) (unify : bool).
Variables (f : (nat -> R) -> R) (Dom : (nat -> R) -> Prop).
Hypothesis FI : forall X Y x, fI X = Ok Y -> vin n X x -> Dom x -> isin Y (f x).
Hypothesis VI : vvalid n init.
Hypothesis FIN : vfin n init.
Notation vin := (vin n). Notation vvalid := (vvalid n). Notation vfin := (vfin n). Notation vsub := (vsub n).

(* boxes: valid, bounded, inside init *)
Definition boxok (X : nat -> iv S) : Prop := vvalid X /\ vfin X /\ vsub X init.
Definition cov (st : ostate S) (x : nat -> R) : Prop := (exists T, In T (otg st) /\ vin T x) \/ (exists s, In s (osol st) /\ vin s x).
(* x is a point of the domain in init where f is smallest *)
Definition minimiser (x : nat -> R) : Prop := vin init x /\ Dom x /\ forall y, vin init y -> Dom y -> f x <= f y.
Definition stok (st : ostate S) : Prop :=
  Forall boxok (otg st) /\ Forall boxok (osol st) /\ (forall i, omi st = Some i -> (i < n)%nat) /\
  (odelta st = smax \/ exists y, vin init y /\ Dom y /\ ub (sval (odelta st)) (f y)).

Lemma hull_fin (X Y : iv S) : ifinite X -> ifinite Y -> ifinite (hull X Y).
Proof using. intros [A B] [A' B']. unfold ifinite, hull. cbn [lo hi]. destruct (slt (lo Y) (lo X)), (slt (hi X) (hi Y)); auto. Qed.
Lemma isin_btw (X : iv S) p q r : isin X p -> isin X q -> p <= r <= q -> isin X r.
Proof using. intros (A & B & L & _) (_ & _ & _ & U) H. split; auto. split; auto. split; [apply lb_le with p|apply ub_le with q]; auto; lra. Qed.
Lemma boxok_hull X Y : boxok X -> boxok Y -> boxok (vhull X Y).
Proof using OK.
  intros (V & F & I1) (V' & F' & I2). unfold vhull. split; [|split].
  - intros i Hi. apply (valid_hull OK); auto.
  - intros i Hi. apply hull_fin; auto.
  - intros i r Hi H. apply (isin_hull OK) in H as (p & q & [P|P] & [Q|Q] & B); auto; apply isin_btw with p q; auto.
Qed.
Lemma hull_l X Y x : boxok Y -> vin X x -> vin (vhull X Y) x.
Proof using OK. intros (V & _) H i Hi. unfold vhull. apply (isin_hull_l OK); auto. Qed.
Lemma hull_r X Y x : boxok X -> vin Y x -> vin (vhull X Y) x.
Proof using OK. intros (V & _) H i Hi. unfold vhull. apply (isin_hull_r OK); auto. Qed.

Lemma mpass_ok sols : forall J b J' r, mpass n J sols = (b, (J', r)) -> boxok J -> Forall boxok sols ->
  boxok J' /\ Forall boxok r /\ (forall x, vin J x -> vin J' x) /\
  forall x s, In s sols -> vin s x -> vin J' x \/ exists s', In s' r /\ vin s' x.
Proof using OK.
  induction sols as [|p sols IH]; simpl; intros J b J' r H B F.
  - injection H as <- <- <-. split; [auto|split; [auto|split; [auto|]]]. intros x s [].
  - inversion F as [|? ? F1 F2]; subst. destruct (voverlap n p J).
    + rewrite force_ext in H. destruct (mpass n (vhull J p) sols) as [b1 [J1 r1]] eqn:E. injection H as <- <- <-.
      destruct (IH _ _ _ _ E (boxok_hull _ _ B F1) F2) as (A1 & A2 & A3 & A4). split; [auto|split; [auto|split; [auto|]]].
      * intros x Hx. apply A3, hull_l; auto.
      * intros x s [<-|Hs] Hx; [left; apply A3, hull_r; auto|eauto].
    + destruct (mpass n J sols) as [b1 [J1 r1]] eqn:E. injection H as <- <- <-.
      destruct (IH _ _ _ _ E B F2) as (A1 & A2 & A3 & A4). split; [auto|split; [auto|split; [auto|]]].
      intros x s [<-|Hs] Hx; [right; exists p; split; auto; now left|].
      destruct (A4 x s Hs Hx) as [|(s' & I1 & I2)]; auto. right. exists s'. split; auto. now right.
Qed.
Lemma merge_ok fuel : forall J sols J' r, merge n fuel J sols = (J', r) -> boxok J -> Forall boxok sols ->
  boxok J' /\ Forall boxok r /\ (forall x, vin J x -> vin J' x) /\
  forall x s, In s sols -> vin s x -> vin J' x \/ exists s', In s' r /\ vin s' x.
Proof using OK.
  induction fuel as [|k IH]; simpl; intros J sols J' r H B F.
  - injection H as <- <-. split; [auto|split; [auto|split; [auto|]]]. intros; right; eauto.
  - destruct (mpass n J sols) as [b [J1 r1]] eqn:E. destruct (mpass_ok _ _ _ _ _ E B F) as (A1 & A2 & A3 & A4).
    destruct b.
    + destruct (IH _ _ _ _ H A1 A2) as (B1 & B2 & B3 & B4). split; [auto|split; [auto|split; [auto|]]].
      intros x s Hs Hx. destruct (A4 x s Hs Hx) as [C1|(s' & C1 & C2)]; eauto.
    + injection H as <- <-. auto.
Qed.

Lemma mw_lt k (J : nat -> iv S) m i : maxwidth_loop k J = (m, Some i) -> (i < k)%nat.
Proof using.
  revert m i. induction k as [|k IH]; simpl; intros m i H; [discriminate|].
  destruct (maxwidth_loop k J) as [m' o] eqn:E. destruct (slt m' (width (J k))).
  - injection H as _ <-. lia.
  - injection H as -> ->. specialize (IH _ _ eq_refl). lia.
Qed.

Lemma finish_ok st J e st' : finish n limit unify st J e = Ok st' -> boxok J -> stok st ->
  stok st' /\ odelta st' = odelta st /\ (forall x, cov st x -> cov st' x) /\ (forall x, vin J x -> cov st' x).
Proof using OK NN MID.
  unfold finish. intros H B (O1 & O2 & O3 & O4). destruct (maxwidth_loop n J) as [w o] eqn:EW.
  set (mi := match o with Some i => Some i | None => omi st end) in *.
  assert (MI : forall i, mi = Some i -> (i < n)%nat).
  { intros i. unfold mi. destruct o as [k|]; auto. intros [= <-]. eapply mw_lt; eauto. }
  destruct (slt w limit && negb e).
  - assert (Q : exists K r, (if unify then merge n (Datatypes.S (length (osol st))) J (osol st) else (J, osol st)) = (K, r) /\
       boxok K /\ Forall boxok r /\ (forall x, vin J x -> vin K x) /\
       forall x s, In s (osol st) -> vin s x -> vin K x \/ exists s', In s' r /\ vin s' x).
    { destruct unify.
      - destruct (merge _ _ _ _) as [K r] eqn:E. exists K, r. split; auto. eapply merge_ok; eauto.
      - exists J, (osol st). split; [auto|split; [auto|split; [auto|split; [auto|]]]]. intros; right; eauto. }
    destruct Q as (K & r & EQ & Q1 & Q2 & Q3 & Q4). rewrite EQ in H. injection H as <-. split; [|split; [reflexivity|split]].
    + split; [exact O1|]. split; [|split; auto]. cbn [osol]. apply Forall_app. auto.
    + intros x [HT|(s & I1 & I2)]; [left; exact HT|]. right. cbn [osol].
      destruct (Q4 x s I1 I2) as [|(s' & I3 & I4)]; [exists K|exists s']; split; auto; apply in_or_app; simpl; auto.
    + intros x Hx. right. exists K. split; auto. cbn [osol]. apply in_or_app; simpl; auto.
  - destruct mi as [i|]; [|discriminate]. specialize (MI i eq_refl). rewrite !force_ext in H. injection H as <-.
    destruct B as (V & F & SB). destruct (MID (J i) (V i MI) (F i MI)) as (m & Em & Im).
    set (I1 := fun j => if Nat.eq_dec j i then mkiv (lo (J i)) (mid (J i)) else J j).
    set (I2 := fun j => if Nat.eq_dec j i then mkiv (mid (J i)) (hi (J i)) else J j).
    destruct Im as (W1 & W2 & Lm & Um). destruct (F i MI) as [F1 F2].
    assert (S1 : vsub I1 J).
    { intros j r Hj. unfold I1. destruct Nat.eq_dec as [->|]; auto. intros (_ & _ & L & U). cbn [lo hi] in *. rewrite Em in U. simpl in U.
      split; auto. split; auto. split; auto. eapply ub_le; eauto. }
    assert (S2 : vsub I2 J).
    { intros j r Hj. unfold I2. destruct Nat.eq_dec as [->|]; auto. intros (_ & _ & L & U). cbn [lo hi] in *. rewrite Em in L. simpl in L.
      split; auto. split; auto. split; auto. eapply lb_le; eauto. }
    assert (B1 : boxok I1).
    { split; [|split].
      - intros j Hj. unfold I1. destruct Nat.eq_dec; auto. apply isin_valid with m. unfold isin; cbn [lo hi]. rewrite Em. simpl. repeat split; auto. lra.
      - intros j Hj. unfold I1. destruct Nat.eq_dec; auto. split; cbn [lo hi]; auto. rewrite Em. exact Logic.I.
      - intros j r Hj Hr. apply SB; auto. }
    assert (B2 : boxok I2).
    { split; [|split].
      - intros j Hj. unfold I2. destruct Nat.eq_dec; auto. apply isin_valid with m. unfold isin; cbn [lo hi]. rewrite Em. simpl. repeat split; auto. lra.
      - intros j Hj. unfold I2. destruct Nat.eq_dec; auto. split; cbn [lo hi]; auto. rewrite Em. exact Logic.I.
      - intros j r Hj Hr. apply SB; auto. }
    split; [|split; [reflexivity|split]].
    + split; [|split; [exact O2|split]]; auto.
      * cbn [otg]. apply Forall_app. split; auto.
      * cbn [omi]. intros k [= <-]. auto.
    + intros x [(T & H1 & H2)|HS]; [left|right; exact HS]. exists T. split; auto. cbn [otg]. apply in_or_app; auto.
    + intros x Hx. left. cbn [otg]. destruct (Rle_dec (x i) m) as [L|L].
      * exists I1. split; [apply in_or_app; simpl; auto|]. intros j Hj. unfold I1. destruct Nat.eq_dec as [-> |]; auto.
        destruct (Hx i Hj) as (? & ? & ? & ?). unfold isin; cbn [lo hi]. rewrite Em. simpl. auto.
      * exists I2. split; [apply in_or_app; simpl; auto|]. intros j Hj. unfold I2. destruct Nat.eq_dec as [-> |]; auto.
        destruct (Hx i Hj) as (? & ? & ? & ?). unfold isin; cbn [lo hi]. rewrite Em. simpl. repeat split; auto. lra.
Qed.

(* a box whose value exceeds delta contains no minimiser *)
Lemma delta_out st Y x : stok st -> minimiser x -> slt (odelta st) (lo Y) = true -> isin Y (f x) -> False.
Proof using OK NN MAX.
  clear fD fI FI. intros (_ & _ & _ & D) (_ & _ & MX) H (_ & _ & L & _). apply (slt_true OK) in H; auto. destruct D as [ED|(y & Iy & Dy & U)].
  - destruct (ok_max _ OK) as (_ & r & Er & _). rewrite ED, Er in H. destruct (sval (lo Y)) as [q| | |] eqn:EY; simpl in *; try tauto.
    pose proof (MAX _ _ _ EY Er). lra.
  - specialize (MX y Iy Dy). destruct (sval (odelta st)), (sval (lo Y)); simpl in *; try tauto. lra.
Qed.
Lemma stok_low st Y y : stok st -> vin init y -> Dom y -> isin Y (f y) -> stok (setd st (low (odelta st) (hi Y))).
Proof using.
  intros (A & B & E & D) Iy Dy (_ & _ & _ & U). repeat split; auto. unfold setd, low; cbn [odelta]. destruct (slt _ _); auto.
  right. eauto.
Qed.
Lemma mid_pt J : boxok J -> exists c, vin (fun i => ipt (mid (J i))) c /\ vin J c.
Proof using OK NN MID.
  intros (V & F & _). destruct (fin_choice 0 n (fun i m => sval (mid (J i)) = XR m /\ isin (J i) m)) as [c Hc].
  { intros i Hi. apply MID; auto. }
  exists c. split; intros i Hi; destruct (Hc i Hi); auto. apply (isin_pt (S := S)); auto.
Qed.

Section Grad.
(* a successful derivative evaluation: the box lies in the domain, the gradient is enclosed, and moving a little along a
   coordinate stays in the domain *)
Hypothesis FDom : forall X G x, fD X = Ok G -> vin X x -> Dom x.
Hypothesis FG : forall X G x, fD X = Ok G -> vin X x -> exists g, (forall i, (i < n)%nat -> isin (G i) (g i)) /\ grad n f x g.
Hypothesis FO : forall X G x i s, fD X = Ok G -> vin X x -> (i < n)%nat -> exists d, 0 < d /\ forall t, Rabs t < d -> Dom (along i s x t).

Lemma slope_no_min J G x : fD J = Ok G -> boxok J -> minimiser x -> vin J x -> slope_out n init J G = true -> False.
Proof using OK NN FG FO FIN VI.
  intros E (V & F & SB) (Ix & Dx & MX) Hx H. unfold slope_out in H.
  assert (Q : exists i, (i < n)%nat /\ ((slt s0 (lo (G i)) && negb (seqb (lo (J i)) (lo (init i)))) || (slt (hi (G i)) s0 && negb (seqb (hi (J i)) (hi (init i))))) = true).
  { revert H. clear. generalize n. intros k. induction k as [|k IH]; simpl; [discriminate|]. intros H. apply orb_true_iff in H as [H|H].
    - destruct (IH H) as (i & Hi & Q). exists i. split; auto.
    - exists k. split; auto. }
  clear H. destruct Q as (i & Hi & Q). destruct (FG _ _ x E Hx) as (g & Hg & GR).
  assert (M : forall s, s * g i < 0 -> (forall d, 0 < d -> exists e, 0 < e /\ forall t, 0 < t < e -> isin (init i) (x i + s * t)) -> False).
  { intros s SG IN. destruct (FO _ _ x i s E Hx Hi) as (d & Pd & HD). destruct (IN d Pd) as (e & Pe & HE).
    pose proof (dl_eq _ _ _ _ (GR _ _ (along_curve n i s x)) (vsum_along n i s g Hi)) as D.
    destruct (descent _ _ (Rmin d e) D SG ltac:(apply Rmin_glb_lt; auto)) as (t & Ht & LT). cbv beta in LT.
    pose proof (Rmin_l d e). pose proof (Rmin_r d e).
    replace (along i s x 0) with x in LT by (apply functional_extensionality; intros j; unfold along; destruct Nat.eq_dec; ring).
    apply (Rlt_not_le _ _ LT). apply MX.
    - intros j Hj. unfold along. destruct Nat.eq_dec as [->|]; auto. apply HE. lra.
    - apply HD. rewrite Rabs_right; lra. }
  destruct (F i Hi) as [F1 F2]. destruct (FIN i Hi) as [N1 N2]. destruct (VI i Hi) as (_ & _ & _ & _ & VL).
  destruct (Ix i Hi) as (_ & _ & IL & IU). destruct (Hx i Hi) as (_ & _ & HL & HU). destruct (V i Hi) as (_ & _ & _ & _ & VJ).
  pose proof (Hg i Hi) as (_ & _ & GL & GU).
  destruct (sval (lo (J i))) as [a| | |] eqn:Ea; try contradiction. destruct (sval (hi (J i))) as [b| | |] eqn:Eb; try contradiction.
  destruct (sval (lo (init i))) as [a0| | |] eqn:Ea0; try contradiction. destruct (sval (hi (init i))) as [b0| | |] eqn:Eb0; try contradiction.
  simpl in *. destruct (ok_s0 _ OK) as [_ Z0].
  assert (SJ : a0 <= a /\ b <= b0).
  { split.
    - assert (P : isin (J i) a) by (unfold isin; rewrite Ea, Eb; simpl; repeat split; auto; lra).
      apply (SB i a Hi) in P as (_ & _ & P & _). rewrite Ea0 in P. exact P.
    - assert (P : isin (J i) b) by (unfold isin; rewrite Ea, Eb; simpl; repeat split; auto; lra).
      apply (SB i b Hi) in P as (_ & _ & _ & P). rewrite Eb0 in P. exact P. }
  apply orb_true_iff in Q as [Q|Q]; apply andb_prop in Q as [Q1 Q2]; apply negb_true_iff in Q2.
  - apply (slt_true OK) in Q1; auto. rewrite Z0 in Q1. pose proof (seqb_false_ne OK NN _ _ _ _ Q2 Ea Ea0) as NE.
    apply (M (-1)).
    + destruct (sval (lo (G i))); simpl in *; try tauto; lra.
    + intros d _. exists (x i - a0). split; [lra|]. intros t Ht. unfold isin. rewrite Ea0, Eb0. simpl. repeat split; auto; lra.
  - apply (slt_true OK) in Q1; auto. rewrite Z0 in Q1. pose proof (seqb_false_ne OK NN _ _ _ _ Q2 Eb Eb0) as NE.
    apply (M 1).
    + destruct (sval (hi (G i))); simpl in *; try tauto; lra.
    + intros d _. exists (b0 - x i). split; [lra|]. intros t Ht. unfold isin. rewrite Ea0, Eb0. simpl. repeat split; auto; lra.
Qed.

Lemma ostep_ok st J st' : ostep n fI fD init limit unify st J = Ok st' -> boxok J -> stok st ->
  stok st' /\ (forall x, cov st x -> cov st' x) /\ (forall x, minimiser x -> vin J x -> cov st' x).
Proof using OK NN MID MAX FI VI FIN FDom FG FO.
  unfold ostep. cbv zeta. intros H B O.
  assert (FN : forall e st1, finish n limit unify st1 J e = Ok st' -> stok st1 -> (forall x, cov st x -> cov st1 x) ->
     stok st' /\ (forall x, cov st x -> cov st' x) /\ (forall x, minimiser x -> vin J x -> cov st' x)).
  { intros e st1 H1 O1 C1. destruct (finish_ok _ _ _ _ H1 B O1) as (A1 & _ & A2 & A3). split; auto. }
  assert (ST : (forall x, minimiser x -> vin J x -> False) -> stok st /\ (forall x, cov st x -> cov st x) /\ (forall x, minimiser x -> vin J x -> cov st x)).
  { intros Q. split; auto. split; auto. intros x M1 M2. destruct (Q x M1 M2). }
  rewrite !force_ext in H.
  destruct (fI J) as [fi|[]] eqn:E0; try discriminate; [|apply (FN true st); auto].
  destruct (slt (odelta st) (lo fi)) eqn:D0.
  { injection H as <-. apply ST. intros x Mx Hx. apply (delta_out st fi x); auto. apply (FI J fi x); auto. apply Mx. }
  destruct (fI (fun i => ipt (mid (J i)))) as [fc|[]] eqn:E1; try discriminate; [|apply (FN false st); auto].
  destruct (fD J) as [G|[]] eqn:E2; try discriminate; [|apply (FN false st); auto].
  destruct (mid_pt J B) as (c & Cc & Jc). pose proof (FDom _ _ _ E2 Jc) as Dc.
  assert (Fc : isin fc (f c)) by (eapply FI; eauto).
  assert (Ic : vin init c) by (intros i Hi; apply B; auto).
  set (mvf := iadd fc (isum n (fun i => imul (G i) (isub (J i) (ipt (mid (J i))))))) in *.
  destruct (slt (odelta st) (lo mvf)) eqn:D1.
  { injection H as <-. apply ST. intros x Mx Hx. apply (delta_out st mvf x); auto.
    assert (CV : forall t, 0 <= t <= 1 -> vin J (fun i => c i + t * (x i - c i))) by (intros t Ht i Hi; apply isin_conv; auto).
    destruct (mvt_segment n f c x) as (t & Ht & T).
    { intros t Ht. destruct (FG _ _ _ E2 (CV t Ht)) as (g & _ & GR). eauto. }
    destruct (FG _ _ _ E2 (CV t Ht)) as (g & Hg & GR). specialize (T g GR).
    replace (f x) with (f c + vsum n (fun i => g i * (x i - c i))) by lra.
    apply (isin_add OK); auto. apply (isin_isum OK). intros i Hi. apply (isin_mul OK); auto. apply (isin_sub OK); [auto|exact (Cc i Hi)]. }
  destruct (slope_out n init J G) eqn:SO.
  { injection H as <-. apply ST. intros x Mx Hx. exact (slope_no_min J G x E2 B Mx Hx SO). }
  pose proof (stok_low st fc c O Ic Dc Fc) as O1.
  rewrite force_ext in H. destruct (fI (corner J G)) as [fc2|[]] eqn:E3; try discriminate.
  - apply (FN false _ H); [|auto].
    assert (Q : exists p, vin (corner J G) p /\ vin J p).
    { destruct B as (V & F & _). destruct (fin_choice 0 n (fun i m => isin (corner J G i) m /\ isin (J i) m)) as [p Hp].
      { intros i Hi. unfold corner. destruct (F i Hi) as [F1 F2]. destruct (V i Hi) as (_ & _ & _ & _ & VJ).
        destruct (sval (lo (J i))) as [a| | |] eqn:Ea; try contradiction. destruct (sval (hi (J i))) as [b| | |] eqn:Eb; try contradiction. simpl in VJ.
        destruct (slt s0 (mid (G i))); [|destruct (slt (mid (G i)) s0)].
        - exists a. split; [apply (isin_pt (S := S)); auto|]. unfold isin. rewrite Ea, Eb. simpl. repeat split; auto; lra.
        - exists b. split; [apply (isin_pt (S := S)); auto|]. unfold isin. rewrite Ea, Eb. simpl. repeat split; auto; lra.
        - exists (c i). split; [exact (Cc i Hi)|auto]. }
      exists p. split; intros i Hi; apply Hp; auto. }
    destruct Q as (p & Cp & Jp). pose proof (FDom _ _ _ E2 Jp) as Dp.
    apply (stok_low (setd st (low (odelta st) (hi fc))) fc2 p); auto.
    + intros i Hi. apply B; auto.
    + eapply FI; eauto.
  - apply (FN false _ H); auto.
Qed.
End Grad.

Section Loop.
Variable step : ostate S -> (nat -> iv S) -> res (ostate S).
Hypothesis ST : forall st J st', step st J = Ok st' -> boxok J -> stok st ->
  stok st' /\ (forall x, cov st x -> cov st' x) /\ (forall x, minimiser x -> vin J x -> cov st' x).
Lemma oloop_ok fuel : forall st st', oloop step fuel st = Ok st' -> stok st ->
  Forall boxok (osol st') /\ forall x, minimiser x -> cov st x -> exists s, In s (osol st') /\ vin s x.
Proof using ST.
  induction fuel as [|k IH]; simpl; intros st st' H O; [discriminate|]. destruct (otg st) as [|J ts] eqn:ET.
  - injection H as <-. split; [apply O|]. intros x Mx [(T & I1 & _)|Q]; auto. rewrite ET in I1. destruct I1.
  - apply bind_ok in H as (st1 & E & H). destruct O as (O1 & O2 & O3 & O4). rewrite ET in O1. inversion O1 as [|? ? B1 B2]; subst.
    assert (O : stok (mkost ts (osol st) (odelta st) (omi st))) by (repeat split; auto).
    destruct (ST _ _ _ E B1 O) as (A1 & A2 & A3). destruct (IH _ _ H A1) as [R1 R2]. split; auto.
    intros x Mx C1. apply R2; auto. destruct C1 as [(T & I1 & I2)|Q].
    + rewrite ET in I1. destruct I1 as [<-|I1]; [apply A3; auto|]. apply A2. left. exists T. auto.
    + apply A2. right. exact Q.
Qed.
Lemma start_ok : stok (ostart init) /\ forall x, minimiser x -> cov (ostart init) x.
Proof using VI FIN.
  split.
  - split; [|split; [constructor|split; [discriminate|left; reflexivity]]]. constructor; [|constructor]. split; [exact VI|split; [exact FIN|intros i r Hi Hr; exact Hr]].
  - intros x (Ix & _). left. exists init. split; auto. now left.
Qed.
End Loop.

Theorem optimize_ok fuel bs :
  (forall X G x, fD X = Ok G -> vin X x -> Dom x) ->
  (forall X G x, fD X = Ok G -> vin X x -> exists g, (forall i, (i < n)%nat -> isin (G i) (g i)) /\ grad n f x g) ->
  (forall X G x i s, fD X = Ok G -> vin X x -> (i < n)%nat -> exists d, 0 < d /\ forall t, Rabs t < d -> Dom (along i s x t)) ->
  optimize n fI fD init limit unify fuel = Ok bs ->
  Forall boxok bs /\ forall x, minimiser x -> exists s, In s bs /\ vin s x.
Proof using OK NN MID MAX FI VI FIN.
  intros A1 A2 A3 H. apply bind_ok in H as (st & E & H). injection H as <-. destruct start_ok as [O C1].
  destruct (oloop_ok _ (ostep_ok A1 A2 A3) _ _ _ E O) as [R1 R2]. split; auto.
Qed.

(* without derivatives: a box on which the evaluation succeeds need not lie in the domain, so this is for init inside it *)
Lemma ndstep_ok st J st' : (forall x, vin init x -> Dom x) -> ndstep n fI limit unify st J = Ok st' -> boxok J -> stok st ->
  stok st' /\ (forall x, cov st x -> cov st' x) /\ (forall x, minimiser x -> vin J x -> cov st' x).
Proof using OK NN MID MAX FI.
  unfold ndstep. intros DI H B O.
  assert (FN : forall e st1, finish n limit unify st1 J e = Ok st' -> stok st1 -> (forall x, cov st x -> cov st1 x) ->
     stok st' /\ (forall x, cov st x -> cov st' x) /\ (forall x, minimiser x -> vin J x -> cov st' x)).
  { intros e st1 H1 O1 C1. destruct (finish_ok _ _ _ _ H1 B O1) as (A1 & _ & A2 & A3). split; auto. }
  rewrite !force_ext in H.
  destruct (fI J) as [fi|[]] eqn:E0; try discriminate; [|apply (FN true st); auto].
  destruct (slt (odelta st) (lo fi)) eqn:D0.
  { injection H as <-. split; auto. split; auto. intros x Mx Hx. exfalso. apply (delta_out st fi x); auto. apply (FI J fi x); auto. apply Mx. }
  destruct (fI (fun i => ipt (mid (J i)))) as [fc|[]] eqn:E1; try discriminate; [|apply (FN false st); auto].
  destruct (mid_pt J B) as (c & Cc & Jc). assert (Ic : vin init c) by (intros i Hi; apply B; auto).
  apply (FN false _ H); auto. apply (stok_low st fc c); auto. eapply FI; eauto.
Qed.
Theorem optimize_nd_ok fuel bs : (forall x, vin init x -> Dom x) ->
  optimize_nd n fI init limit unify fuel = Ok bs ->
  Forall boxok bs /\ forall x, minimiser x -> exists s, In s bs /\ vin s x.
Proof using OK NN MID MAX FI VI FIN.
  intros DI H. apply bind_ok in H as (st & E & H). injection H as <-. destruct start_ok as [O C1].
  destruct (oloop_ok _ (fun st J st' => ndstep_ok st J st' DI) _ _ _ E O) as [R1 R2]. split; auto.
Qed.

(* minimize_value *)
Lemma value_lower x bs : Dom x -> forall r r', value_loop fI bs r = Ok r' -> sval (lo r) <> Xn ->
  lb (sval (lo r)) (f x) \/ (exists s, In s bs /\ vin s x) -> lb (sval (lo r')) (f x).
Proof using OK NN FI.
  clear fD VI FIN init. intros Dx. induction bs as [|p bs IH]; simpl; intros r r' H N C1.
  - injection H as <-. destruct C1 as [|(s & [] & _)]; auto.
  - apply bind_ok in H as (t & E & H). apply (IH _ _ H); cbn [lo]; unfold stdmin.
    + destruct (slt (lo t) (lo r)) eqn:L; auto. apply (slt_true OK) in L; auto. intros Q. rewrite Q in L. destruct L.
    + assert (K : lb (sval (lo r)) (f x) -> lb (sval (if slt (lo t) (lo r) then lo t else lo r)) (f x)).
      { intros L. destruct (slt (lo t) (lo r)) eqn:L1; auto. apply (slt_true OK) in L1; auto.
        destruct (sval (lo t)), (sval (lo r)); simpl in *; try tauto; lra. }
      destruct C1 as [L|(s & [<-|I1] & I2)]; [left; auto| |right; eauto]. left.
      destruct (FI _ _ _ E I2 Dx) as (_ & _ & L & _). destruct (slt (lo t) (lo r)) eqn:L1; auto. apply (slt_false OK) in L1; auto.
      * destruct (sval (lo t)), (sval (lo r)); simpl in *; try tauto; lra.
      * intros Q. rewrite Q in L. destruct L.
Qed.
Lemma value_upper x bs : minimiser x -> (forall y, vin init y -> Dom y) -> forall r r', value_loop fI bs r = Ok r' -> Forall boxok bs ->
  ub (sval (hi r)) (f x) -> ub (sval (hi r')) (f x).
Proof using FI.
  intros (Ix & Dx & MX) DI. induction bs as [|p bs IH]; simpl; intros r r' H B U.
  - injection H as <-. auto.
  - apply bind_ok in H as (t & E & H). inversion B as [|? ? (V & F & SB) B2]; subst. apply (IH _ _ H); auto. cbn [hi]. unfold stdmin.
    destruct (slt _ _); auto.
    destruct (fin_choice 0 n (fun i m => isin (p i) m)) as [y Hy].
    { intros i Hi. apply valid_isin. auto. }
    assert (Iy : vin init y) by (intros i Hi; apply SB; auto). specialize (DI y Iy).
    destruct (FI _ _ _ E Hy DI) as (_ & _ & _ & U1). specialize (MX y Iy DI). apply ub_le with (f y); auto.
Qed.
Theorem value_ok bs r x : Forall boxok bs -> minimiser x -> (exists s, In s bs /\ vin s x) ->
  value_loop fI bs (mkiv spinf spinf) = Ok r ->
  lb (sval (lo r)) (f x) /\ ((forall y, vin init y -> Dom y) -> isin r (f x)).
Proof using OK NN FI.
  intros B Mx C1 H. destruct (ok_pinf _ OK) as [_ EP].
  assert (L : lb (sval (lo r)) (f x)). { apply (value_lower x bs (proj1 (proj2 Mx)) _ _ H); auto. cbn [lo]. rewrite EP. discriminate. }
  split; auto. intros DI. split; auto. split; auto. split; auto. apply (value_upper x bs Mx DI _ _ H B). cbn [hi]. rewrite EP. exact Logic.I.
Qed.
End Opt.
