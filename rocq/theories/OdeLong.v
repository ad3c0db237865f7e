(* Soundness of the model of odelong: the steps of ode glued together. *)
From Coq Require Import Reals ZArith Bool List Lra Lia Psatz Arith.
From Coquelicot Require Import Coquelicot.
From Flocq Require Import Core BinarySingleNaN.
From Verif Require Import Ext Scalar IntervalModel IntervalSpec IntervalProofs IntervalEncl IntervalSets Fp64 RDoubleHw IntervalMid Backends ElemModel PropsElem.
From Verif Require Import RealFun ADModel ADReal ADProofs ADInst ADSys PsaModel PsaReal PsaProofs PsaExpr PsaInt PsaUseProofs PsaInst.
From Verif Require Import PsaHist OdeLip OdePicard OdeSeries OdeStep OdeModel OdeSpec OdeProofs OdeGlue.
Import List ListNotations.
Open Scope R_scope.

(* a value that is not below a *)
Definition gem (a : R) (e : ext) : Prop := match e with XR r => a <= r | Xp | Xn => True | Xm => False end.
Lemma rx_gem m a r : generic_format radix2 FX a -> Rabs a <= maxR -> a <= r -> gem a (rx m r).
Proof.
  intros F M L. assert (G : a <= rnd m r) by (unfold rnd; apply round_ge_generic; auto with typeclass_instances).
  unfold rx. destruct (Rlt_bool_spec (Rabs (rnd m r)) (bpow radix2 1024)) as [H|H]; [exact G|]. apply Rabs_le_inv in M. pose proof max_lt.
  destruct (Rlt_bool_spec r 0) as [N|N].
  - exfalso. assert (rnd m r <= 0). { rewrite <- (rnd_0 m). unfold rnd. apply round_le; auto with typeclass_instances. lra. } rewrite Rabs_left1 in H by lra. lra.
  - destruct (overflow_to_inf m false); simpl; auto. lra.
Qed.
Lemma xr_gem m a e : generic_format radix2 FX a -> Rabs a <= maxR -> gem a e -> gem a (xr m e).
Proof. intros F M G. destruct e; simpl in *; auto. now apply rx_gem. Qed.
Lemma F0 : generic_format radix2 FX 0. Proof. apply generic_format_0. Qed.
Lemma M0 : Rabs 0 <= maxR. Proof. rewrite Rabs_R0. pose proof maxR_pos. lra. Qed.
Lemma sgn_pos x : 0 <= x -> xsgn_inf x true = Xp \/ xsgn_inf x true = Xn.
Proof. intros H. unfold xsgn_inf. destruct (Rcompare_spec x 0); auto; lra. Qed.
Lemma gem_mul e1 e2 : gem 0 e1 -> gem 0 e2 -> gem 0 (xmul e1 e2).
Proof.
  destruct e1 as [x| | |], e2 as [y| | |]; simpl; auto; intros A B'; try contradiction.
  - now apply Rmult_le_pos.
  - destruct (sgn_pos x A) as [-> | ->]; simpl; auto.
  - destruct (sgn_pos y B') as [-> | ->]; simpl; auto.
Qed.
Lemma gem_add a e1 e2 : gem a e1 -> gem 0 e2 -> gem a (xadd e1 e2).
Proof. destruct e1 as [x| | |], e2 as [y| | |]; simpl; auto; intros; lra. Qed.
(* the positive value or +0 *)
Definition posd (q : b64) : Prop := gem 0 (v64 q) /\ gem 0 (v64 (Bdiv mode_NE b1 q)).
Lemma ndiv_gem (x q : b64) : gem 0 (v64 x) -> posd q -> gem 0 (v64 (Bdiv mode_NE x q)).
Proof.
  intros GX [GQ GD]. assert (D : v64 q = XR 0 \/ v64 q <> XR 0). { destruct (v64 q) as [r| | |]; try (right; discriminate). destruct (Req_dec r 0) as [->|N]; [left; auto|right; congruence]. }
  destruct D as [E|N].
  - assert (Q : exists s, q = B754_zero s). { destruct q as [s|[]| |s m e Hb]; try discriminate E; [eauto|]. exfalso. simpl in E. injection E as E. unfold Defs.F2R in E. simpl in E.
      apply Rmult_integral in E as [E|E]; [apply eq_IZR in E; destruct s; discriminate E|]. pose proof (bpow_gt_0 radix2 e). simpl in *. lra. }
    destruct Q as [s ->]. destruct s; [exfalso; vm_compute in GD; exact GD|]. destruct x as [s|s| |s m e Hb]; simpl; auto.
    + destruct s; simpl in *; auto.
    + destruct s; simpl; auto. simpl in GX. assert (Defs.F2R (Defs.Float radix2 (Z.neg m) e) < 0) by (apply F2R_lt_0; reflexivity). unfold Defs.F2R in *. simpl in *. lra.
  - rewrite Bdiv_v by auto. apply xr_gem; [apply F0|apply M0|]. destruct (v64 x) as [a| | |], (v64 q) as [c| | |]; simpl in *; auto; try lra.
    + assert (c <> 0) by congruence. assert (0 < c) by lra. apply Rmult_le_pos; auto. left. now apply Rinv_0_lt_compat.
    + assert (c <> 0) by congruence. unfold xsgn_inf. destruct (Rcompare_spec c 0); simpl; auto. lra.
Qed.
Lemma nmul_gem (x y : b64) : gem 0 (v64 x) -> gem 0 (v64 y) -> gem 0 (v64 (Bmult mode_NE x y)).
Proof. intros A B'. rewrite Bmult_v. apply xr_gem; [apply F0|apply M0|]. now apply gem_mul. Qed.
Lemma ltb_gem (x : b64) : Bltb x b0 = false -> gem 0 (v64 x).
Proof.
  intros H. assert (V0 : v64 b0 = XR 0) by reflexivity. destruct (v64 x) as [r| | |] eqn:E; simpl; auto.
  - destruct (Rle_lt_dec 0 r) as [|L]; auto. exfalso. assert (K : Bltb x b0 = true) by (apply Bltb_v; rewrite E, V0; exact L). congruence.
  - assert (K : Bltb x b0 = true) by (apply Bltb_v; rewrite E, V0; exact Logic.I). congruence.
Qed.
(* an infinity or NaN among the ends makes the midpoint one of them *)
Lemma mid_inf (l h : b64) : v64 l <> Xm -> v64 h <> Xm -> (forall r, v64 l <> XR r) \/ (forall r, v64 h <> XR r) ->
  v64 (bmid l h) = Xp /\ v64 l <> Xn /\ v64 h <> Xn \/ v64 (bmid l h) = Xn.
Proof.
  intros L H N. assert (HALF : forall x : b64, v64 x <> Xm -> (exists r, v64 x = XR r /\ exists r', v64 (Bmult mode_NE x (bdy 1 (-1))) = XR r') \/
    v64 x = Xp /\ v64 (Bmult mode_NE x (bdy 1 (-1))) = Xp \/ v64 x = Xn /\ v64 (Bmult mode_NE x (bdy 1 (-1))) = Xn).
  { intros x Hx. rewrite Bmult_v, half_v. destruct (v64 x) as [r| | |] eqn:E; simpl; try congruence.
    - left. exists r. split; auto. destruct (v64_XR _ _ E) as [_ R']. pose proof (B2R_le_max x) as M. rewrite R' in M. exists (rnd mode_NE (r * / 2)). apply rx_in.
      pose proof (fmt_B2R (bmax : b64)) as FM. assert (VM : B2R (bmax : b64) = maxR). { destruct (v64_XR bmax maxR) as [_ ?]; auto. apply bmax_v. } rewrite VM in FM.
      apply Rabs_le. apply (N_range (r * / 2) (- maxR) maxR); auto. now apply generic_format_opp. apply Rabs_le_inv in M. lra.
    - right. left. split; auto. unfold xsgn_inf. rewrite Rcompare_Gt by lra. reflexivity.
    - right. right. auto. }
  unfold bmid. destruct (Bltb b1 (Babs l) && Bltb b1 (Babs h)).
  - rewrite Bplus_v. destruct (HALF l L) as [(r & E & r' & E')|[(E & E')|(E & E')]], (HALF h H) as [(s & G & s' & G')|[(G & G')|(G & G')]]; rewrite E', G', E, G; simpl; auto;
      try (left; repeat split; discriminate); try (right; reflexivity). exfalso. destruct N as [N|N]; [now apply (N r)|now apply (N s)].
  - rewrite Bmult_v, Bplus_v, half_v. destruct (v64 l) as [r| | |] eqn:E, (v64 h) as [s| | |] eqn:G; try congruence; simpl;
      try (right; reflexivity); try (left; split; [unfold xsgn_inf; rewrite Rcompare_Gt by lra; reflexivity|split; discriminate]).
    exfalso. destruct N as [N|N]; [now apply (N r)|now apply (N s)].
Qed.
Definition posv {S : scal} (q : S) : Prop := slt q s0 = false /\ slt (ndiv s1 q) s0 = false.
Section Scal64.
Variables au ad su sd mu md du dd : b64 -> b64 -> b64. Variables qu qd : b64 -> b64.
Hypothesis ID : ideal64 au ad su sd mu md du dd qu qd.
Notation S := (mk64 au ad su sd mu md du dd qu qd).
Lemma posv_d (q : S) : posv q -> posd q.
Proof. intros [A B']. split; now apply ltb_gem. Qed.
Lemma div_gem_ (r q : S) : gem 0 (sval r) -> posv q -> gem 0 (sval (ndiv r q)).
Proof. intros A B'. apply ndiv_gem; auto. now apply posv_d. Qed.
Lemma mul_gem_ (r q : S) : gem 0 (sval r) -> gem 0 (sval q) -> gem 0 (sval (nmul r q)).
Proof. apply nmul_gem. Qed.
Lemma sval_fmt (x : S) a : sval x = XR a -> generic_format radix2 FX a /\ Rabs a <= maxR.
Proof. intros E. destruct (v64_XR _ _ E) as [_ <-]. split; [apply fmt_B2R|apply B2R_le_max]. Qed.
Lemma mid_gem_ a (X : iv S) : gem a (sval (lo X)) -> gem a (sval (hi X)) -> (forall l h, sval (lo X) = XR l -> sval (hi X) = XR h -> l <= h) -> gem a (sval (mid X)).
Proof.
  intros L H V. destruct (sval (lo X)) as [l| | |] eqn:EL; [destruct (sval (hi X)) as [h| | |] eqn:EH| | |]; try contradiction.
  { destruct (mid_in _ _ _ _ _ _ _ _ _ _ X) as (m & E & IN).
    - split; [exact Logic.I|]. split; [exact Logic.I|]. rewrite EL, EH. split; [exact Logic.I|]. split; [exact Logic.I|]. simpl. apply V; auto.
    - split. rewrite EL. exact Logic.I. rewrite EH. exact Logic.I.
    - rewrite E. destruct IN as (_ & _ & LL & _). rewrite EL in LL. simpl in *. lra. }
  all: rewrite mid_eq; destruct (mid_inf (lo X) (hi X)) as [(-> & _)| ->]; try exact Logic.I;
    try (intros K; change (sval (lo X) = Xm) in K; congruence); try (intros K; change (sval (hi X) = Xm) in K; destruct (sval (hi X)); simpl in H; congruence || contradiction).
  all: first [right; intros r K; change (sval (hi X) = XR r) in K; congruence|left; intros r K; change (sval (lo X) = XR r) in K; congruence].
Qed.
Lemma mid_nan_ (X : iv S) : sval (lo X) = Xn -> sval (hi X) = Xn -> sval (mid X) = Xn.
Proof.
  intros L H. rewrite mid_eq. change (v64 (lo X) = Xn) in L. change (v64 (hi X) = Xn) in H. destruct (mid_inf (lo X) (hi X)) as [(_ & N & _)|E]; auto; try congruence. left. intros r. rewrite L. discriminate.
Qed.
Lemma step_gem_ a (X : iv S) (r : S) : sval (lo X) = XR a -> sval (hi X) = XR a -> gem 0 (sval r) -> gem a (sval (mid (iaddS X r))).
Proof.
  intros L H G. destruct (sval_fmt _ _ L) as [F M]. assert (VL : sval (lo (iaddS X r)) = xr mode_DN (xadd (XR a) (sval r))) by (rewrite <- L; apply (id_ad _ _ _ _ _ _ _ _ _ _ ID)).
  assert (VH : sval (hi (iaddS X r)) = xr mode_UP (xadd (XR a) (sval r))) by (rewrite <- H; apply (id_au _ _ _ _ _ _ _ _ _ _ ID)).
  apply mid_gem_; rewrite ?VL, ?VH; try (apply xr_gem; auto; apply gem_add; simpl; auto; lra).
  intros l h. destruct (sval r) as [q| | |]; cbn [xadd xr]; try discriminate. pose proof (rx_dn (a + q)) as D. pose proof (rx_up (a + q)) as U. intros E1 E2. rewrite E1 in D. rewrite E2 in U. simpl in *. lra.
Qed.
Lemma step_nan_ (X : iv S) (r : S) : sval (lo X) = Xn -> sval (hi X) = Xn -> sval (mid (iaddS X r)) = Xn.
Proof.
  intros L H. apply mid_nan_.
  - change (v64 (ad (lo X) r) = Xn). rewrite (id_ad _ _ _ _ _ _ _ _ _ _ ID). change (v64 (lo X)) with (sval (lo X)). rewrite L. reflexivity.
  - change (v64 (au (hi X) r) = Xn). rewrite (id_au _ _ _ _ _ _ _ _ _ _ ID). change (v64 (hi X)) with (sval (hi X)). rewrite H. reflexivity.
Qed.
Lemma sub_gem_ a (X E : iv S) : sval (lo X) = XR a -> sval (hi X) = XR a -> xle (XR a) (sval (lo E)) -> xle (sval (lo E)) (sval (hi E)) -> gem 0 (sval (mid (isub E X))).
Proof.
  intros L H G V. assert (VL : sval (lo (isub E X)) = xr mode_DN (xsub (sval (lo E)) (XR a))) by (rewrite <- H; apply (id_sd _ _ _ _ _ _ _ _ _ _ ID)).
  assert (VH : sval (hi (isub E X)) = xr mode_UP (xsub (sval (hi E)) (XR a))) by (rewrite <- L; apply (id_su _ _ _ _ _ _ _ _ _ _ ID)).
  apply mid_gem_; rewrite ?VL, ?VH.
  - apply xr_gem; [apply F0|apply M0|]. destruct (sval (lo E)); simpl in *; auto; lra.
  - apply xr_gem; [apply F0|apply M0|]. destruct (sval (lo E)), (sval (hi E)); simpl in *; auto; try lra; contradiction.
  - intros l h. destruct (sval (lo E)) as [x| | |], (sval (hi E)) as [y| | |]; cbn [xsub xneg xadd xr]; try discriminate. simpl in V. pose proof (rx_dn (x + - a)) as D. pose proof (rx_up (y + - a)) as U. intros E1 E2. rewrite E1 in D. rewrite E2 in U. simpl in *. lra.
Qed.
Lemma sub_nan_ (X E : iv S) : sval (lo X) = Xn -> sval (hi X) = Xn -> gem 0 (sval (mid (isub E X))).
Proof.
  intros L H. assert (K : sval (mid (isub E X)) = Xn); [|rewrite K; exact Logic.I]. apply mid_nan_.
  - change (v64 (sd (lo E) (hi X)) = Xn). rewrite (id_sd _ _ _ _ _ _ _ _ _ _ ID). change (v64 (hi X)) with (sval (hi X)). rewrite H. destruct (v64 (lo E)); reflexivity.
  - change (v64 (su (hi E) (lo X)) = Xn). rewrite (id_su _ _ _ _ _ _ _ _ _ _ ID). change (v64 (lo X)) with (sval (lo X)). rewrite L. destruct (v64 (hi E)); reflexivity.
Qed.
Lemma xadd_XR e1 e2 r m : xr m (xadd e1 e2) = XR r -> exists s, e2 = XR s.
Proof. destruct e1, e2; simpl; try discriminate; eauto. Qed.
Lemma add_fin_ (X Y : iv S) : (exists l h, sval (lo (iadd X Y)) = XR l /\ sval (hi (iadd X Y)) = XR h) -> exists l h, sval (lo Y) = XR l /\ sval (hi Y) = XR h.
Proof.
  intros (l & h & L & H). change (v64 (ad (lo X) (lo Y)) = XR l) in L. change (v64 (au (hi X) (hi Y)) = XR h) in H. rewrite (id_ad _ _ _ _ _ _ _ _ _ _ ID) in L. rewrite (id_au _ _ _ _ _ _ _ _ _ _ ID) in H.
  apply xadd_XR in L as [l' L]. apply xadd_XR in H as [h' H]. exists l', h'. auto.
Qed.
End Scal64.
Ltac viab b L := destruct (bscal_ideal b) as (au & ad & su & sd & mu & md & du & dd & qu & qd & I1 & E); rewrite E; exact (L _ _ _ _ _ _ _ _ _ _ I1).
Ltac viab' b L := destruct (bscal_ideal b) as (au & ad & su & sd & mu & md & du & dd & qu & qd & I1 & E); rewrite E; exact (L _ _ _ _ _ _ _ _ _ _).
Lemma div_gem b : forall r q : bscal b, gem 0 (sval r) -> posv q -> gem 0 (sval (ndiv r q)). Proof. viab' b div_gem_. Qed.
Lemma mul_gem b : forall r q : bscal b, gem 0 (sval r) -> gem 0 (sval q) -> gem 0 (sval (nmul r q)). Proof. viab' b mul_gem_. Qed.
Lemma step_gem b : forall a (X : iv (bscal b)) r, sval (lo X) = XR a -> sval (hi X) = XR a -> gem 0 (sval r) -> gem a (sval (mid (iaddS X r))). Proof. viab b step_gem_. Qed.
Lemma step_nan b : forall (X : iv (bscal b)) r, sval (lo X) = Xn -> sval (hi X) = Xn -> sval (mid (iaddS X r)) = Xn. Proof. viab b step_nan_. Qed.
Lemma sub_gem b : forall a (X E : iv (bscal b)), sval (lo X) = XR a -> sval (hi X) = XR a -> xle (XR a) (sval (lo E)) -> xle (sval (lo E)) (sval (hi E)) -> gem 0 (sval (mid (isub E X))). Proof. viab b sub_gem_. Qed.
Lemma sub_nan b : forall (X E : iv (bscal b)), sval (lo X) = Xn -> sval (hi X) = Xn -> gem 0 (sval (mid (isub E X))). Proof. viab b sub_nan_. Qed.
Lemma add_fin b : forall (X Y : iv (bscal b)), (exists l h, sval (lo (iadd X Y)) = XR l /\ sval (hi (iadd X Y)) = XR h) -> exists l h, sval (lo Y) = XR l /\ sval (hi Y) = XR h. Proof. viab b add_fin_. Qed.
Lemma slt_gem b : forall x : bscal b, slt x s0 = false -> gem 0 (sval x).
Proof. destruct b as [| |fm]; exact ltb_gem. Qed.

(* ---- finite results come from finite initial boxes ---- *)
Section Long.
Variables (b : backend) (fuel : nat).
Notation B := (Ibase (bpar b) fuel).
Variable root : bscal b -> nat -> bscal b.
Variables (n : nat) (es : nat -> aexpr).
Hypothesis WF : forall i, (i < n)%nat -> awf (S n) (es i).
Hypothesis PL : forall i, (i < n)%nat -> plog (es i).
Hypothesis NA : forall i, (i < n)%nat -> noarc (es i) = true.
Hypothesis RT : forall m k, posv (root m k).
Definition fbox (X : iv (bscal b)) : Prop := exists l h, sval (lo X) = XR l /\ sval (hi X) = XR h.
Definition hdin (init : nat -> iv (bscal b)) (w : nat -> list B) : Prop := forall i, (i < n)%nat -> exists c r, w i = (iadd c (init i) : bT B) :: r.
Lemma pic_head init ord x t w st st' : ode_pic (bpar b) fuel n es init ord x t st = (Ok w, st') -> hdin init w.
Proof.
  intros E i Hi. destruct (pic_parts b fuel n es init ord x t w st st' E) as (y & J & W & _ & _ & _ & EA). specialize (EA i Hi). destruct (W i) as [|c q]; [discriminate EA|]. unfold ps_addT, PsaModel.head in EA. apply oki in EA. exists c, q. auto.
Qed.
Lemma setco_head init w v p : (1 <= p)%nat -> hdin init w -> hdin init (fun i => setco (bpar b) fuel (w i) p (v i)).
Proof.
  intros P1 H i Hi. destruct (H i Hi) as (c & r & E). rewrite E. destruct p as [|p]; [lia|]. unfold setco. cbn [firstn app]. eauto.
Qed.
Lemma refine_head p init t k : (1 <= op_order p)%nat -> forall w w' st st', hdin init w -> ode_refine (bpar b) fuel n es k p init t w st = (Ok w', st') -> hdin init w'.
Proof.
  intros P1. induction k as [|k IH]; intros w w' st st' H E; cbn [ode_refine] in E; [unfold hret, hlift in E; apply pair_equal_spec in E as [E _]; apply oki in E; now subst|].
  apply hb_ok in E as (v & s1 & EV & E). revert E. apply IH. apply setco_head; auto. exact (pic_head _ _ _ _ _ _ _ EV).
Qed.
Lemma horner_fin init w E i : (i < n)%nat -> hdin init w -> fbox (ps_eval (B:=B) (w i) E) -> fbox (init i).
Proof.
  intros Hi H F. destruct (H i Hi) as (c & r & EW). rewrite EW in F. unfold ps_eval in F. destruct r as [|c1 r]; cbn [hornerT] in F.
  - apply (add_fin b) in F. exact F.
  - change (badd ?x ?y) with (iadd x y) in F. apply (add_fin b) in F. apply (add_fin b) in F. exact F.
Qed.
Lemma ode_fin fast f p init start end_ st r box e2 w st' : (1 <= op_order p)%nat -> ode (bpar b) fuel root n es fast f p init start end_ st = (Ok (r, box, e2, w), st') -> r <> 0%Z ->
  (forall i, (i < n)%nat -> fbox (box i)) -> forall i, (i < n)%nat -> fbox (init i).
Proof.
  intros P1 E RN HB i Hi. destruct (ode_parts b fuel root n es _ _ _ _ _ _ _ _ _ _ _ _ E) as (x & s1 & w1 & t & deltat & end2 & ret & s2 & EX & EW & [(_ & C & _)|(R0 & -> & -> & -> & s3 & ER & _)]); [congruence|].
  destruct (while_any b fuel root n es (fun _ => True) f p init start end_ x _ _ _ _ (set_mode 2 s1) w1 t deltat end2 ret s2 (fun _ _ _ => Logic.I) (fun _ _ => Logic.I) (fun _ _ _ => Logic.I) Logic.I Logic.I eq_refl EW R0) as (_ & _ & ns & st1 & _ & _ & EP).
  apply (horner_fin init w deltat i Hi); [|exact (HB i Hi)]. apply (refine_head p init t (op_iter p) P1 w1 w s2 s3); auto. exact (pic_head _ _ _ _ _ _ _ EP).
Qed.
(* ---- the ends of the steps ---- *)
Notation Pr := (fun r : bscal b => gem 0 (sval r)).
Lemma sdy_gem m e : (0 <= m <= 2 ^ 53)%Z -> (-900 <= e <= 900)%Z -> Pr (sdy m e).
Proof. intros M E. destruct (ok_dy _ (bok b) m e ltac:(lia) E) as [_ V]. cbv beta. rewrite V. simpl. apply Rmult_le_pos; [apply IZR_le; lia|apply bpow_ge_0]. Qed.
Lemma s0_posv : posv (S:=bscal b) s0.
Proof. split; destruct b as [| |fm]; vm_compute; reflexivity. Qed.
Lemma rad_posv (x : nat -> list B) k : forall radius nrad, posv radius -> posv (ode_rad (bpar b) fuel root n x k radius nrad).
Proof.
  induction k as [|k IH]; intros radius nrad H; cbn [ode_rad]; auto. destruct (seqb _ s0); [auto|].
  assert (H' : forall m, posv (smaxS radius (root m (Datatypes.S k)))) by (intros m; unfold smaxS; destruct (slt _ _); auto).
  cbv zeta. destruct (nrad + 1 =? 2)%nat; auto.
Qed.
Lemma pr_shrink r q : Pr r -> Pr (nmul r (smaxS (sminS (sdy 1 (-1)) (ndiv (sdy 1 (-1)) q)) (sdy 1 (-3)))).
Proof.
  intros H. apply (mul_gem b); auto. unfold smaxS. match goal with |- context [slt ?x ?y] => destruct (slt x y) eqn:EL end; [apply sdy_gem; lia|].
  unfold sminS in *. match goal with |- context [slt ?x ?y] => destruct (slt x y) eqn:EM end; [|apply sdy_gem; lia].
  set (y := ndiv (sdy 1 (-1)) q) in *. destruct (ok_dy _ (bok b) 1 (-3) ltac:(lia) ltac:(lia)) as [W3 V3].
  assert (WY : swf y) by (destruct b; exact Logic.I). pose proof (ok_lt _ (bok b) y _ WY W3) as LT. rewrite V3, EL in LT. destruct (sval y) as [v| | |]; simpl; auto.
  - destruct (Rle_lt_dec 0 v); auto. exfalso. assert (F : false = true); [|discriminate F]. apply LT. simpl. lra.
  - assert (F : false = true); [|discriminate F]. apply LT. exact Logic.I.
Qed.
Lemma pr_radius p tol x : Pr (ode_radius (bpar b) fuel root n p tol x).
Proof. unfold ode_radius. apply (div_gem b); [apply (slt_gem b), RT|]. apply rad_posv, s0_posv. Qed.
Definition pnt (t : iv (bscal b)) (a : R) : Prop := sval (lo t) = XR a /\ sval (hi t) = XR a.
Definition nanb (t : iv (bscal b)) : Prop := sval (lo t) = Xn /\ sval (hi t) = Xn.
Variables (p : ode_param (bscal b)) (end_ : iv (bscal b)).
Hypothesis AU : op_auto p = true.
Hypothesis P1 : (1 <= op_order p)%nat.
Hypothesis P2 : (Z.of_nat (op_order p) < 2 ^ 51)%Z.
Hypothesis VE : ivalid end_.
Lemma swf_b (x : bscal b) : swf x. Proof. destruct b; exact Logic.I. Qed.
Lemma step_pnt fast f init start st r box e2 w st' a : pnt start a -> xle (XR a) (sval (lo end_)) -> ode (bpar b) fuel root n es fast f p init start end_ st = (Ok (r, box, e2, w), st') -> r <> 0%Z ->
  (r = 1%Z /\ ((exists c, pnt e2 c /\ a <= c /\ xle (XR c) (sval (lo end_))) \/ nanb e2)) \/ (r = 2%Z /\ e2 = end_).
Proof.
  intros [SL SH] LE E RN.
  destruct (ode_time b fuel root n es Pr fast f p init start end_ st r box e2 w st' pr_shrink (fun r H => mul_gem b r _ H (sdy_gem 1 (-1) ltac:(lia) ltac:(lia))) (fun r m H => div_gem b r _ H (RT _ _))
    (sub_gem b a start end_ SL SH LE (proj2 (proj2 (proj2 (proj2 VE))))) (fun x => pr_radius p _ x) E RN) as [(-> & _ & G & rd & HR & ->)|(-> & -> & _)]; [left|right; auto]. split; auto.
  pose proof (step_gem b a start rd SL SH HR) as GM. unfold igeS in G. cbn [lo ipt] in G. pose proof (ok_le _ (bok b) (lo end_) (mid (iaddS start rd)) (swf_b _) (swf_b _)) as OL. rewrite G in OL.
  destruct (sval (mid (iaddS start rd))) as [c| | |] eqn:EM; simpl in GM; try contradiction.
  - left. exists c. split; [split; exact EM|]. split; auto. destruct (sval (lo end_)) as [l| | |]; simpl in *; auto; try contradiction.
    destruct (Rle_lt_dec c l); auto. exfalso. assert (F : false = true); [|discriminate F]. apply OL. lra.
  - exfalso. assert (F : false = true); [|discriminate F]. apply OL. destruct (sval (lo end_)); simpl in *; auto; contradiction.
  - right. split; exact EM.
Qed.
Lemma step_nanb fast f init start st r box e2 w st' : nanb start -> ode (bpar b) fuel root n es fast f p init start end_ st = (Ok (r, box, e2, w), st') -> r <> 0%Z -> r = 1%Z /\ nanb e2.
Proof.
  intros [SL SH] E RN.
  destruct (ode_time b fuel root n es (fun _ => True) fast f p init start end_ st r box e2 w st' (fun _ _ _ => Logic.I) (fun _ _ => Logic.I) (fun _ _ _ => Logic.I) Logic.I (fun _ => Logic.I) E RN) as [(-> & _ & G & rd & _ & ->)|(-> & -> & K)].
  - split; auto. split; cbn [lo hi ipt]; now apply (step_nan b).
  - destruct (K AU) as (rd & KR). exfalso. unfold igeS in KR. cbn [lo ipt] in KR. apply (ok_le _ (bok b) _ _ (swf_b _) (swf_b _)) in KR. rewrite (step_nan b start rd SL SH) in KR. destruct (sval (lo end_)); exact KR.
Qed.
(* ---- the loop ---- *)
Variables (x0 : nat -> R) (t0 : R).
Definition got (x : nat -> iv (bscal b)) (t : iv (bscal b)) (a : R) : Prop := t0 <= a /\ exists phi, unique_solution n es t0 a x0 phi /\ forall i, (i < n)%nat -> isin (x i) (phi i a).
Definition linv (x : nat -> iv (bscal b)) (t : iv (bscal b)) : Prop :=
  nanb t \/ exists a, pnt t a /\ xle (XR a) (sval (lo end_)) /\ ((forall i, (i < n)%nat -> fbox (x i)) -> got x t a).
Lemma isin_pnt t a : pnt t a -> isin t a.
Proof. intros [L H]. split; [apply swf_b|]. split; [apply swf_b|]. rewrite L, H. simpl. lra. Qed.
Lemma step_got fast f x t st r box e2 w st' a c : isin t a -> isin e2 c -> a <= c -> ode (bpar b) fuel root n es fast f p x t end_ st = (Ok (r, box, e2, w), st') -> r <> 0%Z ->
  (forall i, (i < n)%nat -> fbox (box i)) -> got x t a -> got box e2 c.
Proof.
  intros HT HC LE E RN HB (L0 & phi & US & IN). split; [lra|].
  assert (DOM : forall i, (i < n)%nat -> adom (es i) (at_time n (fun j => phi j a) a)) by (intros i Hi; apply US; auto; lra).
  destruct (ode_ok b fuel root n es WF PL NA (fun j => phi j a) a x t IN HT DOM fast f p end_ st r box e2 w st' c P1 P2 E RN HC LE) as (psi & UP & IP). { intros i Hi. apply bounded_bnd, HB; auto. }
  pose proof (ode_adiff b fuel root n es WF PL NA (fun j => phi j a) a x t IN HT DOM fast f p end_ st r box e2 w st' P1 P2 E) as AD.
  exists (glue a phi psi). split; [apply glue_unique; auto|]. intros i Hi. unfold glue. destruct (Rle_dec c a) as [L|L]; [|auto]. assert (c = a) by lra. subst c. rewrite <- (proj1 (proj1 UP) i Hi). auto.
Qed.
Lemma loop_ok fast g f init : forall ret x t st r box e2 st', linv x t -> (ret = 0%Z \/ ret = 1%Z) -> odelong_loop (bpar b) fuel root n es fast g f p init end_ ret x t st = (Ok (r, box, e2), st') -> r <> 0%Z ->
  (forall i, (i < n)%nat -> fbox (box i)) -> forall t1, isin e2 t1 -> got box e2 t1.
Proof.
  induction g as [|g IH]; intros ret x t st r box e2 st' LI HR E RN HB t1 HT; [discriminate E|]. cbn [odelong_loop] in E. apply hb_ok in E as ([[[rr xx] tt] ww] & s1 & EO & E).
  destruct (Z.eqb_spec rr 0) as [Z0|Z0].
  - unfold hret, hlift in E. apply pair_equal_spec in E as [E _]. apply oki in E. destruct (Z.eqb_spec ret 1) as [Z1|Z1]; repeat (apply pair_equal_spec in E as [E ?]); subst; [|destruct HR; congruence].
    destruct LI as [[NL _]|(a & PT & _ & K)]; [exfalso; destruct HT as (_ & _ & LB & _); rewrite NL in LB; exact LB|].
    assert (t1 = a). { destruct PT as [A1 A2]. destruct HT as (_ & _ & LB & UB). rewrite A1 in LB. rewrite A2 in UB. simpl in *. lra. } subst t1. auto.
  - destruct (Z.eqb_spec rr 2) as [Z2|Z2].
    + unfold hret, hlift in E. apply pair_equal_spec in E as [E _]. apply oki in E. repeat (apply pair_equal_spec in E as [E ?]). subst. destruct LI as [N|(a & PT & LE & K)]; [destruct (step_nanb _ _ _ _ _ _ _ _ _ _ N EO Z0); discriminate|].
      destruct (step_pnt _ _ _ _ _ _ _ _ _ _ a PT LE EO Z0) as [(C & _)|(_ & ->)]; [discriminate C|].
      assert (a <= t1). { destruct HT as (_ & _ & LB & _). destruct (sval (lo end_)); simpl in *; try contradiction; lra. }
      eapply (step_got fast f x t); eauto. apply isin_pnt; auto. apply K. eapply ode_fin; eauto.
    + revert E RN HB t1 HT. apply (IH 1%Z xx tt s1 r box e2 st'); auto. destruct LI as [N|(a & PT & LE & K)]; [left; eapply step_nanb; eauto|].
      destruct (step_pnt _ _ _ _ _ _ _ _ _ _ a PT LE EO Z0) as [(_ & [(c & PC & AC & LC)|N])|(C & _)]; [|left; exact N|congruence].
      right. exists c. split; auto. split; auto. intros FB. eapply (step_got fast f x t); eauto using isin_pnt. apply K. eapply ode_fin; eauto.
Qed.
Theorem odelong_ok fast g f init start st r box e2 st' t1 : pnt start t0 -> xle (XR t0) (sval (lo end_)) -> (forall i, (i < n)%nat -> isin (init i) (x0 i)) -> (forall i, (i < n)%nat -> adom (es i) (at_time n x0 t0)) ->
  odelong_loop (bpar b) fuel root n es fast g f p init end_ 0 init start st = (Ok (r, box, e2), st') -> r <> 0%Z -> isin e2 t1 -> (forall i, (i < n)%nat -> fbox (box i)) ->
  t0 <= t1 /\ exists phi, unique_solution n es t0 t1 x0 phi /\ forall i, (i < n)%nat -> isin (box i) (phi i t1).
Proof.
  intros PS LE IN DOM E RN HT HB. apply (loop_ok fast g f init 0 init start st r box e2 st'); auto. right. exists t0. split; auto. split; auto. intros _. split; [lra|]. exists (fun i _ => x0 i). split; auto.
  assert (SOL : solution n es t0 t0 x0 (fun i _ => x0 i)).
  { split; auto. split; [intros i t Hi Ht; replace t with t0 by lra; apply DOM; auto|]. split; [intros; lra|]. intros i t Hi Ht e He. exists 1. split; [lra|]. intros. now rewrite Rminus_eq_0, Rabs_R0. }
  split; auto. intros t' psi Ht' (A & _) i t Hi Ht. replace t with t0 by lra. auto.
Qed.
End Long.

Lemma loop_return b fuel (root : bscal b -> nat -> bscal b) n es p end_ fast f init : forall g ret x t st r box e2 st', (ret = 0%Z \/ (ret = 1%Z /\ igeS t (lo end_) = false)) ->
  odelong_loop (bpar b) fuel root n es fast g f p init end_ ret x t st = (Ok (r, box, e2), st') ->
  (r = 0%Z /\ box = init /\ e2 = end_) \/ (r = 1%Z /\ igeS e2 (lo end_) = false) \/ (r = 2%Z /\ e2 = end_).
Proof.
  induction g as [|g IH]; intros ret x t st r box e2 st' H E; [discriminate E|]. cbn [odelong_loop] in E. apply hb_ok in E as ([[[rr xx] tt] ww] & s1 & EO & E).
  apply ode_return in EO. destruct (Z.eqb_spec rr 0) as [Z0|Z0]; [|destruct (Z.eqb_spec rr 2) as [Z2|Z2]].
  - unfold hret, hlift in E. apply pair_equal_spec in E as [E _]. apply oki in E. destruct H as [->|(-> & G)]; simpl in E; repeat (apply pair_equal_spec in E as [E ?]); subst; auto.
  - unfold hret, hlift in E. apply pair_equal_spec in E as [E _]. apply oki in E. repeat (apply pair_equal_spec in E as [E ?]); subst; auto.
  - apply IH in E; auto. right. split; auto. destruct EO as [(C & _)|[(_ & _ & G)|(C & _)]]; auto; congruence.
Qed.
Theorem odelong_return : forall b fuel (root : bscal b -> nat -> bscal b) n es fast g f p (init : nat -> iv (bscal b)) start end_ st r box e2 st',
  odelong (bpar b) fuel root n es fast g f p init start end_ st = (Ok (r, box, e2), st') ->
  (r = 0%Z /\ box = init /\ e2 = end_) \/ (r = 1%Z /\ igeS e2 (lo end_) = false) \/ (r = 2%Z /\ e2 = end_).
Proof. intros b fuel root n es fast g f p init start end_ st r box e2 st' E. eapply loop_return; [|exact E]. auto. Qed.
