(* Base types of automatic differentiation: exact reals, and intervals. *)
From Coq Require Import Reals Lra Lia Psatz ZArith Bool List Arith FunctionalExtensionality.
From Flocq Require Import Core.
From Verif Require Import Ext Scalar IntervalModel IntervalSpec IntervalProofs IntervalEncl IntervalSets
  IntervalDivPow IntervalMore.
From Verif Require Import ElemModel RealFun RealConst RealInv ElemGen ElemExp ElemLog ElemTrig ElemConst.
From Verif Require Import LinAlg RealRn VecModel VecProofs KrawProofs ADModel ADReal ADProofs.
Import ListNotations.
Open Scope R_scope.

(* ---- exact arithmetic: operations outside their domain fail ---- *)
Definition rdiv_ (x y : R) : res R := if Req_EM_T y 0 then Err EDomain else Ok (x / y).
Definition fclo_dec (f : afun) (x : R) : {fdom f x} + {~ fdom f x}.
Proof.
  destruct f; simpl; try (left; exact I).
  - apply Rlt_dec.
  - apply Rle_dec.
  - destruct (Req_EM_T (cos x) 0); [right; auto|left; auto].
  - destruct (Rle_dec (-1) x), (Rle_dec x 1); [left|right|right|right]; lra.
  - destruct (Rle_dec (-1) x), (Rle_dec x 1); [left|right|right|right]; lra.
  - apply Rle_dec.
  - destruct (Rlt_dec (-1) x), (Rlt_dec x 1); [left|right|right|right]; lra.
Defined.
Definition rfun_ (f : afun) (x : R) : res R := if fclo_dec f x then Ok (frl f x) else Err EDomain.
Definition rpow_ (x : R) (n : Z) : res R :=
  if (n <? 0)%Z then (if Req_EM_T x 0 then Err EDomain else Ok (powerRZ x n)) else Ok (powerRZ x n).
Definition Rbase : base := mkbase R dy Rplus Rminus Rmult Ropp rdiv_
  (fun x m e => x + dy m e) (fun m e x => dy m e + x) (fun x m e => x - dy m e) (fun m e x => dy m e - x)
  (fun x m e => x * dy m e) (fun m e x => dy m e * x) (fun x m e => rdiv_ x (dy m e)) (fun m e x => rdiv_ (dy m e) x)
  rpow_ rfun_.
Lemma rdiv_ok x y q : rdiv_ x y = Ok q -> y <> 0 /\ q = x / y.
Proof. unfold rdiv_. destruct Req_EM_T; [discriminate|]. intros [= <-]; auto. Qed.
Lemma Rbase_ok : base_ok Rbase (@eq R).
Proof.
  constructor; simpl.
  - auto.
  - intros; subst; auto.
  - intros; subst; auto.
  - intros; subst; auto.
  - intros; subst; auto.
  - intros X Y Q x y H <- <-. apply rdiv_ok in H. auto.
  - intros; subst; auto.
  - intros; subst; auto.
  - intros; subst; auto.
  - intros; subst; auto.
  - intros; subst; auto.
  - intros; subst; auto.
  - intros X x m e Q _ H <-. apply rdiv_ok in H. auto.
  - intros X x m e Q _ H <-. apply rdiv_ok in H. auto.
  - intros X n Q x H <-. unfold rpow_ in H. destruct (Z.ltb_spec n 0).
    + destruct Req_EM_T; [discriminate|]. injection H as <-. auto.
    + injection H as <-. split; auto. lia.
  - intros f X Q x H <- _. unfold rfun_ in H. destruct fclo_dec; [|discriminate]. now injection H as <-.
  - intros f X Q x H <-. unfold rfun_ in H. destruct fclo_dec; [|discriminate]. now apply fclo_dom.
Qed.
(* evaluation succeeds wherever the expression is differentiable *)
Section Total.
Variable n : nat.
Variable x : nat -> R.
Notation inv := (adinv Rbase (@eq R) n).
Lemma zip_total (f : R -> R -> res R) a b : length a = length b -> (forall x y, exists z, f x y = Ok z) -> exists d, zipM (B := Rbase) f a b = Ok d.
Proof.
  intros L HF. revert b L. induction a; intros [|y b] L; try discriminate; simpl; [eexists; eauto|].
  destruct (HF a y) as [z ->]. destruct (IHa b) as [d Hd]; [now injection L|]. simpl. rewrite Hd. simpl. eauto.
Qed.
Lemma map_total (f : R -> res R) a : (forall x, exists z, f x = Ok z) -> exists d, mapM (B := Rbase) f a = Ok d.
Proof. intros HF. induction a as [|a l [d Hd]]; simpl; [eexists; eauto|]. destruct (HF a) as [z ->]. simpl. rewrite Hd. simpl. eauto. Qed.
Lemma inv_len f (a : ad Rbase) : inv f x a -> adv a = [] \/ length (adv a) = n.
Proof. intros [_ [[E _]|(_ & L & _)]]; auto. Qed.
Lemma rdiv_total a y : y <> 0 -> rdiv_ a y = Ok (a / y).
Proof. unfold rdiv_. intros. destruct Req_EM_T; [contradiction|]. auto. Qed.
Lemma rfun_total f y : fdom f y -> rfun_ f y = Ok (frl f y).
Proof. unfold rfun_. intros. destruct fclo_dec; [auto|contradiction]. Qed.
Lemma add_total f g (a b : ad Rbase) : inv f x a -> inv g x b -> exists r, ad_add a b = Ok r.
Proof.
  intros IA IB. apply inv_len in IA. apply inv_len in IB. unfold ad_add. destruct (adv a) as [|a1 al], (adv b) as [|b1 bl]; eauto.
  destruct (zip_total (fun x y => Ok (x + y)) (a1 :: al) (b1 :: bl)) as [d Hd]; [destruct IA, IB; try discriminate; congruence|eauto|].
  change (@badd Rbase) with Rplus. simpl bT in *. rewrite Hd. simpl. eauto.
Qed.
Lemma sub_total f g (a b : ad Rbase) : inv f x a -> inv g x b -> exists r, ad_sub a b = Ok r.
Proof.
  intros IA IB. apply inv_len in IA. apply inv_len in IB. unfold ad_sub. destruct (adv a) as [|a1 al], (adv b) as [|b1 bl]; eauto.
  destruct (zip_total (fun x y => Ok (x - y)) (a1 :: al) (b1 :: bl)) as [d Hd]; [destruct IA, IB; try discriminate; congruence|eauto|].
  change (@bsub Rbase) with Rminus. simpl bT in *. rewrite Hd. simpl. eauto.
Qed.
Lemma mul_total f g (a b : ad Rbase) : inv f x a -> inv g x b -> exists r, ad_mul a b = Ok r.
Proof.
  intros IA IB. apply inv_len in IA. apply inv_len in IB. unfold ad_mul. destruct (adv a) as [|a1 al], (adv b) as [|b1 bl]; eauto.
  destruct (zip_total (fun x y => Ok (av b * x + av a * y)) (a1 :: al) (b1 :: bl)) as [d Hd]; [destruct IA, IB; try discriminate; congruence|eauto|].
  change (@badd Rbase) with Rplus. change (@bmul Rbase) with Rmult. simpl bT in *. rewrite Hd. simpl. eauto.
Qed.
Lemma div_total f g (a b : ad Rbase) : inv f x a -> inv g x b -> g x <> 0 -> exists r, ad_div a b = Ok r.
Proof.
  intros IA IB NZ. pose proof (proj1 IB) as EB. apply inv_len in IA. apply inv_len in IB. unfold ad_div.
  change (@bdiv Rbase) with rdiv_. change (@bmul Rbase) with Rmult. change (@badd Rbase) with Rplus. change (@bneg Rbase) with Ropp.
  rewrite EB. rewrite rdiv_total by auto. cbn [bind].
  assert (N2 : g x * g x <> 0) by (intros E; apply Rmult_integral in E; tauto).
  rewrite rdiv_total by auto. cbn [bind].
  destruct (adv a) as [|a1 al], (adv b) as [|b1 bl]; eauto.
  - destruct (map_total (fun x0 => rdiv_ x0 (g x)) (a1 :: al)) as [d Hd]; [intros; rewrite rdiv_total; eauto|].
    simpl bT in *. rewrite Hd. simpl. eauto.
  - destruct (zip_total (fun x0 y => do q <- rdiv_ x0 (g x); Ok (q + y * (- av a / (g x * g x)))) (a1 :: al) (b1 :: bl)) as [d Hd];
    [destruct IA, IB; try discriminate; congruence|intros; rewrite rdiv_total by auto; simpl; eauto|].
    simpl bT in *. rewrite Hd. simpl. eauto.
Qed.
Lemma fun_total f g (a : ad Rbase) : inv g x a -> fdiff f (g x) -> exists r, ad_fun f a = Ok r.
Proof.
  intros IA FD. pose proof (proj1 IA) as EA. unfold ad_fun. cbv zeta. rewrite EA.
  change (@bfun Rbase) with rfun_. rewrite (rfun_total f) by (apply fdiff_dom; auto). cbn [bind].
  change (@bdiv Rbase) with rdiv_. change (@bmul Rbase) with Rmult. change (@bSmul Rbase) with (fun m e y => dy m e * y).
  change (@bSsub Rbase) with (fun m e y => dy m e - y). change (@bSadd Rbase) with (fun m e y => dy m e + y).
  change (@baddS Rbase) with (fun y m e => y + dy m e). change (@bsubS Rbase) with (fun y m e => y - dy m e).
  change (@bSdiv Rbase) with (fun m e y => rdiv_ (dy m e) y). cbv beta. rewrite !dy_int.
  destruct f; cbn [fdiff fdom frl] in *; unfold ad_scale; eauto.
  - destruct (map_total (fun y => rdiv_ y (g x)) (adv a)) as [d Hd]; [intros; rewrite rdiv_total by lra; eauto|]. simpl bT in *. rewrite Hd. simpl. eauto.
  - pose proof (sqrt_lt_R0 _ FD). destruct (map_total (fun y => rdiv_ y (2 * sqrt (g x))) (adv a)) as [d Hd]; [intros; rewrite rdiv_total by lra; eauto|].
    simpl bT in *. rewrite Hd. simpl. eauto.
  - rewrite rfun_total by (simpl; auto). cbn [bind frl]. eauto.
  - rewrite rfun_total by (simpl; auto). cbn [bind frl]. eauto.
  - rewrite rfun_total by (simpl; auto). cbn [bind frl]. rewrite rdiv_total; [simpl; eauto|]. intros E. apply Rmult_integral in E; tauto.
  - rewrite rfun_total by (simpl; nra). cbn [bind frl]. rewrite rdiv_total; [simpl; eauto|].
    apply Rgt_not_eq, sqrt_lt_R0. nra.
  - rewrite rfun_total by (simpl; nra). cbn [bind frl]. rewrite rdiv_total; [simpl; eauto|].
    apply Rgt_not_eq, sqrt_lt_R0. nra.
  - rewrite rdiv_total; [simpl; eauto|]. nra.
  - rewrite rfun_total by (simpl; auto). cbn [bind frl]. eauto.
  - rewrite rfun_total by (simpl; auto). cbn [bind frl]. eauto.
  - rewrite rfun_total by (simpl; auto). cbn [bind frl]. rewrite rdiv_total; [simpl; eauto|]. pose proof (cosh_pos (g x)). nra.
  - rewrite rfun_total by (simpl; nra). cbn [bind frl]. rewrite rdiv_total; [simpl; eauto|].
    apply Rgt_not_eq, sqrt_lt_R0. nra.
  - rewrite rfun_total by (simpl; nra). cbn [bind frl]. rewrite rdiv_total; [simpl; eauto|].
    apply Rgt_not_eq, sqrt_lt_R0. nra.
  - rewrite rdiv_total; [simpl; eauto|]. nra.
Qed.
Lemma powz_total g (a : ad Rbase) k : inv g x a -> ((k < 0)%Z -> g x <> 0) -> exists r, ad_powz a k = Ok r.
Proof.
  intros IA NZ. pose proof (proj1 IA) as EA. unfold ad_powz. change (@bpowi Rbase) with rpow_. rewrite EA.
  assert (T : forall j, ((j < 0)%Z -> g x <> 0) -> rpow_ (g x) j = Ok (powerRZ (g x) j)).
  { intros j Hj. unfold rpow_. destruct (Z.ltb_spec j 0); auto. destruct Req_EM_T; auto. exfalso. apply Hj; auto. }
  rewrite T by auto. cbn [bind]. destruct (Z.eqb_spec k 0); [simpl; eauto|]. rewrite T by (intros; apply NZ; lia). cbn [bind]. eauto.
Qed.
Lemma sc_total g (a : ad Rbase) o m e : inv g x a -> match o with SOdiv => dy m e <> 0 | SOdivr => g x <> 0 | _ => True end ->
  exists r, ad_sc o m e a = Ok r.
Proof.
  intros IA NZ. pose proof (proj1 IA) as EA. destruct o; simpl; eauto.
  - rewrite rdiv_total by auto. cbn [bind]. destruct (map_total (fun y => rdiv_ y (dy m e)) (adv a)) as [d Hd]; [intros; rewrite rdiv_total by auto; eauto|].
    simpl in *. rewrite Hd. simpl. eauto.
  - rewrite EA. rewrite rdiv_total by auto. cbn [bind]. rewrite rdiv_total; [simpl; eauto|]. intros E. apply Rmult_integral in E; tauto.
Qed.
Lemma aeval_total e : awf n e -> adiff e x -> exists r, aeval (@ad_init Rbase n x) e = Ok r.
Proof.
  intros W D.
  assert (II : forall e r, awf n e -> adiff e x -> aeval (@ad_init Rbase n x) e = Ok r -> inv (rval e) x r).
  { intros e' r W' D' H'. eapply (aeval_inv Rbase _ Rbase_ok); eauto; [|apply adiff_dom; auto].
    intros i Hi. apply (init_inv Rbase _ Rbase_ok); auto. }
  induction e; simpl in *; eauto.
  - destruct IHe1 as [a Ha]; try tauto. destruct IHe2 as [b Hb]; try tauto. rewrite Ha. cbn [bind]. rewrite Hb. cbn [bind].
    apply (add_total (rval e1) (rval e2)); apply II; tauto.
  - destruct IHe1 as [a Ha]; try tauto. destruct IHe2 as [b Hb]; try tauto. rewrite Ha. cbn [bind]. rewrite Hb. cbn [bind].
    apply (sub_total (rval e1) (rval e2)); apply II; tauto.
  - destruct IHe1 as [a Ha]; try tauto. destruct IHe2 as [b Hb]; try tauto. rewrite Ha. cbn [bind]. rewrite Hb. cbn [bind].
    apply (mul_total (rval e1) (rval e2)); apply II; tauto.
  - destruct IHe1 as [a Ha]; try tauto. destruct IHe2 as [b Hb]; try tauto. rewrite Ha. cbn [bind]. rewrite Hb. cbn [bind].
    apply (div_total (rval e1) (rval e2)); try apply II; tauto.
  - destruct IHe as [a Ha]; try tauto. rewrite Ha. cbn [bind]. apply (sc_total (rval e0)); try apply II; tauto.
  - destruct IHe as [a Ha]; try tauto. rewrite Ha. cbn [bind]. eauto.
  - destruct IHe as [a Ha]; try tauto. rewrite Ha. cbn [bind]. apply (powz_total (rval e)); try apply II; tauto.
  - destruct IHe1 as [a Ha]; try tauto. destruct IHe2 as [b Hb]; try tauto. rewrite Ha. cbn [bind]. rewrite Hb. cbn [bind].
    unfold ad_pow. assert (IA : inv (rval e1) x a) by (apply II; tauto). assert (IB : inv (rval e2) x b) by (apply II; tauto).
    destruct (fun_total Alog _ _ IA) as [l Hl]; [simpl; tauto|]. rewrite Hl. cbn [bind].
    pose proof (inv_fun Rbase _ Rbase_ok n _ x a Alog l Hl IA ltac:(simpl; tauto)) as IL.
    destruct (mul_total _ _ _ _ IB IL) as [p Hp]. rewrite Hp. cbn [bind].
    pose proof (inv_mul Rbase _ Rbase_ok n _ _ x b l p Hp IB IL) as IP. apply (fun_total Aexp _ _ IP). simpl. auto.
  - destruct IHe as [a Ha]; try tauto. rewrite Ha. cbn [bind]. apply (fun_total f (rval e)); try apply II; tauto.
Qed.
End Total.

(* ---- intervals ---- *)
Definition ifun_ {S : scal} (P : elemp S) (fuel : nat) (f : afun) : iv S -> res (iv S) :=
  match f with
  | Aexp => iexp S P fuel | Alog => ilog S P fuel | Asqrt => isqrt
  | Asin => isin_ S P fuel | Acos => icos S P fuel | Atan_ => itan S P fuel
  | Aasin => iasin S P fuel | Aacos => iacos S P fuel | Aatan => iatan S P fuel
  | Asinh => isinh S P fuel | Acosh_ => icosh S P fuel | Atanh_ => itanh S P fuel
  | Aasinh => iasinh S P fuel | Aacosh => iacosh S P fuel | Aatanh => iatanh S P fuel
  end.
Definition Ibase {S : scal} (P : elemp S) (fuel : nat) : base :=
  mkbase (iv S) (fun m e => ipt (sdy m e)) iadd isub imul ineg idiv
  (fun x m e => iaddS x (sdy m e)) (fun m e x => iSadd (sdy m e) x) (fun x m e => isubS x (sdy m e)) (fun m e x => iSsub (sdy m e) x)
  (fun x m e => imulS x (sdy m e)) (fun m e x => iSmul (sdy m e) x) (fun x m e => idivS x (sdy m e)) (fun m e x => iSdiv (sdy m e) x)
  ipow (ifun_ P fuel).
Section Iok.
Context {S : scal} (OK : scal_ok S) (P : elemp S) (LE : exp_laws S P) (LL : log_laws S P) (LT : trig_laws S P).
Lemma ilog_dom f X x Q : ilog S P f X = Ok Q -> isin X x -> 0 <= x.
Proof using OK.
  intros H (W1 & W2 & L & U). unfold ilog in H. destruct (slt (lo X) s0) eqn:E; [discriminate|].
  apply (gt0_false OK) in E; auto; [|intros N; rewrite N in L; simpl in L; auto].
  destruct (sval (lo X)); simpl in *; tauto || lra.
Qed.
Lemma iatanh_dom f X x Q : iatanh S P f X = Ok Q -> isin X x -> -1 <= x <= 1.
Proof using OK.
  intros H (W1 & W2 & L & U). unfold iatanh, by_ends in H.
  apply bind_ok in H as (a & Ha & H). apply bind_ok in H as (b & Hb & _).
  pose proof (sneg_v OK _ (s1_wf OK)) as EN. rewrite (s1_v OK) in EN. simpl in EN.
  assert (WN : swf (@sneg S s1)) by (apply (sneg_wf OK), (s1_wf OK)).
  split.
  - destruct (sval (lo X)) as [l| | |] eqn:E; simpl in L; try tauto.
    + pose proof (atanh_point_dom OK P _ _ _ _ W1 E Ha). lra.
    + exfalso. unfold atanh_point in Ha.
      assert (slt (lo X) (sneg s1) = true) as C by (apply (ok_lt _ OK); auto; rewrite EN, E; simpl; auto). rewrite C in Ha. discriminate.
  - destruct (sval (hi X)) as [l| | |] eqn:E; simpl in U; try tauto.
    + pose proof (atanh_point_dom OK P _ _ _ _ W2 E Hb). lra.
    + exfalso. unfold atanh_point in Hb.
      assert (slt s1 (hi X) = true) as C by (apply (ok_lt _ OK); auto; [apply (s1_wf OK)|]; rewrite (s1_v OK), E; simpl; auto).
      rewrite C, orb_true_r in Hb. discriminate.
Qed.
Lemma lit_dy m e : lit m e -> swf (@sdy S m e) /\ sval (@sdy S m e) = XR (dy m e).
Proof using OK. intros [A B]. apply (ok_dy _ OK); auto. Qed.
Lemma Ibase_ok fuel : base_ok (Ibase P fuel) (@isin S).
Proof using OK LE LL LT.
  constructor; simpl.
  - intros m e L. destruct (lit_dy m e L). apply isin_pt; auto.
  - intros. apply (isin_add OK); auto.
  - intros. apply (isin_sub OK); auto.
  - intros. apply (isin_mul OK); auto.
  - intros. apply (isin_neg OK); auto.
  - intros. eapply (isin_div OK); eauto.
  - intros X x m e L H. destruct (lit_dy m e L). apply (isin_addS OK); auto.
  - intros X x m e L H. destruct (lit_dy m e L). apply (isin_Sadd OK); auto.
  - intros X x m e L H. destruct (lit_dy m e L). apply (isin_subS OK); auto.
  - intros X x m e L H. destruct (lit_dy m e L). apply (isin_Ssub OK); auto.
  - intros X x m e L H. destruct (lit_dy m e L). apply (isin_mulS OK); auto.
  - intros X x m e L H. destruct (lit_dy m e L). apply (isin_Smul OK); auto.
  - intros X x m e Q L H HX. destruct (lit_dy m e L). eapply (isin_divS OK); eauto.
  - intros X x m e Q L H HX. destruct (lit_dy m e L). eapply (isin_Sdiv OK); eauto.
  - intros. eapply (ipow_encl OK); eauto.
  - intros f X Q x H HX D. destruct f; simpl in *.
    + eapply (iexp_encl OK P LE); eauto.
    + eapply (ilog_encl OK P LL); eauto.
    + eapply (isin_sqrt OK); eauto.
    + eapply (sin_encl OK P LT); eauto.
    + eapply (cos_encl OK P LT); eauto.
    + eapply (tan_encl OK P LT); eauto.
    + eapply (iasin_encl OK P LT); eauto.
    + eapply (iacos_encl OK P LT); eauto.
    + eapply (iatan_encl OK P LT); eauto.
    + eapply (isinh_encl OK P LE); eauto.
    + eapply (icosh_encl OK P LE); eauto.
    + eapply (itanh_encl OK P LE); eauto.
    + eapply (iasinh_encl OK P LL); eauto.
    + eapply (iacosh_encl OK P LL); eauto.
    + eapply (iatanh_encl OK P LL); eauto.
  - intros f X Q x H HX. destruct f; simpl in *; auto.
    + eapply ilog_dom; eauto.
    + eapply (isin_sqrt OK); eauto.
    + eapply (iasin_encl OK P LT); eauto.
    + eapply (iacos_encl OK P LT); eauto.
    + eapply (iacosh_encl OK P LL); eauto.
    + eapply iatanh_dom; eauto.
Qed.

(* a system of n functions given as expressions: what kraw-approx.hpp / allsol-simple.hpp compute
   (f(autodif::init(X)), then split) *)
End Iok.
