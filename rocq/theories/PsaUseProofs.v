(* Proofs about the models of highderiv and defint, for any base type satisfying base_ok. *)
From Coq Require Import Reals ZArith Bool List Lra Lia Psatz Arith.
From Coquelicot Require Import Coquelicot.
From Verif Require Import Ext RealFun RealConst ADModel ADReal ADProofs PsaModel PsaReal PsaProofs PsaExpr PsaInt PsaUse.
Import ListNotations.
Open Scope R_scope.

Section UseP.
Variable B : base.
Variable rel : B -> R -> Prop.
Hypothesis OK : base_ok B rel.
Notation Rep := (Rep B rel).
Notation coef := (coef B rel).

Lemma jet_weak s s' f c : (s' <= s)%nat -> jet s f c -> jet s' f c.
Proof.
  intros L J. rewrite jet_bigO in *. apply (bigO_ext s' (fun t => (f t - pe c s t) + (pe c s t - pe c s' t)) _ 1); [lra|intros; ring|].
  apply bigO_plus; [now apply (bigO_weak s)|now apply bigO_pe_diff].
Qed.
(* the series x0 + t *)
Definition idc (x0 : R) (i : nat) : R := match i with 0%nat => x0 | 1%nat => 1 | _ => 0 end.
Lemma pe_idc x0 s t : (2 <= s)%nat -> pe (idc x0) s t = x0 + t.
Proof. intros H. rewrite (pe_more _ 2); auto; [unfold pe; simpl; ring|]. intros [|[|i]] Hi; simpl; auto; lia. Qed.
Lemma idc_coef C x0 n : rel C x0 -> coef ([C; t1] ++ repeat t0 n) (idc x0).
Proof.
  intros H i Hi. rewrite at_repeat. destruct i as [|[|i]]; simpl; auto; [apply (rel1 B rel OK)|]. unfold at_. simpl. destruct i; apply (rel0 B rel OK).
Qed.
Lemma setorder_id m D C n : (1 <= n)%Z -> ps_setorder m D [C; t1] n = Ok ([C; t1 (B:=B)] ++ repeat t0 (Z.to_nat n - 1)).
Proof.
  intros H. unfold ps_setorder. destruct (Z.ltb_spec n 0); [lia|]. cbn [length]. destruct (Nat.leb_spec 2 (Z.to_nat n + 1)); [|lia].
  f_equal. f_equal. f_equal. lia.
Qed.
Lemma Rep_id k C x0 n : rel C x0 -> Rep k (S (S n)) ([C; t1] ++ repeat t0 n) (fun t => x0 + t).
Proof.
  intros H. split; [right; rewrite app_length, repeat_length; reflexivity|]. exists (idc x0). split; [now apply idc_coef|]. split.
  - rewrite app_length, repeat_length. intros [|[|i]] Hi; simpl in *; auto; lia.
  - assert (EX : forall t, x0 + t = pe (idc x0) (S (S n)) t) by (intros; now rewrite pe_idc by lia).
    assert (J : jet (S (S n)) (fun t => x0 + t) (idc x0)).
    { rewrite jet_bigO. apply (bigO_ext _ (fun _ => 0) _ 1); [lra| |apply bigO_zero]. intros t _. rewrite pe_idc by lia. ring. }
    destruct k; [|exact J]. split; [apply EX|]. intros _. apply (jet_weak (S (S n))); auto. apply Jo_le.
Qed.

(* ---- highderiv ---- *)
Lemma setorder_rep s X f n : (s = S n)%nat -> (1 <= n)%nat -> Rep None s X f -> forall D Y, ps_setorder 1 D X (Z.of_nat n) = Ok Y ->
  length Y = s /\ exists c, coef Y c /\ jet s f c.
Proof.
  intros Es Hn [L (c & C & Z & J)] D Y E. unfold ps_setorder in E. destruct (Z.ltb_spec (Z.of_nat n) 0); [lia|]. rewrite Nat2Z.id in E.
  destruct (Nat.leb_spec (length X) (n + 1)); [|lia]. apply oki in E. subst Y. split; [rewrite app_length, repeat_length; lia|].
  exists c. split; auto. intros i Hi. rewrite at_repeat. destruct (Nat.lt_ge_cases i (length X)) as [Q|Q]; [now apply C|]. rewrite Z by auto.
  unfold at_. rewrite nth_overflow by auto. apply (rel0 B rel OK).
Qed.
Lemma factmul_ok i F p c : (1 <= i)%Z -> (i + Z.of_nat (length p) <= 2 ^ 53)%Z -> rel F (INR (fact (Z.to_nat (i - 1)))) -> coef p c ->
  length (factmul i F p) = length p /\ coef (factmul i F p) (fun j => c j * INR (fact (Z.to_nat i + j))).
Proof.
  revert i F c. induction p as [|x p IH]; intros i F c Hi Hl HF HC; [split; auto; intros j Hj; simpl in Hj; lia|].
  apply coef_cons in HC as [H0 HC]. cbn [length] in Hl.
  assert (HF' : rel (bmulS F i 0) (INR (fact (Z.to_nat i)))).
  { replace (INR (fact (Z.to_nat i))) with (INR (fact (Z.to_nat (i - 1))) * dy i 0).
    - apply (bk_mulS _ _ OK); auto. apply lit_int. lia.
    - rewrite dy_int. replace (Z.to_nat i) with (S (Z.to_nat (i - 1))) by lia. rewrite fact_simpl, mult_INR, Rmult_comm. f_equal. rewrite INR_IZR_INZ. f_equal. lia. }
  destruct (IH (i + 1)%Z (bmulS F i 0) (fun j => c (S j))) as [L C']; auto; try lia. { now replace (i + 1 - 1)%Z with i by lia. }
  split; [simpl; now rewrite L|]. cbn [factmul]. cbv zeta. apply coef_cons. split.
  - rewrite Nat.add_0_r. apply (bk_mul _ _ OK); auto.
  - intros j Hj. specialize (C' j Hj). cbv beta in C'. replace (Z.to_nat i + S j)%nat with (Z.to_nat (i + 1) + j)%nat by lia. exact C'.
Qed.
Lemma hd_fact_ok p c : (Z.of_nat (length p) < 2 ^ 53)%Z -> coef p c -> length (hd_fact p) = length p /\ coef (hd_fact p) (fun j => c j * INR (fact j)).
Proof.
  intros Hl HC. destruct p as [|x p]; [split; auto; intros j Hj; simpl in Hj; lia|]. cbn [length] in Hl. apply coef_cons in HC as [H0 HC].
  destruct (factmul_ok 1 t1 p (fun j => c (S j))) as [L C']; auto; try lia. { apply (rel1 B rel OK). }
  split; [simpl; now rewrite L|]. cbn [hd_fact]. apply coef_cons. split; [simpl; now rewrite Rmult_1_r|]. exact C'.
Qed.
(* the coefficients are those of the expansion of the expression at any x0 in X *)
Lemma hd_run_ok D e X n divfact v x0 : (1 <= n)%Z -> (n < 2 ^ 52)%Z -> awf 1 e -> plog e -> rel X x0 -> hd_run D (psafun B e) X n divfact = Ok v ->
  Ev None (fun t => adom e (fun _ => x0 + t)) /\ length v = S (Z.to_nat n) /\
  exists c, jet (S (Z.to_nat n)) (fun t => rval e (fun _ => x0 + t)) c /\ coef v (fun i => if divfact then c i else c i * INR (fact i)).
Proof.
  intros N1 N2 W P HX E. unfold hd_run in E. rewrite (setorder_id 1 D X n N1) in E. cbn [bind] in E. unfold psafun in E.
  apply bind_ok in E as (y & Ey & E). apply bind_ok in E as (p & Ep & E). apply oki in E.
  set (k := (Z.to_nat n - 1)%nat) in *. assert (EK : S (Z.to_nat n) = S (S k)) by (unfold k; lia). rewrite EK.
  destruct (pseval_ok B rel OK None 1 D (S (S k)) 1 (fun _ => [X; t1] ++ repeat t0 k) (fun t _ => x0 + t) e y) as [DD RY]; auto.
  { lia. } { lia. } { reflexivity. }
  { intros i Hi. split; [rewrite app_length, repeat_length; reflexivity|]. now apply Rep_id. }
  split; [exact DD|]. replace n with (Z.of_nat (S k)) in Ep by lia.
  destruct (setorder_rep (S (S k)) y _ (S k) eq_refl ltac:(lia) RY D p Ep) as [L (c & C & J)].
  destruct divfact; subst v.
  - split; auto. exists c. auto.
  - destruct (hd_fact_ok p c) as [L' C']; auto; [lia|]. split; [lia|]. exists c. auto.
Qed.
(* they are the successive derivatives, for any sequence of functions that are successive derivatives near x0 *)
Lemma hd_run_deriv D e X n divfact v x0 F dom : (1 <= n)%Z -> (n < 2 ^ 52)%Z -> awf 1 e -> plog e -> rel X x0 -> hd_run D (psafun B e) X n divfact = Ok v ->
  family F dom -> locally x0 dom -> (forall y, dom y -> F O y = rval e (fun _ => y)) ->
  length v = S (Z.to_nat n) /\ forall i, (i <= Z.to_nat n)%nat -> rel (at_ v i) (if divfact then F i x0 / INR (fact i) else F i x0).
Proof.
  intros N1 N2 W P HX E FM LD F0. destruct (hd_run_ok D e X n divfact v x0 N1 N2 W P HX E) as (_ & L & c & J & C). split; auto.
  assert (J' : jet (S (Z.to_nat n)) (fun t => rval e (fun _ => x0 + t)) (fun i => F i x0 / INR (fact i))).
  { destruct LD as [d Hd]. apply (jet_ext _ (fun t => F O (x0 + t)) _ _ d); [apply cond_pos| |].
    - intros t Ht. apply F0. apply Hd. change (Rabs (x0 + t - x0) < d). now replace (x0 + t - x0) with t by ring.
    - apply (jet_family _ F dom); auto. exists d. auto. }
  intros i Hi. specialize (C i ltac:(lia)). cbv beta in C. pose proof (jet_unique _ _ _ _ J J' i ltac:(lia)) as U. destruct divfact; rewrite U in C; auto.
  replace (F i x0 / INR (fact i) * INR (fact i)) with (F i x0) in C; auto. field. apply INR_fact_neq_0.
Qed.

(* ---- integrals ---- *)
Definition rel_itv : Prop := forall X x, rel X x -> itv (rel X).
Hypothesis CVX : rel_itv.
Lemma itv_cvx : rel_cvx B rel.
Proof. intros X a b z Ha Hb Hz. destruct (CVX X a Ha) as [A _]. apply (A a b); auto. Qed.
(* g is given pointwise by series Y between 0 and t; the series of the integral gives the integral at t *)
Lemma integrate_encl Y J (g : R -> R) (t v : R) : (Z.of_nat (length Y) < 2 ^ 53)%Z ->
  (forall u, mix 0 t u -> exists c, coef Y c /\ g u = pe c (length Y) u) -> is_RInt g 0 t v -> ps_integrate Y = Ok J ->
  length J = S (length Y) /\ exists c, coef J c /\ v = pe c (length J) t.
Proof.
  intros Hl HG HI E. destruct (HG 0) as (c0 & C0 & _). { unfold mix. lra. }
  destruct (int_coef_gen (fun i => rel (at_ Y i)) (length Y) g t v) as (c & C & EV); auto.
  - intros i Hi. apply (CVX _ (c0 i)). now apply C0.
  - destruct (integrate_ok B rel OK Y J c Hl E C) as [L CJ]. split; auto. exists (icoef 0 c). split; auto. rewrite L, <- isum_pe. exact EV.
Qed.

Section Defint.
Variable hull : B -> B -> B.
Hypothesis HULL : forall X Y x y z, rel X x -> rel Y y -> mix x y z -> rel (hull X Y) z.

(* one piece *)
Lemma di_piece D e C (xs : list B) r Y J c0 r0 s : (2 <= s)%nat -> (Z.of_nat s <= 2 ^ 52)%Z -> awf 1 e -> plog e -> noarc e = true ->
  rel C c0 -> rel r r0 -> (forall u, mix (- r0) r0 u -> rel D u) -> xs = t1 :: repeat t0 (s - 2) ->
  psafun B e 2%Z D (C :: xs) = Ok Y -> ps_integrate Y = Ok J ->
  (forall y, mix (c0 - r0) (c0 + r0) y -> adom e (fun _ => y)) /\
  exists v, is_RInt (fun y => rval e (fun _ => y)) (c0 - r0) (c0 + r0) v /\ rel (bsub (ps_eval J r) (ps_eval J (bneg r))) v.
Proof.
  intros S1 S2 W P NA HC Hr HD Ex E EJ. unfold psafun in E. set (g := fun u => rval e (fun _ => c0 + u)).
  assert (K : forall u, mix (- r0) r0 u -> adom e (fun _ => c0 + u) /\ (Z.of_nat (length Y) < 2 ^ 53)%Z /\ exists c, coef Y c /\ g u = pe c (length Y) u).
  { intros u Hu. destruct (pseval_ok B rel OK (Some (u, false)) 2 D s 1 (fun _ => C :: xs) (fun t _ => c0 + t) e Y) as [DD RY]; auto.
    - simpl. split; auto. split; [auto|]. split; [apply HD; unfold mix in *; lra|apply itv_cvx].
    - intros i Hi. rewrite Ex. split; [simpl; rewrite repeat_length; lia|]. replace s with (S (S (s - 2))) at 1 by lia. apply (Rep_id (Some (u, false)) C c0 (s - 2)). auto.
    - split; [exact (proj1 DD)|]. destruct RY as [L (c & Cc & Z & QQ)]. split; [lia|]. exists c. split; auto. destruct QQ as [QQ _]. cbn [fst] in QQ. unfold g. rewrite QQ.
      apply pe_more; auto. lia. }
  assert (LY : (Z.of_nat (length Y) < 2 ^ 53)%Z). { apply (K 0). unfold mix. lra. }
  assert (CT : forall u, mix (- r0) r0 u -> continuous g u).
  { intros u Hu. apply (rval_continuous 1 e (fun u _ => c0 + u)); auto; [|apply K; auto]. intros i Hi.
    apply (continuous_plus (fun _ => c0) (fun u => u)); [apply continuous_const|apply continuous_id]. }
  split. { intros y Hy. replace y with (c0 + (y - c0)) by ring. apply K. unfold mix in *. lra. }
  assert (I1 : exists v, is_RInt g 0 r0 v).
  { apply (ex_RInt_continuous g). intros z Hz. apply CT. unfold mix. unfold Rmin, Rmax in Hz. destruct (Rle_dec 0 r0); lra. }
  assert (I2 : exists v, is_RInt g 0 (- r0) v).
  { apply (ex_RInt_continuous g). intros z Hz. apply CT. unfold mix. unfold Rmin, Rmax in Hz. destruct (Rle_dec 0 (- r0)); lra. }
  destruct I1 as [v1 I1], I2 as [v2 I2].
  destruct (integrate_encl Y J g r0 v1 LY) as (L1 & c1 & C1 & E1); auto. { intros u Hu. apply K. unfold mix in *. lra. }
  destruct (integrate_encl Y J g (- r0) v2 LY) as (L2 & c2 & C2 & E2); auto. { intros u Hu. apply K. unfold mix in *. lra. }
  exists (v1 - v2). split.
  - apply is_RInt_swap in I2. pose proof (is_RInt_Chasles g (- r0) 0 r0 _ _ I2 I1) as I. unfold g in I.
    assert (I' : is_RInt (fun y => rval e (fun _ => y)) (- r0 + c0) (r0 + c0) (plus (opp v2) v1)).
    { apply (is_RInt_ext (fun y => scal 1 (g (1 * y + - c0)))). { intros y _. unfold g, scal; simpl. unfold mult; simpl. rewrite Rmult_1_l.
        f_equal. apply FunctionalExtensionality.functional_extensionality. intros _. ring. }
      apply (is_RInt_comp_lin g 1 (- c0)). replace (1 * (- r0 + c0) + - c0) with (- r0) by ring. replace (1 * (r0 + c0) + - c0) with r0 by ring. exact I. }
    replace (c0 - r0) with (- r0 + c0) by ring. replace (c0 + r0) with (r0 + c0) by ring. replace (v1 - v2) with (plus (opp v2) v1); auto.
    unfold plus, opp; simpl. ring.
  - apply (bk_sub _ _ OK); unfold ps_eval.
    + rewrite E1. now apply (horner_rel B rel OK).
    + rewrite E2. apply (horner_rel B rel OK); auto. now apply (bk_neg _ _ OK).
Qed.

Lemma di_loop_ok D e start step r x s a h : (2 <= s)%nat -> (Z.of_nat s <= 2 ^ 52)%Z -> awf 1 e -> plog e -> noarc e = true ->
  rel start a -> rel step h -> rel r (h / 2) -> (forall u, mix (- (h / 2)) (h / 2) u -> rel D u) -> (exists x0, x = x0 :: t1 :: repeat t0 (s - 2)) ->
  forall cnt i acc res v0, (0 <= i)%Z -> (i + Z.of_nat cnt <= 2 ^ 53)%Z ->
  (i = 0%Z \/ forall y, mix a (a + IZR i * h) y -> adom e (fun _ => y)) -> is_RInt (fun y => rval e (fun _ => y)) a (a + IZR i * h) v0 -> rel acc v0 ->
  di_loop D (psafun B e) start step r x cnt i acc = Ok res ->
  ((i + Z.of_nat cnt = 0)%Z \/ forall y, mix a (a + IZR (i + Z.of_nat cnt) * h) y -> adom e (fun _ => y)) /\
  exists v, is_RInt (fun y => rval e (fun _ => y)) a (a + IZR (i + Z.of_nat cnt) * h) v /\ rel res v.
Proof.
  intros S1 S2 W P NA Ha Hh Hr HD (x0 & Ex). induction cnt as [|cnt IH]; intros i acc res v0 Hi Hl DA I0 HA E.
  - simpl in E. apply oki in E. subst res. simpl Z.of_nat. rewrite Z.add_0_r. split; auto. exists v0. auto.
  - cbn [di_loop] in E. cbv zeta in E. rewrite Ex in E. apply bind_ok in E as (y & Ey & E). apply bind_ok in E as (J & EJ & E).
    set (c0 := a + IZR i * h + h / 2).
    assert (HC : rel (badd (badd start (bSmul i 0 step)) r) c0).
    { unfold c0. apply (bk_add _ _ OK); auto. apply (bk_add _ _ OK); auto. rewrite <- (dy_int i). apply (bk_Smul _ _ OK); auto. apply lit_int. lia. }
    destruct (di_piece D e _ (t1 :: repeat t0 (s - 2)) r y J c0 (h / 2) s S1 S2 W P NA HC Hr HD eq_refl Ey EJ) as [DD (v1 & I1 & R1)].
    replace (c0 - h / 2) with (a + IZR i * h) in * by (unfold c0; field).
    replace (c0 + h / 2) with (a + IZR (i + 1) * h) in * by (unfold c0; rewrite plus_IZR; field).
    replace (i + Z.of_nat (S cnt))%Z with (i + 1 + Z.of_nat cnt)%Z by lia.
    rewrite <- Ex in E. eapply IH; [| | | | |exact E]; try lia.
    + right. assert (DA' : forall y, mix a (a + IZR i * h) y -> adom e (fun _ => y)).
      { destruct DA as [-> |DA]; auto. intros y' Hy'. apply DD. rewrite plus_IZR, Rmult_0_l, Rplus_0_r in *. unfold mix in *. destruct (Rle_dec 0 h); lra. }
      clear DA. rename DA' into DA. intros q Hq. destruct (Rle_dec 0 h).
      * assert (0 <= IZR i) by (apply IZR_le; lia). assert (0 <= IZR i * h) by (apply Rmult_le_pos; auto). rewrite plus_IZR in *.
        destruct (Rle_dec q (a + IZR i * h)); [apply DA|apply DD]; unfold mix in *; left; lra.
      * assert (0 <= IZR i) by (apply IZR_le; lia). assert (0 <= IZR i * - h) by (apply Rmult_le_pos; lra). rewrite plus_IZR in *.
        destruct (Rle_dec (a + IZR i * h) q); [apply DA|apply DD]; unfold mix in *; right; lra.
    + exact (is_RInt_Chasles _ _ _ _ _ _ I0 I1).
    + apply (bk_add _ _ OK); auto.
Qed.
Lemma defint_ok st e start end_ order n res st' a b : (1 <= order)%Z -> (order < 2 ^ 52)%Z -> (1 <= n)%Z -> (n <= 2 ^ 53)%Z ->
  awf 1 e -> plog e -> noarc e = true -> rel start a -> rel end_ b -> defint hull st (psafun B e) start end_ order n = (Ok res, st') ->
  (forall y, mix a b y -> adom e (fun _ => y)) /\ exists v, is_RInt (fun y => rval e (fun _ => y)) a b v /\ rel res v.
Proof.
  intros O1 O2 N1 N2 W P NA Ha Hb E. unfold defint in E. rewrite (setorder_id _ _ t0 order O1) in E. cbn [bind] in E.
  destruct (bdivS (bsub end_ start) n 0) as [step|] eqn:ES; [|discriminate]. cbn [bind] in E. cbv zeta in E.
  set (r := bmulS step 1 (-1)) in *. set (D := hull (bneg r) r) in *.
  destruct (di_loop D _ start step r _ (Z.to_nat n) 0 t0) as [v|] eqn:EL; [|discriminate]. assert (v = res) by congruence. subst v. clear E.
  set (h := (b - a) / IZR n).
  assert (Hh : rel step h).
  { destruct (bk_divS _ _ OK (bsub end_ start) (b - a) n 0 step) as [_ R]; auto; [apply lit_int; lia|now apply (bk_sub _ _ OK)|]. now rewrite dy_int in R. }
  assert (Hr : rel r (h / 2)).
  { assert (L : lit 1 (-1)) by (unfold lit; lia). pose proof (bk_mulS _ _ OK step h 1 (-1) L Hh) as R. unfold dy in R.
    replace (1 * Raux.bpow Zaux.radix2 (-1)) with (/ 2) in R; [exact R|]. change (Raux.bpow Zaux.radix2 (-1)) with (/ 2). ring. }
  assert (HD : forall u, mix (- (h / 2)) (h / 2) u -> rel D u). { intros u Hu. apply (HULL _ _ (- (h / 2)) (h / 2)); auto. now apply (bk_neg _ _ OK). }
  destruct (di_loop_ok D e start step r ([t0; t1] ++ repeat t0 (Z.to_nat order - 1)) (S (Z.to_nat order)) a h) with (cnt := Z.to_nat n) (i := 0%Z) (acc := t0 (B:=B)) (res := res) (v0 := 0) as [D1 I1]; auto; try lia.
  - exists t0. replace (S (Z.to_nat order) - 2)%nat with (Z.to_nat order - 1)%nat by lia. reflexivity.
  - rewrite Rmult_0_l, Rplus_0_r. apply (is_RInt_point (fun y => rval e (fun _ => y)) a).
  - apply (rel0 B rel OK).
  - destruct D1 as [D1|D1]; [lia|]. replace (a + IZR (0 + Z.of_nat (Z.to_nat n)) * h) with b in *; auto. rewrite Z.add_0_l, Z2Nat.id by lia. unfold h. field. apply not_0_IZR. lia.
Qed.
End Defint.
End UseP.
