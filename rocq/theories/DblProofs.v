(* doubleintegral encloses the iterated integral over the rectangle, or over the triangle below the diagonal. *)
From Coq Require Import Reals ZArith Bool List Lra Lia Psatz Arith.
From Coquelicot Require Import Coquelicot.
From Verif Require Import Ext RealFun ADModel ADReal ADProofs PsaModel PsaReal PsaProofs PsaExpr PsaInt PsaUse PsaUseProofs DblModel DblBase DblInt.
Import ListNotations.
Open Scope R_scope.

Definition env2 (x y : R) : nat -> R := fun i => match i with O => x | _ => y end.
Section DblP.
Variable B : base.
Variable rel : B -> R -> Prop.
Hypothesis OK : base_ok B rel.
Hypothesis CVX : rel_itv B rel.
Variable symd : B -> B.
Hypothesis SYM : forall X r u, rel X r -> - r <= u <= r -> rel (symd X) u.
Variable ord : nat.
Hypothesis O1 : (1 <= ord)%nat.
Hypothesis O2 : (Z.of_nat (S ord) <= 2 ^ 52)%Z.
Notation s := (S ord).
Notation rl D u := (rel2 B rel D s u).

Lemma rel_t0 : rel t0 0. Proof. apply (rel0 B rel OK). Qed.
Lemma coef_zeros n c : (forall i, (i < n)%nat -> c i = 0) -> coef B rel (repeat t0 n) c.
Proof.
  intros H i Hi. rewrite repeat_length in Hi. rewrite H by auto. unfold at_. rewrite nth_repeat. apply rel_t0.
Qed.
(* constants and c2 + u as series of order ord *)
Lemma rl_cst D u C c : rel C c -> rl D u (C :: repeat t0 ord) c.
Proof.
  intros H. apply rel2_val; [lia|]. split; [right; simpl; now rewrite repeat_length|]. exists (delta c). split.
  - apply coef_cons. split; [exact H|]. apply coef_zeros. reflexivity.
  - rewrite pe_delta; auto. simpl. lia.
Qed.
Lemma rl_id D u C c : rel C c -> rl D u (C :: t1 :: repeat t0 (ord - 1)) (c + u).
Proof.
  intros H. pose proof (Rep_id B rel OK (Some (u, false)) C c (ord - 1) H) as [L (k & K & Z & Q & _)].
  apply rel2_val; [lia|]. cbn [app] in *. split; [right; simpl; rewrite repeat_length; lia|]. exists k. split; [exact K|]. cbn [fst] in Q.
  rewrite Q. f_equal. simpl. rewrite repeat_length. lia.
Qed.
Lemma rl_lin D u A a : rel A a -> rl D u (t0 :: A :: repeat t0 (ord - 1)) (a * u).
Proof.
  intros H. apply rel2_val; [lia|]. split; [right; simpl; rewrite repeat_length; lia|]. exists (fun i => match i with 1%nat => a | _ => 0 end). split.
  - apply coef_cons. split; [apply rel_t0|]. apply coef_cons. split; [exact H|]. apply coef_zeros. reflexivity.
  - cbn [length]. rewrite !pe_S. replace (pe _ (length (repeat t0 (ord - 1))) u) with 0; [ring|]. symmetry. unfold pe. apply rsum_zero. intros. ring.
Qed.
Lemma at_rep_zero D u n i : rl D u (at_ (B:=Pbase B D) (repeat (t0 :: repeat t0 ord) n) i) 0.
Proof.
  unfold at_. revert i. induction n as [|n IH]; intros i.
  - simpl. assert (Z : rl D u [t0 (B:=B)] 0) by (apply Rep_cst; try lia; apply rel_t0). destruct i; exact Z.
  - destruct i as [|i]; [exact (rl_cst D u t0 0 rel_t0)|exact (IH i)].
Qed.

(* the function: f(x1, x2) on series around (c1, c2) gives, at u, a series whose value at t is F(c1 + t, c2 + u) *)
Variables (f : fn2 B) (F : R -> R -> R) (dom2 : R -> R -> Prop).
Hypothesis F_cont : forall x y, dom2 x y -> cont2 F x y.
Definition fpoint : Prop := forall R1 R2 C1 C2 r1 r2 c1 c2 u t Y, rel R1 r1 -> rel R2 r2 -> rel C1 c1 -> rel C2 c2 -> - r2 <= u <= r2 -> - r1 <= t <= r1 ->
  f [symd R1] (symd R2) (dbl_x1 C1 ord) (dbl_x2 C2 ord) = Ok Y ->
  dom2 (c1 + t) (c2 + u) /\ (length Y <= s)%nat /\ exists c, PsaProofs.coef (Pbase B (symd R2)) (rl (symd R2) u) Y c /\ F (c1 + t) (c2 + u) = pe c (length Y) t.
Hypothesis FP : fpoint.
Section Cell.
Variables (R1 R2 C1 C2 : B) (UP : list B) (r1 r2 c1 c2 : R) (q : R -> R).
Hypothesis H1 : rel R1 r1.
Hypothesis H2 : rel R2 r2.
Hypothesis HC1 : rel C1 c1.
Hypothesis HC2 : rel C2 c2.
Hypothesis P1 : 0 <= r1.
Hypothesis P2 : 0 <= r2.
Notation D2 := (symd R2).
Notation D1 := [symd R1].
Hypothesis HUP : forall u, - r2 <= u <= r2 -> rl D2 u UP (q u).
Hypothesis HQ : forall u, - r2 <= u <= r2 -> - r1 <= q u <= r1.
Hypothesis CQ : forall u, continuous q u.
Lemma D2_ok u : - r2 <= u <= r2 -> rel D2 u. Proof. now apply SYM. Qed.
Lemma PBK u : - r2 <= u <= r2 -> base_ok (Pbase B D2) (rl D2 u).
Proof. intros Hu. apply Pbase_ok; try assumption; try lia; apply D2_ok; lra. Qed.
Lemma PBI u : - r2 <= u <= r2 -> rel_itv (Pbase B D2) (rl D2 u).
Proof. intros Hu. apply rel2_itv; try assumption; lia. Qed.
Lemma cell_point u t Y : - r2 <= u <= r2 -> - r1 <= t <= r1 -> f D1 D2 (dbl_x1 C1 ord) (dbl_x2 C2 ord) = Ok Y ->
  dom2 (c1 + t) (c2 + u) /\ (length Y <= s)%nat /\ exists c, PsaProofs.coef (Pbase B D2) (rl D2 u) Y c /\ F (c1 + t) (c2 + u) = pe c (length Y) t.
Proof. intros Hu Ht E. exact (FP R1 R2 C1 C2 r1 r2 c1 c2 u t Y H1 H2 HC1 HC2 Hu Ht E). Qed.
Lemma cell_ok w : dbl_cell D1 D2 f C1 C2 R1 R2 UP ord = Ok w ->
  (forall x y, c1 - r1 <= x <= c1 + r1 -> c2 - r2 <= y <= c2 + r2 -> dom2 x y) /\
  exists v, is_RInt (fun y => RInt (fun x => F x y) (c1 - r1) (c1 + q (y - c2))) (c2 - r2) (c2 + r2) v /\ rel w v.
Proof.
  intros E. unfold dbl_cell in E. apply bind_ok in E as (Y & EY & E). apply bind_ok in E as (J & EJ & E). apply bind_ok in E as (z & Ez & E). apply bind_ok in E as (zz & Ezz & E). apply oki in E.
  assert (DM : forall x y, c1 - r1 <= x <= c1 + r1 -> c2 - r2 <= y <= c2 + r2 -> dom2 x y).
  { intros x y Hx Hy. destruct (cell_point (y - c2) (x - c1) Y) as [DM _]; auto; try lra. now replace (c1 + (x - c1)) with x in DM by ring; replace (c2 + (y - c2)) with y in DM by ring. }
  split; auto.
  (* in centred variables *)
  set (G := fun u => RInt (fun t => F (c1 + t) (c2 + u)) (- r1) (q u)).
  assert (CT : forall t u, - r1 <= t <= r1 -> - r2 <= u <= r2 -> cont2 (fun t u => F (c1 + t) (c2 + u)) t u).
  { intros t u Ht Hu. unfold cont2. apply (cont2_comp F (fun z => c1 + fst z) (fun z => c2 + snd z)).
    - apply (continuous_plus (fun _ : R * R => c1) fst); [apply continuous_const|apply continuous_fst].
    - apply (continuous_plus (fun _ : R * R => c2) snd); [apply continuous_const|apply continuous_snd].
    - simpl. apply F_cont, DM; lra. }
  destruct (iter_ex (fun t u => F (c1 + t) (c2 + u)) q (- r1) r1 (- r2) r2) as (EX1 & _ & EX3 & EX4); auto; try lra.
  assert (LY : (Z.of_nat (length Y) < 2 ^ 53)%Z). { destruct (cell_point 0 0 Y) as (_ & L & _); auto; lra || lia. }
  assert (K : forall u, - r2 <= u <= r2 -> rl D2 u z (G u)).
  { intros u Hu. pose proof (PBK u Hu) as BK. pose proof (PBI u Hu) as BI.
    assert (I0 : forall t, - r1 <= t <= r1 -> exists v, is_RInt (fun t => F (c1 + t) (c2 + u)) 0 t v).
    { intros t Ht. apply (ex_RInt_continuous (fun t => F (c1 + t) (c2 + u))). intros y Hy. apply (cont2_x (fun t u => F (c1 + t) (c2 + u))). apply CT; auto.
      unfold Rmin, Rmax in Hy. destruct (Rle_dec 0 t); lra. }
    assert (KI : forall t v T, - r1 <= t <= r1 -> rl D2 u T t -> is_RInt (fun t => F (c1 + t) (c2 + u)) 0 t v -> rl D2 u (ps_eval (B:=Pbase B D2) J T) v).
    { intros t v T Ht HT HI. destruct (integrate_encl (Pbase B D2) (rl D2 u) BK BI Y J (fun t => F (c1 + t) (c2 + u)) t v LY) as (LJ & c & Cc & Ev); auto.
      - intros t' Ht'. destruct (cell_point u t' Y) as (_ & _ & H); auto. unfold mix in Ht'. lra.
      - unfold ps_eval. rewrite Ev. now apply (horner_rel _ _ BK). }
    destruct (I0 (q u) (HQ u Hu)) as [v1 I1]. destruct (I0 (- r1)) as [v2 I2]; [lra|].
    assert (EG : G u = v1 - v2).
    { unfold G. apply is_RInt_unique. apply is_RInt_swap in I2. pose proof (is_RInt_Chasles _ _ _ _ _ _ I2 I1) as I3. replace (v1 - v2) with (plus (opp v2) v1); auto. unfold plus, opp; simpl. ring. }
    rewrite EG. assert (R2' : rl D2 u [bneg R1] (- r1)). { apply Rep_cst; try lia. now apply (bk_neg _ _ OK). }
    refine (Rep_sub B rel OK _ s _ _ _ _ _ (fun _ => v1) (fun _ => v2) Ez _ _); try lia.
    - apply (KI (q u)); auto.
    - apply (KI (- r1)); auto. lra. }
  assert (LZ : (length z <= s)%nat). { pose proof (K 0 ltac:(lra)) as [L _]. lia. }
  assert (KZ : forall t v T, - r2 <= t <= r2 -> rel T t -> is_RInt G 0 t v -> rel (ps_eval zz T) v).
  { intros t v T Ht HT HI. destruct (integrate_encl B rel OK CVX z zz G t v) as (LJ & c & Cc & Ev); auto; [lia| |].
    - intros u Hu. assert (Hu' : - r2 <= u <= r2) by (unfold mix in Hu; lra). pose proof (K u Hu') as KU. apply rel2_val in KU as [_ H]; [exact H|lia].
    - unfold ps_eval. rewrite Ev. now apply (horner_rel _ _ OK). }
  assert (IG : forall t, - r2 <= t <= r2 -> ex_RInt G 0 t).
  { intros t Ht. apply (ex_RInt_Chasles G 0 (- r2) t); [apply ex_RInt_swap|]; apply EX3; lra. }
  destruct (IG r2) as [v1 I1]; [lra|]. destruct (IG (- r2)) as [v2 I2]; [lra|].
  exists (v1 - v2). split.
  - apply (is_RInt_ext (fun y => scal 1 (G (1 * y + - c2)))).
    + intros y Hy. rewrite Rmin_left, Rmax_right in Hy by lra. unfold scal; simpl. unfold mult; simpl. rewrite Rmult_1_l. unfold G.
      replace (1 * y + - c2) with (y - c2) by ring. replace (c2 + (y - c2)) with y by ring.
      pose proof (RInt_comp_lin (fun x => F x y) 1 c1 (- r1) (q (y - c2))) as EL.
      replace (1 * - r1 + c1) with (c1 - r1) in EL by ring. replace (1 * q (y - c2) + c1) with (c1 + q (y - c2)) in EL by ring.
      rewrite <- EL.
      * apply RInt_ext. intros t _. unfold scal; simpl. unfold mult; simpl. rewrite Rmult_1_l. f_equal. ring.
      * apply (ex_RInt_continuous (fun x => F x y)). intros x Hx. assert (HQ' := HQ (y - c2) ltac:(lra)). rewrite Rmin_left, Rmax_right in Hx by lra.
        apply cont2_x, F_cont, DM; lra.
    + apply (is_RInt_comp_lin G 1 (- c2)). replace (1 * (c2 - r2) + - c2) with (- r2) by ring. replace (1 * (c2 + r2) + - c2) with r2 by ring.
      apply is_RInt_swap in I2. pose proof (is_RInt_Chasles _ _ _ _ _ _ I2 I1) as I3. replace (v1 - v2) with (plus (opp v2) v1); auto. unfold plus, opp; simpl. ring.
  - subst w. apply (bk_sub _ _ OK).
    + apply (KZ r2); auto. lra.
    + apply (KZ (- r2)); auto; [lra|]. now apply (bk_neg _ _ OK).
Qed.
End Cell.

Section Grid.
Variables (START1 STEP1 R1 START2 STEP2 R2 : B) (TRI : option (list B)) (n : Z) (a1 a2 h1 h2 : R).
Hypothesis HS1 : rel START1 a1.
Hypothesis HS2 : rel START2 a2.
Hypothesis HT1 : rel STEP1 h1.
Hypothesis HT2 : rel STEP2 h2.
Hypothesis HR1 : rel R1 (h1 / 2).
Hypothesis HR2 : rel R2 (h2 / 2).
Hypothesis P1 : 0 <= h1.
Hypothesis P2 : 0 <= h2.
Hypothesis N1 : (1 <= n <= 2 ^ 53)%Z.
Definition tri : bool := match TRI with Some _ => true | None => false end.
Hypothesis HTRI : match TRI with Some ub => h2 <> 0 /\ forall u, - (h2 / 2) <= u <= h2 / 2 -> rl (symd R2) u ub (- (h1 / h2) * u) | None => True end.
(* the right end of the region at height y *)
Definition diag (y : R) : R := a1 + IZR n * h1 - h1 / h2 * (y - a2).
Definition right (y : R) : R := if tri then diag y else a1 + IZR n * h1.
(* the right end after the cells 0 .. j-1 of row i *)
Definition upto (i j : Z) (y : R) : R := if tri && (n <=? i + j)%Z then diag y else a1 + IZR j * h1.
Definition qq (i j : Z) (u : R) : R := if tri && (i + j =? n - 1)%Z then - (h1 / h2) * u else h1 / 2.
Lemma tri_h2 : tri = true -> 0 < h2.
Proof. unfold tri. destruct TRI; [|discriminate]. intros _. destruct HTRI. lra. Qed.
Lemma upto_S i j y : (tri = true -> (i + j <= n - 1)%Z) -> a1 + IZR j * h1 + h1 / 2 + qq i j (y - (a2 + IZR i * h2 + h2 / 2)) = upto i (j + 1) y.
Proof.
  intros T. unfold qq, upto. destruct tri eqn:ET; simpl.
  - specialize (T eq_refl). pose proof (tri_h2 ET). destruct (Z.eqb_spec (i + j) (n - 1)) as [E|E].
    + destruct (Z.leb_spec n (i + (j + 1))); [|lia]. unfold diag. replace n with (i + j + 1)%Z by lia. rewrite !plus_IZR. field. lra.
    + destruct (Z.leb_spec n (i + (j + 1))); [lia|]. rewrite plus_IZR. field.
  - rewrite plus_IZR. field.
Qed.
Lemma qq_range i j u : - (h2 / 2) <= u <= h2 / 2 -> - (h1 / 2) <= qq i j u <= h1 / 2.
Proof.
  intros Hu. unfold qq. destruct (tri && _) eqn:E; [|lra]. apply andb_prop in E as [E _]. pose proof (tri_h2 E) as T.
  assert (Q : 0 <= h1 / h2) by (apply Rdiv_le_0_compat; lra). assert (E2 : h1 / 2 = h1 / h2 * (h2 / 2)) by (field; lra). rewrite E2. split; nra.
Qed.
Lemma qq_cont i j u : continuous (qq i j) u.
Proof.
  unfold qq. destruct (tri && _); [|apply continuous_const]. apply (continuous_mult (fun _ => - (h1 / h2)) (fun u => u)); [apply continuous_const|apply continuous_id].
Qed.
Lemma mulI i START STEP R a h : (0 <= i <= 2 ^ 53)%Z -> rel START a -> rel STEP h -> rel R (h / 2) -> rel (badd (badd START (bSmul i 0 STEP)) R) (a + IZR i * h + h / 2).
Proof.
  intros Hi HS HT HR. apply (bk_add _ _ OK); auto. apply (bk_add _ _ OK); auto. rewrite <- (dy_int i). apply (bk_Smul _ _ OK); auto. apply lit_int. lia.
Qed.
Lemma ex_dom x0 x1 y : x0 <= x1 -> (forall x, x0 <= x <= x1 -> dom2 x y) -> ex_RInt (fun x => F x y) x0 x1.
Proof. intros L H. apply (ex_RInt_continuous (fun x => F x y)). intros x Hx. rewrite Rmin_left, Rmax_right in Hx by lra. apply cont2_x, F_cont, H. lra. Qed.
Lemma upto_ge i j y : (0 <= j)%Z -> (tri = true -> (i + j <= n - 1)%Z) -> a1 <= upto i j y.
Proof.
  intros Hj T. unfold upto. assert (0 <= IZR j * h1) by (apply Rmult_le_pos; auto; apply (IZR_le 0); lia). destruct tri; simpl; [|lra].
  specialize (T eq_refl). destruct (Z.leb_spec n (i + j)); [lia|lra].
Qed.
Lemma row_ok i c2 : (0 <= i < n)%Z -> c2 = a2 + IZR i * h2 + h2 / 2 -> forall C2, rel C2 c2 ->
  forall cnt j acc res v0 w0, (0 <= j)%Z -> (j + Z.of_nat cnt <= n)%Z ->
  (j = 0%Z \/ forall y x, c2 - h2 / 2 <= y <= c2 + h2 / 2 -> a1 <= x <= upto i j y -> dom2 x y) ->
  is_RInt (fun y => RInt (fun x => F x y) a1 (upto i j y)) (c2 - h2 / 2) (c2 + h2 / 2) w0 -> rel acc (v0 + w0) ->
  dbl_row [symd R1] (symd R2) f START1 STEP1 R1 C2 R2 TRI ord n i cnt j acc = Ok res ->
  let j' := (j + Z.of_nat cnt)%Z in
  (j' = 0%Z \/ forall y x, c2 - h2 / 2 <= y <= c2 + h2 / 2 -> a1 <= x <= upto i j' y -> dom2 x y) /\
  exists w, is_RInt (fun y => RInt (fun x => F x y) a1 (upto i j' y)) (c2 - h2 / 2) (c2 + h2 / 2) w /\ rel res (v0 + w).
Proof.
  intros Hi Ec C2 HC2. induction cnt as [|cnt IH]; intros j acc res v0 w0 Hj Hn DA I0 HA E j'.
  { simpl in E. apply oki in E. subst res. unfold j'. simpl Z.of_nat. rewrite Z.add_0_r. split; auto. exists w0. auto. }
  unfold j'. replace (j + Z.of_nat (S cnt))%Z with (j + 1 + Z.of_nat cnt)%Z by lia.
  (* one cell *)
  assert (STEP : forall UP w acc', (tri = true -> (i + j <= n - 1)%Z) -> (forall u, - (h2 / 2) <= u <= h2 / 2 -> rl (symd R2) u UP (qq i j u)) ->
    dbl_cell [symd R1] (symd R2) f (badd (badd START1 (bSmul j 0 STEP1)) R1) C2 R1 R2 UP ord = Ok w -> acc' = badd acc w ->
    dbl_row [symd R1] (symd R2) f START1 STEP1 R1 C2 R2 TRI ord n i cnt (j + 1) acc' = Ok res ->
    ((j + 1 + Z.of_nat cnt)%Z = 0%Z \/ forall y x, c2 - h2 / 2 <= y <= c2 + h2 / 2 -> a1 <= x <= upto i (j + 1 + Z.of_nat cnt)%Z y -> dom2 x y) /\
    exists w, is_RInt (fun y => RInt (fun x => F x y) a1 (upto i (j + 1 + Z.of_nat cnt) y)) (c2 - h2 / 2) (c2 + h2 / 2) w /\ rel res (v0 + w)).
  { intros UP w acc' T HUP Ew EA ER. subst acc'.
    assert (HC1 : rel (badd (badd START1 (bSmul j 0 STEP1)) R1) (a1 + IZR j * h1 + h1 / 2)) by (apply mulI; auto; lia).
    destruct (cell_ok R1 R2 _ C2 UP (h1 / 2) (h2 / 2) (a1 + IZR j * h1 + h1 / 2) c2 (qq i j) HR1 HR2 HC1 HC2 ltac:(lra) ltac:(lra) HUP (qq_range i j) (qq_cont i j) w Ew) as [DM (v1 & I1 & V1)].
    replace (a1 + IZR j * h1 + h1 / 2 - h1 / 2) with (a1 + IZR j * h1) in * by ring.
    assert (UJ : forall y, upto i j y = a1 + IZR j * h1). { intros y. unfold upto. destruct tri; simpl; auto. specialize (T eq_refl). destruct (Z.leb_spec n (i + j)); [lia|auto]. }
    assert (US : forall y, a1 + IZR j * h1 + h1 / 2 + qq i j (y - c2) = upto i (j + 1) y). { intros y. rewrite Ec. now apply upto_S. }
    assert (QR : forall y, c2 - h2 / 2 <= y <= c2 + h2 / 2 -> - (h1 / 2) <= qq i j (y - c2) <= h1 / 2) by (intros; apply qq_range; lra).
    assert (J0 : 0 <= IZR j * h1) by (apply Rmult_le_pos; auto; apply (IZR_le 0); lia).
    assert (DA' : forall y x, c2 - h2 / 2 <= y <= c2 + h2 / 2 -> a1 <= x <= a1 + IZR j * h1 -> dom2 x y).
    { intros y x Hy Hx. destruct DA as [-> |DA]; [apply DM; lra|]. apply DA; auto. now rewrite UJ. }
    eapply IH; [| | | | |exact ER]; try lia.
    - right. intros y x Hy Hx. rewrite <- US in Hx. specialize (QR y Hy). destruct (Rle_dec x (a1 + IZR j * h1)); [apply DA'; auto; lra|]. apply DM; lra.
    - apply (is_RInt_ext (fun y => plus (RInt (fun x => F x y) a1 (upto i j y)) (RInt (fun x => F x y) (a1 + IZR j * h1) (a1 + IZR j * h1 + h1 / 2 + qq i j (y - c2))))).
      + intros y Hy. rewrite Rmin_left, Rmax_right in Hy by lra. assert (Hy' : c2 - h2 / 2 <= y <= c2 + h2 / 2) by lra. specialize (QR y Hy'). rewrite UJ, US. rewrite <- US in * .
        apply (RInt_Chasles (fun x => F x y)).
        * apply ex_dom; [lra|]. intros x Hx. now apply DA'.
        * apply ex_dom; [lra|]. intros x Hx. apply DM; lra.
      + apply (is_RInt_plus (fun y => RInt (fun x => F x y) a1 (upto i j y))); [exact I0|exact I1].
    - replace (v0 + plus w0 v1) with ((v0 + w0) + v1) by (unfold plus; simpl; ring). now apply (bk_add _ _ OK). }
  assert (HC : forall u, rl (symd R2) u [R1] (h1 / 2)) by (intros; apply Rep_cst; try lia; exact HR1).
  cbn [dbl_row] in E. destruct TRI as [ub|] eqn:ET.
  - assert (TT : tri = true) by (unfold tri; now rewrite ET). destruct (Z.ltb_spec (n - 1) (i + j)) as [L|L].
    + assert (US : forall y, upto i (j + 1) y = upto i j y). { intros y. unfold upto. rewrite TT. simpl. destruct (Z.leb_spec n (i + j)); [|lia]. destruct (Z.leb_spec n (i + (j + 1))); [auto|lia]. }
      eapply IH; [| | | | |exact E]; try lia.
      * right. intros y x Hy Hx. rewrite US in Hx. destruct DA as [-> |DA]; [lia|]. now apply (DA y x).
      * apply (is_RInt_ext (fun y => RInt (fun x => F x y) a1 (upto i j y))); [|exact I0]. intros y _. now rewrite US.
      * exact HA.
    + apply bind_ok in E as (w & Ew & E). apply (STEP _ _ _ ltac:(intros _; lia)) with (2 := Ew) (3 := eq_refl) (4 := E).
      intros u Hu. unfold qq. rewrite TT. simpl. destruct (Z.eqb_spec (i + j) (n - 1)); [|apply HC]. destruct HTRI as [_ H]. now apply H.
  - assert (TT : tri = false) by (unfold tri; now rewrite ET). apply bind_ok in E as (w & Ew & E).
    apply (STEP _ _ _ ltac:(rewrite TT; discriminate)) with (2 := Ew) (3 := eq_refl) (4 := E). intros u Hu. unfold qq. rewrite TT. simpl. apply HC.
Qed.
Lemma upto_n i y : (0 <= i)%Z -> upto i n y = right y.
Proof. intros Hi. unfold upto, right. destruct tri; simpl; auto. destruct (Z.leb_spec n (i + n)); [auto|lia]. Qed.
Lemma rows_ok : forall cnt i acc res v0, (0 <= i)%Z -> (i + Z.of_nat cnt <= n)%Z ->
  (i = 0%Z \/ forall y x, a2 <= y <= a2 + IZR i * h2 -> a1 <= x <= right y -> dom2 x y) ->
  is_RInt (fun y => RInt (fun x => F x y) a1 (right y)) a2 (a2 + IZR i * h2) v0 -> rel acc v0 ->
  dbl_rows [symd R1] (symd R2) f START1 STEP1 R1 START2 STEP2 R2 TRI ord n cnt i acc = Ok res ->
  let i' := (i + Z.of_nat cnt)%Z in
  (i' = 0%Z \/ forall y x, a2 <= y <= a2 + IZR i' * h2 -> a1 <= x <= right y -> dom2 x y) /\
  exists v, is_RInt (fun y => RInt (fun x => F x y) a1 (right y)) a2 (a2 + IZR i' * h2) v /\ rel res v.
Proof.
  induction cnt as [|cnt IH]; intros i acc res v0 Hi Hn DA I0 HA E i'.
  { simpl in E. apply oki in E. subst res. unfold i'. simpl Z.of_nat. rewrite Z.add_0_r. split; auto. exists v0. auto. }
  unfold i'. replace (i + Z.of_nat (S cnt))%Z with (i + 1 + Z.of_nat cnt)%Z by lia.
  cbn [dbl_rows] in E. apply bind_ok in E as (acc' & ER & E).
  set (c2 := a2 + IZR i * h2 + h2 / 2).
  assert (HC2 : rel (badd (badd START2 (bSmul i 0 STEP2)) R2) c2) by (apply mulI; auto; lia).
  assert (U0 : forall y, upto i 0 y = a1). { intros y. unfold upto. destruct tri; simpl; [|ring]. destruct (Z.leb_spec n (i + 0)); [lia|ring]. }
  destruct (row_ok i c2 ltac:(lia) eq_refl _ HC2 (Z.to_nat n) 0 acc acc' v0 0) as [D1 (w & I1 & V1)]; auto; try lia.
  { apply (is_RInt_ext (fun _ => 0)).
    - intros y _. rewrite U0, RInt_point. reflexivity.
    - pose proof (is_RInt_const (V:=R_NormedModule) (c2 - h2 / 2) (c2 + h2 / 2) 0) as IC. unfold scal in IC; simpl in IC; unfold mult in IC; simpl in IC. rewrite Rmult_0_r in IC. exact IC. }
  { now rewrite Rplus_0_r. }
  rewrite Z.add_0_l, Z2Nat.id in D1, I1 by lia. destruct D1 as [D1|D1]; [lia|].
  replace (c2 - h2 / 2) with (a2 + IZR i * h2) in * by (unfold c2; ring).
  replace (c2 + h2 / 2) with (a2 + IZR (i + 1) * h2) in * by (unfold c2; rewrite plus_IZR; field).
  assert (0 <= IZR i * h2) by (apply Rmult_le_pos; auto; apply (IZR_le 0); lia).
  eapply IH; [| | | | |exact E]; try lia.
  - right. intros y x Hy Hx. destruct (Rle_dec (a2 + IZR i * h2) y) as [L|L].
    + apply D1; [lra|]. now rewrite upto_n by lia.
    + destruct DA as [-> |DA]; [lra|]. apply DA; auto; lra.
  - apply (is_RInt_Chasles _ _ _ _ v0 w I0). apply (is_RInt_ext (fun y => RInt (fun x => F x y) a1 (upto i n y))); [|exact I1]. intros y _. now rewrite upto_n by lia.
  - exact V1.
Qed.
End Grid.

Lemma div_half X Y x : bdivS (b:=B) X 2 0 = Ok Y -> rel X x -> rel Y (x / 2).
Proof. intros E H. destruct (bk_divS _ _ OK X x 2 0 Y) as [_ R]; auto; [apply lit_int; lia|]. now rewrite dy_int in R. Qed.
Lemma div_n X Y x n : (1 <= n <= 2 ^ 53)%Z -> bdivS (b:=B) X n 0 = Ok Y -> rel X x -> rel Y (x / IZR n).
Proof. intros N E H. destruct (bk_divS _ _ OK X x n 0 Y) as [_ R]; auto; [apply lit_int; lia|]. now rewrite dy_int in R. Qed.
(* the region: x between a1 and b1, or a1 and the line from (b1, a2) to (a1, b2) *)
Definition rend (t : bool) (a1 b1 a2 b2 y : R) : R := if t then b1 - (b1 - a1) / (b2 - a2) * (y - a2) else b1.
Lemma dbl_ok md md' S1 E1 S2 E2 order n t v a1 b1 a2 b2 : Z.to_nat order = ord -> (1 <= n <= 2 ^ 53)%Z -> rel S1 a1 -> rel E1 b1 -> rel S2 a2 -> rel E2 b2 -> a1 <= b1 -> a2 <= b2 ->
  doubleintegral symd md f S1 E1 S2 E2 order n t = (Ok v, md') ->
  (forall x y, a2 <= y <= b2 -> a1 <= x <= rend t a1 b1 a2 b2 y -> dom2 x y) /\ (t = true -> a2 < b2) /\
  exists J V, (forall y, a2 <= y <= b2 -> is_RInt (fun x => F x y) a1 (rend t a1 b1 a2 b2 y) (J y)) /\ is_RInt J a2 b2 V /\ rel v V.
Proof.
  intros EO N HS1 HE1 HS2 HE2 L1 L2 E. unfold doubleintegral in E.
  destruct (dbl_steps S1 E1 S2 E2 n) as [[[[st1 st2] R1] R2]|] eqn:ES; [|discriminate]. unfold dbl_steps in ES.
  apply bind_ok in ES as (x1 & Ex1 & ES). apply bind_ok in ES as (x2 & Ex2 & ES). apply bind_ok in ES as (x3 & Ex3 & ES). apply bind_ok in ES as (x4 & Ex4 & ES).
  apply oki in ES. injection ES as -> -> -> ->. destruct (order <? 1)%Z; [discriminate|]. rewrite EO in E.
  destruct (bind (dbl_ub S1 E1 S2 E2 ord t) _) as [v'|] eqn:EB; [|discriminate]. assert (v' = v) by congruence. subst v'. clear E.
  apply bind_ok in EB as (T & ET & E).
  set (h1 := (b1 - a1) / IZR n). set (h2 := (b2 - a2) / IZR n).
  assert (PN : 0 < IZR n) by (apply (IZR_lt 0); lia).
  assert (H1 : rel x1 h1) by (apply (div_n _ _ _ n N Ex1), (bk_sub _ _ OK); auto).
  assert (H2 : rel x2 h2) by (apply (div_n _ _ _ n N Ex2), (bk_sub _ _ OK); auto).
  pose proof (div_half _ _ _ Ex3 H1) as H3. pose proof (div_half _ _ _ Ex4 H2) as H4.
  assert (P1 : 0 <= h1) by (apply Rdiv_le_0_compat; lra). assert (P2 : 0 <= h2) by (apply Rdiv_le_0_compat; lra).
  assert (HT : match T with Some ub => b2 - a2 <> 0 /\ t = true /\ h2 <> 0 /\ forall u, - (h2 / 2) <= u <= h2 / 2 -> rl (symd x4) u ub (- (h1 / h2) * u) | None => t = false end).
  { unfold dbl_ub in ET. destruct t; [|apply oki in ET; now subst T]. apply bind_ok in ET as (q & Eq & ET). apply oki in ET. subst T.
    destruct (bk_div _ _ OK _ _ q (- (b1 - a1)) (b2 - a2) Eq) as [Nz Rq]. { apply (bk_neg _ _ OK), (bk_sub _ _ OK); auto. } { apply (bk_sub _ _ OK); auto. }
    split; auto. split; auto. split. { unfold h2. intros Z. apply Nz. apply Rmult_eq_reg_r with (/ IZR n); [rewrite Rmult_0_l; exact Z|]. apply Rinv_neq_0_compat. lra. }
    intros u _. apply rl_lin. replace (- (h1 / h2)) with (- (b1 - a1) / (b2 - a2)); auto. unfold h1, h2. field. split; auto. lra. }
  assert (TT : tri T = t) by (destruct T; simpl; [symmetry|symmetry]; apply HT).
  assert (RR : forall y, right T n a1 a2 h1 h2 y = rend t a1 b1 a2 b2 y).
  { intros y. unfold right, rend. rewrite TT. destruct t; [|unfold h1; field; lra]. destruct T; [|discriminate]. destruct HT as (Nz & _). unfold diag, h1, h2. field. split; lra. }
  destruct (rows_ok S1 x1 x3 S2 x2 x4 T n a1 a2 h1 h2 HS1 HS2 H1 H2 H3 H4 P1 P2 N) with (cnt := Z.to_nat n) (i := 0%Z) (acc := t0 (B:=B)) (res := v) (v0 := 0) as [D1 (V & I1 & HV)]; auto; try lia.
  { destruct T; auto. tauto. }
  { rewrite Rmult_0_l, Rplus_0_r. apply (is_RInt_point (fun y => RInt (fun x => F x y) a1 (right T n a1 a2 h1 h2 y)) a2). }
  { apply (rel0 B rel OK). }
  rewrite Z.add_0_l, Z2Nat.id in D1, I1 by lia. destruct D1 as [D1|D1]; [lia|]. replace (a2 + IZR n * h2) with b2 in * by (unfold h2; field; lra).
  assert (DD : forall x y, a2 <= y <= b2 -> a1 <= x <= rend t a1 b1 a2 b2 y -> dom2 x y). { intros x y Hy Hx. apply D1; auto. now rewrite RR. }
  assert (LT : t = true -> a2 < b2). { intros ->. destruct T; [|discriminate]. destruct HT as (Nz & _). lra. }
  split; auto. split; auto.
  exists (fun y => RInt (fun x => F x y) a1 (rend t a1 b1 a2 b2 y)), V. split; [|split; auto].
  - intros y Hy. apply (RInt_correct (fun x => F x y)). apply ex_dom; [|intros; now apply DD]. unfold rend. destruct t; [|lra]. specialize (LT eq_refl).
    assert ((b1 - a1) / (b2 - a2) * (y - a2) <= (b1 - a1) / (b2 - a2) * (b2 - a2)). { apply Rmult_le_compat_l; [apply Rdiv_le_0_compat|]; lra. }
    replace ((b1 - a1) / (b2 - a2) * (b2 - a2)) with (b1 - a1) in H by (field; lra). lra.
  - apply (is_RInt_ext (fun y => RInt (fun x => F x y) a1 (right T n a1 a2 h1 h2 y))); [|exact I1]. intros y _. now rewrite RR.
Qed.
End DblP.
