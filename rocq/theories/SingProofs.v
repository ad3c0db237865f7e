(* The fixed-step integrators of kv/defint-singular.hpp enclose the improper integrals. *)
From Coq Require Import Reals ZArith Bool List Lra Lia Psatz Arith.
From Coquelicot Require Import Coquelicot.
From Verif Require Import Ext RealFun ADModel ADReal ADProofs PsaModel PsaReal PsaProofs PsaExpr PsaInt PsaUse PsaUseProofs PsaInst SingReal SingModel.
Import ListNotations.
Open Scope R_scope.

(* ---- expansions from the right ---- *)
Lemma pe_zero_r d s : (exists M e, 0 < e /\ forall t, 0 < t < e -> Rabs (pe d s t) <= M * t ^ s) -> forall i, (i < s)%nat -> d i = 0.
Proof.
  revert d. induction s as [|s IH]; intros d (M & e & He & H) i Hi; [lia|].
  assert (D0 : d O = 0).
  { destruct (bigO_norm 0 _ (bigO_pe (fun i => d (S i)) s)) as (K & e' & HK & He' & H').
    destruct (Req_EM_T (d O) 0) as [|N]; auto. exfalso. pose proof (Rabs_pos_lt _ N) as P.
    set (q := Rabs M + K + 1). assert (Q : 0 < q) by (unfold q; pose proof (Rabs_pos M); lra).
    set (t := Rmin (Rmin e e') (Rabs (d O) / q) / 2).
    assert (P1 : 0 < Rabs (d O) / q) by (apply Rdiv_lt_0_compat; auto).
    assert (T0 : 0 < Rmin (Rmin e e') (Rabs (d O) / q)) by (repeat apply Rmin_glb_lt; lra).
    assert (T : 0 < t /\ t < e /\ t < e' /\ t < Rabs (d O) / q).
    { pose proof (Rmin_l (Rmin e e') (Rabs (d O) / q)). pose proof (Rmin_r (Rmin e e') (Rabs (d O) / q)). pose proof (Rmin_l e e'). pose proof (Rmin_r e e').
      unfold t. lra. }
    destruct T as (T1 & T2 & T3 & T4). assert (AT : Rabs t = t) by (apply Rabs_pos_eq; lra).
    specialize (H t ltac:(lra)). specialize (H' t). rewrite AT in H'. specialize (H' T3). simpl in H'. rewrite pe_S in H.
    assert (T5 : q * t < Rabs (d O)). { apply Rmult_lt_compat_r with (r := q) in T4; auto. unfold Rdiv in T4. rewrite Rmult_assoc, Rinv_l in T4 by lra. lra. }
    assert (TS : t ^ S s <= t). { simpl. rewrite <- (Rmult_1_r t) at 3. apply Rmult_le_compat_l; [lra|]. apply pow1_le. lra. }
    assert (TP : 0 <= t ^ S s) by (apply pow_le; lra).
    set (p := pe (fun i => d (S i)) s t) in *.
    assert (A : Rabs (d O) <= Rabs (d O + t * p) + Rabs (t * p)).
    { replace (d O) with ((d O + t * p) + - (t * p)) at 1 by ring. eapply Rle_trans; [apply Rabs_triang|]. rewrite Rabs_Ropp. lra. }
    rewrite (Rabs_mult t), AT in A. assert (t * Rabs p <= t * K) by (apply Rmult_le_compat_l; lra).
    assert (M * t ^ S s <= Rabs M * t). { eapply Rle_trans; [apply Rmult_le_compat_r; [lra|apply Rle_abs]|]. apply Rmult_le_compat_l; [apply Rabs_pos|auto]. }
    unfold q in T5. lra. }
  destruct i as [|i]; auto. apply (IH (fun i => d (S i))); [|lia]. exists M, e. split; auto. intros t Ht. specialize (H t Ht). rewrite pe_S, D0, Rplus_0_l, Rabs_mult, (Rabs_pos_eq t) in H by lra.
  apply Rmult_le_reg_l with t; [apply Ht|]. simpl in H. lra.
Qed.
(* |f| <= M t^m on the right of 0 *)
Definition vanish (m : nat) (f : R -> R) : Prop := exists M d, 0 < d /\ forall t, 0 < t < d -> Rabs (f t) <= M * t ^ m.
Lemma vanish_coef m s f c : (m <= s)%nat -> jet s f c -> vanish m f -> forall i, (i < m)%nat -> c i = 0.
Proof.
  intros L J (M & d & Hd & H). apply (jet_weak s m) in J; auto. destruct J as (M' & d' & Hd' & H'). apply pe_zero_r. exists (M + M'), (Rmin d d'). split; [apply Rmin_glb_lt; auto|].
  intros t Ht. pose proof (Rmin_l d d'). pose proof (Rmin_r d d'). specialize (H t ltac:(lra)). specialize (H' t). rewrite (Rabs_pos_eq t) in H' by lra. specialize (H' ltac:(lra)).
  replace (pe c m t) with (f t + - (f t - pe c m t)) by ring. eapply Rle_trans; [apply Rabs_triang|]. rewrite Rabs_Ropp. lra.
Qed.
(* f(t)/t^m with its value at 0 *)
Definition quo (m : nat) (f : R -> R) (l : R) (t : R) : R := if Req_EM_T t 0 then l else f t / t ^ m.
Lemma quo_0 m f l : quo m f l 0 = l. Proof. unfold quo. destruct (Req_EM_T 0 0); tauto. Qed.
Lemma quo_n m f l t : t <> 0 -> quo m f l t = f t / t ^ m. Proof. unfold quo. destruct (Req_EM_T t 0); tauto. Qed.
Lemma pe_shift c m s t : (m <= s)%nat -> (forall i, (i < m)%nat -> c i = 0) -> pe c s t = t ^ m * pe (fun i => c (m + i)%nat) (s - m) t.
Proof.
  intros L Z. rewrite (pe_split c m s t L). rewrite (pe_ext c (fun _ => 0) m) by auto. unfold pe at 1. rewrite (rsum_ext _ (fun _ => 0) m) by (intros; ring).
  assert (E : rsum (fun _ => 0) m = 0) by (clear; induction m; simpl; lra). rewrite E. ring.
Qed.
Lemma pe_contin c n t : continuous (pe c n) t.
Proof.
  induction n. { apply (continuous_ext (fun _ => 0)); [reflexivity|]. apply continuous_const. }
  apply (continuous_ext (fun t => plus (pe c n t) (c n * t ^ n))); [intros; rewrite pe_last; unfold plus; simpl; ring|].
  apply (continuous_plus (pe c n) (fun t => c n * t ^ n)); auto. apply (ex_derive_continuous (fun t => c n * t ^ n)). auto_derive. auto.
Qed.
Lemma quo_cont0 m s f c : (m < s)%nat -> jet s f c -> (forall i, (i < m)%nat -> c i = 0) -> continuous (quo m f (c m)) 0.
Proof.
  intros L J Z. set (p := pe (fun i => c (m + i)%nat) (s - m)).
  assert (P0 : p 0 = c m). { unfold p. replace (s - m)%nat with (S (s - m - 1)) by lia. rewrite pe_S. rewrite Nat.add_0_r. ring. }
  assert (BO : bigO (s - m) (fun t => quo m f (c m) t - p t)).
  { destruct J as (M & d & Hd & H). exists M, d. split; auto. intros t Ht. destruct (Req_EM_T t 0) as [->|N].
    - rewrite quo_0, P0. replace (c m - c m) with 0 by ring. rewrite Rabs_R0, pow_i by lia. lra.
    - rewrite quo_n by auto. assert (TM : t ^ m <> 0) by (apply pow_nonzero; auto). specialize (H t Ht). rewrite (pe_shift c m s t) in H by (auto; lia). fold p in H.
      replace (f t - t ^ m * p t) with (t ^ m * (f t / t ^ m - p t)) in H by (field; auto). rewrite Rabs_mult in H.
      replace s with (m + (s - m))%nat in H at 1 by lia. rewrite pow_add, <- RPow_abs in H. apply Rmult_le_reg_l with (Rabs t ^ m); [apply pow_lt, Rabs_pos_lt; auto|].
      rewrite RPow_abs. rewrite RPow_abs in H. rewrite <- !RPow_abs in *. lra. }
  apply (continuous_ext (fun t => plus (p t) (quo m f (c m) t - p t))); [intros; unfold plus; simpl; ring|].
  apply (continuous_plus p (fun t => quo m f (c m) t - p t)); [apply pe_contin|].
  apply continuity_pt_filterlim. intros e He. destruct (bigO_small (s - m) _ e ltac:(lia) BO He) as (d & Hd & H). exists d. split; auto.
  intros t [_ Ht]. unfold R_dist in *. simpl in *. unfold R_dist in *. rewrite Rminus_0_r in Ht. rewrite quo_0, P0. replace (c m - c m) with 0 by ring. rewrite Rminus_0_r. auto.
Qed.
Lemma quo_cont m (f : R -> R) l u : u <> 0 -> continuous f u -> continuous (quo m f l) u.
Proof.
  intros N C. apply (continuous_ext_loc (quo m f l) (fun t => mult (f t) (/ t ^ m)) u).
  - exists (mkposreal (Rabs u) (Rabs_pos_lt _ N)). intros t Ht. unfold ball in Ht; simpl in Ht; unfold AbsRing_ball, abs, minus, plus, opp in Ht; simpl in Ht.
    rewrite quo_n; [reflexivity|]. intros ->. rewrite Rplus_0_l, Rabs_Ropp in Ht. lra.
  - apply (continuous_mult f (fun t => / t ^ m)); auto. apply (ex_derive_continuous (fun t => / t ^ m)). auto_derive. apply pow_nonzero; auto.
Qed.
Lemma Rpower_cont (H : R -> R) p u : continuous H u -> 0 < H u -> continuous (fun t => Rpower (H t) p) u.
Proof.
  intros C P. unfold Rpower. apply (continuous_comp (fun t => p * ln (H t)) exp).
  - apply (continuous_mult (fun _ => p) (fun t => ln (H t))); [apply continuous_const|]. apply (continuous_comp H ln); auto. now apply continuous_ln.
  - apply (ex_derive_continuous exp). auto_derive. auto.
Qed.
Lemma ln_cont (H : R -> R) u : continuous H u -> 0 < H u -> continuous (fun t => ln (H t)) u.
Proof. intros C P. apply (continuous_comp H ln); auto. now apply continuous_ln. Qed.

Lemma INR_IZR_INZ_pow t m : 0 < t -> (0 <= m)%Z -> Rpower t (IZR m) = t ^ Z.to_nat m.
Proof. intros Ht Hm. rewrite <- Rpower_pow by auto. rewrite INR_IZR_INZ, Z2Nat.id by auto. reflexivity. Qed.

Section SP.
Variable B : base.
Variable rel : B -> R -> Prop.
Hypothesis OK : base_ok B rel.
Hypothesis CVX : rel_itv B rel.
Notation Rep := (Rep B rel).
Notation coef := (coef B rel).
Variable hull0 : B -> B.
Hypothesis HULL0 : forall X x z, rel X x -> mix 0 x z -> rel (hull0 X) z.
Variable bpow : B -> B -> res B.
Hypothesis BPOW : forall X Y Q x y, bpow X Y = Ok Q -> rel X x -> rel Y y -> 0 < x -> rel Q (Rpower x y).

Lemma Rep_weak u s X f : Rep (Some (u, true)) s X f -> Rep (Some (u, false)) s X f.
Proof. intros [L (c & C & Z & E & _)]. split; auto. exists c. split; auto. split; auto. split; auto. discriminate. Qed.
Lemma Rep_pt u s X f g : f u = g u -> Rep (Some (u, false)) s X f -> Rep (Some (u, false)) s X g.
Proof. intros E. apply Rep_ext. split; [exact E|discriminate]. Qed.
Lemma setorder_pad k s n X f m D Y : s = S (Z.to_nat n) -> (1 <= n)%Z -> Rep k s X f -> ps_setorder m D X n = Ok Y -> length Y = s /\ Rep k s Y f.
Proof.
  intros S1 N [L (c & C & Z & E)] H. unfold ps_setorder in H. destruct (Z.ltb_spec n 0); [lia|]. assert (LL : (length X <= Z.to_nat n + 1)%nat) by lia.
  destruct (Nat.leb_spec (length X) (Z.to_nat n + 1)); [|lia]. apply oki in H. subst Y. rewrite app_length, repeat_length. split; [lia|].
  split; [right; rewrite app_length, repeat_length; lia|]. exists c. split; [|split; auto].
  - intros i _. rewrite at_repeat. destruct (Nat.lt_ge_cases i (length X)); [auto|]. unfold at_. rewrite nth_overflow, Z by auto. apply (rel0 B rel OK).
  - rewrite app_length, repeat_length. intros i Hi. apply Z. lia.
Qed.

(* ---- div_tn ---- *)
Lemma div_tn_at (Y Z : list B) m : div_tn Y m = Ok Z -> (0 <= m)%Z /\ (Z.to_nat m <= length Y)%nat /\ length Z = length Y /\
  forall i, at_ Z i = at_ Y (Z.to_nat m + i).
Proof.
  unfold div_tn. destruct (Z.ltb_spec m 0); [discriminate|]. destruct (Z.ltb_spec (Z.of_nat (length Y)) m); [discriminate|]. cbn [orb]. intros E. apply oki in E. subst Z.
  split; auto. split; [lia|]. split; [rewrite app_length, repeat_length, skipn_length; lia|]. intros i. rewrite at_repeat. unfold at_.
  rewrite <- (firstn_skipn (Z.to_nat m) Y) at 2. rewrite app_nth2; rewrite firstn_length_le by lia; [|lia]. f_equal. lia.
Qed.
Lemma shift_rep s Y Z F m h : (2 <= s)%nat -> (Z.to_nat m < s - 1)%nat -> 0 < h -> (forall u, 0 <= u <= h -> Rep (Some (u, true)) s Y F /\ continuous F u) ->
  vanish (Z.to_nat m) F -> div_tn Y m = Ok Z ->
  exists H, (forall t, t <> 0 -> H t = F t / t ^ Z.to_nat m) /\ (length Z = 1%nat -> forall u, 0 <= u <= h -> H u = H 0) /\
  forall u, 0 <= u <= h -> Rep (Some (u, false)) s Z H /\ continuous H u.
Proof.
  intros S1 M1 Hh HY V E. destruct (div_tn_at Y Z m E) as (M0 & ML & LZ & AT). set (n := Z.to_nat m) in *.
  destruct (HY 0) as [[L0 (c & C & Zc & E0 & J)] _]; [lra|]. specialize (J eq_refl). rewrite Jo_2 in J by auto.
  assert (CZ : forall i, (i < n)%nat -> c i = 0). { apply (vanish_coef n (s - 1) F); auto; lia. }
  assert (K : forall u, 0 <= u <= h -> exists c', coef Y c' /\ (forall i, (length Y <= i)%nat -> c' i = 0) /\ F u = pe c' s u /\ forall i, (i < s - 1)%nat -> c' i = c i).
  { intros u Hu. destruct (HY u Hu) as [[_ (c' & C' & Z' & E' & J')] _]. specialize (J' eq_refl). rewrite Jo_2 in J' by auto. exists c'. split; auto. split; auto. split; auto.
    intros i Hi. apply (jet_unique (s - 1) F); auto. }
  assert (KV : forall u c', 0 < u -> F u = pe c' s u -> (forall i, (i < s - 1)%nat -> c' i = c i) -> (forall i, (length Y <= i)%nat -> c' i = 0) -> quo n F (c n) u = pe (fun i => c' (n + i)%nat) s u).
  { intros u c' Hu EF EC ZC. rewrite quo_n by lra. rewrite EF, (pe_shift c' n s u); [|lia|intros i Hi; rewrite EC by lia; auto].
    assert (u ^ n <> 0) by (apply pow_nonzero; lra). replace (u ^ n * pe (fun i => c' (n + i)%nat) (s - n) u / u ^ n) with (pe (fun i => c' (n + i)%nat) (s - n) u) by (field; auto).
    symmetry. apply pe_more; [|lia]. intros i Hi. apply ZC. lia. }
  exists (quo n F (c n)). split; [intros; now apply quo_n|]. split.
  - intros L1 u Hu. destruct (Req_EM_T u 0) as [->|N]; auto. destruct (K u Hu) as (c' & C' & Z' & E' & A'). rewrite (KV u c') by (auto; lra). rewrite quo_0.
    rewrite (pe_more _ 1 s); [|intros i Hi; apply Z'; lia|lia]. unfold pe. simpl. rewrite Nat.add_0_r, A' by lia. ring.
  - intros u Hu. split.
    + destruct (K u Hu) as (c' & C' & Z' & E' & A'). split; [now rewrite LZ|]. exists (fun i => c' (n + i)%nat). split; [|split; [|split; [|discriminate]]].
      * intros i Hi. rewrite AT. destruct (Nat.lt_ge_cases (n + i) (length Y)); [now apply C'|]. unfold at_. rewrite nth_overflow, Z' by auto. apply (rel0 B rel OK).
      * intros i Hi. apply Z'. lia.
      * cbn [fst]. destruct (Req_EM_T u 0) as [->|N].
        -- rewrite quo_0. replace s with (S (s - 1)) at 1 by lia. rewrite pe_S, Nat.add_0_r, A' by lia. ring.
        -- apply KV; auto. lra.
    + destruct (Req_EM_T u 0) as [->|N]; [apply (quo_cont0 n (s - 1)); auto|]. apply quo_cont; auto. now apply HY.
Qed.

(* ---- function objects ---- *)
Definition sg (r : bool) (y : R) : R := if r then - y else y.
Definition obj (r : bool) (e : aexpr) : fn B := if r then Defint_Reverse (psafun B e) else psafun B e.
Lemma obj_rep j r e x D s a h Y : (2 <= s)%nat -> (Z.of_nat s <= 2 ^ 52)%Z -> awf 1 e -> plog e -> noarc e = true -> 0 < h ->
  (forall u, 0 <= u <= h -> rel D u) -> (forall u, 0 <= u <= h -> length x = s /\ Rep (Some (u, j)) s x (fun t => a + t)) -> obj r e 2%Z D x = Ok Y ->
  forall u, 0 <= u <= h -> adom e (fun _ => sg r (a + u)) /\ Rep (Some (u, j)) s Y (fun t => rval e (fun _ => sg r (a + t))) /\
    continuous (fun t => rval e (fun _ => sg r (a + t))) u.
Proof.
  intros S1 S2 W P NA Hh HD HX E u Hu.
  assert (EE : pseval 2 D (fun _ => if r then ps_neg x else x) e = Ok Y) by (destruct r; exact E).
  destruct (HX u Hu) as [LX RX].
  destruct (pseval_ok B rel OK (Some (u, j)) 2 D s 1 (fun _ => if r then ps_neg x else x) (fun t _ => sg r (a + t)) e Y) as [DD RY]; auto.
  - simpl. split; auto. split; [auto|]. split; [apply HD; lra|apply (itv_cvx B rel CVX)].
  - intros i Hi. destruct r; simpl; [split; [unfold ps_neg; now rewrite map_length|]|split; auto]. apply (Rep_neg B rel OK _ s ltac:(lia) x (fun t => a + t)); exact RX.
  - split; [exact (proj1 DD)|]. split; auto. apply (rval_continuous 1 e (fun u _ => sg r (a + u))); auto; [|exact (proj1 DD)]. intros i Hi.
    assert (C : continuous (fun t => a + t) u) by (apply (continuous_plus (fun _ => a) (fun u => u)); [apply continuous_const|apply continuous_id]).
    destruct r; simpl; auto. apply (continuous_opp (fun t => a + t)); auto.
Qed.
Lemma id_rep j D start a h order x : (1 <= order)%Z -> rel start a -> ps_setorder 2 D [start; t1] order = Ok x ->
  forall u, 0 <= u <= h -> length x = S (Z.to_nat order) /\ Rep (Some (u, j)) (S (Z.to_nat order)) x (fun t => a + t).
Proof.
  intros O Ha E u Hu. rewrite (setorder_id B _ _ _ _ O) in E. apply oki in E. subst x. split; [rewrite app_length, repeat_length; simpl; lia|].
  replace (S (Z.to_nat order)) with (S (S (Z.to_nat order - 1))) by lia. now apply (Rep_id B rel OK).
Qed.

(* ---- the loops ---- *)
Lemma pw_loop_ok step h : rel step h -> 0 < h -> forall y c q tp tx acc a0 v, 0 < q -> coef y c -> rel tp q -> rel tx (Rpower h q) -> rel acc a0 ->
  pw_loop step tp tx y acc = Ok v -> rel v (a0 + rsum (fun i => c i * (Rpower h (q + INR i) / (q + INR i))) (length y)).
Proof.
  intros Hs Hh. induction y as [|b y IH]; intros c q tp tx acc a0 v Hq C Ht Hx HA E; cbn [pw_loop] in E.
  - apply oki in E. subst v. simpl. now rewrite Rplus_0_r.
  - apply coef_cons in C as [C0 C]. apply bind_ok in E as (r & Er & E).
    destruct (bk_div _ _ OK _ _ _ (c O * Rpower h q) q Er) as [_ R]; auto; [now apply (bk_mul _ _ OK)|].
    assert (L1 : lit 1 0) by (apply lit_int; lia).
    assert (T1 : rel (baddS tp 1 0) (q + 1)). { pose proof (bk_addS _ _ OK tp q 1 0 L1 Ht) as T. now rewrite dy_int in T. }
    assert (X1 : rel (bmul tx step) (Rpower h (q + 1))). { rewrite Rpower_plus, Rpower_1 by auto. now apply (bk_mul _ _ OK). }
    pose proof (IH (fun i => c (S i)) (q + 1) _ _ _ (a0 + c O * Rpower h q / q) v ltac:(lra) C T1 X1 (bk_add _ _ OK _ _ _ _ HA R) E) as K.
    replace (a0 + rsum (fun i => c i * (Rpower h (q + INR i) / (q + INR i))) (length (b :: y)))
      with (a0 + c O * Rpower h q / q + rsum (fun i => c (S i) * (Rpower h (q + 1 + INR i) / (q + 1 + INR i))) (length y)); auto.
    cbn [length]. rewrite rsum_first. replace (INR 0) with 0 by reflexivity. rewrite (rsum_ext (fun i => c (S i) * (Rpower h (q + INR (S i)) / (q + INR (S i)))) (fun i => c (S i) * (Rpower h (q + 1 + INR i) / (q + 1 + INR i)))).
    + rewrite Rplus_0_r. unfold Rdiv. ring.
    + intros i _. rewrite S_INR. replace (q + (INR i + 1)) with (q + 1 + INR i) by ring. reflexivity.
Qed.
Lemma lg_loop_ok step logx h : rel step h -> 0 < h -> rel logx (ln h) -> forall y c i xn acc a0 v, (Z.of_nat i + Z.of_nat (length y) < 2 ^ 26)%Z -> coef y c ->
  rel xn (h ^ S i) -> rel acc a0 -> lg_loop step logx xn y (Z.of_nat i) acc = Ok v ->
  rel v (a0 + rsum (fun j => c j * (h ^ S (i + j) * (INR (S (i + j)) * ln h - 1) / (INR (S (i + j)) * INR (S (i + j))))) (length y)).
Proof.
  intros Hs Hh HL. induction y as [|b y IH]; intros c i xn acc a0 v LI C Hx HA E; cbn [lg_loop] in E.
  - apply oki in E. subst v. simpl. now rewrite Rplus_0_r.
  - apply coef_cons in C as [C0 C]. apply bind_ok in E as (r & Er & E). cbn [length] in LI.
    assert (L1 : lit 1 0) by (apply lit_int; lia). assert (L2 : lit (Z.of_nat i + 1) 0) by (apply lit_int; lia).
    assert (L3 : lit ((Z.of_nat i + 1) * (Z.of_nat i + 1)) 0) by (apply lit_int; rewrite Z.abs_eq by lia; nia).
    assert (EI : IZR (Z.of_nat i + 1) = INR (S i)) by (rewrite S_INR, INR_IZR_INZ, plus_IZR; reflexivity).
    assert (R0 : rel (bmul (bmul b xn) (bsubS (bSmul (Z.of_nat i + 1) 0 logx) 1 0)) (c O * h ^ S i * (INR (S i) * ln h - 1))).
    { apply (bk_mul _ _ OK); [now apply (bk_mul _ _ OK)|]. pose proof (bk_Smul _ _ OK _ _ _ 0%Z L2 HL) as R1. rewrite dy_int, EI in R1.
      pose proof (bk_subS _ _ OK _ _ 1 0%Z L1 R1) as R2. now rewrite dy_int in R2. }
    destruct (bk_divS _ _ OK _ _ _ _ _ L3 Er R0) as [_ R]. rewrite dy_int, mult_IZR, EI in R.
    assert (X1 : rel (bmul xn step) (h ^ S (S i))). { replace (h ^ S (S i)) with (h ^ S i * h) by (simpl; ring). now apply (bk_mul _ _ OK). }
    replace (Z.of_nat i + 1)%Z with (Z.of_nat (S i)) in E by lia.
    pose proof (IH (fun i => c (S i)) (S i) _ _ _ v ltac:(lia) C X1 (bk_add _ _ OK _ _ _ _ HA R) E) as K.
    cbn [length]. rewrite rsum_first. rewrite Nat.add_0_r. rewrite (rsum_ext _ (fun j => c (S j) * (h ^ S (S i + j) * (INR (S (S i + j)) * ln h - 1) / (INR (S (S i + j)) * INR (S (S i + j)))))).
    + rewrite <- Rplus_assoc. unfold Rdiv in *. rewrite (Rmult_assoc (c O)) in K. rewrite (Rmult_assoc (c O)) in K. exact K.
    + intros j _. replace (i + S j)%nat with (S i + j)%nat by lia. reflexivity.
Qed.

(* pointwise representation gives the hypotheses of w_coef *)
Lemma rep_coefs s Y phi h : (1 <= s)%nat -> 0 < h -> (forall u, 0 <= u <= h -> Rep (Some (u, false)) s Y phi) ->
  (forall i, (i < length Y)%nat -> itv (rel (at_ Y i))) /\
  forall u, 0 < u <= h -> exists c, (forall i, (i < length Y)%nat -> rel (at_ Y i) (c i)) /\ phi u = pe c (length Y) u.
Proof.
  intros S1 Hh H. split.
  - intros i Hi. destruct (H 0) as [_ (c & C & _)]; [lra|]. apply (CVX _ (c i)). now apply C.
  - intros u Hu. destruct (Rep_grepr B rel s u Y phi S1 (H u ltac:(lra))) as (c & C & E). exists c. split; auto.
Qed.
Lemma grepr_coefs s Y phi h : (1 <= s)%nat -> 0 < h -> length Y = s -> (forall u, 0 <= u <= h -> grepr B rel Y u (phi u)) -> forall u, 0 <= u <= h -> Rep (Some (u, false)) s Y phi.
Proof. intros S1 Hh L H u Hu. apply grepr_Rep; auto. rewrite L. apply le_n. Qed.
(* the integral of a represented continuous function *)
Lemma int_ok s Y J phi step h : (1 <= s)%nat -> (Z.of_nat s <= 2 ^ 52)%Z -> 0 < h -> rel step h -> (forall u, 0 <= u <= h -> Rep (Some (u, false)) s Y phi /\ continuous phi u) ->
  ps_integrate Y = Ok J -> exists v, improper phi 0 h v /\ rel (ps_eval J step) v.
Proof.
  intros S1 S2 Hh Hs H E. destruct (rep_coefs s Y phi h S1 Hh ltac:(intros; now apply H)) as [IT RC].
  destruct (pow_exists 0 h phi ltac:(lra) Hh) as [v Hv]; [intros; now apply H|].
  destruct (pow_coef 0 h _ _ _ v ltac:(lra) Hh IT RC Hv) as (c & C & EV).
  assert (LY : (Z.of_nat (length Y) < 2 ^ 53)%Z). { destruct (H 0) as [[L _] _]; [lra|]. lia. }
  destruct (integrate_ok B rel OK Y J c LY E C) as [LJ CJ]. exists v. split.
  - apply (improper_ext (fun t => Rpower t 0 * phi t)); auto. intros t Ht. rewrite Rpower_O by lra. ring.
  - replace v with (pe (icoef 0 c) (length J) h). { now apply (horner_rel B rel OK). }
    rewrite LJ, <- isum_pe, EV. unfold isum. apply rsum_ext. intros i _. rewrite Rplus_0_l. replace (1 + INR i) with (INR (S i)) by (rewrite S_INR; ring).
    rewrite Rpower_pow by auto. unfold Rdiv. ring.
Qed.
(* the value at 0 of a function whose logarithm was taken is positive *)
Lemma log_pos0 s Z L H D h : (1 <= s)%nat -> (Z.of_nat s <= 2 ^ 52)%Z -> 0 < h -> (forall u, 0 <= u <= h -> rel D u) -> (forall u, 0 <= u <= h -> Rep (Some (u, false)) s Z H) ->
  (length Z = 1%nat -> forall u, 0 <= u <= h -> H u = H 0) -> (forall u, 0 < u <= h -> 0 < H u) -> ps_log 2 D Z = Ok L -> forall u, 0 <= u <= h -> 0 < H u.
Proof.
  intros S1 S2 Hh HD HR H1 HP E u Hu. destruct (Req_EM_T u 0) as [->|N]; [|apply HP; lra].
  destruct (Nat.eq_dec (length Z) 1) as [L1|L1]. { rewrite <- (H1 L1 h ltac:(lra)). apply HP. lra. }
  assert (MD : mdok B rel (Some (0, false)) 2 D). { split; auto. split; [apply HD; simpl; lra|]. split; [apply HD; lra|apply (itv_cvx B rel CVX)]. }
  destruct (Rep_log B rel OK (Some (0, false)) 2 D s S1 S2 MD Z L H E (HR 0 ltac:(lra))) as [P _]; [tauto|]. exact (proj1 P).
Qed.
Lemma md u D h : 0 <= u <= h -> (forall u, 0 <= u <= h -> rel D u) -> mdok B rel (Some (u, false)) 2 D.
Proof. intros Hu HD. split; auto. split; [apply HD; simpl; lra|]. split; [apply HD; lra|apply (itv_cvx B rel CVX)]. Qed.
Lemma log_rep s Z L H D h : (1 <= s)%nat -> (Z.of_nat s <= 2 ^ 52)%Z -> (forall u, 0 <= u <= h -> rel D u) -> (forall u, 0 <= u <= h -> Rep (Some (u, false)) s Z H /\ 0 < H u) ->
  ps_log 2 D Z = Ok L -> forall u, 0 <= u <= h -> Rep (Some (u, false)) s L (fun t => ln (H t)).
Proof.
  intros S1 S2 HD HR E u Hu. destruct (HR u Hu) as [R P].
  destruct (Rep_log B rel OK (Some (u, false)) 2 D s S1 S2 (md u D h Hu HD) Z L (fun _ => H u) E) as [_ K]; auto; [now apply (Rep_pt u s Z H)|].
  revert K. now apply Rep_pt.
Qed.
Lemma pow_rep s Z p P U H D h : (1 <= s)%nat -> (Z.of_nat s <= 2 ^ 52)%Z -> (forall u, 0 <= u <= h -> rel D u) -> (forall u, 0 <= u <= h -> Rep (Some (u, false)) s Z H /\ 0 < H u) ->
  rel P p -> ps_pow 2 D Z [P] = Ok U -> forall u, 0 <= u <= h -> Rep (Some (u, false)) s U (fun t => Rpower (H t) p).
Proof.
  intros S1 S2 HD HR HP E u Hu. destruct (HR u Hu) as [R P0].
  destruct (Rep_pow B rel OK (Some (u, false)) 2 D s S1 S2 (md u D h Hu HD) Z [P] U (fun _ => H u) (fun _ => p) E) as [_ K]; auto; [now apply (Rep_pt u s Z H)|now apply (Rep_cst B rel _ s S1)|].
  revert K. now apply Rep_pt.
Qed.
Lemma mul_rep s X Y U f g D h : (1 <= s)%nat -> (Z.of_nat s <= 2 ^ 52)%Z -> (forall u, 0 <= u <= h -> rel D u) -> (forall u, 0 <= u <= h -> Rep (Some (u, false)) s X f) ->
  (forall u, 0 <= u <= h -> Rep (Some (u, false)) s Y g) -> ps_mul 2 D X Y = Ok U -> forall u, 0 <= u <= h -> Rep (Some (u, false)) s U (fun t => f t * g t).
Proof. intros S1 S2 HD HX HY E u Hu. apply (Rep_mul B rel OK (Some (u, false)) 2 D s S1 S2 (md u D h Hu HD) X Y); auto. Qed.

(* ---- defint_power3 ---- *)
Lemma pw_core s order D Z H gx G power p m pz y0 y tx step h v : s = S (Z.to_nat order) -> (1 <= order)%Z -> (order < 2 ^ 52)%Z -> (0 <= m <= 2 ^ 53)%Z -> 0 < h ->
  (forall u, 0 <= u <= h -> rel D u) -> (forall u, 0 <= u <= h -> Rep (Some (u, false)) s Z H /\ continuous H u) ->
  (length Z = 1%nat -> forall u, 0 <= u <= h -> H u = H 0) -> (forall u, 0 < u <= h -> 0 < H u) ->
  (forall u, 0 <= u <= h -> Rep (Some (u, false)) s gx G /\ continuous G u) -> rel power p -> rel step h -> -1 < p * IZR m ->
  ps_pow 2 D Z [power] = Ok pz -> ps_mul 2 D pz gx = Ok y0 -> (y0 = y \/ ps_setorder 2 D y0 order = Ok y) -> bpow step (baddS (bmulS power m 0) 1 0) = Ok tx ->
  pw_loop step (baddS (bmulS power m 0) 1 0) tx y t0 = Ok v ->
  exists I, improper (fun t => Rpower t (p * IZR m) * (Rpower (H t) p * G t)) 0 h I /\ rel v I.
Proof.
  intros Es O1 O2 M1 Hh HD HZ H1 HP HG Hp Hs Hq Epw Emu Eso Etx Elo. assert (S1 : (1 <= s)%nat) by lia. assert (S2 : (Z.of_nat s <= 2 ^ 52)%Z) by lia.
  assert (PP : forall u, 0 <= u <= h -> 0 < H u). { assert (Epw' := Epw). unfold ps_pow in Epw'. apply bind_ok in Epw' as (l & El & _). apply (log_pos0 s Z l H D h); auto. intros; now apply HZ. }
  assert (R1 := pow_rep s Z p power pz H D h S1 S2 HD (fun u Hu => conj (proj1 (HZ u Hu)) (PP u Hu)) Hp Epw).
  assert (R2 := mul_rep s pz gx y0 _ G D h S1 S2 HD R1 (fun u Hu => proj1 (HG u Hu)) Emu). cbv beta in R2.
  set (phi := fun t => Rpower (H t) p * G t) in *.
  assert (R3 : forall u, 0 <= u <= h -> Rep (Some (u, false)) s y phi). { intros u Hu. destruct Eso as [<-|Eso]; [now apply R2|]. eapply setorder_pad; eauto. }
  destruct (rep_coefs s y phi h S1 Hh R3) as [IT RC].
  assert (CP : forall t, 0 <= t <= h -> continuous phi t).
  { intros t Ht. apply (continuous_mult (fun t => Rpower (H t) p) G); [|now apply HG]. apply Rpower_cont; [now apply HZ|now apply PP]. }
  destruct (pow_exists (p * IZR m) h phi Hq Hh CP) as [I HI]. destruct (pow_coef _ h _ _ _ I Hq Hh IT RC HI) as (c & C & EV).
  exists I. split; auto.
  assert (L1 : lit 1 0) by (apply lit_int; lia). assert (LM : lit m 0) by (apply lit_int; lia).
  assert (TP : rel (baddS (bmulS power m 0) 1 0) (p * IZR m + 1)).
  { pose proof (bk_mulS _ _ OK power p m 0%Z LM Hp) as T. pose proof (bk_addS _ _ OK _ _ 1 0%Z L1 T) as T'. now rewrite !dy_int in T'. }
  pose proof (pw_loop_ok step h Hs Hh y c (p * IZR m + 1) _ tx t0 0 v ltac:(lra) C TP (BPOW _ _ _ _ _ Etx Hs TP Hh) (rel0 B rel OK) Elo) as K.
  rewrite Rplus_0_l, <- EV in K. exact K.
Qed.
Lemma dom_all step h : rel step h -> 0 < h -> forall u, 0 <= u <= h -> rel (hull0 step) u.
Proof. intros Hs Hh u Hu. apply (HULL0 _ h); auto. left. lra. Qed.
Lemma with_state_ok st start end_ run v st' : with_state hull0 st start end_ run = (Ok v, st') -> run (hull0 (bsub end_ start)) (bsub end_ start) = Ok v.
Proof. unfold with_state. destruct (run _ _); [|discriminate]. congruence. Qed.

(* the run of defint_power3, and that of one turn of defint_power3_autostep, which does not set the order *)
Definition p3run (pad : bool) (D : B) (f g : fn B) (start step : B) (order : Z) (power : B) (mult : Z) : res B :=
  do x <- ps_setorder 2 D [start; t1] order; do fx <- f 2%Z D x; do d <- div_tn fx mult; do p <- ps_pow 2 D d [power]; do gx <- g 2%Z D x; do y <- ps_mul 2 D p gx;
  do y <- (if pad then ps_setorder 2 D y order else Ok y);
  let tp := baddS (bmulS power mult 0) 1 0 in
  do tx <- bpow step tp; pw_loop step tp tx y t0.
Lemma pad_or pad D (y0 y : list B) order : (if pad : bool then ps_setorder 2 D y0 order else Ok y0) = Ok y -> y0 = y \/ ps_setorder 2 D y0 order = Ok y.
Proof. destruct pad; [auto|]. intros E. apply oki in E. auto. Qed.
Lemma power3_gen pad rf ef rg eg start end_ order power m v a c p : (1 <= order)%Z -> (order < 2 ^ 52)%Z -> (0 <= m < order)%Z ->
  awf 1 ef -> plog ef -> noarc ef = true -> awf 1 eg -> plog eg -> noarc eg = true -> rel start a -> rel end_ c -> rel power p -> a < c -> -1 < p * IZR m ->
  let F := fun y => rval ef (fun _ => sg rf y) in let G := fun y => rval eg (fun _ => sg rg y) in
  vanish (Z.to_nat m) (fun t => F (a + t)) -> (forall y, a < y <= c -> 0 < F y) ->
  p3run pad (hull0 (bsub end_ start)) (obj rf ef) (obj rg eg) start (bsub end_ start) order power m = Ok v ->
  (forall y, a <= y <= c -> adom ef (fun _ => sg rf y) /\ adom eg (fun _ => sg rg y)) /\
  exists I, improper (fun y => Rpower (F y) p * G y) a c I /\ rel v I.
Proof.
  intros O1 O2 M1 Wf Pf Nf Wg Pg Ng Ha Hc Hp Hac Hq F G V FP E. set (step := bsub end_ start) in *. set (D := hull0 step) in *. set (h := c - a).
  assert (Hh : 0 < h) by (unfold h; lra). assert (Hs : rel step h) by (now apply (bk_sub _ _ OK)). assert (HD : forall u, 0 <= u <= h -> rel D u) by (apply dom_all; auto).
  unfold p3run in E. apply bind_ok in E as (x & Ex & E). apply bind_ok in E as (fx & Ef & E). apply bind_ok in E as (Z & EZ & E). apply bind_ok in E as (pz & Epz & E).
  apply bind_ok in E as (gx & Eg & E). apply bind_ok in E as (y0 & Ey0 & E). apply bind_ok in E as (y & Ey & E). cbv zeta in E. apply pad_or in Ey. apply bind_ok in E as (tx & Etx & E).
  set (s := S (Z.to_nat order)). assert (S2 : (2 <= s)%nat) by (unfold s; lia). assert (S3 : (Z.of_nat s <= 2 ^ 52)%Z) by (unfold s; lia).
  pose proof (obj_rep true rf ef x D s a h fx S2 S3 Wf Pf Nf Hh HD (id_rep true D start a h order x O1 Ha Ex) Ef) as RF.
  pose proof (obj_rep false rg eg x D s a h gx S2 S3 Wg Pg Ng Hh HD (id_rep false D start a h order x O1 Ha Ex) Eg) as RG.
  split. { intros z Hz. replace z with (a + (z - a)) by ring. split; [apply RF|apply RG]; unfold h; lra. }
  destruct (shift_rep s fx Z (fun t => F (a + t)) m h S2 ltac:(unfold s; lia) Hh (fun u Hu => proj2 (RF u Hu)) V EZ) as (H & HN & H1 & HR).
  assert (HP : forall u, 0 < u <= h -> 0 < H u). { intros u Hu. rewrite HN by lra. apply Rdiv_lt_0_compat; [apply FP; unfold h in *; lra|apply pow_lt; lra]. }
  destruct (pw_core s order D Z H gx (fun t => G (a + t)) power p m pz y0 y tx step h v) as (I & HI & HV); auto; try lia.
  - intros u Hu. exact (proj2 (RG u Hu)).
  - exists I. split; auto. replace a with (0 + a) by ring. replace c with (h + a) by (unfold h; ring).
    apply (improper_ext (fun y => Rpower (y - a) (p * IZR m) * (Rpower (H (y - a)) p * G (a + (y - a))))).
    + intros t Ht. replace (a + (t - a)) with t by ring. rewrite <- Rmult_assoc. f_equal. assert (T : 0 < t - a) by lra.
      rewrite HN by lra. replace (a + (t - a)) with t by ring. rewrite Rmult_comm, (Rmult_comm p). rewrite <- Rpower_mult.
      rewrite INR_IZR_INZ_pow by (auto; lia). rewrite Rpower_mult_distr; [|apply Rdiv_lt_0_compat; [apply FP; unfold h in *; lra|apply pow_lt; auto]|apply pow_lt; auto].
      f_equal. field. apply pow_nonzero. lra.
    + apply (improper_shift (fun t => Rpower t (p * IZR m) * (Rpower (H t) p * G (a + t)))). exact HI.
Qed.
Lemma power3_ok st rf ef rg eg start end_ order power m v st' a c p : (1 <= order)%Z -> (order < 2 ^ 52)%Z -> (0 <= m < order)%Z ->
  awf 1 ef -> plog ef -> noarc ef = true -> awf 1 eg -> plog eg -> noarc eg = true -> rel start a -> rel end_ c -> rel power p -> a < c -> -1 < p * IZR m ->
  let F := fun y => rval ef (fun _ => sg rf y) in let G := fun y => rval eg (fun _ => sg rg y) in
  vanish (Z.to_nat m) (fun t => F (a + t)) -> (forall y, a < y <= c -> 0 < F y) ->
  defint_power3 hull0 bpow st (obj rf ef) (obj rg eg) start end_ order power m = (Ok v, st') ->
  (forall y, a <= y <= c -> adom ef (fun _ => sg rf y) /\ adom eg (fun _ => sg rg y)) /\
  exists I, improper (fun y => Rpower (F y) p * G y) a c I /\ rel v I.
Proof.
  intros O1 O2 M1 Wf Pf Nf Wg Pg Ng Ha Hc Hp Hac Hq F G V FP E. unfold defint_power3 in E. apply with_state_ok in E.
  exact (power3_gen true rf ef rg eg start end_ order power m v a c p O1 O2 M1 Wf Pf Nf Wg Pg Ng Ha Hc Hp Hac Hq V FP E).
Qed.
(* Defint_x: div_tn drops the expansion point *)
Lemma id_div D start a order x Z : (1 <= order)%Z -> rel start a -> ps_setorder 2 D [start; t1] order = Ok x -> div_tn x 1 = Ok Z ->
  length Z = S (Z.to_nat order) /\ forall u, Rep (Some (u, false)) (S (Z.to_nat order)) Z (fun _ => 1).
Proof.
  intros O Ha E EZ. rewrite (setorder_id B _ _ _ _ O) in E. apply oki in E. subst x. destruct (div_tn_at _ _ _ EZ) as (_ & _ & L & A).
  rewrite app_length, repeat_length in L. simpl in L. assert (L' : length Z = S (Z.to_nat order)) by lia. split; auto. intros u. split; [now right|].
  exists (fun i => idc a (S i)). split; [|split; [|split; [|discriminate]]].
  - intros i Hi. rewrite A. change (Z.to_nat 1 + i)%nat with (S i). destruct (Nat.lt_ge_cases (S i) (length ([start; t1] ++ repeat (t0 (B:=B)) (Z.to_nat order - 1)))) as [H|H].
    + now apply (idc_coef B rel OK).
    + unfold at_. rewrite nth_overflow by auto. destruct i as [|i]; [rewrite app_length in H; simpl in H; lia|]. apply (rel0 B rel OK).
  - intros [|i] Hi; [lia|reflexivity].
  - cbn [fst]. rewrite (pe_more _ 1); [unfold pe; simpl; ring| |lia]. intros [|i] Hi; [lia|reflexivity].
Qed.
Lemma power_gen pad rg eg start end_ order power v a c p : (1 <= order)%Z -> (order < 2 ^ 52)%Z ->
  awf 1 eg -> plog eg -> noarc eg = true -> rel start a -> rel end_ c -> rel power p -> a < c -> -1 < p ->
  let G := fun y => rval eg (fun _ => sg rg y) in
  p3run pad (hull0 (bsub end_ start)) Defint_x (obj rg eg) start (bsub end_ start) order power 1 = Ok v ->
  (forall y, a <= y <= c -> adom eg (fun _ => sg rg y)) /\ exists I, improper (fun y => Rpower (y - a) p * G y) a c I /\ rel v I.
Proof.
  intros O1 O2 Wg Pg Ng Ha Hc Hp Hac Hq G E. set (step := bsub end_ start) in *. set (D := hull0 step) in *. set (h := c - a).
  assert (Hh : 0 < h) by (unfold h; lra). assert (Hs : rel step h) by (now apply (bk_sub _ _ OK)). assert (HD : forall u, 0 <= u <= h -> rel D u) by (apply dom_all; auto).
  unfold p3run in E. apply bind_ok in E as (x & Ex & E). apply bind_ok in E as (fx & Ef & E). unfold Defint_x in Ef. apply oki in Ef. subst fx.
  apply bind_ok in E as (Z & EZ & E). apply bind_ok in E as (pz & Epz & E).
  apply bind_ok in E as (gx & Eg & E). apply bind_ok in E as (y0 & Ey0 & E). apply bind_ok in E as (y & Ey & E). cbv zeta in E. apply pad_or in Ey. apply bind_ok in E as (tx & Etx & E).
  set (s := S (Z.to_nat order)). assert (S2 : (2 <= s)%nat) by (unfold s; lia). assert (S3 : (Z.of_nat s <= 2 ^ 52)%Z) by (unfold s; lia).
  pose proof (obj_rep false rg eg x D s a h gx S2 S3 Wg Pg Ng Hh HD (id_rep false D start a h order x O1 Ha Ex) Eg) as RG.
  split. { intros z Hz. replace z with (a + (z - a)) by ring. apply RG; unfold h; lra. }
  destruct (id_div D start a order x Z O1 Ha Ex EZ) as [LZ RZ].
  destruct (pw_core s order D Z (fun _ => 1) gx (fun t => G (a + t)) power p 1 pz y0 y tx step h v) as (I & HI & HV); auto; try lia; try lra.
  - intros u Hu. split; [apply RZ|apply continuous_const].
  - intros u Hu. lra.
  - intros u Hu. exact (proj2 (RG u Hu)).
  - exists I. split; auto. replace a with (0 + a) by ring. replace c with (h + a) by (unfold h; ring).
    apply (improper_ext (fun y => Rpower (y - a) (p * 1) * (Rpower 1 p * G (a + (y - a))))).
    + intros t Ht. replace (a + (t - a)) with t by ring. replace (0 + a) with a by ring. rewrite Rmult_1_r. unfold Rpower at 2. rewrite ln_1, Rmult_0_r, exp_0. ring.
    + apply (improper_shift (fun t => Rpower t (p * 1) * (Rpower 1 p * G (a + t)))). exact HI.
Qed.
Lemma power_ok st rg eg start end_ order power v st' a c p : (1 <= order)%Z -> (order < 2 ^ 52)%Z ->
  awf 1 eg -> plog eg -> noarc eg = true -> rel start a -> rel end_ c -> rel power p -> a < c -> -1 < p ->
  let G := fun y => rval eg (fun _ => sg rg y) in
  defint_power hull0 bpow st (obj rg eg) start end_ order power = (Ok v, st') ->
  (forall y, a <= y <= c -> adom eg (fun _ => sg rg y)) /\ exists I, improper (fun y => Rpower (y - a) p * G y) a c I /\ rel v I.
Proof.
  intros O1 O2 Wg Pg Ng Ha Hc Hp Hac Hq G E. unfold defint_power, defint_power3 in E. apply with_state_ok in E.
  exact (power_gen true rg eg start end_ order power v a c p O1 O2 Wg Pg Ng Ha Hc Hp Hac Hq E).
Qed.

(* ---- defint_log3 ---- *)
Lemma id_trunc D start a h order n x x' : (1 <= order)%Z -> (1 <= n)%Z -> rel start a -> 0 < h -> (forall u, 0 <= u <= h -> rel D u) ->
  ps_setorder 2 D [start; t1] n = Ok x -> ps_setorder 2 D x order = Ok x' ->
  forall u, 0 <= u <= h -> length x' = S (Z.to_nat order) /\ Rep (Some (u, false)) (S (Z.to_nat order)) x' (fun t => a + t).
Proof.
  intros O1 N1 Ha Hh HD Ex Ex' u Hu. destruct (id_rep false D start a h n x N1 Ha Ex u Hu) as [L R].
  destruct (setorder2_grepr B rel OK D x order x' u (a + u) (HD u Hu) Ex' (Rep_grepr B rel (S (Z.to_nat n)) u x _ (le_n_S _ _ (Nat.le_0_l _)) R)) as [L' R'].
  split; auto. apply grepr_Rep; [right; exact L'|exact R'|rewrite L'; apply le_n].
Qed.
Lemma lg_core s order m D Z H gx gx' G l q J y0 y logx step h v : s = S (Z.to_nat (order + m)) -> (1 <= order)%Z -> (order < 2 ^ 25)%Z -> (0 <= m <= 2 ^ 50)%Z -> 0 < h <= 1 ->
  (forall u, 0 <= u <= h -> rel D u) -> (forall u, 0 <= u <= h -> Rep (Some (u, false)) s Z H /\ continuous H u) ->
  (length Z = 1%nat -> forall u, 0 <= u <= h -> H u = H 0) -> (forall u, 0 < u <= h -> 0 < H u) ->
  (forall u, 0 <= u <= h -> Rep (Some (u, false)) s gx G /\ continuous G u) -> (forall u, 0 <= u <= h -> Rep (Some (u, false)) (S (Z.to_nat order)) gx' G) -> rel step h ->
  ps_log 2 D Z = Ok l -> ps_mul 2 D l gx = Ok q -> ps_integrate q = Ok J -> ps_sc SOmulr m 0 2 D gx' = Ok y0 -> y = y0 \/ ps_setorder 2 D y0 order = Ok y ->
  bfun Alog step = Ok logx -> lg_loop step logx step y 0 (ps_eval J step) = Ok v ->
  exists I, improper (fun t => (IZR m * ln t + ln (H t)) * G t) 0 h I /\ rel v I.
Proof.
  intros Es O1 O2 M1 Hh HD HZ H1 HP HG HG' Hs El Eq EJ Esc Eso Elx Elo. assert (S1 : (1 <= s)%nat) by lia. assert (S2 : (Z.of_nat s <= 2 ^ 52)%Z) by lia.
  assert (PP : forall u, 0 <= u <= h -> 0 < H u). { apply (log_pos0 s Z l H D h); auto; [lra|]. intros; now apply HZ. }
  assert (R1 := log_rep s Z l H D h S1 S2 HD (fun u Hu => conj (proj1 (HZ u Hu)) (PP u Hu)) El).
  assert (R2 := mul_rep s l gx q _ G D h S1 S2 HD R1 (fun u Hu => proj1 (HG u Hu)) Eq). cbv beta in R2.
  assert (CP : forall t, 0 <= t <= h -> continuous (fun t => ln (H t) * G t) t).
  { intros t Ht. apply (continuous_mult (fun t => ln (H t)) G); [|now apply HG]. apply ln_cont; [now apply HZ|now apply PP]. }
  destruct (int_ok s q J _ step h S1 S2 (proj1 Hh) Hs (fun u Hu => conj (R2 u Hu) (CP u Hu)) EJ) as (I1 & HI1 & RI1).
  set (s' := S (Z.to_nat order)) in *. assert (S1' : (1 <= s')%nat) by (unfold s'; lia). assert (S2' : (Z.of_nat s' <= 2 ^ 52)%Z) by (unfold s'; lia).
  assert (LM : lit m 0) by (apply lit_int; lia).
  set (phi := fun t => IZR m * G t).
  assert (R3 : forall u, 0 <= u <= h -> (length y <= s')%nat /\ Rep (Some (u, false)) s' y phi).
  { intros u Hu. destruct (Rep_sc B rel OK (Some (u, false)) 2 D s' S1' S2' (md u D h Hu HD) SOmulr m 0 gx' y0 G Esc LM (HG' u Hu)) as [_ R]. cbn [scv] in R. rewrite dy_int in R.
    destruct Eso as [->|Eso]; [split; [destruct R as [[L|L] _]; lia|exact R]|].
    destruct (setorder_pad _ s' order y0 phi 2 D y eq_refl O1 R Eso) as [L R']. split; [lia|exact R']. }
  destruct (rep_coefs s' y phi h S1' (proj1 Hh) (fun u Hu => proj2 (R3 u Hu))) as [IT RC].
  destruct (log_exists h phi (proj1 Hh)) as [I2 HI2]. { intros t Ht. apply (continuous_mult (fun _ => IZR m) G); [apply continuous_const|now apply HG]. }
  destruct (log_coef h _ _ _ I2 Hh IT RC HI2) as (c & C & EV).
  assert (RL : rel logx (ln h)) by (apply (bk_fun _ _ OK Alog step); auto; simpl; lra).
  assert (LY : (length y <= s')%nat) by (apply (R3 0); lra).
  assert (RS : rel step (h ^ 1)) by (now rewrite pow_1).
  pose proof (lg_loop_ok step logx h Hs (proj1 Hh) RL y c 0 step (ps_eval J step) I1 v ltac:(revert LY; unfold s'; lia) C RS RI1 Elo) as K.
  exists (I1 + I2). split.
  - apply (improper_ext (fun t => ln (H t) * G t + ln t * phi t)); [intros; unfold phi; ring|]. now apply improper_plus.
  - rewrite EV. exact K.
Qed.
Lemma log3_ok st rf ef rg eg start end_ order m v st' a c : (1 <= order)%Z -> (order < 2 ^ 25)%Z -> (0 <= m <= 2 ^ 50)%Z ->
  awf 1 ef -> plog ef -> noarc ef = true -> awf 1 eg -> plog eg -> noarc eg = true -> rel start a -> rel end_ c -> a < c <= a + 1 ->
  let F := fun y => rval ef (fun _ => sg rf y) in let G := fun y => rval eg (fun _ => sg rg y) in
  vanish (Z.to_nat m) (fun t => F (a + t)) -> (forall y, a < y <= c -> 0 < F y) ->
  defint_log3 hull0 st (obj rf ef) (obj rg eg) start end_ order m = (Ok v, st') ->
  (forall y, a <= y <= c -> adom ef (fun _ => sg rf y) /\ adom eg (fun _ => sg rg y)) /\
  exists I, improper (fun y => ln (F y) * G y) a c I /\ rel v I.
Proof.
  intros O1 O2 M1 Wf Pf Nf Wg Pg Ng Ha Hc Hac F G V FP E. unfold defint_log3 in E. apply with_state_ok in E. set (step := bsub end_ start) in *. set (D := hull0 step) in *. set (h := c - a).
  assert (Hh : 0 < h <= 1) by (unfold h; lra). assert (Hs : rel step h) by (now apply (bk_sub _ _ OK)). assert (HD : forall u, 0 <= u <= h -> rel D u) by (apply dom_all; auto; lra).
  unfold log3_run in E. apply bind_ok in E as (x & Ex & E). apply bind_ok in E as (fx0 & Ef & E). apply bind_ok in E as (fx & Ef' & E). apply bind_ok in E as (Z & EZ & E). apply bind_ok in E as (l & El & E).
  apply bind_ok in E as (gx & Eg & E). apply bind_ok in E as (q & Eq & E). apply bind_ok in E as (J & EJ & E). apply bind_ok in E as (x' & Ex' & E). apply bind_ok in E as (gx' & Eg' & E).
  apply bind_ok in E as (y0 & Ey0 & E). apply bind_ok in E as (y & Ey & E). apply bind_ok in E as (lx & Elx & E).
  set (s := S (Z.to_nat (order + m))). assert (S2 : (2 <= s)%nat) by (unfold s; lia). assert (S3 : (Z.of_nat s <= 2 ^ 52)%Z) by (unfold s; lia).
  pose proof (obj_rep true rf ef x D s a h fx0 S2 S3 Wf Pf Nf (proj1 Hh) HD (id_rep true D start a h (order + m) x ltac:(lia) Ha Ex) Ef) as RF.
  pose proof (obj_rep false rg eg x D s a h gx S2 S3 Wg Pg Ng (proj1 Hh) HD (id_rep false D start a h (order + m) x ltac:(lia) Ha Ex) Eg) as RG.
  pose proof (obj_rep false rg eg x' D (S (Z.to_nat order)) a h gx' ltac:(lia) ltac:(lia) Wg Pg Ng (proj1 Hh) HD (id_trunc D start a h order (order + m) x x' O1 ltac:(lia) Ha (proj1 Hh) HD Ex Ex') Eg') as RG'.
  split. { intros z Hz. replace z with (a + (z - a)) by ring. split; [apply RF|apply RG]; unfold h; lra. }
  destruct (shift_rep s fx Z (fun t => F (a + t)) m h S2 ltac:(unfold s; lia) (proj1 Hh)) as (H & HN & H1 & HR); auto.
  { intros u Hu. destruct (RF u Hu) as (_ & R & C). split; auto. apply (setorder_pad _ s (order + m) fx0 _ 2 D); auto. lia. }
  assert (HP : forall u, 0 < u <= h -> 0 < H u). { intros u Hu. rewrite HN by lra. apply Rdiv_lt_0_compat; [apply FP; unfold h in *; lra|apply pow_lt; lra]. }
  destruct (lg_core s order m D Z H gx gx' (fun t => G (a + t)) l q J y0 y lx step h v) as (I & HI & HV); auto; try lia.
  - intros u Hu. exact (proj2 (RG u Hu)).
  - intros u Hu. apply (RG' u Hu).
  - exists I. split; auto. replace a with (0 + a) by ring. replace c with (h + a) by (unfold h; ring).
    apply (improper_ext (fun y => (IZR m * ln (y - a) + ln (H (y - a))) * G (a + (y - a)))).
    + intros t Ht. replace (a + (t - a)) with t by ring. f_equal. assert (T : 0 < t - a) by lra.
      rewrite HN by lra. replace (a + (t - a)) with t by ring. assert (FT : 0 < F t) by (apply FP; unfold h in *; lra). pose proof (pow_lt _ (Z.to_nat m) T) as TP.
      unfold Rdiv. rewrite ln_mult, ln_Rinv by (auto; now apply Rinv_0_lt_compat). rewrite <- INR_IZR_INZ_pow by (auto; lia). unfold Rpower. rewrite ln_exp. ring.
    + apply (improper_shift (fun t => (IZR m * ln t + ln (H t)) * G (a + t))). exact HI.
Qed.
Lemma log_ok st rg eg start end_ order v st' a c : (1 <= order)%Z -> (order < 2 ^ 25)%Z ->
  awf 1 eg -> plog eg -> noarc eg = true -> rel start a -> rel end_ c -> a < c <= a + 1 ->
  let G := fun y => rval eg (fun _ => sg rg y) in
  defint_log hull0 st (obj rg eg) start end_ order = (Ok v, st') ->
  (forall y, a <= y <= c -> adom eg (fun _ => sg rg y)) /\ exists I, improper (fun y => ln (y - a) * G y) a c I /\ rel v I.
Proof.
  intros O1 O2 Wg Pg Ng Ha Hc Hac G E. unfold defint_log, defint_log3 in E. apply with_state_ok in E. set (step := bsub end_ start) in *. set (D := hull0 step) in *. set (h := c - a).
  assert (Hh : 0 < h <= 1) by (unfold h; lra). assert (Hs : rel step h) by (now apply (bk_sub _ _ OK)). assert (HD : forall u, 0 <= u <= h -> rel D u) by (apply dom_all; auto; lra).
  unfold log3_run in E. apply bind_ok in E as (x & Ex & E). apply bind_ok in E as (fx0 & Ef & E). unfold Defint_x in Ef. apply oki in Ef. subst fx0. apply bind_ok in E as (fx & Ef' & E). apply bind_ok in E as (Z & EZ & E). apply bind_ok in E as (l & El & E).
  apply bind_ok in E as (gx & Eg & E). apply bind_ok in E as (q & Eq & E). apply bind_ok in E as (J & EJ & E). apply bind_ok in E as (x' & Ex' & E). apply bind_ok in E as (gx' & Eg' & E).
  apply bind_ok in E as (y0 & Ey0 & E). apply bind_ok in E as (y & Ey & E). apply bind_ok in E as (lx & Elx & E).
  set (s := S (Z.to_nat (order + 1))). assert (S2 : (2 <= s)%nat) by (unfold s; lia). assert (S3 : (Z.of_nat s <= 2 ^ 52)%Z) by (unfold s; lia).
  pose proof (obj_rep false rg eg x D s a h gx S2 S3 Wg Pg Ng (proj1 Hh) HD (id_rep false D start a h (order + 1) x ltac:(lia) Ha Ex) Eg) as RG.
  pose proof (obj_rep false rg eg x' D (S (Z.to_nat order)) a h gx' ltac:(lia) ltac:(lia) Wg Pg Ng (proj1 Hh) HD (id_trunc D start a h order (order + 1) x x' O1 ltac:(lia) Ha (proj1 Hh) HD Ex Ex') Eg') as RG'.
  split. { intros z Hz. replace z with (a + (z - a)) by ring. apply RG; unfold h; lra. }
  assert (fx = x). { destruct (id_rep false D start a h (order + 1) x ltac:(lia) Ha Ex 0 ltac:(lra)) as [L _]. unfold ps_setorder in Ef'. destruct (Z.ltb_spec (order + 1) 0); [lia|].
    destruct (Nat.leb_spec (length x) (Z.to_nat (order + 1) + 1)); [|lia]. apply oki in Ef'. rewrite L in Ef'. replace (Z.to_nat (order + 1) + 1 - S (Z.to_nat (order + 1)))%nat with 0%nat in Ef' by lia.
    simpl in Ef'. now rewrite app_nil_r in Ef'. }
  subst fx. destruct (id_div D start a (order + 1) x Z ltac:(lia) Ha Ex EZ) as [LZ RZ].
  destruct (lg_core s order 1 D Z (fun _ => 1) gx gx' (fun t => G (a + t)) l q J y0 y lx step h v) as (I & HI & HV); auto; try lia; try lra.
  - intros u Hu. split; [apply RZ|apply continuous_const].
  - intros u Hu. lra.
  - intros u Hu. exact (proj2 (RG u Hu)).
  - intros u Hu. apply (RG' u Hu).
  - exists I. split; auto. replace a with (0 + a) by ring. replace c with (h + a) by (unfold h; ring).
    apply (improper_ext (fun y => (1 * ln (y - a) + ln 1) * G (a + (y - a)))).
    + intros t Ht. replace (a + (t - a)) with t by ring. replace (0 + a) with a by ring. rewrite ln_1. ring.
    + apply (improper_shift (fun t => (1 * ln t + ln 1) * G (a + t))). exact HI.
Qed.

(* ---- defint_singular ---- *)
Lemma sing_core (f : fn B) F st start end_ order v st' a c : (1 <= order)%Z -> (order < 2 ^ 52)%Z -> rel start a -> rel end_ c -> a < c ->
  (forall D x Y h, h = c - a -> (forall u, 0 <= u <= h -> rel D u) ->
    (forall j u, 0 <= u <= h -> length x = S (Z.to_nat order) /\ Rep (Some (u, j)) (S (Z.to_nat order)) x (fun t => a + t)) -> f 2%Z D x = Ok Y ->
    exists H, (forall u, 0 < u <= h -> H u = F (a + u)) /\ forall u, 0 <= u <= h -> Rep (Some (u, false)) (S (Z.to_nat order)) Y H /\ continuous H u) ->
  defint_singular hull0 st f start end_ order = (Ok v, st') -> exists I, improper F a c I /\ rel v I.
Proof.
  intros O1 O2 Ha Hc Hac HF E. unfold defint_singular in E. apply with_state_ok in E. set (step := bsub end_ start) in *. set (D := hull0 step) in *. set (h := c - a).
  assert (Hh : 0 < h) by (unfold h; lra). assert (Hs : rel step h) by (now apply (bk_sub _ _ OK)). assert (HD : forall u, 0 <= u <= h -> rel D u) by (apply dom_all; auto).
  unfold singular_run in E. apply bind_ok in E as (x & Ex & E). apply bind_ok in E as (y & Ey & E). apply bind_ok in E as (J & EJ & E). apply oki in E. subst v.
  destruct (HF D x y h eq_refl HD (fun j => id_rep j D start a h order x O1 Ha Ex) Ey) as (H & HN & HR).
  destruct (int_ok (S (Z.to_nat order)) y J H step h ltac:(lia) ltac:(lia) Hh Hs HR EJ) as (I & HI & RI). exists I. split; auto.
  replace a with (0 + a) by ring. replace c with (h + a) by (unfold h; ring). apply (improper_ext (fun y => H (y - a))); [|now apply improper_shift].
  intros t Ht. rewrite HN by lra. f_equal. ring.
Qed.
Lemma singular_ok st r e start end_ order v st' a c : (1 <= order)%Z -> (order < 2 ^ 52)%Z -> awf 1 e -> plog e -> noarc e = true -> rel start a -> rel end_ c -> a < c ->
  defint_singular hull0 st (obj r e) start end_ order = (Ok v, st') -> exists I, improper (fun y => rval e (fun _ => sg r y)) a c I /\ rel v I.
Proof.
  intros O1 O2 W P N Ha Hc Hac. apply sing_core; auto. intros D x Y h Eh HD HX E. exists (fun t => rval e (fun _ => sg r (a + t))). split; auto. intros u Hu.
  apply (obj_rep false r e x D _ a h Y); auto; try lia. lra.
Qed.
(* div_tn(f(x), n): the removable singularity f(y)/(y-a)^n *)
Lemma obj_cut r e D x Y m order a h : (1 <= order)%Z -> (order < 2 ^ 52)%Z -> (0 <= m < order)%Z -> awf 1 e -> plog e -> noarc e = true -> 0 < h -> (forall u, 0 <= u <= h -> rel D u) ->
  (forall j u, 0 <= u <= h -> length x = S (Z.to_nat order) /\ Rep (Some (u, j)) (S (Z.to_nat order)) x (fun t => a + t)) ->
  vanish (Z.to_nat m) (fun t => rval e (fun _ => sg r (a + t))) -> cut (obj r e) m 2%Z D x = Ok Y ->
  exists H, (forall t, t <> 0 -> H t = rval e (fun _ => sg r (a + t)) / t ^ Z.to_nat m) /\ forall u, 0 <= u <= h -> Rep (Some (u, false)) (S (Z.to_nat order)) Y H /\ continuous H u.
Proof.
  intros O1 O2 M1 W P N Hh HD HX V E. unfold cut in E. apply bind_ok in E as (p & Ep & E).
  pose proof (obj_rep true r e x D (S (Z.to_nat order)) a h p ltac:(lia) ltac:(lia) W P N Hh HD (HX true) Ep) as R.
  destruct (shift_rep (S (Z.to_nat order)) p Y _ m h ltac:(lia) ltac:(lia) Hh (fun u Hu => proj2 (R u Hu)) V E) as (H & HN & _ & HR). eauto.
Qed.
Lemma singular_cut_ok st r e m start end_ order v st' a c : (1 <= order)%Z -> (order < 2 ^ 52)%Z -> (0 <= m < order)%Z -> awf 1 e -> plog e -> noarc e = true ->
  rel start a -> rel end_ c -> a < c -> vanish (Z.to_nat m) (fun t => rval e (fun _ => sg r (a + t))) ->
  defint_singular hull0 st (cut (obj r e) m) start end_ order = (Ok v, st') -> exists I, improper (fun y => rval e (fun _ => sg r y) / (y - a) ^ Z.to_nat m) a c I /\ rel v I.
Proof.
  intros O1 O2 M1 W P N Ha Hc Hac V. apply sing_core; auto. intros D x Y h Eh HD HX E.
  destruct (obj_cut r e D x Y m order a h O1 O2 M1 W P N ltac:(lra) HD HX V E) as (H & HN & HR). exists H. split; auto. intros u Hu. rewrite HN by lra. f_equal. f_equal. ring.
Qed.
Lemma singular_reduced_ok st rf ef rg eg m start end_ order v st' a c : (1 <= order)%Z -> (order < 2 ^ 52)%Z -> (0 <= m < order)%Z ->
  awf 1 ef -> plog ef -> noarc ef = true -> awf 1 eg -> plog eg -> noarc eg = true -> rel start a -> rel end_ c -> a < c ->
  let F := fun y => rval ef (fun _ => sg rf y) in let G := fun y => rval eg (fun _ => sg rg y) in
  vanish (Z.to_nat m) (fun t => F (a + t)) -> vanish (Z.to_nat m) (fun t => G (a + t)) ->
  defint_singular hull0 st (reduced (obj rf ef) (obj rg eg) m) start end_ order = (Ok v, st') ->
  (forall y, a < y <= c -> G y <> 0) /\ exists I, improper (fun y => F y / G y) a c I /\ rel v I.
Proof.
  intros O1 O2 M1 Wf Pf Nf Wg Pg Ng Ha Hc Hac F G VF VG E.
  assert (K : forall D x Y h, h = c - a -> (forall u, 0 <= u <= h -> rel D u) ->
    (forall j u, 0 <= u <= h -> length x = S (Z.to_nat order) /\ Rep (Some (u, j)) (S (Z.to_nat order)) x (fun t => a + t)) -> reduced (obj rf ef) (obj rg eg) m 2%Z D x = Ok Y ->
    (forall u, 0 < u <= h -> G (a + u) <> 0) /\
    exists H, (forall u, 0 < u <= h -> H u = F (a + u) / G (a + u)) /\ forall u, 0 <= u <= h -> Rep (Some (u, false)) (S (Z.to_nat order)) Y H /\ continuous H u).
  { intros D x Y h Eh HD HX ER. unfold reduced in ER. apply bind_ok in ER as (p & Ep & ER). apply bind_ok in ER as (q & Eq & ER). unfold div_reduce in ER.
    apply bind_ok in ER as (np & Enp & ER). apply bind_ok in ER as (nq & Enq & ER).
    destruct (obj_cut rf ef D x np m order a h) as (HF & NF & RF); auto; [lra|unfold cut; now rewrite Ep|].
    destruct (obj_cut rg eg D x nq m order a h) as (HG & NG & RG); auto; [lra|unfold cut; now rewrite Eq|].
    assert (RD : forall u, 0 <= u <= h -> HG u <> 0 /\ Rep (Some (u, false)) (S (Z.to_nat order)) Y (fun t => HF t / HG t)).
    { intros u Hu. destruct (Rep_div B rel OK (Some (u, false)) 2 D (S (Z.to_nat order)) ltac:(lia) ltac:(lia) (md u D h Hu HD) np nq Y HF HG ER) as [NZ R]; [now apply RF|now apply RG|].
      split; auto. exact (proj1 NZ). }
    split.
    - intros u Hu G0. apply (proj1 (RD u ltac:(lra))). rewrite NG by lra. unfold G in G0. rewrite G0. unfold Rdiv. ring.
    - exists (fun t => HF t / HG t). split.
      + intros u Hu. assert (NZ := proj1 (RD u ltac:(lra))). rewrite NG in NZ |- * by lra. rewrite NF by lra. unfold F, G. assert (u ^ Z.to_nat m <> 0) by (apply pow_nonzero; lra).
        field. split; auto. intros G0. apply NZ. rewrite G0. unfold Rdiv. ring.
      + intros u Hu. destruct (RD u Hu) as [NZ R]. split; auto. apply (continuous_mult HF (fun t => / HG t)); [now apply RF|].
        apply (continuous_comp HG Rinv); [now apply RG|]. apply (ex_derive_continuous Rinv). auto_derive. auto. }
  split; [|revert E; apply sing_core; auto; intros D x Y h Eh HD HX ER; destruct (K D x Y h Eh HD HX ER) as [_ KK]; exact KK].
  intros y Hy. unfold defint_singular in E. apply with_state_ok in E. set (step := bsub end_ start) in *. set (D := hull0 step) in *.
  unfold singular_run in E. apply bind_ok in E as (x & Ex & E). apply bind_ok in E as (Y & EY & E). replace y with (a + (y - a)) by ring.
  apply (K D x Y (c - a) eq_refl); auto; [apply dom_all; [now apply (bk_sub _ _ OK)|lra]|intros j; apply (id_rep j D start a (c - a) order x O1 Ha Ex)|lra].
Qed.
End SP.
