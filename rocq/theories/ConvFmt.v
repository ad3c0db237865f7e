(* Proofs about dtostring: rounding the digits and writing the text *)
From Coq Require Import ZArith Reals Lra Lia List Bool Ascii.
From Flocq Require Import Core BinarySingleNaN.
From Verif Require Import Ext Fp64 ConvModel ConvSpec ConvProofs ConvIn ConvIn2 ConvRead ConvOut.
Import ListNotations.
Open Scope Z_scope.

(* digits d whose first digit has weight 10^rmax *)
Definition dv (rmax : Z) (d : list Z) : R := (fv 10 d * B10 (rmax + 1))%R.

Lemma dv_bval rmax d : dv rmax d = (IZR (bval 10 d) * B10 (rmax + 1 - Z.of_nat (length d)))%R.
Proof.
  unfold dv, fv. rewrite fvt_bval, IZR_pow10 by lia. unfold Z.sub. rewrite (bpow_plus _ (rmax + 1) (- _)), bpow_opp.
  pose proof (bpow_gt_0 radix10 (Z.of_nat (length d))). field. lra.
Qed.

Lemma incr_ok l r c : Forall (dig 10) l -> incr l = (r, c) ->
  Forall (dig 10) r /\ length r = length l /\
  bval 10 r + (if c then 10 ^ Z.of_nat (length l) else 0) = bval 10 l + 1 /\
  (c = true -> r = repeat 0 (length l)).
Proof.
  intros F. revert r c. induction F as [|d l D F]; intros r c E; cbn [incr] in E.
  - injection E as <- <-. simpl. repeat split; auto.
  - destruct (incr l) as [r' c'] eqn:E'. destruct (IHF _ _ eq_refl) as (I1 & I2 & I3 & I4).
    unfold dig in D. cbn [length bval]. rewrite Nat2Z.inj_succ, Z.pow_succ_r by lia.
    destruct c'.
    + destruct (Z.eqb_spec (d + 1) 10); injection E as <- <-.
      * split; [constructor; auto; unfold dig; lia|]. cbn [length bval]. rewrite I2.
        split; auto. split; [nia|]. intros _. simpl. now rewrite I4.
      * split; [constructor; auto; unfold dig; lia|]. cbn [length bval]. rewrite I2.
        split; auto. split; [nia|]. discriminate.
    + injection E as <- <-. split; [constructor; auto|]. cbn [length bval]. rewrite I2.
      split; auto. split; [nia|]. discriminate.
Qed.
Lemma incr_led l r : Forall (dig 10) l -> led l -> incr l = (r, false) -> led r.
Proof.
  intros F L E. destruct F as [|d l D F]; [easy|]. simpl in L. cbn [incr] in E. unfold dig in D.
  destruct (incr l) as [r' c']. destruct c'; [|injection E as <-; auto].
  destruct (d + 1 =? 10); [discriminate|]. injection E as <-. simpl. lia.
Qed.

Lemma round_up_away neg mode tmp : away neg mode -> round_up neg mode tmp = true.
Proof. intros [(-> & ->)|(-> & ->)]; reflexivity. Qed.
Lemma round_up_toward neg mode tmp : toward neg mode -> round_up neg mode tmp = false.
Proof. intros [(-> & ->)|(-> & ->)]; reflexivity. Qed.

(* value after a carry *)
Definition cv (rmax : Z) (d : list Z) (c : bool) : R :=
  if c then dv (rmax + 1) (1 :: d) else dv rmax d.

(* the error of the rounding, in units of the last digit kept *)
Definition slack (mode : Z) : R := if mode =? 0 then (1 / 2)%R else 1%R.
Lemma slack_range mode : (1 / 2 <= slack mode <= 1)%R.
Proof. unfold slack. destruct (mode =? 0); lra. Qed.

Lemma round_keep_ok neg mode k rmax d d' c : Forall (dig 10) d -> round_keep neg mode k d = (d', c) ->
  Forall (dig 10) d' /\ length d' = Nat.min k (length d) /\
  (away neg mode -> (dv rmax d <= cv rmax d' c)%R) /\
  (toward neg mode -> (cv rmax d' c <= dv rmax d)%R) /\
  (c = true -> d' = repeat 0 (length d') /\ (k < length d)%nat) /\
  (Rabs (cv rmax d' c - dv rmax d) <= slack mode * B10 (rmax + 1 - Z.of_nat k))%R.
Proof.
  intros F E. unfold round_keep in E. destruct (Nat.ltb_spec k (length d)) as [L|L].
  - assert (FS := F). rewrite <- (firstn_skipn k d) in FS. apply Forall_app in FS as (FA & FB).
    assert (LF : length (firstn k d) = k) by (rewrite firstn_length; lia).
    assert (LS : length (skipn k d) = (length d - k)%nat) by (apply skipn_length).
    set (U := B10 (rmax + 1 - Z.of_nat k)).
    assert (UP : (0 < U)%R) by apply bpow_gt_0.
    assert (VR : (0 <= fvt 10 (skipn k d) 0 < 1)%R) by (apply (fvt_range 10 (skipn k d) 0); auto; try lia; lra).
    assert (SL : mode = 0 -> if round_up neg mode (nth k d 0) then (1 / 2 <= fvt 10 (skipn k d) 0)%R
                 else (fvt 10 (skipn k d) 0 <= 1 / 2)%R).
    { intros ->. unfold round_up. replace (_ || _) with (5 <=? nth k d 0) by (destruct neg; reflexivity).
      replace (nth k d 0) with (nth 0 (skipn k d) 0)
        by (rewrite <- (firstn_skipn k d) at 2; rewrite app_nth2, LF, Nat.sub_diag by lia; reflexivity).
      destruct FB as [|t l Ht Hl]; [cbn [length] in LS; lia|]. cbn [nth fvt].
      pose proof (fvt_range 10 l 0 ltac:(lia) Hl ltac:(lra)) as RR. unfold dig in Ht.
      destruct (Z.leb_spec 5 t) as [T|T].
      - apply IZR_le in T. lra.
      - assert (T' : t <= 4) by lia. apply IZR_le in T'. lra. }
    assert (VV : dv rmax d = (dv rmax (firstn k d) + fvt 10 (skipn k d) 0 * U)%R).
    { rewrite (dv_bval rmax (firstn k d)), LF. rewrite <- (firstn_skipn k d) at 1.
      unfold dv, fv. rewrite fvt_app, fvt_bval, LF by lia.
      set (v := fvt 10 (skipn k d) 0) in *. rewrite IZR_pow10 by lia.
      unfold U, Z.sub. rewrite (bpow_plus _ (rmax + 1)), bpow_opp.
      pose proof (bpow_gt_0 radix10 (Z.of_nat k)). pose proof (bpow_gt_0 radix10 (rmax + 1)).
      set (a := IZR (bval 10 (firstn k d))). set (w := B10 (rmax + 1)) in *. set (p := B10 (Z.of_nat k)) in *.
      field. lra. }
    assert (V : (dv rmax (firstn k d) <= dv rmax d <= dv rmax (firstn k d) + U)%R).
    { rewrite VV. nra. }
    destruct (round_up neg mode (nth k d 0)) eqn:RU.
    + destruct (incr_ok _ _ _ FA E) as (I1 & I2 & I3 & I4). rewrite LF in *.
      assert (CV : cv rmax d' c = (dv rmax (firstn k d) + U)%R).
      { unfold U. rewrite (dv_bval rmax (firstn k d)), LF. rewrite <- (Rmult_1_l (B10 (rmax + 1 - Z.of_nat k))) at 2.
        rewrite <- Rmult_plus_distr_r, <- plus_IZR, <- I3. unfold cv. destruct c; rewrite dv_bval; cbn [bval length].
        - rewrite I2, Nat2Z.inj_succ. f_equal; [f_equal; lia|f_equal; lia].
        - rewrite I2. f_equal. f_equal. lia. }
      rewrite CV. split; auto. split; [lia|]. split; [intros; lra|].
      split; [intros T; rewrite (round_up_toward _ _ _ T) in RU; discriminate|].
      split; [intros ->; rewrite I2; split; auto|].
      rewrite VV. unfold slack. destruct (Z.eqb_spec mode 0) as [M|M].
      * specialize (SL M). apply Rabs_le. nra.
      * apply Rabs_le. nra.
    + injection E as <- <-. split; auto. split; [lia|]. unfold cv.
      split; [intros T; rewrite (round_up_away _ _ _ T) in RU; discriminate|].
      split; [intros; lra|]. split; [discriminate|].
      rewrite VV. unfold slack. destruct (Z.eqb_spec mode 0) as [M|M].
      * specialize (SL M). apply Rabs_le. nra.
      * apply Rabs_le. nra.
  - injection E as <- <-. split; auto. split; [lia|]. unfold cv.
    split; [intros; lra|]. split; [intros; lra|]. split; [discriminate|].
    rewrite Rminus_diag_eq, Rabs_R0 by reflexivity.
    pose proof (bpow_gt_0 radix10 (rmax + 1 - Z.of_nat k)). pose proof (slack_range mode). nra.
Qed.

(* ---- writing ---- *)
Lemma text_eq l : text l = digits_text l.
Proof. reflexivity. Qed.

Lemma trim_frac_ok rmax d : Forall (dig 10) d -> rmax + 1 <= Z.of_nat (length d) ->
  Forall (dig 10) (trim_frac rmax d) /\ dv rmax (trim_frac rmax d) = dv rmax d /\
  rmax + 1 <= Z.of_nat (length (trim_frac rmax d)).
Proof.
  intros F L. unfold trim_frac. set (k := Z.to_nat (rmax + 1)).
  assert (FS := F). rewrite <- (firstn_skipn k d) in FS. apply Forall_app in FS as (FA & FB).
  split; [apply Forall_app; split; auto; now apply Forall_trimr|].
  split.
  - unfold dv, fv. f_equal. rewrite fvt_app. fold (fv 10 (trimr (skipn k d))). rewrite fv_trimr. unfold fv.
    now rewrite <- fvt_app, firstn_skipn.
  - rewrite app_length, firstn_length. lia.
Qed.

Lemma dig_digit' l : Forall (dig 10) l -> Forall digit l.
Proof. apply Forall_impl. unfold digit, dig. lia. Qed.

Definition plain (neg : bool) (ip fp : list Z) (e : option (bool * option bool * list Z)) : numeral :=
  mkn [] (if neg then Some true else None) ip (match fp with [] => None | _ => Some fp end) e.

Lemma plain_render neg ip fp e : render (plain neg ip fp e) =
  (if neg then [ch 45] else []) ++ text ip ++ (match fp with [] => [] | _ => ch 46 :: text fp end) ++
  match e with Some (up, s, ex) => ch (if up then 69 else 101) :: sign_text s ++ text ex | None => [] end.
Proof. unfold render, plain. cbn [n_blank n_sign n_int n_frac n_exp app]. destruct neg, fp; reflexivity. Qed.
Lemma plain_fracd neg ip fp e : n_fracd (plain neg ip fp e) = fp.
Proof. unfold n_fracd, plain. cbn [n_frac]. now destruct fp. Qed.
Lemma plain_value neg ip fp e : value (plain neg ip fp e) =
  (let X := ((IZR (bval 10 ip) + fv 10 fp) * B10 (n_e10 (plain neg ip fp e)))%R in if neg then - X else X)%R.
Proof. rewrite value_eq, plain_fracd. unfold plain at 1 2. cbn [n_int n_sign]. destruct neg; reflexivity. Qed.

(* what is shown for every format: a numeral is written, on the right side of x *)
Definition shown (neg : bool) (mode : Z) (A X : R) (s : list ascii) : Prop :=
  exists n V, wf_numeral n /\ s = render n /\ value n = (if neg then - V else V)%R /\
    (away neg mode -> (X <= V)%R) /\ (toward neg mode -> (V <= X)%R) /\
    dsum (n_expd n) < 2 ^ 31 /\ (value n <> 0%R \/ 0 <= n_e10 n) /\ (Rabs (V - X) <= A)%R.

Lemma fixed_ok (neg : bool) rmax d : Forall (dig 10) d -> 0 <= rmax -> rmax + 1 <= Z.of_nat (length d) ->
  exists n, wf_numeral n /\ (if neg then [ch 45] else []) ++ fixed_text rmax d = render n /\
    value n = (if neg then - dv rmax d else dv rmax d)%R /\ n_exp n = None.
Proof.
  intros F R L. unfold fixed_text. set (k := Z.to_nat (rmax + 1)).
  assert (FS := F). rewrite <- (firstn_skipn k d) in FS. apply Forall_app in FS as (FA & FB).
  exists (plain neg (firstn k d) (skipn k d) None).
  split; [|split; [|split; [|reflexivity]]].
  - split; [constructor|]. rewrite plain_fracd. split; [now apply dig_digit'|]. split; [now apply dig_digit'|].
    split; [constructor|]. split; [|intros Q; exfalso; apply Q; reflexivity]. cbn [plain n_int].
    rewrite firstn_skipn. destruct d; [simpl in L; lia|discriminate].
  - rewrite plain_render, app_nil_r. reflexivity.
  - rewrite plain_value. change (n_e10 _) with 0. cbv zeta.
    assert (((IZR (bval 10 (firstn k d)) + fv 10 (skipn k d)) * B10 0 = dv rmax d)%R) as ->; auto.
    rewrite split_val, firstn_skipn, dv_bval, skipn_length. change (B10 0) with 1%R. rewrite Rmult_1_r.
    do 2 f_equal. unfold k. lia.
Qed.

Lemma dec_digits_ok : forall fuel w n, 0 <= n < 10 ^ Z.of_nat fuel -> (w <= fuel)%nat ->
  Forall (dig 10) (dec_digits fuel w n) /\ bval 10 (dec_digits fuel w n) = n /\
  ((0 < w)%nat -> dec_digits fuel w n <> []).
Proof.
  induction fuel as [|fuel]; intros w n N W.
  - simpl in *. split; auto. split; [lia|]. intros; lia.
  - cbn [dec_digits]. destruct ((n =? 0) && Nat.eqb w 0) eqn:B.
    + apply andb_prop in B as (B1 & B2'). apply Z.eqb_eq in B1. apply Nat.eqb_eq in B2'. subst.
      split; auto. split; auto. lia.
    + rewrite Nat2Z.inj_succ, Z.pow_succ_r in N by lia.
      destruct (IHfuel (Nat.pred w) (n / 10)) as (I1 & I2 & I3).
      { split; [apply Z.div_pos; lia|apply Z.div_lt_upper_bound; lia]. }
      { lia. }
      pose proof (Z.mod_pos_bound n 10 ltac:(lia)). pose proof (Z.div_mod n 10 ltac:(lia)).
      split; [apply Forall_app; split; auto|]. split.
      * rewrite bval_app, I2. cbn [bval length]. change (10 ^ Z.of_nat 1) with 10. change (10 ^ Z.of_nat 0) with 1. lia.
      * intros _ Q. now apply app_eq_nil in Q.
Qed.

Lemma led_fv b l : 0 < b -> Forall (dig b) l -> led l -> (0 < fv b l)%R.
Proof.
  intros B F L. unfold fv. rewrite fvt_bval, Rplus_0_r by auto.
  pose proof (led_low b l B F L). assert (0 < b ^ (Z.of_nat (length l) - 1)).
  { apply Z.pow_pos_nonneg; [lia|]. destruct l; [easy|]. cbn [length]. lia. }
  apply Rdiv_lt_0_compat; [apply (IZR_lt 0); lia|]. apply (IZR_lt 0), Z.pow_pos_nonneg; lia.
Qed.

Lemma sci_ok (neg : bool) rm d : Forall (dig 10) d -> led d -> Z.abs rm < 10 ^ 9 ->
  exists n, wf_numeral n /\ (if neg then [ch 45] else []) ++ sci_text rm d = render n /\
    value n = (if neg then - dv rm d else dv rm d)%R /\ dsum (n_expd n) < 2 ^ 31 /\ value n <> 0%R.
Proof.
  intros F L R. unfold sci_text. destruct (trimr d) as [|d0 l] eqn:T.
  { exfalso. pose proof (led_fv 10 d ltac:(lia) F L) as P. rewrite <- fv_trimr, T in P. unfold fv in P. simpl in P. lra. }
  assert (FT : Forall (dig 10) (d0 :: l)) by (rewrite <- T; now apply Forall_trimr).
  inversion_clear FT as [|? ? D0 FL].
  set (ex := dec_digits 12 2 (Z.abs rm)).
  destruct (dec_digits_ok 12 2 (Z.abs rm)) as (X1 & X2 & X3); [|lia|].
  { split; [lia|]. eapply Z.lt_trans; [exact R|reflexivity]. }
  fold ex in X1, X2, X3.
  set (n := plain neg [d0] l (Some (false, Some (rm <? 0), ex))).
  assert (E10 : n_e10 n = rm).
  { unfold n_e10, n, plain. cbn [n_exp]. rewrite dsum_bval, X2. destruct (Z.ltb_spec rm 0); lia. }
  assert (V : value n = (if neg then - dv rm d else dv rm d)%R).
  { unfold n. rewrite plain_value. fold n. rewrite E10. cbv zeta.
    assert (((IZR (bval 10 [d0]) + fv 10 l) * B10 rm = dv rm d)%R) as ->; auto.
    unfold dv. rewrite <- (fv_trimr 10 d), T. unfold fv at 2. cbn [fvt bval length]. fold (fv 10 l).
    change (10 ^ Z.of_nat 0) with 1. rewrite Z.mul_1_r, Z.add_0_r, bpow_plus. change (B10 1) with 10%R. field. }
  assert (VP : (0 < dv rm d)%R).
  { unfold dv. apply Rmult_lt_0_compat; [apply led_fv; auto; lia|apply bpow_gt_0]. }
  exists n. split; [|split; [|split; [exact V|split]]].
  - split; [constructor|]. unfold n. rewrite plain_fracd. cbn [plain n_int].
    split; [constructor; [unfold digit; unfold dig in D0; lia|constructor]|]. split; [now apply dig_digit'|].
    unfold n_expd. cbn [n_exp]. split; [now apply dig_digit'|]. split; [discriminate|]. intros _. apply X3. lia.
  - unfold n. rewrite plain_render. f_equal. unfold exp_text. fold ex. rewrite !text_eq.
    cbn [text map app sign_text]. f_equal. f_equal. f_equal. destruct (rm <? 0); reflexivity.
  - unfold n_expd, n, plain. cbn [n_exp]. rewrite dsum_bval, X2. lia.
  - rewrite V. destruct neg; lra.
Qed.

Lemma cv_norm rmax d' (c : bool) : Forall (dig 10) d' ->
  let d'' := if c then 1 :: d' else d' in let rmax' := if c then rmax + 1 else rmax in
  Forall (dig 10) d'' /\ dv rmax' d'' = cv rmax d' c.
Proof. intros F. destruct c; simpl; split; auto. constructor; auto. unfold dig; lia. Qed.

Lemma fmt_f_ok neg mode p rmax d : Forall (dig 10) d -> 0 <= rmax -> rmax + 1 <= Z.of_nat (length d) -> 0 <= p ->
  shown neg mode (slack mode * B10 (- p)) (dv rmax d) ((if neg then [ch 45] else []) ++ fmt_f neg mode p rmax d).
Proof.
  intros F R L P. unfold fmt_f. destruct (round_keep _ _ _ _) as [d' c] eqn:E.
  destruct (round_keep_ok _ _ _ rmax _ _ _ F E) as (K1 & K2 & K3 & K4 & K5 & K0).
  destruct (cv_norm rmax d' c K1) as (N1 & N2).
  set (d'' := if c then 1 :: d' else d') in *. set (rmax' := if c then rmax + 1 else rmax) in *.
  assert (L' : 0 <= rmax' /\ rmax' + 1 <= Z.of_nat (length d'')).
  { unfold rmax', d''. destruct c; cbn [length]; lia. }
  destruct (trim_frac_ok rmax' d'' N1 (proj2 L')) as (T1 & T2 & T3).
  destruct (fixed_ok neg rmax' (trim_frac rmax' d'') T1 (proj1 L') T3) as (n & W1 & W2 & W3 & W4).
  exists n, (dv rmax' (trim_frac rmax' d'')). split; auto. split; auto. split; auto.
  rewrite T2, N2. split; auto. split; auto. unfold n_expd, n_e10. rewrite W4. simpl. split; [lia|]. split; [right; lia|].
  replace (- p) with (rmax + 1 - Z.of_nat (Z.to_nat (rmax + p + 1))) by lia. exact K0.
Qed.

Lemma led_dv rmax d : Forall (dig 10) d -> led d -> (B10 rmax <= dv rmax d)%R.
Proof.
  intros F L. unfold dv, fv. destruct F as [|x l Hx Hl]; [easy|]. cbn [fvt]. simpl in L.
  pose proof (fvt_range 10 l 0 ltac:(lia) Hl ltac:(lra)) as RR.
  rewrite bpow_plus. change (B10 1) with 10%R. pose proof (bpow_gt_0 radix10 rmax).
  unfold dig in Hx. assert (T : 1 <= x) by lia. apply IZR_le in T. nra.
Qed.

Lemma lead_round_ok neg mode k rmax d rm d' : Forall (dig 10) d -> (0 < fv 10 d)%R -> (1 <= k)%nat ->
  rmax + 1 <= Z.of_nat (length d) ->
  lead_round neg mode k rmax d = (rm, d') ->
  Forall (dig 10) d' /\ led d' /\
  (away neg mode -> (dv rmax d <= dv rm d')%R) /\ (toward neg mode -> (dv rm d' <= dv rmax d)%R) /\
  rmax - Z.of_nat (length d) <= rm <= rmax + 1 /\ (length d' <= k)%nat /\
  (rm + 1 <= Z.of_nat k -> rm + 1 <= Z.of_nat (length d')) /\
  (Rabs (dv rm d' - dv rmax d) <= slack mode * B10 (1 - Z.of_nat k) * dv rmax d)%R.
Proof.
  intros F P K L E. unfold lead_round in E.
  set (d1 := trim0 d) in *. set (rmax1 := rmax - (Z.of_nat (length d) - Z.of_nat (length d1))) in *.
  assert (F1 : Forall (dig 10) d1) by now apply Forall_trim0.
  assert (LL : (length d1 <= length d)%nat) by apply trim0_length.
  assert (LD : led d1).
  { apply led_trim0, (bval_trim0_nil 10). intros Q. unfold fv in P. rewrite fvt_bval, Q in P by lia.
    unfold Rdiv in P. rewrite Rplus_0_r, Rmult_0_l in P. lra. }
  assert (V1 : dv rmax1 d1 = dv rmax d).
  { rewrite !dv_bval. unfold d1 at 1. rewrite bval_trim0. do 2 f_equal. unfold rmax1. lia. }
  assert (L1 : rmax1 + 1 <= Z.of_nat (length d1)) by (unfold rmax1; lia).
  assert (LP : (1 <= length d1)%nat) by (destruct d1; [easy|cbn [length]; lia]).
  destruct (round_keep neg mode k d1) as [d2 c] eqn:E2.
  destruct (round_keep_ok _ _ _ rmax1 _ _ _ F1 E2) as (K1 & K2 & K3 & K4 & K5 & K0).
  assert (K0' : (Rabs (cv rmax1 d2 c - dv rmax d) <= slack mode * B10 (1 - Z.of_nat k) * dv rmax d)%R).
  { rewrite <- V1. eapply Rle_trans; [exact K0|]. rewrite Rmult_assoc.
    replace (rmax1 + 1 - Z.of_nat k) with (1 - Z.of_nat k + rmax1) by lia. rewrite bpow_plus.
    pose proof (slack_range mode). pose proof (bpow_gt_0 radix10 (1 - Z.of_nat k)).
    pose proof (led_dv rmax1 d1 F1 LD). apply Rmult_le_compat_l; [lra|]. apply Rmult_le_compat_l; lra. }
  clear K0. rewrite V1 in *.
  destruct c.
  - injection E as <- <-. destruct (K5 eq_refl) as (K6 & K7).
    assert (L2 : length d2 = k) by lia.
    assert (V2 : dv (rmax1 + 1) (1 :: removelast d2) = cv rmax1 d2 true).
    { unfold cv, dv, fv. do 1 f_equal. cbn [fvt]. do 2 f_equal. rewrite K6.
      rewrite fvt_zeros. destruct (length d2) as [|j]; [reflexivity|].
      rewrite <- (rev_repeat (S j)). simpl rev. rewrite removelast_last, rev_repeat. apply fvt_zeros. }
    rewrite V2. assert (LR : length (removelast d2) = (k - 1)%nat).
    { destruct d2 as [|x d2]; [simpl in L2; lia|]. rewrite (@app_removelast_last _ (x :: d2) 0) in L2 by discriminate.
      rewrite app_length in L2. cbn [length] in L2. lia. }
    split.
    { constructor; [unfold dig; lia|]. destruct d2 as [|x d2]; [constructor|].
      rewrite (@app_removelast_last _ (x :: d2) 0) in K1 by discriminate. apply Forall_app in K1. apply K1. }
    split; [simpl; lia|]. split; auto. split; auto. cbn [length]. rewrite LR. split; [unfold rmax1; lia|].
    split; [lia|]. split; [lia|exact K0'].
  - injection E as <- <-. split; auto. split.
    { unfold round_keep in E2. destruct (Nat.ltb_spec k (length d1)); [|injection E2 as <-; auto].
      assert (FK : Forall (dig 10) (firstn k d1)).
      { rewrite <- (firstn_skipn k d1) in F1. apply Forall_app in F1. apply F1. }
      assert (LK : led (firstn k d1)) by (destruct k; [lia|]; destruct d1; [easy|]; exact LD).
      destruct (round_up _ _ _); [eapply incr_led; eauto|injection E2 as <-; auto]. }
    unfold cv in *. split; auto. split; auto. split; [unfold rmax1; lia|]. split; [lia|]. split; [lia|exact K0'].
Qed.

Lemma shown_sci neg mode A X rm d : Forall (dig 10) d -> led d -> Z.abs rm < 10 ^ 9 ->
  (away neg mode -> (X <= dv rm d)%R) -> (toward neg mode -> (dv rm d <= X)%R) ->
  (Rabs (dv rm d - X) <= A)%R -> shown neg mode A X ((if neg then [ch 45] else []) ++ sci_text rm d).
Proof.
  intros F L R A1 T Q. destruct (sci_ok neg rm d F L R) as (n & W1 & W2 & W3 & W4 & W5).
  exists n, (dv rm d). auto 12.
Qed.

Lemma fmt_e_ok neg mode p rmax d : Forall (dig 10) d -> (0 < fv 10 d)%R -> 0 <= rmax < 10000 ->
  rmax + 1 <= Z.of_nat (length d) < 20000 -> 0 <= p ->
  shown neg mode (slack mode * B10 (- p) * dv rmax d) (dv rmax d) ((if neg then [ch 45] else []) ++ fmt_e neg mode p rmax d).
Proof.
  intros F P R L Pp. unfold fmt_e. destruct (lead_round _ _ _ _ _) as [rm d'] eqn:E.
  assert (K : (1 <= Z.to_nat (p + 1))%nat) by lia.
  destruct (lead_round_ok _ _ _ _ _ _ _ F P K (proj1 L) E) as (E1 & E2 & E3 & E4 & E5 & _ & _ & E8).
  apply shown_sci; auto; [lia|]. now replace (- p) with (1 - Z.of_nat (Z.to_nat (p + 1))) by lia.
Qed.

Lemma fvt_zeros_tail n v : fvt 10 (repeat 0 n) v = (v * B10 (- Z.of_nat n))%R.
Proof.
  rewrite fvt_bval, bval_zeros, repeat_length, IZR_pow10, bpow_opp by lia. unfold Rdiv. ring.
Qed.

Lemma fmt_g_ok neg mode p rmax d : Forall (dig 10) d -> (0 < fv 10 d)%R -> 0 <= rmax < 10000 ->
  rmax + 1 <= Z.of_nat (length d) < 20000 -> 1 <= p ->
  shown neg mode (slack mode * B10 (1 - p) * dv rmax d) (dv rmax d) ((if neg then [ch 45] else []) ++ fmt_g neg mode p rmax d).
Proof.
  intros F P R L Pp. unfold fmt_g. destruct (lead_round _ _ _ _ _) as [rm d'] eqn:E.
  assert (K : (1 <= Z.to_nat p)%nat) by lia.
  destruct (lead_round_ok _ _ _ _ _ _ _ F P K (proj1 L) E) as (E1 & E2 & E3 & E4 & E5 & E6 & E7 & E8).
  replace (1 - Z.of_nat (Z.to_nat p)) with (1 - p) in E8 by lia.
  destruct ((-4 <=? rm) && (rm <=? p - 1)) eqn:B; [|apply shown_sci; auto; lia].
  apply andb_prop in B as (B1 & B2'). apply Z.leb_le in B1. apply Z.leb_le in B2'.
  assert (L' : rm + 1 <= Z.of_nat (length d')) by (apply E7; lia).
  destruct (trim_frac_ok rm d' E1 L') as (T1 & T2 & T3).
  set (d2 := trim_frac rm d') in *.
  assert (FZ : Forall (dig 10) (zeros (- rm) ++ d2)).
  { apply Forall_app. split; auto. apply dig_zeros. lia. }
  assert (LZ : Z.max rm 0 + 1 <= Z.of_nat (length (zeros (- rm) ++ d2))).
  { unfold zeros. rewrite app_length, repeat_length.
    assert (1 <= length d2)%nat; [|lia].
    destruct d2; [|cbn [length]; lia]. exfalso.
    pose proof (led_fv 10 d' ltac:(lia) E1 E2). unfold dv in T2. unfold fv at 1 in T2. cbn [fvt] in T2.
    pose proof (bpow_gt_0 radix10 (rm + 1)). nra. }
  destruct (fixed_ok neg (Z.max rm 0) _ FZ ltac:(lia) LZ) as (n & W1 & W2 & W3 & W4).
  assert (V : dv (Z.max rm 0) (zeros (- rm) ++ d2) = dv rm d').
  { rewrite <- T2. unfold dv, fv, zeros. rewrite fvt_app, fvt_zeros_tail, Rmult_assoc, <- bpow_plus.
    do 2 f_equal. lia. }
  rewrite V in W3. exists n, (dv rm d'). split; auto. split; auto. split; auto. split; auto. split; auto.
  unfold n_expd, n_e10. rewrite W4. simpl. split; [lia|]. split; [right; lia|exact E8].
Qed.

(* the error allowed for printing x *)
Definition out_err (f : fmt) (p mode : Z) (x : R) : R :=
  match f with
  | FmtF => slack mode * B10 (- p)
  | FmtE => slack mode * B10 (- p) * Rabs x
  | FmtG => slack mode * B10 (1 - p) * Rabs x
  | FmtA => 0
  end%R.

(* ---- dtostring ---- *)
Definition prec_ok (f : fmt) (p : Z) : Prop :=
  match f with FmtF | FmtE => 0 <= p | FmtG => 1 <= p | FmtA => True end.

Theorem dtostring_ok (x : b64) p f mode : is_finite x = true -> prec_ok f p ->
  exists n, wf_numeral n /\ dtostring x p f mode = Ok (render n) /\
    (mode = 1 -> (B2R x <= value n)%R) /\ (mode = -1 -> (value n <= B2R x)%R) /\
    dsum (n_expd n) < 2 ^ 31 /\ (value n <> 0%R \/ 0 <= n_e10 n) /\
    (Rabs (value n - B2R x) <= out_err f p mode (B2R x))%R.
Proof.
  intros Fx PO. destruct x as [s|s| |neg m e HB]; simpl in Fx; try discriminate.
  { exists (plain s [0] [] None). split.
    { split; [constructor|]. split; [repeat constructor; unfold digit; lia|]. repeat split; try constructor; try discriminate.
      intros Q. exfalso. apply Q. reflexivity. }
    split; [destruct s; reflexivity|].
    assert (V : value (plain s [0] [] None) = 0%R).
    { rewrite plain_value. cbv zeta. cbn. destruct s; ring. }
    rewrite V. simpl. split; [lra|]. split; [lra|]. split; [lia|]. split; [right; unfold n_e10; simpl; lia|].
    rewrite Rminus_diag_eq, Rabs_R0 by reflexivity. unfold out_err. pose proof (slack_range mode).
    pose proof (bpow_gt_0 radix10 (- p)). pose proof (bpow_gt_0 radix10 (1 - p)). destruct f; rewrite ?Rabs_R0, ?Rmult_0_r; try lra; apply Rmult_le_pos; lra. }
  set (x := B754_finite neg m e HB : b64).
  set (ax := if neg then Bopp x else x).
  assert (AX : is_finite ax = true /\ (0 < B2R ax)%R /\ B2R x = (if neg then - B2R ax else B2R ax)%R).
  { assert (PP : (0 < F2R (Float radix2 (Z.pos m) e))%R) by (apply F2R_gt_0; simpl; lia).
    unfold ax. destruct neg; cbn [B2R x].
    - split; [reflexivity|]. rewrite B2R_Bopp. unfold x. cbn [B2R]. simpl cond_Zopp.
      change (Z.neg m) with (- Z.pos m). rewrite F2R_Zopp. lra.
    - split; [reflexivity|]. unfold x. cbn [B2R]. simpl cond_Zopp. split; [exact PP|reflexivity]. }
  destruct AX as (A1 & A2 & A3).
  destruct (decimal_ok ax A1 A2) as (rmax & d & D1 & D2 & D3 & D4 & D5).
  assert (FP : (0 < fv 10 d)%R).
  { pose proof (bpow_gt_0 radix10 (rmax + 1)). rewrite D3 in A2. nra. }
  fold (dv rmax d) in D3.
  assert (AB : Rabs (B2R x) = dv rmax d).
  { rewrite <- D3, A3. destruct neg; [rewrite Rabs_Ropp|]; apply Rabs_pos_eq; lra. }
  assert (SH : forall s, shown neg mode (out_err f p mode (B2R x)) (dv rmax d) s -> exists n, wf_numeral n /\ Ok s = Ok (render n) /\
    (mode = 1 -> (B2R x <= value n)%R) /\ (mode = -1 -> (value n <= B2R x)%R) /\
    dsum (n_expd n) < 2 ^ 31 /\ (value n <> 0%R \/ 0 <= n_e10 n) /\
    (Rabs (value n - B2R x) <= out_err f p mode (B2R x))%R).
  { intros s (n & V & S1 & S2 & S3 & S4 & S5 & S6 & S7 & S8). exists n. split; auto. split; [now rewrite S2|].
    assert (S8' : (Rabs (value n - B2R x) <= out_err f p mode (B2R x))%R).
    { eapply Rle_trans; [|exact S8]. right. rewrite S3, A3, D3. destruct neg; [|reflexivity].
      rewrite <- Rabs_Ropp. f_equal. ring. }
    clear S8. split; [|split; [|split; [auto|split; [auto|exact S8']]]]; rewrite A3, D3, S3; unfold away, toward in *; intros Q; destruct neg.
    - assert (V <= dv rmax d)%R by auto. lra.
    - auto.
    - assert (dv rmax d <= V)%R by auto. lra.
    - auto. }
  unfold x. cbn [dtostring]. fold x. fold ax. rewrite D1. cbn [bind].
  destruct f; simpl in PO.
  - destruct (Z.ltb_spec p 0); [lia|]. apply SH. unfold out_err. rewrite AB. apply fmt_e_ok; auto.
  - destruct (Z.ltb_spec p 0); [lia|]. apply SH, fmt_f_ok; auto; lia.
  - destruct (Z.ltb_spec p 1); [lia|]. apply SH. unfold out_err. rewrite AB. apply fmt_g_ok; auto.
  - apply SH. destruct (fixed_ok neg rmax d D2 ltac:(lia) ltac:(lia)) as (n & W1 & W2 & W3 & W4).
    exists n, (dv rmax d). split; auto. split; auto. split; auto. split; [intros; lra|]. split; [intros; lra|].
    unfold n_expd, n_e10. rewrite W4. simpl. split; [lia|]. split; [right; lia|].
    rewrite Rminus_diag_eq, Rabs_R0 by reflexivity. lra.
Qed.
