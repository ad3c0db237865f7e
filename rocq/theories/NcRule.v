(* The composite Newton-Cotes formula with its error term in the form computed by defint_newtoncotes. *)
From Coq Require Import Reals ZArith QArith Qreals Bool List Lra Lia Arith.
From Coquelicot Require Import Coquelicot.
From Verif Require Import NcModel NcReal.
Import ListNotations.
Open Scope R_scope.

(* ---- the rules as rational tables ---- *)
Definition toQ (p : Z * Z) : Q := (fst p # Z.to_pos (snd p))%Q.
(* the weights of one panel *)
Definition nc_ws (n : nat) : list Q := let T := map toQ (nc_row n) in firstn n T ++ [hd 0%Q T].
(* the kernel: u^d/d! - w0 u^(d-1)/(d-1)!, then shifted by 1 and corrected by the weight of the node *)
Fixpoint pshift (p : list Q) : list Q := match p with [] => [] | c :: p => let q := pshift p in padd [c] (padd q (0%Q :: q)) end.
Fixpoint mono (d : nat) (c : Q) : list Q := match d with O => [c] | S d => 0%Q :: mono d c end.
Definition qfact (d : nat) : Q := inject_Z (Z.of_nat (fact d)).
Fixpoint pieces (cnt d : nat) (p : list Q) (ws : list Q) : list (list Q) :=
  match cnt, ws with
  | S cnt, w :: ws => let q := padd p (pscale (- w / qfact (d - 1)) (mono (d - 1) 1)) in q :: pieces cnt d (pshift q) ws
  | _, _ => []
  end.
Definition kern (n : nat) : list (list Q) :=
  let d := Z.to_nat (nc_d n) in pieces n d (pscale (1 / qfact d) (mono d 1)) (nc_ws n).
(* what is checked of a rule: the kernel, the constant of the error term, the weight at the nodes between two panels *)
Definition nc_good (n : nat) (err : Z * Z) : bool :=
  let d := Z.to_nat (nc_d n) in let T := map toQ (nc_row n) in
  (1 <=? n)%nat && (1 <=? snd err)%Z && (fst err <? 0)%Z && Nat.even d && (length (kern n) =? n)%nat && panel d [] (kern n) (nc_ws n) &&
  Qeq_bool (ksum (kern n)) (inject_Z (Z.of_nat n) * toQ err) && Qeq_bool (nth n T 0%Q) (2 * nth 0 T 0%Q) && (length T =? S n)%nat &&
  forallb (fun p => (1 <=? snd p)%Z && (Z.abs (fst p) <? 2 ^ 53)%Z && (snd p <? 2 ^ 53)%Z) (err :: nc_row n).
Lemma nc_good_1 : nc_good 1 (nth 1 nc_err (0, 1)%Z) = true. Proof. vm_compute. reflexivity. Qed.
Lemma nc_good_2 : nc_good 2 (nth 2 nc_err (0, 1)%Z) = true. Proof. vm_compute. reflexivity. Qed.
Lemma nc_good_4 : nc_good 4 (nth 4 nc_err (0, 1)%Z) = true. Proof. vm_compute. reflexivity. Qed.
Lemma nc_good_6 : nc_good 6 (nth 6 nc_err (0, 1)%Z) = true. Proof. vm_compute. reflexivity. Qed.
(* with these constants the other three rules would be right *)
Lemma nc_good_3 : nc_good 3 (-1, 80)%Z = true. Proof. vm_compute. reflexivity. Qed.
Lemma nc_good_5 : nc_good 5 (-55, 12096)%Z = true. Proof. vm_compute. reflexivity. Qed.
Lemma nc_good_7 : nc_good 7 (-1169, 518400)%Z = true. Proof. vm_compute. reflexivity. Qed.

Lemma nc_good_even n : In n [1; 2; 4; 6]%Z -> nc_good (Z.to_nat n) (nth (Z.to_nat n) nc_err (0, 1)%Z) = true.
Proof. intros [<-|[<-|[<-|[<-|[]]]]]; [exact nc_good_1|exact nc_good_2|exact nc_good_4|exact nc_good_6]. Qed.
Definition nc_fix (n : Z) : Z * Z := if (n =? 3)%Z then (-1, 80)%Z else if (n =? 5)%Z then (-55, 12096)%Z else (-1169, 518400)%Z.
Lemma nc_good_odd n : In n [3; 5; 7]%Z -> nc_good (Z.to_nat n) (nc_fix n) = true.
Proof. intros [<-|[<-|[<-|[]]]]; [exact nc_good_3|exact nc_good_5|exact nc_good_7]. Qed.
Lemma nc_d_range n : (1 <= n <= 7)%Z -> (1 <= nc_d (Z.to_nat n) < 2 ^ 52)%Z.
Proof. intros H. assert (E : (n = 1 \/ n = 2 \/ n = 3 \/ n = 4 \/ n = 5 \/ n = 6 \/ n = 7)%Z) by lia. destruct E as [->|[->|[->|[->|[->|[->| ->]]]]]]; vm_compute; split; congruence. Qed.

(* ---- the sum in the order of the code ---- *)
Section Sums.
Variables (g : R -> R) (n : nat) (T : list Q).
Hypothesis N1 : (1 <= n)%nat.
Hypothesis TL : length T = S n.
Hypothesis TN : Q2R (nth n T 0%Q) = 2 * Q2R (nth 0 T 0%Q).
Let G (j : nat) (x : R) : R := g x.
Definition cw (m i : Z) : R := Q2R (nth (nc_idx (Z.of_nat n) m i) T 0%Q).
Fixpoint lsum (m : Z) (cnt : nat) (i : Z) : R := match cnt with O => 0 | S cnt => cw m i * g (IZR i) + lsum m cnt (i + 1) end.
Lemma lsum_app m a b i : lsum m (a + b) i = lsum m a i + lsum m b (i + Z.of_nat a).
Proof.
  revert i. induction a as [|a IH]; intros i; [simpl; rewrite Z.add_0_r; ring|]. cbn [Nat.add lsum]. rewrite IH.
  replace (i + 1 + Z.of_nat a)%Z with (i + Z.of_nat (S a))%Z by lia. ring.
Qed.
Lemma idx_in K j m : (0 < j < n)%nat -> (0 <= K)%Z -> (K * Z.of_nat n + Z.of_nat j < m)%Z -> nc_idx (Z.of_nat n) m (K * Z.of_nat n + Z.of_nat j) = j.
Proof.
  intros Hj HK Hm. unfold nc_idx. assert (0 <= K * Z.of_nat n)%Z by nia.
  destruct (Z.eqb_spec (K * Z.of_nat n + Z.of_nat j) 0); [lia|]. destruct (Z.eqb_spec (K * Z.of_nat n + Z.of_nat j) m); [lia|]. cbn [orb].
  rewrite Z.add_comm, Z_mod_plus_full, Z.mod_small by lia. destruct (Z.eqb_spec (Z.of_nat j) 0); lia.
Qed.
Lemma idx_mul K m : (0 < K)%Z -> (K * Z.of_nat n < m)%Z -> nc_idx (Z.of_nat n) m (K * Z.of_nat n) = n.
Proof.
  intros HK Hm. unfold nc_idx. assert (0 < K * Z.of_nat n)%Z by nia.
  destruct (Z.eqb_spec (K * Z.of_nat n) 0); [lia|]. destruct (Z.eqb_spec (K * Z.of_nat n) m); [lia|]. cbn [orb].
  rewrite Z_mod_mult. simpl. lia.
Qed.
Lemma idx_end m : nc_idx (Z.of_nat n) m m = 0%nat.
Proof. unfold nc_idx. rewrite Z.eqb_refl, orb_true_r. reflexivity. Qed.
Lemma idx_0 m : nc_idx (Z.of_nat n) m 0 = 0%nat.
Proof. reflexivity. Qed.
Lemma wsum_app ws ws' k : wsum G (ws ++ ws') k = wsum G ws k + wsum G ws' (k + INR (length ws)).
Proof.
  revert k. induction ws as [|w ws IH]; intros k; [simpl; rewrite Rplus_0_r; ring|]. cbn [app wsum length]. rewrite IH, S_INR.
  replace (k + (INR (length ws) + 1)) with (k + 1 + INR (length ws)) by ring. ring.
Qed.
(* the inner nodes of a panel *)
Lemma inner K m l j : (0 <= K)%Z -> (K * Z.of_nat n + Z.of_nat n <= m)%Z -> (0 < j)%nat -> (j + length l <= n)%nat -> (forall i, (i < length l)%nat -> nth i l 0%Q = nth (j + i) T 0%Q) ->
  lsum m (length l) (K * Z.of_nat n + Z.of_nat j) = wsum G l (IZR (K * Z.of_nat n + Z.of_nat j)).
Proof.
  intros HK Hm. revert j. induction l as [|w l IH]; intros j Hj Hl HT; [reflexivity|]. cbn [length lsum wsum] in *.
  pose proof (HT 0%nat ltac:(lia)) as H0. cbn [nth] in H0. rewrite Nat.add_0_r in H0. unfold cw at 1. rewrite idx_in by lia. rewrite <- H0.
  rewrite <- (plus_IZR _ 1). replace (K * Z.of_nat n + Z.of_nat j + 1)%Z with (K * Z.of_nat n + Z.of_nat (S j))%Z by lia. rewrite (IH (S j)); try lia.
  - reflexivity.
  - intros i Hi. pose proof (HT (S i) ltac:(lia)) as HS. cbn [nth] in HS. rewrite HS. f_equal. lia.
Qed.
Let w0 := nth 0 T 0%Q.
Let l := firstn (n - 1) (tl T).
Definition ws_ : list Q := w0 :: l ++ [w0].
Lemma l_len : length l = (n - 1)%nat.
Proof. unfold l. rewrite firstn_length. destruct T as [|a t]; simpl in *; [discriminate|]. apply Nat.min_l. lia. Qed.
Lemma l_nth i : (i < length l)%nat -> nth i l 0%Q = nth (1 + i) T 0%Q.
Proof.
  rewrite l_len. intros Hi. unfold l. destruct T as [|a t]; [discriminate TL|]. cbn [tl]. change (nth (1 + i) (a :: t) 0%Q) with (nth i t 0%Q).
  rewrite <- (firstn_skipn (n - 1) t) at 2. rewrite app_nth1; auto. rewrite firstn_length. simpl in TL. lia.
Qed.
Lemma wsum_ws k : wsum G ws_ k = Q2R w0 * g k + wsum G l (k + 1) + Q2R w0 * g (k + INR n).
Proof.
  unfold ws_. cbn [wsum]. rewrite wsum_app. cbn [wsum]. rewrite l_len, minus_INR by auto. change (INR 1) with 1.
  replace (k + 1 + (INR n - 1)) with (k + INR n) by ring. unfold G. ring.
Qed.
(* from the node K n on *)
Lemma panel_split K m c : (0 <= K)%Z -> (K * Z.of_nat n + Z.of_nat n <= m)%Z ->
  lsum m (n + c) (K * Z.of_nat n) = cw m (K * Z.of_nat n) * g (IZR (K * Z.of_nat n)) + wsum G l (IZR (K * Z.of_nat n) + 1) + lsum m c ((K + 1) * Z.of_nat n).
Proof.
  intros HK Hm. replace (n + c)%nat with (1 + ((n - 1) + c))%nat by lia. rewrite lsum_app. cbn [lsum]. rewrite lsum_app.
  rewrite <- l_len at 1. rewrite (inner K m l 1); auto; try (rewrite l_len; lia); try apply l_nth.
  rewrite plus_IZR. change (IZR (Z.of_nat 1)) with 1. replace (K * Z.of_nat n + Z.of_nat 1 + Z.of_nat (n - 1))%Z with ((K + 1) * Z.of_nat n)%Z by nia. ring.
Qed.
Lemma tail_sum M K : (0 < K)%Z ->
  lsum ((K + Z.of_nat M) * Z.of_nat n) (n * M + 1) (K * Z.of_nat n) = psum G n ws_ M (IZR (K * Z.of_nat n)) + Q2R w0 * g (IZR (K * Z.of_nat n)).
Proof.
  revert K. induction M as [|M IH]; intros K HK.
  - rewrite Nat.mul_0_r. cbn [Nat.add lsum psum]. rewrite Z.add_0_r. unfold cw. rewrite idx_end. fold w0. ring.
  - replace (n * S M + 1)%nat with (n + (n * M + 1))%nat by lia. rewrite panel_split by nia.
    replace (K + Z.of_nat (S M))%Z with (K + 1 + Z.of_nat M)%Z by lia. rewrite IH by lia. unfold cw. rewrite idx_mul by nia.
    rewrite TN. fold w0. cbn [psum]. rewrite wsum_ws.
    replace (IZR ((K + 1) * Z.of_nat n)) with (IZR (K * Z.of_nat n) + INR n) by (rewrite INR_IZR_INZ, <- plus_IZR; f_equal; lia). ring.
Qed.
Lemma code_sum M : lsum (Z.of_nat (S M) * Z.of_nat n) (n * S M + 1) 0 = psum G n ws_ (S M) 0.
Proof.
  replace (n * S M + 1)%nat with (n + (n * M + 1))%nat by lia. pose proof (panel_split 0 (Z.of_nat (S M) * Z.of_nat n) (n * M + 1) ltac:(lia) ltac:(nia)) as E.
  rewrite Z.mul_0_l in E. rewrite E. replace (Z.of_nat (S M)) with (0 + 1 + Z.of_nat M)%Z by lia. rewrite tail_sum by lia. unfold cw. rewrite idx_0.
  fold w0. cbn [psum]. rewrite wsum_ws. replace (IZR ((0 + 1) * Z.of_nat n)) with (0 + INR n) by (rewrite INR_IZR_INZ, Z.mul_1_l; ring). ring.
Qed.
End Sums.

(* ---- the rule with its error term ---- *)
Lemma ws_eq n : length (map toQ (nc_row n)) = S n -> (1 <= n)%nat -> nc_ws n = ws_ n (map toQ (nc_row n)).
Proof.
  intros L N. unfold nc_ws, ws_. destruct (map toQ (nc_row n)) as [|a t]; [discriminate L|]. destruct n as [|n]; [lia|].
  cbn [firstn hd nth tl app]. now replace (S n - 1)%nat with n by lia.
Qed.
Lemma wsum_ext G G' ws k : (forall x, G 0%nat x = G' 0%nat x) -> wsum G ws k = wsum G' ws k.
Proof. intros E. revert k. induction ws as [|w ws IH]; intros k; cbn [wsum]; [reflexivity|]. now rewrite E, IH. Qed.
Lemma psum_ext G G' n ws c k : (forall x, G 0%nat x = G' 0%nat x) -> psum G n ws c k = psum G' n ws c k.
Proof. intros E. revert k. induction c as [|c IH]; intros k; cbn [psum]; [reflexivity|]. now rewrite (wsum_ext G G'), IH. Qed.
Section Rule.
Variables (F : nat -> R -> R) (dom : R -> Prop).
Hypothesis FM : forall k y, dom y -> is_derive (F k) y (F (S k) y).
Variables (a b h : R) (n M : nat) (err : Z * Z).
Hypothesis GOOD : nc_good n err = true.
Let d := Z.to_nat (nc_d n).
Let T := map toQ (nc_row n).
Hypothesis HH : b - a = h * INR (n * S M).
Hypothesis SEG : forall x, Rmin a b <= x <= Rmax a b -> dom x.
Let m := Z.of_nat (n * S M).
Definition rule : R := h * lsum (fun u => F 0%nat (a + u * h)) n T m (n * S M + 1) 0.
Theorem rule_ok : exists x1 x2 z, Rmin a b <= x1 <= Rmax a b /\ Rmin a b <= x2 <= Rmax a b /\ F d x1 <= z <= F d x2 /\
  is_RInt (F 0%nat) a b (rule + z * (b - a) * h ^ d * Q2R (toQ err)).
Proof using FM GOOD HH SEG.
  assert (GD := GOOD). unfold nc_good in GD. fold d in GD. fold T in GD.
  repeat (apply andb_prop in GD as [GD ?H]). rename GD into G1, H7 into G2, H6 into G3, H5 into G4, H4 into G5, H3 into G6, H2 into G7, H1 into G8, H0 into G9, H into G10.
  apply Nat.leb_le in G1. apply Z.leb_le in G2. apply Z.ltb_lt in G3. apply Nat.eqb_eq in G5, G9.
  apply Qeq_bool_eq, Qeq_eqR in G7, G8. rewrite Q2R_mult in G7, G8.
  assert (I2 : Q2R 2 = 2) by (unfold Q2R; simpl; lra). rewrite I2 in G8.
  assert (IN : Q2R (inject_Z (Z.of_nat n)) = INR n) by (unfold Q2R, inject_Z; simpl; rewrite INR_IZR_INZ; field). rewrite IN in G7.
  assert (NE : Q2R (toQ err) < 0). { unfold Q2R, toQ. simpl. apply IZR_lt in G3. pose proof (Pos2Z.is_pos (Z.to_pos (snd err))) as P. apply IZR_lt in P. apply Rinv_0_lt_compat in P. nra. }
  assert (NP : 0 < INR (n * S M)) by (apply lt_0_INR; nia).
  set (L := Rmin a b) in *. set (U := Rmax a b) in *.
  assert (LU : L <= U) by (unfold L, U, Rmin, Rmax; destruct (Rle_dec a b); lra).
  assert (CF : forall k x, dom x -> continuity_pt (F k) x).
  { intros k x Hx. apply continuity_pt_filterlim. apply (ex_derive_continuous (V := R_NormedModule)). eexists. now apply FM. }
  destruct (continuity_ab_min (F d) L U LU) as (x1 & Q1 & B1). { intros x Hx. apply CF, SEG, Hx. }
  destruct (continuity_ab_maj (F d) L U LU) as (x2 & Q2 & B2). { intros x Hx. apply CF, SEG, Hx. }
  exists x1, x2.
  destruct (Req_dec h 0) as [Z0|NZ].
  - exists (F d x1). split; [exact B1|]. split; [exact B2|]. split; [split; [lra|]; apply Q1; exact B2|].
    assert (EB : b = a) by (rewrite Z0, Rmult_0_l in HH; lra). unfold rule. rewrite EB, Z0.
    replace (0 * lsum (fun u => F 0%nat (a + u * 0)) n T m (n * S M + 1) 0 + F d x1 * (a - a) * 0 ^ d * Q2R (toQ err)) with 0 by ring.
    apply (is_RInt_point (V := R_NormedModule)).
  - set (G := fun (j : nat) (u : R) => h ^ j * F j (a + u * h)). set (N := INR (n * S M)) in *.
    assert (IN2 : forall u, 0 <= u <= N -> L <= a + u * h <= U).
    { intros u Hu. unfold L, U, Rmin, Rmax. destruct (Rle_dec a b) as [ab|ab].
      - assert (0 <= h) by (destruct (Rle_lt_dec 0 h); auto; nra). nra.
      - assert (h <= 0) by (destruct (Rle_lt_dec h 0); auto; nra). nra. }
    assert (FG : fam G (fun u => 0 <= u <= N)).
    { intros j u Hu. unfold G. evar_last. { apply is_derive_scal. apply (is_derive_comp (F j) (fun u => a + u * h)); [apply FM, SEG, IN2, Hu|].
        apply @is_derive_plus; [apply is_derive_const|]. apply @is_derive_mult; [apply is_derive_id|apply is_derive_const|apply Rmult_comm]. }
      change (h ^ j * ((0 + (1 * h + u * 0)) * F (S j) (a + u * h)) = h * h ^ j * F (S j) (a + u * h)). ring. }
    assert (EN : 0 + INR (length (kern n)) * INR (S M) = N) by (rewrite G5, <- mult_INR; unfold N; ring).
    destruct (panels_int G (fun u => 0 <= u <= N) d (kern n) (nc_ws n) (S M) 0 G4 G6 FG) as (I & J1 & J2 & J3); rewrite EN in *; auto.
    rewrite G5 in J1. rewrite G7 in J2, J3.
    assert (PM : 0 < INR (S M)) by (apply lt_0_INR; lia).
    assert (KN : INR n * Q2R (toQ err) * INR (S M) = N * Q2R (toQ err)) by (unfold N; rewrite mult_INR; ring). rewrite KN in J2, J3.
    assert (EV : 0 < h ^ d). { apply Nat.even_spec in G4 as [q ->]. rewrite pow_mult. apply pow_lt. assert (h < 0 \/ 0 < h) as [|] by lra; simpl; nra. }
    specialize (J2 (h ^ d * F d x1)). specialize (J3 (h ^ d * F d x2)).
    assert (K2 : I <= h ^ d * F d x1 * (N * Q2R (toQ err))). { apply J2. intros u Hu. unfold G. apply Rmult_le_compat_l; [lra|]. apply Q1, IN2, Hu. }
    assert (K3 : h ^ d * F d x2 * (N * Q2R (toQ err)) <= I). { apply J3. intros u Hu. unfold G. apply Rmult_le_compat_l; [lra|]. apply Q2, IN2, Hu. }
    set (D := h ^ d * (N * Q2R (toQ err))) in *. assert (DN : D < 0) by (unfold D; assert (N * Q2R (toQ err) < 0) by nra; nra).
    exists (I / D). split; [exact B1|]. split; [exact B2|]. split.
    + assert (I = I / D * D) by (field; lra). split.
      * apply Rnot_lt_le. intros Q. assert (I > F d x1 * D) by nra. unfold D in *. nra.
      * apply Rnot_lt_le. intros Q. assert (I < F d x2 * D) by nra. unfold D in *. nra.
    + assert (ER : rule = h * psum G n (nc_ws n) (S M) 0).
      { unfold rule. f_equal. rewrite ws_eq by auto. unfold m. rewrite Nat.mul_comm, Nat2Z.inj_mul, (Nat.mul_comm (S M) n).
        rewrite (code_sum (fun u => F 0%nat (a + u * h)) n T G1 G9 G8 M). fold T.
        apply psum_ext. intros x. unfold G. simpl. ring. }
      pose proof (is_RInt_comp_lin (V := R_NormedModule) (F 0%nat) h a 0 N) as E4.
      rewrite ER. replace (I / D * (b - a) * h ^ d * Q2R (toQ err)) with (h * I) by (rewrite HH; unfold D; field; repeat split; lra).
      rewrite <- Rmult_plus_distr_l.
      assert (ET : is_RInt (F 0%nat) (a + 0 * h) (a + N * h) (h * (psum G n (nc_ws n) (S M) 0 + I))).
      { assert (EX : ex_RInt (F 0%nat) (h * 0 + a) (h * N + a)).
        { apply (ex_RInt_continuous (V := R_CompleteNormedModule)). intros z Hz. apply (ex_derive_continuous (V := R_NormedModule)). eexists. apply FM, SEG.
          replace (h * 0 + a) with a in Hz by ring. replace (h * N + a) with b in Hz by (unfold N in *; lra). exact Hz. }
        destruct EX as [J HJ]. replace (a + 0 * h) with (h * 0 + a) by ring. replace (a + N * h) with (h * N + a) by ring.
        specialize (E4 J HJ).
        assert (E5 : is_RInt (fun u => h * G 0%nat u) 0 N (h * (psum G n (nc_ws n) (S M) 0 + I))) by (apply (is_RInt_scal (V := R_NormedModule)); exact J1).
        assert (E6 : is_RInt (fun u => h * G 0%nat u) 0 N J).
        { eapply is_RInt_ext; [|exact E4]. intros u _. unfold G. simpl. change (h * F 0%nat (h * u + a) = h * (1 * F 0%nat (a + u * h))). rewrite Rmult_1_l. f_equal. f_equal. ring. }
        rewrite <- (is_RInt_unique (V := R_CompleteNormedModule) _ _ _ _ E5), (is_RInt_unique (V := R_CompleteNormedModule) _ _ _ _ E6). exact HJ. }
      replace (a + 0 * h) with a in ET by ring. replace (a + N * h) with b in ET by (unfold N in *; lra). exact ET.
Qed.
End Rule.
