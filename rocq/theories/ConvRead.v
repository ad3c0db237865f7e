(* stringtod on the text of a numeral *)
From Coq Require Import ZArith Reals Lra Lia List Bool Ascii.
From Flocq Require Import Core BinarySingleNaN.
From Verif Require Import Ext Fp64 ConvModel ConvSpec ConvProofs ConvIn ConvIn2.
Import ListNotations.
Open Scope Z_scope.

Lemma code_z n : 0 <= n < 256 -> code (ascii_z n) = n.
Proof.
  intros N. unfold code, ascii_z. rewrite nat_ascii_embedding; [lia|].
  change 256%nat with (Z.to_nat 256). apply Z2Nat.inj_lt; lia.
Qed.

Definition nodigit (s : list ascii) : Prop := match s with c :: _ => isdigit c = false | [] => True end.

Lemma isdigit_z n : 0 <= n < 256 -> isdigit (ascii_z n) = (48 <=? n) && (n <=? 57).
Proof. intros N. unfold isdigit. now rewrite code_z. Qed.
Lemma isspace_z n : 0 <= n < 256 -> isspace (ascii_z n) = (n =? 32) || ((9 <=? n) && (n <=? 13)).
Proof. intros N. unfold isspace. now rewrite code_z. Qed.
Lemma is_c_z k n : 0 <= n < 256 -> is_c k (ascii_z n) = (n =? k).
Proof. intros N. unfold is_c. now rewrite code_z. Qed.

Lemma get_number_text l rest : Forall digit l -> nodigit rest ->
  get_number (digits_text l ++ rest) = (l, rest).
Proof.
  intros F N. induction F as [|d l D F]; cbn [digits_text map app get_number].
  - destruct rest; simpl in *; auto. now rewrite N.
  - unfold digit in D. rewrite isdigit_z by lia.
    destruct (Z.leb_spec 48 (48 + d)); [|lia]. destruct (Z.leb_spec (48 + d) 57); [|lia]. cbn [andb].
    unfold digits_text in IHF. rewrite IHF, code_z by lia. f_equal. f_equal. lia.
Qed.

Definition nosign (s : list ascii) : Prop :=
  match s with c :: _ => is_c 45 c = false /\ is_c 43 c = false | [] => True end.
Lemma get_sign_text o rest : nosign rest ->
  get_sign (sign_text o ++ rest) = (match o with Some true => true | _ => false end, rest).
Proof.
  intros N. destruct o as [[]|]; cbn [sign_text app get_sign].
  - now rewrite is_c_z by lia.
  - now rewrite !is_c_z by lia.
  - destruct rest as [|c r]; simpl in *; auto. destruct N as (-> & ->). auto.
Qed.

Definition nospace (s : list ascii) : Prop := match s with c :: _ => isspace c = false | [] => True end.
Lemma ignore_space_text bl rest : Forall white bl -> nospace rest -> ignore_space (bl ++ rest) = rest.
Proof.
  intros F N. induction F as [|c l W F]; simpl.
  - destruct rest; simpl in *; auto. now rewrite N.
  - assert (isspace c = true) as ->; auto.
    unfold white in W. simpl in W. repeat destruct W as [<-|W]; try easy; reflexivity.
Qed.

Lemma dsum_bval l : dsum l = bval 10 l.
Proof. induction l; simpl; auto. now rewrite IHl. Qed.
Lemma dig_digit l : Forall digit l -> Forall (dig 10) l.
Proof. apply Forall_impl. unfold digit, dig. lia. Qed.
Lemma atoi_dsum l : Forall digit l -> atoi l = if dsum l <? 2 ^ 31 then Ok (dsum l) else Err EUB.
Proof.
  intros _. unfold atoi. assert (fold_left (fun a d => 10 * a + d) l 0 = dsum l) as ->; auto.
  assert (G : forall l a, fold_left (fun a d => 10 * a + d) l a = a * 10 ^ Z.of_nat (length l) + dsum l).
  { clear. induction l; intros b; cbn [fold_left dsum length]; [lia|].
    rewrite IHl, Nat2Z.inj_succ, Z.pow_succ_r by lia. ring. }
  rewrite G. lia.
Qed.

(* what stringtod does with the text of a numeral *)
Definition neg_of (o : option bool) : bool := match o with Some true => true | _ => false end.

Lemma digits_head (P : list ascii -> Prop) l rest : Forall digit l ->
  (forall d r, digit d -> P (ascii_z (48 + d) :: r)) -> P rest -> P (digits_text l ++ rest).
Proof. intros F H R. destruct F; [exact R|]. cbn [digits_text map app]. now apply H. Qed.

Definition exp_part (n : numeral) : list ascii :=
  match n_exp n with
  | Some (up, s, e) => ascii_z (if up then 69 else 101) :: sign_text s ++ digits_text e
  | None => []
  end.
Definition frac_part (n : numeral) : list ascii :=
  match n_frac n with Some f => ascii_z 46 :: digits_text f | None => [] end.

Lemma exp_part_head (P : list ascii -> Prop) n :
  P [] -> (forall r, P (ascii_z 69 :: r)) -> (forall r, P (ascii_z 101 :: r)) -> P (exp_part n).
Proof. intros A B C. unfold exp_part. destruct (n_exp n) as [[[[] s] e]|]; auto. Qed.

Lemma stringtod_text n mode : wf_numeral n ->
  stringtod (render n) mode =
  if match n_exp n with Some _ => 2 ^ 31 <=? dsum (n_expd n) | None => false end then Err EUB
  else digits_to_double (neg_of (n_sign n)) mode (n_int n) (n_fracd n) (n_e10 n).
Proof.
  intros (W1 & W2 & W3 & W4 & _). unfold stringtod, render. fold (exp_part n) (frac_part n).
  assert (H1 : nodigit (exp_part n)).
  { apply exp_part_head; simpl; auto; intros; rewrite isdigit_z by lia; auto. }
  assert (H2 : nosign (exp_part n)).
  { apply exp_part_head; simpl; auto; intros; rewrite !is_c_z by lia; auto. }
  assert (H3 : nospace (exp_part n)).
  { apply exp_part_head; simpl; auto; intros; rewrite isspace_z by lia; auto. }
  assert (G : forall P : list ascii -> Prop, (forall r, P (ascii_z 46 :: r)) -> P (exp_part n) -> P (frac_part n ++ exp_part n)).
  { intros P A B. unfold frac_part. destruct (n_frac n); simpl; auto. }
  assert (K1 : nodigit (frac_part n ++ exp_part n)).
  { apply G; auto. intros. simpl. rewrite isdigit_z by lia. auto. }
  assert (K2 : nosign (digits_text (n_int n) ++ frac_part n ++ exp_part n)).
  { apply digits_head; auto.
    - intros d r D. unfold digit in D. cbn [nosign nospace]. rewrite !is_c_z by lia. split; apply Z.eqb_neq; lia.
    - apply G; auto. intros. simpl. rewrite !is_c_z by lia. auto. }
  assert (K3 : nospace (sign_text (n_sign n) ++ digits_text (n_int n) ++ frac_part n ++ exp_part n)).
  { destruct (n_sign n) as [[]|]; simpl; try (rewrite isspace_z by lia; reflexivity).
    apply digits_head; auto.
    - intros d r D. unfold digit in D. cbn [nosign nospace]. rewrite isspace_z by lia.
      apply orb_false_intro; [apply Z.eqb_neq; lia|]. apply andb_false_intro2, Z.leb_gt. lia.
    - apply G; auto. intros. simpl. rewrite isspace_z by lia. auto. }
  rewrite ignore_space_text by auto. rewrite get_sign_text by auto. rewrite get_number_text by auto.
  assert (K4 : match frac_part n ++ exp_part n with
               | [] => ([], frac_part n ++ exp_part n)
               | c :: s' => if is_c 46 c then get_number s' else ([], frac_part n ++ exp_part n)
               end = (n_fracd n, exp_part n)).
  { unfold frac_part. unfold n_fracd in *. destruct (n_frac n) as [f|]; cbn [app].
    - rewrite is_c_z by lia. cbn [Z.eqb Pos.eqb]. now apply get_number_text.
    - apply (exp_part_head (fun s => match s with [] => ([], s) | c :: s' => if is_c 46 c then get_number s' else ([], s) end = ([], s)));
        auto; intros; rewrite is_c_z by lia; auto. }
  rewrite K4. clear G K1 K2 K3 K4.
  unfold exp_part, n_e10, n_expd in *. destruct (n_exp n) as [[[up s] e]|]; [|reflexivity].
  assert (is_c 101 (ascii_z (if up then 69 else 101)) || is_c 69 (ascii_z (if up then 69 else 101)) = true) as ->.
  { destruct up; rewrite !is_c_z by lia; reflexivity. }
  rewrite <- (app_nil_r (digits_text e)), get_sign_text.
  2: { apply digits_head; [auto| |exact Logic.I]. intros d r D. unfold digit in D. cbn [nosign]. rewrite !is_c_z by lia. split; apply Z.eqb_neq; lia. }
  rewrite get_number_text by (simpl; auto). rewrite atoi_dsum by auto.
  destruct (Z.ltb_spec (dsum e) (2 ^ 31)); destruct (Z.leb_spec (2 ^ 31) (dsum e)); try lia; cbn [bind]; auto.
  destruct s as [[]|]; auto.
Qed.

Lemma value_eq n : value n =
  (let X := ((IZR (bval 10 (n_int n)) + fv 10 (n_fracd n)) * bpow radix10 (n_e10 n))%R in
   if neg_of (n_sign n) then - X else X)%R.
Proof.
  unfold value. rewrite !dsum_bval. unfold fv. rewrite fvt_bval by lia.
  assert (PZ : forall e, powerRZ 10 e = bpow radix10 e) by (intros; symmetry; apply bpow_powerRZ).
  rewrite !PZ, IZR_pow10, bpow_opp by lia. unfold Rdiv. rewrite Rplus_0_r.
  destruct (n_sign n) as [[]|]; unfold sgn; cbn [neg_of]; cbv zeta; ring.
Qed.

Theorem stringtod_ok n mode d : wf_numeral n -> stringtod (render n) mode = Ok d ->
  (mode = 1 -> ub (v64 d) (value n)) /\ (mode = -1 -> lb (v64 d) (value n)).
Proof.
  intros W E. rewrite stringtod_text in E by auto. destruct W as (_ & W2 & W3 & _).
  destruct (match n_exp n with Some _ => _ | None => _ end); [discriminate|].
  rewrite value_eq. apply digits_ok in E; auto using dig_digit.
Qed.

Theorem stringtod_total n mode : wf_numeral n -> dsum (n_expd n) < 2 ^ 31 ->
  (value n <> 0%R \/ 0 <= n_e10 n) -> exists d, stringtod (render n) mode = Ok d.
Proof.
  intros W S V. rewrite stringtod_text by auto. destruct W as (_ & W2 & W3 & _).
  assert (match n_exp n with Some _ => 2 ^ 31 <=? dsum (n_expd n) | None => false end = false) as ->.
  { destruct (n_exp n); auto. apply Z.leb_gt. auto. }
  apply digits_total; auto using dig_digit.
  destruct V as [V|V]; auto. left. intros Z. apply V. rewrite value_eq, Z, Rmult_0_l.
  cbn zeta. destruct (neg_of _); ring.
Qed.
