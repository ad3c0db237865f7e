(* Algebra over C for kv/cardano-ferrari.hpp and kv/dka.hpp: Cardano's and Ferrari's formulas, and Smith's theorem on the
   zeros of a polynomial.  Nothing here refers to the model. *)
From Coq Require Import Reals Lra Lia List Arith.
From Coquelicot Require Import Complex.
From Verif Require Import CplxReal.
Open Scope R_scope.

(* value of a polynomial, coefficients of increasing degree *)
Fixpoint peval (p : list C) (z : C) : C := match p with nil => RtoC 0 | c :: p => (peval p z * z + c)%C end.

Definition num (k : R) : C := RtoC k.
Lemma num_nz k : k <> 0 -> RtoC k <> RtoC 0. Proof. intros H E. apply RtoC_inj in E. auto. Qed.
(* numerals as sums of 1, for ring *)
Lemma RtoC3 : RtoC 3 = (RtoC 1 + RtoC 1 + RtoC 1)%C. Proof. rewrite <- !RtoC_plus. apply f_equal; lra. Qed.
Lemma RtoC4 : RtoC 4 = (RtoC 2 * RtoC 2)%C. Proof. rewrite <- RtoC_mult. apply f_equal; lra. Qed.
Lemma RtoC8 : RtoC 8 = (RtoC 2 * RtoC 2 * RtoC 2)%C. Proof. rewrite <- !RtoC_mult. apply f_equal; lra. Qed.
Lemma RtoC16 : RtoC 16 = (RtoC 2 * RtoC 2 * RtoC 2 * RtoC 2)%C. Proof. rewrite <- !RtoC_mult. apply f_equal; lra. Qed.
Lemma RtoC256 : RtoC 256 = (RtoC 2 * RtoC 2 * RtoC 2 * RtoC 2 * RtoC 2 * RtoC 2 * RtoC 2 * RtoC 2)%C. Proof. rewrite <- !RtoC_mult. apply f_equal; lra. Qed.
Lemma RtoC27 : RtoC 27 = (RtoC 3 * RtoC 3 * RtoC 3)%C. Proof. rewrite <- !RtoC_mult. apply f_equal; lra. Qed.

Section Cardano.
Variables (w m n p q t : C).
Hypothesis Hw : (w * w + w + RtoC 1 = RtoC 0)%C.
Lemma w3 : (w * w * w = RtoC 1)%C.
Proof. transitivity (w * (w * w + w + RtoC 1) - (w * w + w + RtoC 1) + RtoC 1)%C; [ring|rewrite Hw; ring]. Qed.
Hypothesis Ht : (t * t = q * q / RtoC 4 + p * p * p / RtoC 27)%C.
Hypothesis Hm : (m * m * m = - q / RtoC 2 + t)%C.
Hypothesis Hn : (n * n * n = - q / RtoC 2 - t)%C.

(* one of n, w n, w^2 n is the partner of m *)
Lemma partner : exists k, (k < 3)%nat /\ (m * (Cpown w k * n) + p / RtoC 3 = RtoC 0)%C.
Proof.
  pose proof C2_nz as N2. pose proof (num_nz 3 ltac:(lra)) as N3.
  set (e := (p / RtoC 3)%C).
  assert (E : (m * n * (m * n) * (m * n) + e * e * e = RtoC 0)%C).
  { transitivity ((m * m * m) * (n * n * n) + p * p * p / RtoC 27)%C.
    - unfold e. rewrite RtoC27. field. auto.
    - rewrite Hm, Hn. transitivity (q * q / RtoC 4 + p * p * p / RtoC 27 - t * t)%C; [rewrite RtoC4; field; split; auto; rewrite RtoC27; repeat apply Cmult_neq_0; auto|rewrite Ht; ring]. }
  assert (F : ((m * n + e) * ((m * (w * n) + e) * (m * (w * w * n) + e)) = RtoC 0)%C).
  { rewrite <- E. set (x := (m * n)%C).
    transitivity (x * x * x * (w * w * w) + e * x * x * (w * (w * w + w + RtoC 1)) + e * e * x * (w * w + w + RtoC 1) + e * e * e)%C.
    - unfold x. ring. - rewrite Hw, w3. unfold x. ring. }
  destruct (Ceq_dec (m * n + e)%C (RtoC 0)) as [Z|Z].
  - exists 0%nat. split; [lia|]. rewrite <- Z. cbn [Cpown]. fold e. ring.
  - destruct (Ceq_dec (m * (w * n) + e)%C (RtoC 0)) as [Z1|Z1].
    + exists 1%nat. split; [lia|]. rewrite <- Z1. cbn [Cpown]. fold e. ring.
    + destruct (Ceq_dec (m * (w * w * n) + e)%C (RtoC 0)) as [Z2|Z2].
      * exists 2%nat. split; [lia|]. rewrite <- Z2. cbn [Cpown]. fold e. ring.
      * exfalso. revert F. apply Cmult_neq_0; auto. apply Cmult_neq_0; auto.
Qed.
Lemma cubes k : (let n' := (Cpown w k * n) in n' * n' * n' = - q / RtoC 2 - t)%C.
Proof.
  cbv zeta. rewrite <- Hn. induction k; cbn [Cpown]; [ring|].
  transitivity ((w * w * w) * (Cpown w k * n * (Cpown w k * n) * (Cpown w k * n)))%C; [ring|]. rewrite IHk, w3. ring.
Qed.
End Cardano.
(* the three roots of y^3 + p y + q *)
Lemma cardano_depressed (w m n p q t : C) : (w * w + w + RtoC 1 = RtoC 0)%C -> (m * m * m = - q / RtoC 2 + t)%C ->
  (n * n * n = - q / RtoC 2 - t)%C -> (m * n + p / RtoC 3 = RtoC 0)%C -> forall y,
  (y * y * y + p * y + q = (y - (m + n)) * ((y - (w * m + w * w * n)) * (y - (w * w * m + w * n))))%C.
Proof.
  intros Hw Hm Hn Hp y. pose proof C2_nz as N2. pose proof (num_nz 3 ltac:(lra)) as N3.
  assert (P : (p = - (RtoC 3 * (m * n)))%C) by (transitivity (RtoC 3 * (m * n + p / RtoC 3) - RtoC 3 * (m * n))%C; [field; auto|rewrite Hp; ring]).
  assert (Q : (q = - (m * m * m) - n * n * n)%C) by (rewrite Hm, Hn; rewrite C2_eq in *; field; auto).
  pose proof (w3 w Hw) as W3. assert (W2 : (w * w = - w - RtoC 1)%C) by (transitivity (w * w + w + RtoC 1 - w - RtoC 1)%C; [ring|rewrite Hw; ring]).
  rewrite P, Q, RtoC3, W2. clear - W2.
  assert (E : forall y m n, ((y - (m + n)) * ((y - (w * m + (- w - RtoC 1) * n)) * (y - ((- w - RtoC 1) * m + w * n))) =
     y * y * y + - ((RtoC 1 + RtoC 1 + RtoC 1) * (m * n)) * y + (- (m * m * m) - n * n * n) +
     (w * w + w + RtoC 1) * ((y - (m + n)) * (- (m * m) - n * n + (RtoC 1 + RtoC 1) * (m * n))))%C) by (intros; ring).
  rewrite E, W2. ring.
Qed.
(* the three roots of the cubic *)
Lemma cardano_roots (c0 c1 c2 c3 w m n t : C) : c3 <> RtoC 0 ->
  let a := (c2 / c3)%C in let b := (c1 / c3)%C in let c := (c0 / c3)%C in
  let p := (b - a * a / RtoC 3)%C in let q := (RtoC 2 * (a * a * a) / RtoC 27 - a * b / RtoC 3 + c)%C in
  (w * w + w + RtoC 1 = RtoC 0)%C -> (m * m * m = - q / RtoC 2 + t)%C ->
  (n * n * n = - q / RtoC 2 - t)%C -> (m * n + p / RtoC 3 = RtoC 0)%C -> forall x,
  (peval (c0 :: c1 :: c2 :: c3 :: nil) x = c3 * ((x - (m + n - a / RtoC 3)) * ((x - (w * m + w * w * n - a / RtoC 3)) * (x - (w * w * m + w * n - a / RtoC 3)))))%C.
Proof.
  intros N a b c p q Hw Hm Hn Hp x. pose proof C2_nz as N2. pose proof (num_nz 3 ltac:(lra)) as N3.
  pose proof (cardano_depressed w m n p q t Hw Hm Hn Hp (x + a / RtoC 3)%C) as K.
  transitivity (c3 * ((x + a / RtoC 3) * (x + a / RtoC 3) * (x + a / RtoC 3) + p * (x + a / RtoC 3) + q))%C.
  - clear K. set (e := (a / RtoC 3)%C).
    assert (Ea : a = (RtoC 3 * e)%C) by (unfold e; field; auto).
    assert (Ep : p = (b - RtoC 3 * e * e)%C) by (unfold p; rewrite Ea; field; auto).
    assert (Eq : q = (RtoC 2 * (e * e * e) - e * b + c)%C) by (unfold q; rewrite Ea, RtoC27; field; auto).
    assert (E3 : (c3 * c = c0 /\ c3 * b = c1 /\ c3 * (RtoC 3 * e) = c2)%C).
    { rewrite <- Ea. unfold a, b, c. repeat split; field; auto. }
    destruct E3 as (F0 & F1 & F2). rewrite Ep, Eq. cbn [peval]. rewrite <- F0, <- F1, <- F2. rewrite RtoC3, C2_eq. ring.
  - rewrite K. fold (a / RtoC 3)%C. ring.
Qed.

(* Ferrari *)
Lemma quad1 (x e m s : C) : ((x - ((m + s) / RtoC 2 - e)) * (x - ((m - s) / RtoC 2 - e)) =
  (x + e) * (x + e) - m * (x + e) + (m * m - s * s) / (RtoC 2 * RtoC 2))%C.
Proof.
  pose proof C2_nz as N2. set (h := (m / RtoC 2)%C). set (k := (s / RtoC 2)%C).
  assert (Em : m = (RtoC 2 * h)%C) by (unfold h; field; auto).
  assert (Es : s = (RtoC 2 * k)%C) by (unfold k; field; auto).
  transitivity ((x + e) * (x + e) - (h + h) * (x + e) + (h * h - k * k))%C.
  - rewrite Em, Es. replace ((RtoC 2 * h + RtoC 2 * k) / RtoC 2)%C with (h + k)%C by (field; auto).
    replace ((RtoC 2 * h - RtoC 2 * k) / RtoC 2)%C with (h - k)%C by (field; auto). ring.
  - replace ((m * m - s * s) / (RtoC 2 * RtoC 2))%C with (h * h - k * k)%C by (rewrite Em, Es; field; auto).
    rewrite Em, C2_eq. ring.
Qed.
Lemma ferrari_roots (c0 c1 c2 c3 c4 l m n s1 s2 : C) : c4 <> RtoC 0 ->
  let a := (c3 / c4)%C in let b := (c2 / c4)%C in let c := (c1 / c4)%C in let d := (c0 / c4)%C in
  let p := (b - a * a * RtoC 3 / RtoC 8)%C in let q := (c - b * a / RtoC 2 + a * a * a / RtoC 8)%C in
  let r := (d - c * a / RtoC 4 + b * (a * a) / RtoC 16 - a * a * a * a * RtoC 3 / RtoC 256)%C in
  (m * m = RtoC 2 * l - p)%C -> (n * n = l * l - r)%C -> (RtoC 2 * m * n + q = RtoC 0)%C ->
  (s1 * s1 = m * m - RtoC 4 * (l - n))%C -> (s2 * s2 = m * m - RtoC 4 * (l + n))%C -> forall x,
  (peval (c0 :: c1 :: c2 :: c3 :: c4 :: nil) x =
   c4 * (((x - ((m + s1) / RtoC 2 - a / RtoC 4)) * (x - ((m - s1) / RtoC 2 - a / RtoC 4))) *
         ((x - ((- m + s2) / RtoC 2 - a / RtoC 4)) * (x - ((- m - s2) / RtoC 2 - a / RtoC 4)))))%C.
Proof.
  intros N a b c d p q r Hm Hn Hq H1 H2 x. pose proof C2_nz as N2. pose proof (num_nz 3 ltac:(lra)) as N3.
  set (y := (x + a / RtoC 4)%C).
  assert (E1 : ((x - ((m + s1) / RtoC 2 - a / RtoC 4)) * (x - ((m - s1) / RtoC 2 - a / RtoC 4)) = y * y - m * y + (l - n))%C).
  { transitivity (y * y - m * y + (m * m - s1 * s1) / RtoC 4)%C.
    - rewrite (quad1 x (a / RtoC 4)%C m s1), <- RtoC4. reflexivity.
    - rewrite H1, RtoC4. field. auto. }
  assert (E2 : ((x - ((- m + s2) / RtoC 2 - a / RtoC 4)) * (x - ((- m - s2) / RtoC 2 - a / RtoC 4)) = y * y + m * y + (l + n))%C).
  { transitivity (y * y + m * y + (m * m - s2 * s2) / RtoC 4)%C.
    - rewrite (quad1 x (a / RtoC 4)%C (- m)%C s2), <- RtoC4. fold y. set (i4 := RtoC 4). unfold Cdiv. ring.
    - rewrite H2, RtoC4. field. auto. }
  rewrite E1, E2. transitivity (c4 * (y * y * y * y + p * (y * y) + q * y + r))%C.
  - assert (N4 : RtoC 4 <> RtoC 0) by (rewrite RtoC4; apply Cmult_neq_0; auto).
    set (e := (a / RtoC 4)%C) in *.
    assert (Ea : a = (RtoC 4 * e)%C) by (unfold e; field; auto).
    assert (Ep : p = (b - RtoC 2 * RtoC 3 * e * e)%C) by (unfold p; rewrite Ea, RtoC8, RtoC4; field; auto).
    assert (Eq : q = (c - RtoC 2 * b * e + RtoC 8 * e * e * e)%C) by (unfold q; rewrite Ea, RtoC8, RtoC4; field; auto).
    assert (Er : r = (d - c * e + b * e * e - RtoC 3 * e * e * e * e)%C) by (unfold r; rewrite Ea, RtoC256, RtoC16, RtoC4; field; auto).
    assert (E3 : (c4 * d = c0 /\ c4 * c = c1 /\ c4 * b = c2 /\ c4 * (RtoC 4 * e) = c3)%C).
    { rewrite <- Ea. unfold a, b, c, d. repeat split; field; auto. }
    destruct E3 as (F0 & F1 & F2 & F3). rewrite Ep, Eq, Er. unfold y. cbn [peval]. rewrite <- F0, <- F1, <- F2, <- F3. rewrite RtoC8, RtoC4, RtoC3, C2_eq. ring.
  - f_equal. transitivity ((y * y + l) * (y * y + l) - m * m * (y * y) - (RtoC 2 * m * n) * y - n * n)%C.
    + rewrite Hm, Hn. replace (RtoC 2 * m * n)%C with (- q)%C by (transitivity (RtoC 2 * m * n - (RtoC 2 * m * n + q))%C; [ring|rewrite Hq; ring]). rewrite C2_eq. ring.
    + rewrite C2_eq. ring.
Qed.
(* the resolvent cubic *)
Lemma resolvent (l m n p q r : C) :
  (peval ((r * p / RtoC 2 - q * q / RtoC 8) :: (- r) :: (- p / RtoC 2) :: RtoC 1 :: nil) l = RtoC 0)%C ->
  (m * m = RtoC 2 * l - p)%C -> (n * n = l * l - r)%C -> (RtoC 2 * m * n + q = RtoC 0)%C \/ (RtoC 2 * m * (- n) + q = RtoC 0)%C.
Proof.
  intros H Hm Hn. pose proof C2_nz as N2.
  assert (E : ((RtoC 2 * m * n + q) * (RtoC 2 * m * - n + q) = RtoC 0)%C).
  { transitivity (q * q - RtoC 4 * (m * m) * (n * n))%C; [rewrite RtoC4, C2_eq; ring|]. rewrite Hm, Hn.
    transitivity (- RtoC 8 * RtoC 0)%C; [|ring]. rewrite <- H. cbn [peval]. rewrite RtoC8, RtoC4. field. auto. }
  destruct (Ceq_dec (RtoC 2 * m * n + q)%C (RtoC 0)) as [Z|Z]; auto.
  destruct (Ceq_dec (RtoC 2 * m * - n + q)%C (RtoC 0)) as [Z1|Z1]; auto.
  exfalso. revert E. now apply Cmult_neq_0.
Qed.

(* polynomial functions of degree less than n *)
Definition isP (n : nat) (f : C -> C) : Prop := exists p, length p = n /\ forall z, f z = peval p z.
Lemma isP_ext n f g : (forall z, f z = g z) -> isP n f -> isP n g.
Proof. intros E (p & L & H). exists p. split; auto. intros z. now rewrite <- E. Qed.
Lemma isP_add n f g : isP n f -> isP n g -> isP n (fun z => f z + g z)%C.
Proof.
  intros (p & L & H) (q & M & K).
  assert (A : forall p q, length p = length q -> exists r, length r = length p /\ forall z, (peval p z + peval q z)%C = peval r z).
  { clear. induction p as [|a p IH]; intros [|b q] E; simpl in E; try lia.
    - exists nil. split; auto. intros z. simpl. ring.
    - destruct (IH q ltac:(lia)) as (r & R1 & R2). exists ((a + b)%C :: r). split; simpl; [lia|]. intros z. rewrite <- R2. ring. }
  destruct (A p q ltac:(lia)) as (r & R1 & R2). exists r. split; [lia|]. intros z. now rewrite H, K.
Qed.
Lemma isP_scal n c f : isP n f -> isP n (fun z => c * f z)%C.
Proof.
  intros (p & L & H).
  assert (A : forall p, exists r, length r = length p /\ forall z, (c * peval p z)%C = peval r z).
  { clear. induction p as [|a p (r & R1 & R2)].
    - exists nil. split; auto. intros z. simpl. ring.
    - exists ((c * a)%C :: r). split; simpl; [lia|]. intros z. rewrite <- R2. ring. }
  destruct (A p) as (r & R1 & R2). exists r. split; [lia|]. intros z. now rewrite H.
Qed.
Lemma isP_z n f : isP n f -> isP (S n) (fun z => z * f z)%C.
Proof. intros (p & L & H). exists (RtoC 0 :: p). split; simpl; [lia|]. intros z. rewrite H. ring. Qed.
Lemma isP_up n f : isP n f -> isP (S n) f.
Proof.
  intros (p & L & H). exists (p ++ RtoC 0 :: nil). rewrite app_length. split; simpl; [lia|]. intros z. rewrite H. clear.
  induction p; simpl; [ring|]. now rewrite IHp.
Qed.
Lemma isP_le n m f : (n <= m)%nat -> isP n f -> isP m f.
Proof. intros L H. induction L; auto. now apply isP_up. Qed.
Lemma isP_const c : isP 1 (fun _ => c). Proof. exists (c :: nil). split; auto. intros z. simpl. ring. Qed.
Lemma isP_lin n x f : isP n f -> isP (S n) (fun z => (z - x) * f z)%C.
Proof.
  intros H. apply isP_ext with (fun z => z * f z + (- x) * f z)%C. { intros; ring. }
  apply isP_add. now apply isP_z. apply isP_up. now apply isP_scal.
Qed.
Lemma isP_factor n f x : isP (S n) f -> f x = RtoC 0 -> exists g, isP n g /\ forall z, f z = ((z - x) * g z)%C.
Proof.
  intros (p & L & H) E.
  assert (A : forall p, exists q, length q = Nat.pred (length p) /\ forall z, peval p z = ((z - x) * peval q z + peval p x)%C).
  { clear. induction p as [|a p (q & Q1 & Q2)]. { exists nil. split; auto. intros. simpl. ring. }
    destruct p as [|b p]. { exists nil. split; auto. intros. simpl. ring. }
    exists (peval (b :: p) x :: q). split; [simpl in *; lia|]. intros z. cbn [peval] in *. rewrite Q2. ring. }
  destruct (A p) as (q & Q1 & Q2). exists (peval q). split. { exists q. split; auto. lia. }
  intros z. rewrite H, Q2. rewrite <- (H x), E. ring.
Qed.
Lemma isP_zero n : forall f (x : nat -> C), isP n f -> (forall i j, (i < n)%nat -> (j < n)%nat -> i <> j -> x i <> x j) ->
  (forall i, (i < n)%nat -> f (x i) = RtoC 0) -> forall z, f z = RtoC 0.
Proof.
  induction n; intros f x HP D Z z.
  - destruct HP as (p & L & H). destruct p; [|discriminate]. rewrite H. reflexivity.
  - destruct (isP_factor n f (x n) HP (Z n ltac:(lia))) as (g & G1 & G2).
    rewrite G2, (IHn g x G1); [ring| |]. { intros; apply D; lia. }
    intros i Hi. destruct (Ceq_dec (g (x i)) (RtoC 0)) as [|E]; auto. exfalso.
    specialize (Z i ltac:(lia)). rewrite G2 in Z. revert Z. apply Cmult_neq_0; auto. apply Cminus_eq_contra. apply D; lia.
Qed.

(* products and sums over indices *)
Fixpoint cprod (f : nat -> C) (n : nat) : C := match n with O => RtoC 1 | S n => (cprod f n * f n)%C end.
Fixpoint csum (f : nat -> C) (n : nat) : C := match n with O => RtoC 0 | S n => (csum f n + f n)%C end.
Lemma cprod_ext f g n : (forall k, (k < n)%nat -> f k = g k) -> cprod f n = cprod g n.
Proof. intros H. induction n; simpl; auto. rewrite IHn, H by auto. auto. Qed.
Lemma csum_ext f g n : (forall k, (k < n)%nat -> f k = g k) -> csum f n = csum g n.
Proof. intros H. induction n; simpl; auto. rewrite IHn, H by auto. auto. Qed.
Lemma cprod_nz f n : (forall k, (k < n)%nat -> f k <> RtoC 0) -> cprod f n <> RtoC 0.
Proof. intros H. induction n; simpl. apply C1_nz. apply Cmult_neq_0; auto. Qed.
Lemma cprod_z f n k : (k < n)%nat -> f k = RtoC 0 -> cprod f n = RtoC 0.
Proof.
  induction n; intros L E; [lia|]. simpl. destruct (Nat.eq_dec k n) as [-> |]. rewrite E. ring. rewrite IHn by (auto; lia). ring.
Qed.
(* the product over the indices other than i *)
Definition oth (i : nat) (f : nat -> C) (j : nat) : C := if Nat.eqb j i then RtoC 1 else f j.
Lemma cprod_oth f n i : (i < n)%nat -> cprod f n = (cprod (oth i f) n * f i)%C.
Proof.
  induction n; intros L; [lia|]. simpl. unfold oth at 2. destruct (Nat.eqb_spec n i) as [-> |].
  - rewrite Cmult_1_r. f_equal. apply cprod_ext. intros k K. unfold oth. destruct (Nat.eqb_spec k i); auto; lia.
  - rewrite IHn by lia. ring.
Qed.
Lemma csum_one f n i : (i < n)%nat -> (forall k, (k < n)%nat -> k <> i -> f k = RtoC 0) -> csum f n = f i.
Proof.
  induction n; intros L Z; [lia|]. simpl. destruct (Nat.eq_dec n i) as [-> |].
  - assert (csum f i = RtoC 0) as ->; [|ring]. clear L IHn. assert (H : forall k, (k < i)%nat -> f k = RtoC 0) by (intros; apply Z; lia). clear Z.
    induction i; simpl; auto. rewrite IHi, H by auto. ring.
  - rewrite (Z n) by lia. rewrite IHn by (auto; lia). ring.
Qed.
Lemma csum_scal c f n : (c * csum f n)%C = csum (fun k => c * f k)%C n.
Proof. induction n; simpl; [ring|]. rewrite <- IHn. ring. Qed.
Lemma csum_Cmod f n M : (forall k, (k < n)%nat -> Cmod (f k) < M) -> (0 < n)%nat -> Cmod (csum f n) < INR n * M.
Proof.
  intros H N. induction n as [|[|n] IH]; [lia| |].
  - simpl. rewrite Cplus_0_l, Rmult_1_l. apply H. lia.
  - rewrite S_INR. change (csum f (S (S n))) with (csum f (S n) + f (S n))%C. eapply Rle_lt_trans; [apply Cmod_triangle|].
    specialize (IH (fun k K => H k (Nat.lt_lt_succ_r _ _ K)) ltac:(lia)). specialize (H (S n) ltac:(lia)). lra.
Qed.

Lemma isP_prod x n : isP (S n) (fun z => cprod (fun j => z - x j)%C n).
Proof. induction n; simpl. apply isP_const. eapply isP_ext; [|apply (isP_lin _ (x n)), IHn]. intros; simpl; ring. Qed.
Lemma isP_oth x n i : (i < n)%nat -> isP n (fun z => cprod (oth i (fun j => z - x j)%C) n).
Proof.
  induction n; intros L; [lia|]. simpl. destruct (Nat.eq_dec n i) as [-> |].
  - eapply isP_ext; [|apply (isP_prod x i)]. intros z. simpl. unfold oth at 2. rewrite Nat.eqb_refl, Cmult_1_r.
    apply cprod_ext. intros k K. unfold oth. destruct (Nat.eqb_spec k i); auto; lia.
  - eapply isP_ext; [|apply (isP_lin _ (x n)), IHn; lia]. intros z. simpl. unfold oth at 3. destruct (Nat.eqb_spec n i); [lia|]. ring.
Qed.
Lemma isP_sum n m F : (forall i, (i < m)%nat -> isP n (F i)) -> isP n (fun z => csum (fun i => F i z) m).
Proof.
  intros H. induction m; simpl.
  - exists (repeat (RtoC 0) n). rewrite repeat_length. split; auto. intros z. clear. induction n; simpl; auto. rewrite <- IHn. ring.
  - apply isP_add; auto.
Qed.
(* a monic product minus z^n *)
Lemma monic x n : isP n (fun z => cprod (fun j => z - x j)%C n - Cpown z n)%C.
Proof.
  induction n; simpl. { exists nil. split; auto. intros. simpl. ring. }
  apply isP_ext with (fun z => (z * (cprod (fun j => z - x j) n - Cpown z n)) + (- x n) * cprod (fun j => z - x j) n)%C. { intros; ring. }
  apply isP_add. now apply isP_z. apply isP_scal, isP_prod.
Qed.
Lemma peval_app p q z : peval (p ++ q) z = (peval p z + Cpown z (length p) * peval q z)%C.
Proof. induction p; simpl; [ring|]. rewrite IHp. ring. Qed.

(* Smith's theorem: the zeros are in the union of the discs *)
Theorem smith (p : list C) (a : C) (x : nat -> C) (z : C) :
  let n := length p in let d i := (a * cprod (oth i (fun j => x i - x j)%C) n)%C in
  a <> RtoC 0 -> (forall i j, (i < n)%nat -> (j < n)%nat -> i <> j -> x i <> x j) -> (0 < n)%nat ->
  peval (p ++ a :: nil) z = RtoC 0 ->
  exists i, (i < n)%nat /\ Cmod (z - x i)%C <= Cmod (RtoC (INR n) * peval (p ++ a :: nil) (x i) / d i)%C.
Proof.
  intros n d A D N Z. set (f := peval (p ++ a :: nil)) in *.
  set (W := fun z => cprod (fun j => z - x j)%C n).
  assert (DN : forall i, (i < n)%nat -> cprod (oth i (fun j => x i - x j)%C) n <> RtoC 0).
  { intros i Hi. apply cprod_nz. intros k Hk. unfold oth. destruct (Nat.eqb_spec k i); [apply C1_nz|]. apply Cminus_eq_contra. apply D; auto. }
  assert (dN : forall i, (i < n)%nat -> d i <> RtoC 0) by (intros i Hi; apply Cmult_neq_0; auto).
  (* Lagrange interpolation of f - a W *)
  set (L := fun z => csum (fun i => f (x i) / cprod (oth i (fun j => x i - x j)) n * cprod (oth i (fun j => z - x j)) n)%C n).
  assert (LG : forall z, (f z - a * W z = L z)%C).
  { intros y. transitivity (L y + ((f y - a * W y) + - RtoC 1 * L y))%C; [ring|].
    enough (E : forall y, ((f y - a * W y) + - RtoC 1 * L y = RtoC 0)%C) by (rewrite E; ring). clear y.
    apply isP_zero with (n := n) (x := x); auto.
    - apply isP_add.
      + apply isP_ext with (fun z => peval p z + (- a) * (W z - Cpown z n))%C.
        { intros y. unfold f. rewrite peval_app. cbn [peval]. fold n. ring. }
        apply isP_add. { exists p. split; auto. } apply isP_scal, monic.
      + apply isP_scal. apply (isP_sum n n (fun i z => f (x i) / cprod (oth i (fun j => x i - x j)) n * cprod (oth i (fun j => z - x j)) n)%C).
        intros i Hi. apply isP_scal. now apply isP_oth.
    - intros i Hi. assert (W (x i) = RtoC 0) as ->. { apply cprod_z with i; auto. ring. }
      unfold L. rewrite (csum_one _ n i Hi).
      + field. auto.
      + intros k Hk Ne. rewrite (cprod_z (oth k (fun j => x i - x j)%C) n i Hi); [ring|]. unfold oth. destruct (Nat.eqb_spec i k); [congruence|]. ring. }
  destruct (Classical_Prop.classic (exists i, (i < n)%nat /\ Cmod (z - x i)%C <= Cmod (RtoC (INR n) * f (x i) / d i)%C)) as [|NE]; auto. exfalso.
  assert (H : forall i, (i < n)%nat -> Cmod (RtoC (INR n) * f (x i) / d i)%C < Cmod (z - x i)%C).
  { intros i Hi. destruct (Rlt_le_dec (Cmod (RtoC (INR n) * f (x i) / d i)%C) (Cmod (z - x i)%C)); auto. exfalso. apply NE. eauto. }
  assert (ZN : forall i, (i < n)%nat -> (z - x i)%C <> RtoC 0).
  { intros i Hi E. specialize (H i Hi). rewrite E, Cmod_0 in H. pose proof (Cmod_ge_0 (RtoC (INR n) * f (x i) / d i)%C). lra. }
  assert (WN : W z <> RtoC 0) by (apply cprod_nz; auto).
  assert (IN : 0 < INR n) by (apply lt_0_INR; auto).
  (* - 1 = sum of (f (x i) / d i) / (z - x i) *)
  assert (E : csum (fun i => f (x i) / d i / (z - x i))%C n = (- RtoC 1)%C).
  { specialize (LG z). rewrite Z in LG.
    transitivity (/ (a * W z) * L z)%C.
    - unfold L. rewrite csum_scal. apply csum_ext. intros k Hk. unfold d, W. rewrite (cprod_oth (fun j => z - x j)%C n k Hk).
      assert (cprod (oth k (fun j => z - x j)%C) n <> RtoC 0).
      { intros E. apply WN. unfold W. rewrite (cprod_oth _ n k Hk), E. ring. }
      field. repeat split; auto.
    - rewrite <- LG. field. auto. }
  assert (B : Cmod (csum (fun i => f (x i) / d i / (z - x i))%C n) < INR n * / INR n).
  { apply csum_Cmod; auto. intros i Hi. specialize (H i Hi). pose proof (ZN i Hi) as Zi. pose proof (Cmod_pos _ Zi) as Pz.
    rewrite Cmod_div by auto.
    replace (RtoC (INR n) * f (x i) / d i)%C with (RtoC (INR n) * (f (x i) / d i))%C in H by (field; auto).
    rewrite Cmod_mult, Cmod_R, Rabs_pos_eq in H by lra.
    apply Rmult_lt_reg_r with (Cmod (z - x i)%C); auto. unfold Rdiv. rewrite Rmult_assoc, Rinv_l by lra. rewrite Rmult_1_r.
    apply Rmult_lt_reg_l with (INR n); auto. rewrite <- Rmult_assoc, Rinv_r by lra. lra. }
  rewrite E, Cmod_opp, Cmod_1, Rinv_r in B by lra. lra.
Qed.
