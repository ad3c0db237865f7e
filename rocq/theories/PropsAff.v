(* Property theorems: affine arithmetic (C45-C47, C74), for every double back end. *)
From Coq Require Import Reals Lra Lia ZArith Bool Arith List Permutation.
From Flocq Require Import Core BinarySingleNaN.
From Verif Require Import Fp64 RDoubleHw.
From Verif Require Import Ext Scalar IntervalModel IntervalSpec IntervalProofs IntervalEncl Backends Ex64 ElemModel ElemGen.
From Verif Require Import RealFun RealInv ElemLog PropsElem AffModel AffSpec AffProofs AffFun AffRed AffLang AffProg AffMore.
Import ListNotations.
Open Scope R_scope.

Lemma baff b : aff_laws (bscal b).
Proof.
  destruct (bscal_ideal b) as (au & ad & su & sd & mu & md & du & dd & qu & qd & I1 & ->). constructor; cbv [mk64 sT sval swf sabs addu addd subu subd mulu muld].
  - auto.
  - intros x. destruct x as [s|s| |s m e B]; auto; unfold v64; simpl.
    + now rewrite Rabs_R0.
    + destruct s; auto.
    + f_equal. rewrite <- F2R_Zabs. f_equal. f_equal. destruct s; reflexivity.
  - intros x y E. rewrite (id_au _ _ _ _ _ _ _ _ _ _ I1), E. reflexivity.
  - intros x y E. rewrite (id_ad _ _ _ _ _ _ _ _ _ _ I1), E. reflexivity.
  - intros x y E. rewrite (id_su _ _ _ _ _ _ _ _ _ _ I1), E. reflexivity.
  - intros x y E. rewrite (id_sd _ _ _ _ _ _ _ _ _ _ I1), E. reflexivity.
  - intros x y E. rewrite (id_mu _ _ _ _ _ _ _ _ _ _ I1), E. reflexivity.
  - intros x y E. rewrite (id_md _ _ _ _ _ _ _ _ _ _ I1), E. reflexivity.
Qed.

(* ---- C45 ---- *)
(* r is a form over the symbols 1..fst r that represents v under an extension of e *)
Notation represents := newsym.

Theorem C45_linear : forall b (x y : form (bscal b)) (c : bscal b) e u v, assignment e -> frep e x u -> frep e y v -> fin c ->
  (ffin (aadd x y) -> frep e (aadd x y) (u + v)) /\ (ffin (asub x y) -> frep e (asub x y) (u - v)) /\
  (ffin (aaddT x c) -> frep e (aaddT x c) (u + rv c)) /\ (ffin (aTadd c x) -> frep e (aTadd c x) (rv c + u)) /\
  (ffin (asubT x c) -> frep e (asubT x c) (u - rv c)) /\ (ffin (aTsub c x) -> frep e (aTsub c x) (rv c - u)) /\
  (ffin (amulT x c) -> frep e (amulT x c) (u * rv c)) /\ (ffin (aTmul c x) -> frep e (aTmul c x) (rv c * u)) /\
  (rv c <> 0 -> ffin (adivT x c) -> frep e (adivT x c) (u / rv c)) /\ (ffin (aneg x) -> frep e (aneg x) (- u)).
Proof.
  intros b x y c e u v AS RX RY FC. pose proof (bok b) as OK. pose proof (baff b) as AL.
  repeat (split; [now intros; first [apply (aadd_ok OK AL)|apply (asub_ok OK AL)|apply (aaddT_ok OK AL)|apply (aTadd_ok OK AL)|apply (asubT_ok OK AL)
    |apply (aTsub_ok OK AL)|apply (amulT_ok OK AL)|apply (aTmul_ok OK AL)|apply (adivT_ok OK AL)]|]). intros. apply (aneg_ok OK); auto.
Qed.
Theorem C45_mul : forall b m (x y : form (bscal b)) r e u v, amul m x y = Ok r -> over m x -> over m y -> assignment e ->
  frep e x u -> frep e y v -> ffin (snd r) -> represents m e r (u * v).
Proof. intros b m x y r e u v. exact (amul_ok (bok b) (baff b) m x y r e u v). Qed.
Theorem C45_div : forall b m (x y : form (bscal b)) r e u v, adiv m x y = Ok r -> over m x -> over m y -> assignment e ->
  frep e x u -> frep e y v -> frange y -> ffin (snd r) -> v <> 0 /\ represents m e r (u / v).
Proof. intros b m x y r e u v. exact (adiv_ok (bok b) (baff b) m x y r e u v). Qed.
Theorem C45_scalar_div : forall b m (c : bscal b) (y : form (bscal b)) r e v, aTdiv m c y = Ok r -> over m y -> assignment e ->
  frep e y v -> frange y -> ffin (snd r) -> v <> 0 /\ represents m e r (rv c / v).
Proof. intros b m c y r e v. exact (aTdiv_ok (bok b) (baff b) m c y r e v). Qed.
(* sqrt square exp log sin cos tan asin acos sinh cosh tanh asinh acosh atanh, for any std::exp and std::log *)
Theorem C45_functions : forall b nexp nlog fuel f m (x : form (bscal b)) r e u, afun (bpar b) nexp nlog fuel f m x = Ok r ->
  over m x -> assignment e -> frep e x u -> frange x -> ffin (snd r) -> rfdom f u /\ represents m e r (rfn f u).
Proof. intros b ne nl fuel f m x r e u. exact (afun_ok (bok b) (baff b) (bpar b) (bexp b) (blog b) (btrig b) ne nl fuel (fun _ => 0) f m x r e u). Qed.
Theorem C45_pow : forall b m (x : form (bscal b)) n r e u, apow m x n = Ok r -> over m x -> assignment e -> frep e x u -> ffin (snd r) ->
  ((n < 0)%Z -> forall q, apow m x (- n) = Ok q -> frange (snd q)) -> ((n < 0)%Z -> u <> 0) /\ represents m e r (powerRZ u n).
Proof. intros b m x n r e u. exact (apow_ok (bok b) (baff b) m x n r e u). Qed.
Theorem C45_from_interval : forall b m (X : iv (bscal b)) e u, assignment e -> isin X u -> ffin (snd (of_iv m X)) -> represents m e (of_iv m X) u.
Proof. intros b m X e u. exact (of_iv_ok (bok b) (baff b) m X u e). Qed.
Theorem C45_to_interval : forall b (x : form (bscal b)) e u, assignment e -> frep e x u -> isin (to_iv x) u.
Proof. intros b x e u. exact (to_iv_isin (bok b) (baff b) e x u). Qed.
(* whole programs: all registers are represented under one assignment *)
Theorem C45_program : forall b nexp nlog fuel inp p s, arun (bpar b) nexp nlog fuel p (0%nat, []) = Ok s ->
  safe (bpar b) nexp nlog fuel p (0%nat, []) -> inputs inp p [] ->
  rdefined inp p [] /\ exists e, assignment e /\ Forall2 (frep e) (snd s) (rrun inp p []) /\
    Forall2 (fun x v => isin (to_iv x) v) (snd s) (rrun inp p []).
Proof.
  intros b ne nl fuel inp p s H SF IN.
  destruct (arun_ok (bok b) (baff b) (bpar b) (bexp b) (blog b) (btrig b) ne nl fuel inp p _ _ (fun _ => 0) [] H SF) as [D (e & A & O & R)]; auto.
  - split; [intros i; lra|]. cbn [snd]. split; constructor.
  - constructor.
  - split; auto. exists e. split; auto. split; auto. clear - A R. induction R; constructor; auto. eapply (to_iv_isin (bok b) (baff b)); eauto.
Qed.
(* pow of two forms; the hypothesis on the exponent says that its range did not overflow *)
Theorem C45_pow_affine : forall b nexp nlog fuel m (x y : form (bscal b)) r e u v, apowA (bpar b) nexp nlog fuel m x y = Ok r ->
  over m x -> over m y -> assignment e -> frep e x u -> frep e y v -> frange x ->
  (forall l q, alog (bpar b) nlog fuel m x = Ok l -> amul (fst l) y (snd l) = Ok q -> ffin (snd q) /\ frange (snd q)) -> ffin (snd r) ->
  0 < u /\ represents m e r (exp (v * ln u)).
Proof. intros b ne nl fuel m x y r e u v. exact (apowA_ok (bok b) (baff b) (bpar b) (bexp b) (blog b) (btrig b) ne nl fuel m x y r e u v). Qed.
(* split: the first part is a number determined by the symbols up to n, the second a form in the other symbols, and they add up *)
Theorem C45_split : forall b n (x y z : form (bscal b)) e u, asplit n x = Ok (y, z) -> frep e x u ->
  exists v w, u = v + w /\ (forall e' t, (forall k, (k <= n)%nat -> e' k = e k) -> (frep e' y t <-> t = v)) /\
    (forall e', (forall k, (n < k)%nat -> e' k = e k) -> frep e' z w).
Proof. intros b n x y z e u. exact (asplit_ok (bok b) n x y z e u). Qed.
Definition C45_all := (C45_pow_affine, C45_split, C45_linear, C45_mul, C45_div, C45_scalar_div, C45_functions, C45_pow, C45_from_interval, C45_to_interval, C45_program).
Print Assumptions C45_all.

Definition hwok : scal_ok D_hw := bok BHw.
Definition hwal : aff_laws D_hw := baff BHw.
(* hypotheses are satisfiable: a program with two variables using every kind of operation *)
Definition fb (x : D_hw) : bool := is_finite (x : b64).
Lemma fb_fin (x : D_hw) : fb x = true <-> fin x.
Proof. unfold fb, fin. change (@sval D_hw x) with (v64 x). destruct (x : b64) as [s|s| |s m e B]; try destruct s; simpl; split; intros; try discriminate; try tauto; auto. Qed.
Definition ffb (x : form D_hw) : bool := fb (f0 x) && forallb fb (fs x) && fb (fe x).
Lemma ffb_ok x : ffb x = true -> ffin x.
Proof.
  unfold ffb. rewrite !andb_true_iff, forallb_forall. intros [[A B] E]. split; [now apply fb_fin|]. split; [|now apply fb_fin].
  apply Forall_forall. intros y Hy. apply fb_fin, B, Hy.
Qed.
Definition frb (x : form D_hw) : bool := fb (lo (to_iv x)) && fb (hi (to_iv x)).
Lemma frb_ok x : frb x = true -> frange x.
Proof. unfold frb. rewrite andb_true_iff. intros [A B]. split; now apply fb_fin. Qed.
Definition isafeb (i : instr D_hw) (s : nat * list (form D_hw)) : bool :=
  match i with
  | JT c | JAddT _ c | JTAdd c _ | JSubT _ c | JTSub c _ | JMulT _ c | JTMul c _ | JTDiv c _ => fb c
  | JDivT _ c => fb c && negb (seqb c s0)
  | JPow i n => if (n <? 0)%Z then match rg (snd s) i with Ok x => match apow (fst s) x (- n) with Ok q => frb (snd q) | _ => true end | _ => true end else true
  | JReduce perm _ _ => if list_eq_dec Nat.eq_dec (perm (fst s) (snd s)) (seq 1 (fst s)) then true else false
  | _ => true
  end.
Lemma isafeb_ok i s : isafeb i s = true -> isafe i s.
Proof.
  destruct i; cbn [isafeb isafe]; auto; try (apply fb_fin).
  - rewrite andb_true_iff, negb_true_iff. intros [A B]. apply fb_fin in A. split; auto. intros Z.
    assert (seqb c s0 = true); [|congruence]. apply (ok_eq _ hwok); try (apply (af_wf _ hwal)).
    rewrite (fin_ex _ A), Z, (s0_v hwok). simpl. auto.
  - intros H N x q E1 E2. apply Z.ltb_lt in N. rewrite N, E1 in H. rewrite E2 in H. now apply frb_ok.
  - destruct (list_eq_dec _ _ _) as [E|]; [|discriminate]. intros _. rewrite E. apply Permutation_refl.
Qed.
Fixpoint safeb (nexp nlog : D_hw -> D_hw) (fuel : nat) (p : list (instr D_hw)) (s : nat * list (form D_hw)) : bool :=
  match p with
  | [] => true
  | i :: p => isafeb i s && match astep hw nexp nlog fuel i s with Ok s' => forallb ffb (snd s') && forallb frb (snd s') && safeb nexp nlog fuel p s' | _ => true end
  end.
Lemma safeb_ok ne nl fuel p : forall s, safeb ne nl fuel p s = true -> safe hw ne nl fuel p s.
Proof.
  induction p as [|i p IH]; intros s H; cbn [safeb safe] in *; auto. apply andb_true_iff in H as [A B]. split; [now apply isafeb_ok|].
  intros s' E. rewrite E in B. rewrite !andb_true_iff, !forallb_forall in B. destruct B as [[B1 B2] B3].
  split; [apply Forall_forall; intros; apply ffb_ok; auto|]. split; [apply Forall_forall; intros; apply frb_ok; auto|]. auto.
Qed.
Definition ex_c (m e : Z) : D_hw := bdy m e.
Definition ex_p : list (instr D_hw) :=
  [ JIn (qiv 1 0 3 (-1)); JIn (qiv 1 1 3 0);                 (* x in [1, 1.5], y in [2, 3] *)
    JMul 0 1; JSub 2 1; JDiv 3 0; JFun Fsqrt 1; JFun Fsquare 3; JFun Fexp 0; JFun Flog 1; JFun Fsin 0; JFun Facosh 1;
    JTDiv (ex_c 1 0) 1; JMulT 0 (ex_c 3 (-2)); JDivT 4 (ex_c 3 0); JPow 0 3; JPow 1 (-2); JTSub (ex_c 5 0) 8;
    JReduce (fun m _ => seq 1 m) 20 0; JAdd 4 7; JNeg 17; JReduce2 6; JMul 18 0; JT (ex_c 7 (-1)); JSub 19 19 ].
(* any function may stand for std::exp and std::log; these are bad approximations *)
Definition ex_exp (x : D_hw) : D_hw := nadd s1 x.
Definition ex_log (x : D_hw) : D_hw := nsub x s1.
Definition ex_inp (k : nat) : R := match k with O => 5 / 4 | _ => 9 / 4 end.
Example C45_case : returns (arun hw ex_exp ex_log 40 ex_p (0%nat, [])) = true /\ safe hw ex_exp ex_log 40 ex_p (0%nat, []) /\ inputs ex_inp ex_p [].
Proof.
  split; [vm_compute; reflexivity|]. split; [apply safeb_ok; vm_compute; reflexivity|].
  unfold ex_p. cbn [inputs rstep length app ex_inp]. split; [qin|]. split; [qin|]. repeat split.
Qed.
(* 3 + eps_1 to the power 2 + eps_1 / 2, and a form of two symbols split after the first *)
Definition C45_x : form D_hw := mkform (ex_c 3 0) [ex_c 1 0] s0.
Definition C45_y : form D_hw := mkform (ex_c 2 0) [ex_c 1 (-1)] s0.
Example C45_pow_case : match apowA hw ex_exp ex_log 40 1 C45_x C45_y with Ok r => ffb (snd r) | _ => false end = true /\ frb C45_x = true /\
  match alog hw ex_log 40 1 C45_x with Ok l => match amul (fst l) C45_y (snd l) with Ok q => ffb (snd q) && frb (snd q) | _ => false end | _ => false end = true /\
  match asplit 1 (mkform (ex_c 3 0) [ex_c 1 0; ex_c 1 (-1)] (ex_c 1 (-9)) : form D_hw) with Ok (y, z) => ffb y && ffb z && seqb (nth 1 (fs z) s0) (ex_c 1 (-1)) | _ => false end = true.
Proof. split; [vm_compute; reflexivity|]. split; [vm_compute; reflexivity|]. split; vm_compute; reflexivity. Qed.

(* ---- C46 ---- *)
Definition C46_x : form D_hw := mkform (ex_c 5 0) [ex_c 4 0] s0.     (* 5 + 4 eps_1, the range [1,9] *)
(* with eps_1 = 1 every value of atan(x) is above the first number *)
Definition C46_low (r : nat * form D_hw) : D_hw :=
  match fs (snd r) with [c1; c2] => subd (subd (addd (f0 (snd r)) c1) (sabs c2)) (fe (snd r)) | _ => sninf end.
Lemma exc_v m e : (Z.abs m <= 2 ^ 53)%Z -> (-1074 <= e <= 970)%Z -> fin (ex_c m e) /\ rv (ex_c m e) = IZR m * bpow radix2 e.
Proof. intros A B. apply rv_ex, qv; auto. Qed.
Lemma exc_v' m e r : ((Z.abs m <=? 2 ^ 53) && (-1074 <=? e) && (e <=? 970))%Z = true -> IZR m * bpow radix2 e = r -> fin (ex_c m e) /\ rv (ex_c m e) = r.
Proof. rewrite !andb_true_iff, !Z.leb_le. intros A <-. apply exc_v; tauto. Qed.
Theorem C46_atan_refuted : exists b m (x : form (bscal b)) r e u, aatan (bpar b) 60 m x = Ok r /\ over m x /\ assignment e /\ frep e x u /\
  frange x /\ ffin (snd r) /\ ~ exists e', extends m e e' /\ frep e' (snd r) (atan u).
Proof.
  exists BHw, 1%nat, C46_x. change (bscal BHw) with D_hw.
  assert (CK : match aatan hw 60 1 C46_x with Ok r => ffb (snd r) && slt (ex_c 13 (-3)) (C46_low r) && fb (C46_low r) | _ => false end = true)
    by (vm_compute; reflexivity).
  destruct (aatan hw 60 1 C46_x) as [r|] eqn:E; [|discriminate CK]. rewrite !andb_true_iff in CK. destruct CK as [[FB LT] FL].
  exists r, (fun _ => 1), 9. apply fb_fin in FL.
  destruct (exc_v' 5 0 5 eq_refl ltac:(simpl; lra)) as [F5 V5]. destruct (exc_v' 4 0 4 eq_refl ltac:(simpl; lra)) as [F4 V4].
  destruct (exc_v' 13 (-3) (13 / 8) eq_refl ltac:(simpl; lra)) as [F13 V13].
  split; [exact E|]. clear E. split; [unfold over; simpl; lia|]. split; [intros i; lra|]. split.
  { split; [split; [exact F5|split; [constructor; [exact F4|constructor]|apply (s0_f hwok)]]|].
    cbn [C46_x f0 fs fe lsum]. rewrite V5, V4. rewrite (proj2 (s0_f hwok)).
    replace (9 - (5 + (4 * 1 + 0))) with 0 by lra. rewrite Rabs_R0. lra. }
  split; [apply frb_ok; vm_compute; reflexivity|]. split; [now apply ffb_ok|].
  intros (e' & [A' X] & [_ R]). specialize (X 1%nat ltac:(lia)).
  apply (ok_lt _ hwok) in LT; try apply (af_wf _ hwal). rewrite (fin_ex _ F13), (fin_ex _ FL), V13 in LT. cbn [xlt] in LT.
  unfold C46_low in *. destruct r as [m' [a0 l er]]. cbn [snd fs f0 fe] in *. destruct l as [|c1 [|c2 [|]]]; try (exfalso; exact FL).
  destruct (subd_f hwok hwal _ _ FL) as (FL1 & _ & D1). destruct (subd_f hwok hwal _ _ FL1) as (FL2 & FA & D2).
  destruct (addd_f hwok hwal _ _ FL2) as (_ & _ & D3). destruct (sabs_f hwal _ FA) as [_ EA].
  cbn [lsum] in R. simpl plus in R. rewrite X in R. apply Rabs_le_inv in R. pose proof (Ratan.atan_bound 9) as [_ B].
  assert (- Rabs (rv c2) <= rv c2 * e' 2%nat) by (pose proof (mul_abs1 (rv c2) (e' 2%nat) (Rabs (rv c2)) ltac:(lra) (A' 2%nat)) as K; apply Rabs_le_inv in K; lra).
  assert (PI < 3.2) by (pose proof RealConst.pi_bounds as K; unfold RealConst.pi_lo, RealConst.pi_hi in K; lra).
  assert (Q : forall l s1 s2 a c d er ab ce, l <= s1 - er -> s1 <= s2 - ab -> s2 <= a + c -> ab = d -> 13 / 8 < l ->
    - er <= atan 9 - (a + (c * 1 + (ce + 0))) <= er -> - d <= ce -> False) by (intros; lra).
  exact (Q _ _ _ _ _ _ _ _ _ D1 D2 D3 EA LT R H).
Qed.
Print Assumptions C46_atan_refuted.

(* ---- C47 ---- *)
(* perm: the order in which partial_sort leaves the columns *)
Theorem C47_epsilon_reduce : forall b m perm n n_limit (x : list (form (bscal b))) e vs m' y,
  epsilon_reduce m perm n n_limit x = (m', y) -> Permutation perm (seq 1 m) -> Forall (over m) x -> assignment e ->
  Forall2 (frep e) x vs -> Forall ffin y ->
  (m' <= m)%nat /\ Forall (over m') y /\ exists e', assignment e' /\ Forall2 (frep e') y vs.
Proof. intros b m perm n nl x e vs m' y. exact (epsilon_reduce_ok (bok b) (baff b) m perm n nl x e vs m' y). Qed.
(* the number of symbols afterwards *)
Theorem C47_size : forall b m perm n n_limit (x : list (form (bscal b))),
  let r := epsilon_reduce m perm n n_limit x in
  (Nat.max n n_limit < m -> length x <= n -> fst r = n)%nat /\ length (snd r) = length x.
Proof.
  intros b m perm n nl x. unfold epsilon_reduce. destruct (Nat.leb_spec m (Nat.max n nl)); [split; auto; intros; lia|].
  destruct (Nat.ltb_spec n (length x)); [split; auto; intros; lia|]. cbn [fst snd]. split; auto. apply mapi_length.
Qed.
Theorem C47_epsilon_reduce2 : forall b n (x : list (form (bscal b))) e vs m' y, epsilon_reduce2 n x = (m', y) ->
  assignment e -> Forall2 (frep e) x vs -> Forall ffin y ->
  m' = (n + length x)%nat /\ Forall (over m') y /\ exists e', assignment e' /\ (forall k, (k <= n)%nat -> e' k = e k) /\ Forall2 (frep e') y vs.
Proof. intros b n x e vs m' y. exact (epsilon_reduce2_ok (bok b) (baff b) n x e vs m' y). Qed.
Definition C47_all := (C47_epsilon_reduce, C47_size, C47_epsilon_reduce2).
Print Assumptions C47_all.
(* two forms over four symbols reduced to three *)
Definition C47_x : list (form D_hw) :=
  [mkform (ex_c 1 0) [ex_c 1 0; ex_c 1 (-3); ex_c 0 0; ex_c 1 (-2)] (ex_c 1 (-5)); mkform (ex_c 2 0) [ex_c (-1) 0; ex_c 1 (-4)] (ex_c 0 0)].
Example C47_case : forallb ffb (snd (epsilon_reduce 4 [1; 4; 2; 3]%nat 3 0 C47_x)) = true /\ fst (epsilon_reduce 4 [1; 4; 2; 3]%nat 3 0 C47_x) = 3%nat /\
  forallb ffb (snd (epsilon_reduce2 1 C47_x)) = true /\ Permutation [1; 4; 2; 3]%nat (seq 1 4) /\ Forall (over 4) C47_x /\
  Forall2 (frep (fun _ => 1)) C47_x [1 + 1 + / 8 + / 4; 2 - 1 + / 16].
Proof.
  split; [vm_compute; reflexivity|]. split; [vm_compute; reflexivity|]. split; [vm_compute; reflexivity|].
  split. { simpl. constructor. apply (Permutation_cons_app [2; 3]%nat [] 4%nat). apply Permutation_refl. }
  split. { repeat constructor. }
  assert (E : forall m e, (Z.abs m <=? 2 ^ 53)%Z = true -> ((-1074 <=? e) && (e <=? 970))%Z = true -> fin (ex_c m e) /\ rv (ex_c m e) = IZR m * bpow radix2 e).
  { intros m e A B. apply Z.leb_le in A. apply andb_true_iff in B as [B1 B2]. apply Z.leb_le in B1, B2. apply exc_v; auto. }
  unfold C47_x. apply Forall2_cons; [|apply Forall2_cons; [|apply Forall2_nil]].
  all: split; [split; [apply E; reflexivity|split; [cbn [fs]; repeat (apply Forall_cons; [apply E; reflexivity|]); apply Forall_nil|apply E; reflexivity]]|].
  all: cbn [f0 fs fe lsum]; rewrite ?(fun m e A B => proj2 (E m e A B)) by reflexivity; simpl; apply Rabs_le; lra.
Qed.

(* ---- C74 ---- *)
(* the two cases in which abs returns its argument or its negative *)
Theorem C74_abs_one_sign : forall b m (x : form (bscal b)) r e u, aabs m x = Ok r -> over m x -> assignment e -> frep e x u -> frange x ->
  ffin (snd r) -> sle s0 (lo (to_iv x)) = true \/ sle (hi (to_iv x)) s0 = true -> represents m e r (Rabs u).
Proof.
  intros b m x r e u H OX AS RX FR F D. pose proof (to_iv_ok (bok b) (baff b) e x u AS RX FR) as B. unfold aabs in H.
  pose proof FR as [FL FU]. destruct (sle s0 (lo (to_iv x))) eqn:L.
  - apply Ok_inj in H as <-. apply (ok_le _ (bok b)) in L; try apply (af_wf _ (baff b)). rewrite (s0_v (bok b)), (fin_ex _ FL) in L. cbn [xle] in L.
    rewrite Rabs_pos_eq by lra. apply same_sym; auto.
  - destruct D as [D|D]; [discriminate D|]. rewrite D in H. apply Ok_inj in H as <-. apply (ok_le _ (bok b)) in D; try apply (af_wf _ (baff b)).
    rewrite (s0_v (bok b)), (fin_ex _ FU) in D. cbn [xle] in D. rewrite <- Rabs_Ropp, Rabs_pos_eq by lra.
    apply same_sym; auto. { unfold over in *. cbn [aneg fs]. now rewrite map_length. } apply (aneg_ok (bok b) (baff b)); auto.
Qed.
Definition C74_x : form D_hw := mkform (ex_c 8 0) [ex_c 57 0] s0.     (* 8 + 57 eps_1 *)
Definition C74_sf (r : nat * form D_hw) : list SpecFloat.spec_float := map (fun x : D_hw => B2SF (x : b64)) (f0 (snd r) :: fe (snd r) :: fs (snd r)).
Lemma sf_rv (x : D_hw) m e : B2SF (x : b64) = SpecFloat.S754_finite false m e -> rv x = IZR (Z.pos m) * bpow radix2 e.
Proof. unfold rv. change (@sval D_hw x) with (v64 x). destruct (x : b64); simpl; try discriminate. intros H; injection H as -> -> ->. reflexivity. Qed.
(* the end of the range u - a*u is computed with round to nearest and falls below its true value *)
Theorem C74_abs_refuted : exists b m (x : form (bscal b)) r e u, aabs m x = Ok r /\ over m x /\ assignment e /\ frep e x u /\
  frange x /\ ffin (snd r) /\ ~ exists e', extends m e e' /\ frep e' (snd r) (Rabs u).
Proof.
  exists BHw, 1%nat, C74_x. change (bscal BHw) with D_hw.
  assert (CK : match aabs 1 C74_x with Ok r => C74_sf r | _ => [] end =
    [SpecFloat.S754_finite false 8180057875810555 (-48); SpecFloat.S754_zero false; SpecFloat.S754_finite false 9007199254740991 (-50); SpecFloat.S754_finite false 7864015796696837 (-48)])
    by (vm_compute; reflexivity).
  assert (FB : match aabs 1 C74_x with Ok r => ffb (snd r) | _ => false end = true) by (vm_compute; reflexivity).
  destruct (aabs 1 C74_x) as [r|] eqn:E; [|discriminate CK]. unfold C74_sf in CK.
  exists r, (fun _ => 1), 65.
  destruct (exc_v' 8 0 8 eq_refl ltac:(simpl; lra)) as [F5 V5]. destruct (exc_v' 57 0 57 eq_refl ltac:(simpl; lra)) as [F4 V4].
  split; [reflexivity|]. clear E. split; [unfold over; simpl; lia|]. split; [intros i; lra|]. split.
  { split; [split; [exact F5|split; [constructor; [exact F4|constructor]|apply (s0_f hwok)]]|].
    cbn [C74_x f0 fs fe lsum]. rewrite V5, V4. rewrite (proj2 (s0_f hwok)).
    replace (65 - (8 + (57 * 1 + 0))) with 0 by lra. rewrite Rabs_R0. lra. }
  split; [apply frb_ok; vm_compute; reflexivity|]. split; [now apply ffb_ok|].
  intros (e' & [A' X] & [_ R]). specialize (X 1%nat ltac:(lia)).
  destruct r as [m' [a0 l er]]. cbn [snd fs f0 fe] in *. destruct l as [|c1 [|c2 [|]]]; try discriminate CK. cbn [map] in CK.
  assert (H0 : B2SF (a0 : b64) = SpecFloat.S754_finite false 8180057875810555 (-48)) by congruence.
  assert (H1 : B2SF (er : b64) = SpecFloat.S754_zero false) by congruence.
  assert (H2 : B2SF (c1 : b64) = SpecFloat.S754_finite false 9007199254740991 (-50)) by congruence.
  assert (H3 : B2SF (c2 : b64) = SpecFloat.S754_finite false 7864015796696837 (-48)) by congruence. clear CK.
  apply sf_rv in H0, H2, H3.
  assert (HE : rv (er : D_hw) = 0). { unfold rv. change (@sval D_hw er) with (v64 er). destruct (er : b64); simpl in H1 |- *; congruence. }
  rewrite HE in R. cbn [lsum] in R. simpl plus in R. rewrite X, H0, H2, H3 in R. rewrite (Rabs_pos_eq 65) in R by lra. apply Rabs_le_inv in R.
  pose proof (A' 2%nat) as B. simpl in R. lra.
Qed.
Definition C74_all := (C74_abs_one_sign, C74_abs_refuted).
Print Assumptions C74_all.
Example C74_case : returns (aabs 2 (mkform (ex_c 3 0) [ex_c 1 0; ex_c 1 (-1)] s0 : form D_hw)) = true /\
  sle s0 (lo (to_iv (mkform (ex_c 3 0) [ex_c 1 0; ex_c 1 (-1)] s0 : form D_hw))) = true.
Proof. split; vm_compute; reflexivity. Qed.
