(* Proofs about the model of kv/psa.hpp, for any base type satisfying base_ok.
   Rep k s X f: the series X of size 1 or s represents the function f -
     k = Some (t, j) (mode 2): f(t) is the value at t of a polynomial with coefficients in X, and if j is true the coefficients
       but the last also give the expansion of f at 0;
     k = None   (mode 1): coefficients in X give the expansion of f at 0 up to order s. *)
From Coq Require Import Reals ZArith Bool List Lra Lia Psatz Arith.
From Coquelicot Require Import Coquelicot.
From Verif Require Import Ext RealFun RealConst ADModel ADReal ADProofs PsaModel PsaReal.
Import ListNotations.
Open Scope R_scope.

Lemma oki {A} (a b : A) : Ok a = Ok b -> b = a. Proof. now intros [=]. Qed.
(* order of the expansion known in mode 2 *)
Definition Jo (s : nat) : nat := Nat.min s (Nat.max 1 (s - 1)).
Lemma Jo_pos s : (1 <= s)%nat -> (1 <= Jo s)%nat. Proof. unfold Jo. lia. Qed.
Lemma Jo_le s : (Jo s <= s)%nat. Proof. unfold Jo. lia. Qed.
Lemma Jo_2 s : (2 <= s)%nat -> Jo s = (s - 1)%nat. Proof. unfold Jo. lia. Qed.
Definition kd := option (R * bool).
Definition Ev0 (P : R -> Prop) : Prop := exists d, 0 < d /\ forall t, Rabs t < d -> P t.
Definition Q (k : kd) (s : nat) (f : R -> R) (c : nat -> R) : Prop :=
  match k with Some p => f (fst p) = pe c s (fst p) /\ (snd p = true -> jet (Jo s) f c) | None => jet s f c end.
Definition Ev (k : kd) (P : R -> Prop) : Prop :=
  match k with Some p => P (fst p) /\ (snd p = true -> Ev0 P) | None => Ev0 P end.
Lemma Ev0_and P P' : Ev0 P -> Ev0 P' -> Ev0 (fun t => P t /\ P' t).
Proof.
  intros (d & Hd & H) (d' & Hd' & H'). exists (Rmin d d'). split; [apply Rmin_glb_lt; auto|].
  intros t Ht. split; [apply H|apply H']; (eapply Rlt_le_trans; [apply Ht|]); [apply Rmin_l|apply Rmin_r].
Qed.
Lemma Ev0_imp (P P' : R -> Prop) : (forall t, P t -> P' t) -> Ev0 P -> Ev0 P'.
Proof. intros I (d & Hd & H). exists d. auto. Qed.
Lemma Ev0_all (P : R -> Prop) : (forall t, P t) -> Ev0 P.
Proof. intros H. exists 1. split; [lra|auto]. Qed.
Lemma Ev_and k P P' : Ev k P -> Ev k P' -> Ev k (fun t => P t /\ P' t).
Proof. destruct k; simpl; [|apply Ev0_and]. intros [A A'] [B B']. split; auto. intros J. apply Ev0_and; auto. Qed.
Lemma Ev_imp k (P P' : R -> Prop) : (forall t, P t -> P' t) -> Ev k P -> Ev k P'.
Proof. destruct k; simpl; intros I; [|now apply Ev0_imp]. intros [A A']. split; auto. intros J. apply (Ev0_imp P); auto. Qed.
Lemma Ev_all k (P : R -> Prop) : (forall t, P t) -> Ev k P.
Proof. destruct k; simpl; intros H; [|now apply Ev0_all]. split; auto. intros _. now apply Ev0_all. Qed.
Lemma Q_ext k s f g c : Ev k (fun t => f t = g t) -> Q k s f c -> Q k s g c.
Proof.
  destruct k; simpl.
  - intros [E E'] [A A']. split; [congruence|]. intros J. destruct (E' J) as (d & Hd & E0). apply (jet_ext _ f _ _ d); auto.
  - intros (d & Hd & E). now apply (jet_ext _ _ _ _ d).
Qed.
Lemma Q_add k s f g a b : Q k s f a -> Q k s g b -> Q k s (fun t => f t + g t) (fun i => a i + b i).
Proof. destruct k; simpl; [|apply jet_add]. intros [-> A] [-> A']. split; [now rewrite pe_plus|]. intros J. apply jet_add; auto. Qed.
Lemma Q_scal k s q f a : Q k s f a -> Q k s (fun t => q * f t) (fun i => q * a i).
Proof. destruct k; simpl; [|apply jet_scal]. intros [-> A]. split; [now rewrite pe_scal|]. intros J. apply jet_scal; auto. Qed.
Lemma Q_coef k s f a b : (forall i, (i < s)%nat -> a i = b i) -> Q k s f a -> Q k s f b.
Proof.
  destruct k; simpl; [|apply jet_coef]. intros E [-> A]. split; [now apply pe_ext|]. intros J. apply (jet_coef _ _ a); auto.
  intros i Hi. apply E. pose proof (Jo_le s). lia.
Qed.
Lemma Q_cst k s c : (1 <= s)%nat -> Q k s (fun _ => c) (delta c).
Proof. destruct k; simpl; intros L; [|now apply jet_cst]. split; [now rewrite pe_delta|]. intros _. now apply jet_cst, Jo_pos. Qed.
(* f and g agree as far as k can see *)
Definition near (k : kd) (s : nat) (f g : R -> R) : Prop :=
  match k with Some p => f (fst p) = g (fst p) /\ (snd p = true -> bigO (Jo s) (fun t => g t - f t)) | None => bigO s (fun t => g t - f t) end.
Lemma jet_near s f g c : bigO s (fun t => g t - f t) -> jet s f c -> jet s g c.
Proof. intros N J. apply (jet_ext s (fun t => f t + (g t - f t)) g c 1); [lra|intros; ring|]. now apply jet_plusO. Qed.
Lemma Q_near k s f g c : near k s f g -> Q k s f c -> Q k s g c.
Proof. destruct k; simpl; [|apply jet_near]. intros [E E'] [A A']. split; [congruence|]. intros J. apply (jet_near _ f); auto. Qed.
Lemma near_rw k s f g f' g' : (forall u, f u = f' u) -> (forall u, g u = g' u) -> near k s f g -> near k s f' g'.
Proof.
  intros Ef Eg. destruct k; simpl.
  - intros [E A]. rewrite <- Ef, <- Eg. split; auto. intros J. apply (bigO_ext _ (fun t => g t - f t) _ 1); [lra|intros; now rewrite Ef, Eg|auto].
  - apply (bigO_ext _ _ _ 1); [lra|]. intros. now rewrite Ef, Eg.
Qed.

Section PsaP.
Variable B : base.
Variable rel : B -> R -> Prop.
Hypothesis OK : base_ok B rel.
(* sets of T are intervals; needed in mode 2 *)
Definition rel_cvx : Prop := forall X a b z, rel X a -> rel X b -> mix a b z -> rel X z.

Definition coef (X : list B) (c : nat -> R) : Prop := forall i, (i < length X)%nat -> rel (at_ X i) (c i).
Lemma coef_cons a X c : coef (a :: X) c <-> rel a (c O) /\ coef X (fun i => c (S i)).
Proof.
  unfold coef. split.
  - intros H. split; [apply (H O); simpl; lia|]. intros i Hi. apply (H (S i)). simpl; lia.
  - intros [H0 H] [|i] Hi; [exact H0|]. apply H. simpl in Hi. lia.
Qed.
Lemma rel0 : rel t0 0. Proof. rewrite <- (dy_int 0). apply (bk_cst _ _ OK), lit_0. Qed.
Lemma rel1 : rel t1 1. Proof. unfold t1. rewrite <- (dy_int 1). apply (bk_cst _ _ OK), lit_int. lia. Qed.
Lemma horner_rel X c D t : coef X c -> rel D t -> rel (hornerT X D) (pe c (length X) t).
Proof.
  revert c. induction X as [|a X IH]; intros c H HD; [apply rel0|]. apply coef_cons in H as [H0 H].
  destruct X as [|a' X]. { unfold pe. simpl. now replace (0 + c O * 1) with (c O) by ring. }
  change (hornerT (a :: a' :: X) D) with (badd (bmul (hornerT (a' :: X) D) D) a).
  change (length (a :: a' :: X)) with (S (length (a' :: X))). rewrite pe_S, Rplus_comm. apply (bk_add _ _ OK); auto.
  rewrite Rmult_comm. apply (bk_mul _ _ OK); auto.
Qed.

Section Fix.
Variables (k : kd) (m : Z) (D : B) (s : nat).
Hypothesis S1 : (1 <= s)%nat.
Hypothesis S2 : (Z.of_nat s <= 2 ^ 52)%Z.
Definition mdok : Prop := match k with Some p => m = 2%Z /\ rel D (fst p) /\ rel D 0 /\ rel_cvx | None => m = 1%Z end.
Hypothesis MD : mdok.
Lemma mode_some p : k = Some p -> m = 2%Z /\ rel D (fst p) /\ rel D 0 /\ rel_cvx.
Proof. intros E. unfold mdok in MD. now rewrite E in MD. Qed.
Lemma mode_none : k = None -> m = 1%Z.
Proof. intros E. unfold mdok in MD. now rewrite E in MD. Qed.
Lemma mode2_some : m = 2%Z -> exists p, k = Some p.
Proof. unfold mdok in MD. destruct k; [eauto|]. rewrite MD. discriminate. Qed.

Definition Rep (X : list B) (f : R -> R) : Prop :=
  (length X = 1%nat \/ length X = s) /\ exists c, coef X c /\ (forall i, (length X <= i)%nat -> c i = 0) /\ Q k s f c.

Lemma Rep_len X f : Rep X f -> (1 <= length X)%nat. Proof. intros [[H|H] _]; lia. Qed.
Lemma Rep_ext X f g : Ev k (fun t => f t = g t) -> Rep X f -> Rep X g.
Proof. intros E [L (c & A & Z & H)]. split; auto. exists c. split; auto. split; auto. now apply (Q_ext k s f). Qed.
Lemma Rep_eq X f g : (forall t, f t = g t) -> Rep X f -> Rep X g.
Proof. intros E. apply Rep_ext. now apply Ev_all. Qed.
Lemma Rep_near X f g : near k s f g -> Rep X f -> Rep X g.
Proof. intros E [L (c & A & Z & H)]. split; auto. exists c. split; auto. split; auto. now apply (Q_near k s f). Qed.
Lemma Rep_cst A a : rel A a -> Rep [A] (fun _ => a).
Proof.
  intros H. split; [now left|]. exists (delta a). split; [|split; [|now apply Q_cst]].
  - apply coef_cons. split; auto. intros i Hi. simpl in Hi; lia.
  - intros [|i] Hi; simpl in *; [lia|auto].
Qed.
(* element-wise operation multiplying by q *)
Lemma Rep_lin X Y q f : length Y = length X -> (forall j y, (j < length X)%nat -> rel (at_ X j) y -> rel (at_ Y j) (q * y)) ->
  Rep X f -> Rep Y (fun t => q * f t).
Proof.
  intros L H [LX (c & A & Z & HQ)]. split; [now rewrite L|]. exists (fun i => q * c i). split; [|split].
  - intros i Hi. apply H; [lia|]. apply A. lia.
  - intros i Hi. rewrite Z by lia. ring.
  - now apply Q_scal.
Qed.
Lemma at_map (g : B -> B) X j : (j < length X)%nat -> at_ (map g X) j = g (at_ X j).
Proof. intros H. unfold at_. rewrite (nth_indep (map g X) _ (g t0)) by (rewrite map_length; auto). apply map_nth. Qed.
Lemma Rep_map (g : B -> B) q X f : (forall Y y, rel Y y -> rel (g Y) (q * y)) -> Rep X f -> Rep (map g X) (fun t => q * f t).
Proof. intros H. apply Rep_lin; [apply map_length|]. intros j y Hj R. rewrite at_map by auto. auto. Qed.
Lemma Rep_neg X f : Rep X f -> Rep (ps_neg X) (fun t => - f t).
Proof.
  intros H. apply (Rep_eq _ (fun t => -1 * f t)); [intros; ring|]. apply Rep_map; auto. intros Y y HY.
  replace (-1 * y) with (- y) by ring. now apply (bk_neg _ _ OK).
Qed.
Lemma Rep_Tmul A a X f : rel A a -> Rep X f -> Rep (ps_Tmul A X) (fun t => a * f t).
Proof. intros H. apply Rep_map. intros. now apply (bk_mul _ _ OK). Qed.
Lemma Rep_mulT A a X f : rel A a -> Rep X f -> Rep (ps_mulT X A) (fun t => f t * a).
Proof.
  intros H R. apply (Rep_eq _ (fun t => a * f t)); [intros; ring|]. revert R. apply Rep_map. intros. rewrite Rmult_comm. now apply (bk_mul _ _ OK).
Qed.
Lemma Rep_divT A a X Y f : ps_divT X A = Ok Y -> rel A a -> Rep X f -> a <> 0 /\ Rep Y (fun t => f t / a).
Proof.
  intros E H R. apply mapM_ok in E as [L E]. split.
  - destruct R as [LX (c & HA & _)]. assert (L1 : (0 < length X)%nat) by lia. specialize (E O L1). eapply (bk_div _ _ OK); eauto.
  - apply (Rep_eq _ (fun t => / a * f t)); [intros; unfold Rdiv; ring|]. revert R. apply Rep_lin; auto.
    intros j y Hj HR. specialize (E j Hj). rewrite Rmult_comm. eapply (bk_div _ _ OK); eauto.
Qed.
Lemma Rep_head (g : B -> B) a X Y f : head g X = Ok Y -> (forall Z z, rel Z z -> rel (g Z) (z + a)) -> Rep X f -> Rep Y (fun t => f t + a).
Proof.
  intros E H [LX (c & A & Z & HQ)]. destruct X as [|x X]; [discriminate|]. injection E as <-. split; auto.
  exists (fun i => c i + delta a i). split; [|split].
  - apply coef_cons in A as [A0 A]. apply coef_cons. split; [now apply H|]. intros i Hi. simpl. rewrite Rplus_0_r. now apply A.
  - intros [|i] Hi; simpl in *; [lia|]. rewrite Z by lia. ring.
  - apply Q_add; auto. now apply Q_cst.
Qed.
Lemma Rep_zip (g : B -> B -> B) (p q : R) X Y U f h : zipM (fun x y => Ok (g x y)) X Y = Ok U ->
  (forall A b a' b', rel A a' -> rel b b' -> rel (g A b) (p * a' + q * b')) -> Rep X f -> Rep Y h -> Rep U (fun t => p * f t + q * h t).
Proof.
  intros E H [LX (c & A & Z & HQ)] [LY (c' & A' & Z' & HQ')]. apply zipM_ok in E as (L & L' & E). split; [now rewrite L|].
  exists (fun i => p * c i + q * c' i). split; [|split].
  - intros i Hi. assert (Hi' : (i < length X)%nat) by lia. specialize (E i Hi'). injection E as E. change (at_ U i) with (nth i U (bcst (b:=B) 0 0)). rewrite <- E. apply H; [now apply A|apply A'; lia].
  - intros i Hi. rewrite Z, Z' by lia. ring.
  - apply Q_add; now apply Q_scal.
Qed.
Lemma Rep_one X f : Rep X f -> length X = 1%nat -> exists a, rel (at_ X 0) a /\ near k s f (fun _ => a).
Proof.
  intros [_ (c & A & Z & HQ)] L. exists (c O). split; [apply A; lia|]. destruct k; simpl in *.
  - destruct HQ as [-> HJ]. split; [rewrite (pe_more c 1) by (auto; intros; apply Z; lia); unfold pe; simpl; ring|]. intros J.
    apply (bigO_ext (Jo s) (fun t => -1 * (f t - c O)) _ 1); [lra|intros; ring|]. apply bigO_scal. apply jet_dev0; auto; [intros; apply Z; lia|now apply Jo_pos].
  - apply (bigO_ext s (fun t => -1 * (f t - c O)) _ 1); [lra|intros; ring|]. apply bigO_scal. apply jet_dev0; auto. intros; apply Z; lia.
Qed.
Lemma near_lin p q f g h : near k s g h -> near k s (fun t => p * f t + q * g t) (fun t => p * f t + q * h t).
Proof.
  assert (L : forall n, bigO n (fun t => h t - g t) -> bigO n (fun t => p * f t + q * h t - (p * f t + q * g t))).
  { intros n H. apply (bigO_ext n (fun t => q * (h t - g t)) _ 1); [lra|intros; ring|]. now apply bigO_scal. }
  destruct k; simpl; [|apply L]. intros [-> A]. split; auto.
Qed.
Lemma near_plus f g h : near k s g h -> near k s (fun t => f t + g t) (fun t => f t + h t).
Proof. intros H. apply (near_lin 1 1 f) in H. revert H. apply near_rw; intros; ring. Qed.
Lemma near_sym f g : near k s f g -> near k s g f.
Proof.
  assert (L : forall n, bigO n (fun t => g t - f t) -> bigO n (fun t => f t - g t)).
  { intros n H. apply (bigO_ext n (fun t => -1 * (g t - f t)) _ 1); [lra|intros; ring|]. now apply bigO_scal. }
  destruct k; simpl; [|apply L]. intros [-> A]. split; auto.
Qed.

Lemma Rep_add X Y U f g : ps_add X Y = Ok U -> Rep X f -> Rep Y g -> Rep U (fun t => f t + g t).
Proof.
  intros E HX HY. unfold ps_add in E. destruct X as [|x [|x' X]]; try discriminate; destruct Y as [|y [|y' Y]]; try discriminate.
  1,2: destruct (Rep_one _ _ HX eq_refl) as (a & Ra & N);
    apply (Rep_near _ (fun t => g t + a)); [apply near_sym in N; apply (near_plus g) in N; revert N; apply near_rw; intros; ring|];
    apply (Rep_head _ _ _ _ _ E); auto; intros; now apply (bk_add _ _ OK).
  - destruct (Rep_one _ _ HY eq_refl) as (a & Ra & N). apply (Rep_near _ (fun t => f t + a)); [apply near_plus; now apply near_sym|].
    apply (Rep_head _ _ _ _ _ E); auto; intros; now apply (bk_add _ _ OK).
  - apply (Rep_eq _ (fun t => 1 * f t + 1 * g t)); [intros; ring|]. eapply Rep_zip; eauto. intros. rewrite !Rmult_1_l. now apply (bk_add _ _ OK).
Qed.
Lemma Rep_sub X Y U f g : ps_sub X Y = Ok U -> Rep X f -> Rep Y g -> Rep U (fun t => f t - g t).
Proof.
  intros E HX HY. unfold ps_sub in E. destruct X as [|x [|x' X]]; try discriminate; destruct Y as [|y [|y' Y]]; try discriminate.
  1,2: destruct (Rep_one _ _ HX eq_refl) as (a & Ra & N);
    apply (Rep_near _ (fun t => - g t + a)); [apply near_sym in N; apply (near_lin (-1) 1 g) in N; revert N; apply near_rw; intros; ring|];
    apply (Rep_head _ _ _ _ _ E); [intros; now apply (bk_add _ _ OK)|exact (Rep_neg _ _ HY)].
  - destruct (Rep_one _ _ HY eq_refl) as (a & Ra & N). apply (Rep_near _ (fun t => f t + - a)).
    { apply near_sym in N. apply (near_lin 1 (-1) f) in N. revert N. apply near_rw; intros; ring. }
    apply (Rep_head _ _ _ _ _ E); auto; intros. now apply (bk_sub _ _ OK).
  - apply (Rep_eq _ (fun t => 1 * f t + -1 * g t)); [intros; ring|]. eapply Rep_zip; eauto. intros. replace (1 * a' + -1 * b') with (a' - b') by ring. now apply (bk_sub _ _ OK).
Qed.

(* sums of the product *)
Lemma fold_rel (F : nat -> B) (f : nat -> R) l A a : rel A a -> (forall j, In j l -> rel (F j) (f j)) ->
  rel (fold_left (fun acc j => badd acc (F j)) l A) (fold_left (fun acc j => acc + f j) l a).
Proof.
  revert A a. induction l; simpl; intros A x HA H; auto. apply IHl; [|intros; apply H; auto]. apply (bk_add _ _ OK); auto.
Qed.
Lemma fold_rsum f j0 n a : fold_left (fun acc j => acc + f j) (seq j0 n) a = a + rsum (fun j => f (j0 + j)%nat) n.
Proof.
  revert j0 a. induction n; intros; [simpl; ring|]. rewrite seq_S, fold_left_app, IHn. simpl. ring.
Qed.
Lemma sumT_rel (F : nat -> B) f j0 n : (forall j, (j0 <= j < j0 + n)%nat -> rel (F j) (f j)) -> rel (sumT F j0 n) (rsum (fun j => f (j0 + j)%nat) n).
Proof.
  intros H. unfold sumT. rewrite <- (Rplus_0_l (rsum _ n)), <- fold_rsum. apply fold_rel; [apply rel0|]. intros j Hj. apply H. apply in_seq in Hj. lia.
Qed.
Lemma conv_rel X Y a b i : coef X a -> coef Y b -> (i < length X)%nat -> (i < length Y)%nat -> rel (conv X Y i) (cv a b i).
Proof.
  intros HA HB L1 L2. unfold conv. replace (i + 1)%nat with (S i) by lia. apply (sumT_rel _ (fun j => a j * b (i - j)%nat)).
  intros j Hj. apply (bk_mul _ _ OK); [apply HA|apply HB]; lia.
Qed.
Lemma conv_hi_rel X Y a b i : length X = s -> length Y = s -> coef X a -> coef Y b -> (forall j, (s <= j)%nat -> a j = 0) -> (forall j, (s <= j)%nat -> b j = 0) ->
  (i < s)%nat -> rel (conv_hi X Y s i) (cv a b (s - 1 + i)).
Proof.
  intros LX LY HA HB ZA ZB Li. unfold conv_hi.
  replace (cv a b (s - 1 + i)) with (rsum (fun j => a (i + j)%nat * b (i + (s - 1) - (i + j))%nat) (s - i)).
  - apply (sumT_rel _ (fun j => a j * b (i + (s - 1) - j)%nat)). intros j Hj. apply (bk_mul _ _ OK); [apply HA|apply HB]; lia.
  - unfold cv. replace (S (s - 1 + i))%nat with (i + ((s - i) + i))%nat by lia. rewrite rsum_split, (rsum_split _ (s - i) i).
    rewrite (rsum_zero _ i) by (intros; rewrite ZB by lia; ring).
    rewrite (rsum_zero (fun k0 => a (i + (s - i + k0))%nat * _) i) by (intros; rewrite ZA by lia; ring).
    rewrite Rplus_0_l, Rplus_0_r. apply rsum_ext. intros j Hj. do 2 f_equal. lia.
Qed.
Lemma at_low (F : nat -> B) n l i : at_ (map F (seq 0 n) ++ [l]) i = if (i <? n)%nat then F i else if (i =? n)%nat then l else t0.
Proof.
  unfold at_. destruct (Nat.ltb_spec i n).
  - rewrite app_nth1 by (rewrite map_length, seq_length; auto). rewrite (nth_indep _ _ (F O)) by (rewrite map_length, seq_length; auto).
    rewrite map_nth, seq_nth by auto. reflexivity.
  - rewrite app_nth2; rewrite map_length, seq_length; auto. destruct (Nat.eqb_spec i n).
    + subst. now rewrite Nat.sub_diag.
    + rewrite nth_overflow; auto. simpl. lia.
Qed.
Lemma Q_mul1 f g a b : (forall i, (1 <= i)%nat -> a i = 0) -> Q k s f a -> Q k s g b -> Q k s (fun t => f t * g t) (fun i => a O * b i).
Proof.
  intros Z HF HG.
  assert (L : forall n, jet n f a -> jet n g b -> jet n (fun t => f t * g t) (fun i => a O * b i)).
  { intros n F G. apply (jet_coef n _ (cv a b)); [|now apply jet_mul]. intros i _. unfold cv. rewrite rsum_first, Nat.sub_0_r, (rsum_zero _ i); [ring|].
    intros j _. rewrite Z by lia. ring. }
  destruct k; simpl in *; [|auto]. destruct HF as [HF JF], HG as [HG JG]. split; [|auto].
  rewrite HF, HG, pe_scal. f_equal. rewrite (pe_more a 1) by auto. unfold pe. simpl. ring.
Qed.
Lemma Rep_mul_l x Y f g : Rep [x] f -> Rep Y g -> Rep (ps_Tmul x Y) (fun t => f t * g t).
Proof.
  intros [_ (a & HA & ZA & QA)] [LY (b & HB & ZB & QB)].
  split; [unfold ps_Tmul; rewrite map_length; auto|]. exists (fun i => a O * b i). unfold ps_Tmul. split; [|split].
  - intros i Hi. rewrite map_length in Hi. rewrite at_map by auto. apply (bk_mul _ _ OK); [apply (HA O); simpl; lia|now apply HB].
  - intros i Hi. rewrite map_length in Hi. rewrite ZB by auto; ring.
  - apply Q_mul1; auto.
Qed.
Lemma Rep_mul_r X y f g : Rep X f -> Rep [y] g -> Rep (ps_mulT X y) (fun t => f t * g t).
Proof.
  intros [LX (a & HA & ZA & QA)] [_ (b & HB & ZB & QB)].
  split; [unfold ps_mulT; rewrite map_length; auto|]. exists (fun i => b O * a i). unfold ps_mulT. split; [|split].
  - intros i Hi. rewrite map_length in Hi. rewrite at_map by auto. rewrite Rmult_comm. apply (bk_mul _ _ OK); [now apply HA|apply (HB O); simpl; lia].
  - intros i Hi. rewrite map_length in Hi. rewrite ZA by auto; ring.
  - apply (Q_ext k s (fun t => g t * f t)); [apply Ev_all; intros; ring|]. apply Q_mul1; auto.
Qed.
Lemma Rep_mul X Y U f g : ps_mul m D X Y = Ok U -> Rep X f -> Rep Y g -> Rep U (fun t => f t * g t).
Proof.
  intros E HX HY. unfold ps_mul in E. destruct X as [|x [|x' X]]; try discriminate; destruct Y as [|y [|y' Y]]; try discriminate.
  - assert (E' : U = ps_Tmul x [y]) by congruence. subst U. now apply (Rep_mul_l x).
  - assert (E' : U = ps_Tmul x (y :: y' :: Y)) by congruence. subst U. now apply (Rep_mul_l x).
  - assert (E' : U = ps_mulT (x :: x' :: X) y) by congruence. subst U. now apply Rep_mul_r.
  - set (X1 := x :: x' :: X) in *. set (Y1 := y :: y' :: Y) in *.
    assert (LX : length X1 = s) by (destruct HX as [[L|L] _]; [discriminate|exact L]).
    assert (LY : length Y1 = s) by (destruct HY as [[L|L] _]; [discriminate|exact L]).
    rewrite LX, LY in E. rewrite Nat.leb_refl in E. destruct HX as [_ (a & HA & ZA & QA)]; destruct HY as [_ (b & HB & ZB & QB)].
    rewrite LX in ZA. rewrite LY in ZB. assert (S2' : (2 <= s)%nat) by (rewrite <- LX; unfold X1; simpl; lia). clearbody X1 Y1.
    destruct k as [[t jf]|] eqn:EK.
    + destruct (mode_some (t, jf) EK) as (-> & Dt & _). cbn [fst snd] in *. rewrite Z.eqb_refl in E. apply oki in E. subst U.
      assert (LO : length (map (conv X1 Y1) (seq 0 (s - 1)) ++ [hornerT (conv X1 Y1 (s - 1) :: map (conv_hi X1 Y1 s) (seq 1 (s - 1))) D]) = s)
        by (rewrite app_length, map_length, seq_length; simpl; lia).
      pose (cf := fun i => if (i <? s - 1)%nat then cv a b i else if (i =? s - 1)%nat then pe (fun i => cv a b (s - 1 + i)) s t else 0).
      split; [now right|]. exists cf. rewrite LO. split; [|split].
      * intros i Hi. rewrite LO in Hi. rewrite at_low. unfold cf. destruct (Nat.ltb_spec i (s - 1)); [apply conv_rel; auto; lia|].
        replace (i =? s - 1)%nat with true by (symmetry; apply Nat.eqb_eq; lia).
        replace s with (length (conv X1 Y1 (s - 1) :: map (conv_hi X1 Y1 s) (seq 1 (s - 1)))) at 4 by (simpl; rewrite map_length, seq_length; lia).
        apply horner_rel; auto. apply coef_cons. split; [rewrite Nat.add_0_r; apply conv_rel; auto; lia|].
        intros j Hj. rewrite map_length, seq_length in Hj. unfold at_. rewrite (nth_indep _ _ (conv_hi X1 Y1 s O)) by (rewrite map_length, seq_length; auto).
        rewrite map_nth, seq_nth by auto. apply conv_hi_rel; auto. lia.
      * intros i Hi. unfold cf. destruct (Nat.ltb_spec i (s - 1)); [lia|]. destruct (Nat.eqb_spec i (s - 1)); [lia|auto].
      * rewrite EK. simpl in *. destruct QA as [QA JA], QB as [QB JB]. split.
        2:{ intros Ej. apply (jet_coef _ _ (cv a b)); [|apply jet_mul; auto]. intros i Hi. rewrite Jo_2 in Hi by exact S2'. unfold cf.
          now rewrite (proj2 (Nat.ltb_lt i (s - 1)) Hi). }
        rewrite QA, QB, pe_mul_exact by auto.
        rewrite (pe_more (cv a b) (s - 1 + s) (s + s)); [|intros i Hi; apply rsum_zero; intros j Hj; destruct (Nat.lt_ge_cases j s); [rewrite ZB by lia; ring|rewrite ZA by lia; ring]|lia].
        replace (pe cf s t) with (pe cf (s - 1) t + cf (s - 1)%nat * t ^ (s - 1)) by (rewrite <- pe_last; f_equal; lia).
        replace (cf (s - 1)%nat) with (pe (fun i => cv a b (s - 1 + i)) s t) by (unfold cf; now rewrite Nat.ltb_irrefl, Nat.eqb_refl).
        rewrite (pe_ext cf (cv a b)). 2:{ intros i Hi. unfold cf. destruct (Nat.ltb_spec i (s - 1)); [auto|lia]. }
        unfold pe. rewrite rsum_split. f_equal. rewrite Rmult_comm, <- rsum_scal. apply rsum_ext. intros i _. rewrite pow_add. ring.
    + assert (M1 : (m =? 2)%Z = false) by (rewrite (mode_none EK); reflexivity). rewrite M1 in E. apply oki in E. subst U.
      assert (LO : length (map (conv X1 Y1) (seq 0 (s - 1)) ++ [conv X1 Y1 (s - 1)]) = s) by (rewrite app_length, map_length, seq_length; simpl; lia).
      split; [now right|]. exists (fun i => if (i <? s)%nat then cv a b i else 0). rewrite LO. split; [|split].
      * intros i Hi. rewrite LO in Hi. rewrite at_low. destruct (Nat.ltb_spec i s); [|lia]. destruct (Nat.ltb_spec i (s - 1)); [apply conv_rel; auto; lia|].
        destruct (Nat.eqb_spec i (s - 1)); [subst i; apply conv_rel; auto; lia|lia].
      * intros i Hi. destruct (Nat.ltb_spec i s); [lia|auto].
      * rewrite EK. simpl in *. apply (jet_coef s _ (cv a b)); [|now apply jet_mul]. intros i Hi. destruct (Nat.ltb_spec i s); [auto|lia].
Qed.
(* x(t) = c0 + h(t) *)
Definition dev_ok (X : list B) (f : R -> R) (c0 : R) : Prop :=
  rel (at_ X 0) c0 /\ Rep (ps_h X) (fun t => f t - c0) /\
  (forall p, k = Some p -> (forall z, mix c0 (f (fst p)) z -> rel (ps_eval X D) z) /\ (length X = 1%nat -> f (fst p) = c0) /\
    (snd p = true -> bigO 1 (fun t => f t - c0) /\ (length X = 1%nat -> bigO (Jo s) (fun t => f t - c0)))) /\
  (k = None -> bigO 1 (fun t => f t - c0) /\ bigO s (fun t => (f t - c0) ^ length X)).
Lemma Rep_split X f : Rep X f -> exists c0, dev_ok X f c0.
Proof.
  intros [LX (c & A & Z & HQ)]. exists (c O). destruct X as [|a X]; [simpl in LX; lia|].
  assert (A' := A). apply coef_cons in A' as [A0 A']. split; [exact A0|]. split; [|split].
  - split; auto. exists (fun i => c i + delta (- c O) i). split; [|split].
    + apply coef_cons. split; [simpl; rewrite Rplus_opp_r; apply rel0|]. intros i Hi. simpl. rewrite Rplus_0_r. now apply A'.
    + intros [|i] Hi; simpl in Hi; [lia|]. rewrite Z by (simpl; lia). simpl. ring.
    + apply Q_add; auto. now apply Q_cst.
  - intros [t jf] EK. destruct (mode_some _ EK) as (_ & Dt & D0 & CV). rewrite EK in HQ. simpl in HQ. destruct HQ as [HQ HJ]. cbn [fst snd] in *.
    assert (PL : pe c s t = pe c (length (a :: X)) t) by (symmetry; destruct LX as [E|E]; rewrite E; auto; symmetry; apply pe_more; [rewrite <- E|]; auto).
    split; [|split].
    + intros z Hz. apply (CV _ (c O) (f t)); auto.
      * unfold ps_eval. replace (c O) with (pe c (length (a :: X)) 0) by (simpl; apply pe_0). now apply horner_rel.
      * rewrite HQ, PL. now apply horner_rel.
    + intros L1. rewrite HQ, PL, L1. unfold pe. simpl. ring.
    + intros Ej. specialize (HJ Ej). pose proof (Jo_pos s S1). split; [now apply (jet_dev (Jo s))|]. intros L1. apply jet_dev0; auto. intros i Hi. apply Z. lia.
  - intros EK. rewrite EK in HQ. simpl in HQ. pose proof (jet_dev s f c S1 HQ) as J1. split; auto.
    destruct LX as [L|L].
    + rewrite L. apply (bigO_ext s (fun t => f t - c O) _ 1); [lra|intros; ring|]. apply jet_dev0; auto. rewrite <- L. auto.
    + rewrite L. apply (bigO_pow 1 _ s) in J1. now rewrite Nat.mul_1_r in J1.
Qed.

(* the loop sums kk j * g^j *)
Section Tay.
Variable St : Type.
Variable stp : nat -> bool -> St -> res (B * St).
Variables (n : nat) (g : list B) (ga : R -> R) (ka : nat -> R) (kl : R) (Inv : nat -> St -> Prop).
Definition kk (j : nat) : R := if (m =? 2)%Z && (j =? n - 1)%nat && negb (j =? 0)%nat then kl else ka j.
Hypothesis HG : Rep g ga.
Hypothesis HS : forall i last st q, (1 <= i < n)%nat -> last = ((m =? 2)%Z && (i =? n - 1)%nat) -> Inv i st -> stp i last st = Ok q ->
  rel (fst q) (if last then kl else ka i) /\ (last = false -> Inv (S i) (snd q)).
Lemma tay_rep cnt i hn r st out : tay stp m D n g cnt i hn r st = Ok out -> (1 <= i)%nat -> (i + cnt = n)%nat ->
  Rep hn (fun t => ga t ^ (i - 1)) -> Rep r (fun t => rsum (fun j => kk j * ga t ^ j) i) -> Inv i st ->
  Rep out (fun t => rsum (fun j => kk j * ga t ^ j) n).
Proof.
  revert i hn r st. induction cnt; simpl; intros i hn r st H L1 LN Hh Hr HI.
  - apply oki in H. subst out. now replace n with i by lia.
  - apply bind_ok in H as (hn' & Eh & H). apply bind_ok in H as (q & Eq & H). apply bind_ok in H as (r' & Er & H).
    assert (Hh' : Rep hn' (fun t => ga t ^ (S i - 1))).
    { apply (Rep_eq _ (fun t => ga t ^ (i - 1) * ga t)); [|now apply (Rep_mul _ _ _ _ _ Eh)]. intros t. replace (S i - 1)%nat with (S (i - 1)) by lia. simpl. ring. }
    destruct (HS i _ st q ltac:(lia) eq_refl HI Eq) as [Hk HI'].
    assert (Hr' : Rep r' (fun t => rsum (fun j => kk j * ga t ^ j) (S i))).
    { apply (Rep_eq _ (fun t => rsum (fun j => kk j * ga t ^ j) i + kk i * ga t ^ (S i - 1))); [intros; simpl; now rewrite Nat.sub_0_r|].
      apply (Rep_add _ _ _ _ _ Er); auto. apply Rep_Tmul; auto. unfold kk. replace (i =? 0)%nat with false by (symmetry; apply Nat.eqb_neq; lia).
      simpl. now rewrite andb_true_r. }
    destruct cnt as [|cnt].
    + simpl in H. apply oki in H. subst out. now replace n with (S i) by lia.
    + apply (IHcnt _ _ _ _ H); auto; try lia. apply HI'. destruct (Nat.eqb_spec i (n - 1)); [lia|]. apply andb_false_r.
Qed.
Lemma ps_tay_rep X r0 st out : ps_tay stp m D X g r0 st = Ok out -> length X = n -> (1 <= n)%nat -> rel r0 (ka O) -> Inv 1 st ->
  Rep out (fun t => rsum (fun j => kk j * ga t ^ j) n).
Proof.
  intros H LX L1 R0 HI. unfold ps_tay in H. apply bind_ok in H as (r & Hr & H). apply oki in H. subst out.
  apply (Rep_eq _ (fun t => rsum (fun j => kk j * ga t ^ j) n * 1)); [intros; ring|]. apply Rep_mulT; [apply rel1|]. rewrite LX in Hr.
  apply (tay_rep _ _ _ _ _ _ Hr); auto; [lia| |].
  - simpl. apply (Rep_cst _ 1), rel1.
  - apply (Rep_eq _ (fun _ => ka O)); [|now apply Rep_cst]. intros t. simpl. unfold kk. rewrite andb_false_r. ring.
Qed.
End Tay.
(* r is the result of the loop before the multiplication by 1.; P stands for a further fact about the run *)
Definition loopsem {St} (stp : nat -> bool -> St -> res (B * St)) (X : list B) (ga : R -> R) (ka : nat -> R) (r0 : B) (st : St) (r : list B) (P : Prop) : Prop :=
  ((2 <= length X)%nat -> exists q, stp 1%nat ((m =? 2)%Z && (1 =? length X - 1)%nat) st = Ok q) /\
  forall kl (Inv : nat -> St -> Prop), (forall i last st q, (1 <= i < length X)%nat -> last = ((m =? 2)%Z && (i =? length X - 1)%nat) -> Inv i st -> stp i last st = Ok q ->
      rel (fst q) (if last then kl else ka i) /\ (last = false -> Inv (S i) (snd q))) -> rel r0 (ka O) -> Inv 1%nat st ->
    Rep r (fun t => rsum (fun j => kk (length X) ka kl j * ga t ^ j) (length X)) /\ P.
Lemma tay_first {St} (stp : nat -> bool -> St -> res (B * St)) n g cnt i hn r st out : tay stp m D n g (S cnt) i hn r st = Ok out ->
  exists q, stp i ((m =? 2)%Z && (i =? n - 1)%nat) st = Ok q.
Proof. simpl. intros H. apply bind_ok in H as (hn' & Eh & H). apply bind_ok in H as (q & Eq & H). eauto. Qed.
Lemma tay_loopsem {St} (stp : nat -> bool -> St -> res (B * St)) X g ga ka r0 st r : (1 <= length X)%nat -> Rep g ga ->
  tay stp m D (length X) g (length X - 1) 1 [t1] [r0] st = Ok r -> loopsem stp X ga ka r0 st r True.
Proof.
  intros LX HG E. split.
  - intros L2. replace (length X - 1)%nat with (S (length X - 2)) in E at 1 by lia. apply tay_first in E. exact E.
  - intros kl Inv HS HR HI. split; auto. apply (tay_rep St stp (length X) g ga ka kl Inv HG HS _ _ _ _ _ _ E); auto; [lia| |].
    + simpl. apply (Rep_cst _ 1), rel1.
    + apply (Rep_eq _ (fun _ => ka O)); [|now apply Rep_cst]. intros t. simpl. unfold kk. rewrite andb_false_r. ring.
Qed.
Lemma ps_tay_inv {St} (stp : nat -> bool -> St -> res (B * St)) X g r0 st out : ps_tay stp m D X g r0 st = Ok out ->
  exists r, tay stp m D (length X) g (length X - 1) 1 [t1] [r0] st = Ok r /\ out = ps_mulT r t1.
Proof. unfold ps_tay. intros E. apply bind_ok in E as (r & Er & E). apply oki in E. eauto. Qed.
Lemma Rep_mul1 r f : Rep r f -> Rep (ps_mulT r t1) f.
Proof. intros H. apply (Rep_eq _ (fun t => f t * 1)); [intros; ring|]. apply Rep_mulT; auto. apply rel1. Qed.

(* composition with a function having successive derivatives *)
Lemma tay_comp {St} (stp : nat -> bool -> St -> res (B * St)) (F : nat -> R -> R) (dom : R -> Prop) X f c0 ga ka r0 st out P :
  family F dom -> Rep X f -> dev_ok X f c0 ->
  (forall p, k = Some p -> length X <> 1%nat -> forall z, mix c0 (f (fst p)) z -> dom z) -> (length X <> 1%nat -> locally c0 dom) ->
  (length X = 1%nat -> near k s (fun _ => F O c0) (fun t => F O (f t))) ->
  (forall j t, ka j * ga t ^ j = F j c0 / INR (fact j) * (f t - c0) ^ j) -> rel r0 (F O c0) ->
  (forall z, (forall p, k = Some p -> mix c0 (f (fst p)) z) -> (k = None -> z = c0) -> exists (Inv : nat -> St -> Prop) kl,
     (forall t, kl * ga t ^ (length X - 1) = F (length X - 1)%nat z / INR (fact (length X - 1)) * (f t - c0) ^ (length X - 1)) /\
     Inv 1%nat st /\
     forall i last st q, (1 <= i < length X)%nat -> last = ((m =? 2)%Z && (i =? length X - 1)%nat) -> Inv i st -> stp i last st = Ok q ->
       rel (fst q) (if last then kl else ka i) /\ (last = false -> Inv (S i) (snd q))) ->
  loopsem stp X ga ka r0 st out P -> Rep out (fun t => F O (f t)) /\ P.
Proof.
  intros FM HX (A0 & Hh & M2 & M1) D2 D1 N1 HK HR HI [_ E]. pose proof (Rep_len _ _ HX) as LX.
  assert (K0 : ka O = F O c0). { specialize (HK O 0). simpl in HK. lra. }
  destruct k as [[t jf]|] eqn:EK.
  - destruct (mode_some _ EK) as (M & _). destruct (M2 _ eq_refl) as (_ & C1 & J1). cbn [fst snd] in *.
    destruct (Nat.eq_dec (length X) 1) as [L1|L1].
    + destruct (HI c0) as (Inv & kl & Hkl & HI1 & HS). { intros t' Et. injection Et as <-. cbn [fst]. unfold mix. rewrite (C1 L1). lra. } { discriminate. }
      destruct (E kl Inv HS ltac:(now rewrite K0) HI1) as [R PP]. split; auto. revert R. apply Rep_near. rewrite EK. specialize (N1 L1). revert N1. apply near_rw; [|auto]. intros u. rewrite L1. simpl. unfold kk. rewrite andb_false_r. rewrite K0. ring.
    + destruct (taylor_at F dom c0 (f t) (length X - 1) FM (D2 _ eq_refl L1)) as (z & Hz & T).
      destruct (HI z) as (Inv & kl & Hkl & HI1 & HS). { intros t' Et. injection Et as <-. exact Hz. } { discriminate. }
      destruct (E kl Inv HS ltac:(now rewrite K0) HI1) as [R PP]. split; auto. revert R.
      assert (KS : forall u, rsum (fun j => kk (length X) ka kl j * ga u ^ j) (length X) =
        rsum (fun j => F j c0 / INR (fact j) * (f u - c0) ^ j) (length X - 1) + F (length X - 1)%nat z / INR (fact (length X - 1)) * (f u - c0) ^ (length X - 1)).
      { intros u. pose (G := fun j => kk (length X) ka kl j * ga u ^ j). change (rsum G (length X) = rsum (fun j => F j c0 / INR (fact j) * (f u - c0) ^ j) (length X - 1) + F (length X - 1)%nat z / INR (fact (length X - 1)) * (f u - c0) ^ (length X - 1)). transitivity (rsum G (S (length X - 1))); [f_equal; lia|]. simpl. unfold G. f_equal.
        * apply rsum_ext. intros j Hj. unfold kk. replace (j =? length X - 1)%nat with false by (symmetry; apply Nat.eqb_neq; lia). rewrite andb_false_r. simpl. apply HK.
        * unfold kk. rewrite M, Nat.eqb_refl. simpl. replace (length X - 1 =? 0)%nat with false by (symmetry; apply Nat.eqb_neq; lia). simpl. apply Hkl. }
      apply Rep_near. rewrite EK. simpl. split; [rewrite T; apply KS|]. intros Ej. destruct (J1 Ej) as [B1 _].
      assert (LS : length X = s) by (destruct HX as [[|] _]; lia). rewrite Jo_2 by lia.
      assert (BP : bigO (s - 1) (fun t => (f t - c0) ^ (length X - 1))). { apply (bigO_pow 1 _ (s - 1)) in B1. rewrite Nat.mul_1_r in B1. now rewrite LS. }
      apply (bigO_ext _ (fun u => (F O (f u) - rsum (fun j => F j c0 / INR (fact j) * (f u - c0) ^ j) (length X - 1)) +
         - (F (length X - 1)%nat z / INR (fact (length X - 1))) * (f u - c0) ^ (length X - 1)) _ 1); [lra|intros u _; rewrite KS; ring|].
      apply bigO_plus; [now apply (comp_bigO F dom c0 f); auto|now apply bigO_scal].
  - assert (M : (m =? 2)%Z = false) by (rewrite (mode_none EK); reflexivity).
    destruct (HI c0) as (Inv & kl & Hkl & HI1 & HS). { intros t Et. discriminate. } { reflexivity. }
    destruct (E kl Inv HS ltac:(now rewrite K0) HI1) as [R PP]. split; auto. revert R.
    apply Rep_near. destruct (M1 eq_refl) as [B1 Bs]. destruct (Nat.eq_dec (length X) 1) as [L1|L1].
    + specialize (N1 L1). rewrite EK. simpl in *. revert N1. apply (bigO_ext _ _ _ 1); [lra|]. intros t _. rewrite L1. simpl. unfold kk. rewrite M. simpl. rewrite K0. ring.
    + rewrite EK. simpl. apply (bigO_ext s (fun t => F O (f t) - rsum (fun j => F j c0 / INR (fact j) * (f t - c0) ^ j) (length X)) _ 1); [lra| |].
      * intros t _. f_equal. apply rsum_ext. intros j _. unfold kk. rewrite M. simpl. symmetry. apply HK.
      * apply (comp_bigO F dom c0 f); auto.
Qed.
Ltac nzs := repeat apply conj; first [assumption|lra|apply INR_fact_neq_0|apply not_0_INR; lia|apply pow_nonzero; first [assumption|lra]].
(* ---- the functions ---- *)
Definition domok (dom : R -> Prop) (f : R -> R) (c0 : R) : Prop :=
  (forall p, k = Some p -> forall z, mix c0 (f (fst p)) z -> dom z) /\ locally c0 dom.
Lemma near_one (F : nat -> R -> R) dom X f c0 : family F dom -> dev_ok X f c0 -> domok dom f c0 -> length X = 1%nat ->
  near k s (fun _ => F O c0) (fun t => F O (f t)).
Proof.
  intros FM (_ & _ & M2 & M1) [D2 D1] L.
  assert (CB : forall n, bigO 1 (fun t => f t - c0) -> bigO n (fun t => (f t - c0) ^ 1) -> bigO n (fun t => F O (f t) - F O c0)).
  { intros n B1 Bs. specialize (comp_bigO F dom c0 f 1 n FM D1 B1 Bs). apply (bigO_ext _ _ _ 1); [lra|]. intros t _. simpl. field. }
  destruct k as [[t jf]|] eqn:EK.
  - destruct (M2 _ eq_refl) as (_ & E & J). simpl in *. split; [now rewrite E|]. intros Ej. destruct (J Ej) as [B1 Bs]. apply CB; auto.
    apply (bigO_ext _ (fun t => f t - c0) _ 1); [lra|intros; ring|]. auto.
  - destruct (M1 eq_refl) as [B1 Bs]. rewrite L in Bs. simpl. apply CB; auto.
Qed.
Lemma domok_Ev dom X f c0 : dev_ok X f c0 -> domok dom f c0 -> Ev k (fun t => dom (f t)).
Proof.
  intros (_ & _ & M2 & M1) [D2 D1].
  assert (L : bigO 1 (fun t => f t - c0) -> Ev0 (fun t => dom (f t))).
  { intros B1. destruct D1 as [e He]. destruct (bigO_small 1 _ e (le_n _) B1 (cond_pos e)) as (d & Hd & H).
    exists d. split; auto. intros t Ht. apply He. exact (H t Ht). }
  destruct k as [p|] eqn:EK; simpl.
  - split; [apply (D2 p eq_refl); unfold mix; lra|]. intros Ej. apply L. apply (M2 p eq_refl). auto.
  - apply L. apply (M1 eq_refl).
Qed.
Lemma nat_lit X f i : Rep X f -> (i <= length X)%nat -> lit (Z.of_nat i) 0 /\ lit (1 - 2 * Z.of_nat i) (-1) /\ lit (Z.of_nat i + 1) 0.
Proof. intros [[L|L] _] H; rewrite L in H; unfold lit; lia. Qed.
Lemma dy_nat i : dy (Z.of_nat i) 0 = INR i. Proof. now rewrite dy_int, INR_IZR_INZ. Qed.

Lemma fact_gen (F : nat -> R -> R) tab tabv X f c0 r0 out P : family F (fun _ => True) -> Rep X f -> dev_ok X f c0 ->
  (forall j V U v, tab j V = Ok U -> rel V v -> rel U (F j v)) -> (forall j, rel (tabv j) (F j c0)) -> rel r0 (F O c0) ->
  loopsem (step_fact X D tab tabv) X (fun t => f t - c0) (fun j => F j c0 / INR (fact j)) r0 (t1 (B:=B)) out P -> Rep out (fun t => F O (f t)) /\ P.
Proof.
  intros FM HX HD HT HV HR E. pose proof (Rep_len _ _ HX) as LX. assert (DM : domok (fun _ => True) f c0) by (split; auto; apply locally_True).
  apply (tay_comp (step_fact X D tab tabv) F (fun _ => True) X f c0 (fun t => f t - c0) (fun j => F j c0 / INR (fact j)) r0 (t1 (B:=B)) out P); auto.
  - intros; apply locally_True.
  - now apply (near_one F (fun _ => True)).
  - intros z Hz _. exists (fun i fa => rel fa (/ INR (fact (i - 1)))), (F (length X - 1)%nat z / INR (fact (length X - 1))). split; [auto|]. split.
    + simpl. rewrite Rinv_1. apply rel1.
    + intros i last st q Hi EL HI ES. unfold step_fact in ES. apply bind_ok in ES as (fa & Efa & ES).
      assert (Rfa : rel fa (/ INR (fact i))).
      { destruct (nat_lit X f i HX ltac:(lia)) as (Li & _). destruct (bk_divS _ _ OK _ _ _ _ _ Li Efa HI) as [_ V]. rewrite dy_nat in V.
        replace (/ INR (fact i)) with (/ INR (fact (i - 1)) / INR i); auto. replace i with (S (i - 1)) at 2 3 by lia. rewrite fact_simpl, mult_INR.
        field. nzs. }
      destruct last.
      * apply bind_ok in ES as (v & Ev & ES). apply oki in ES. subst q. split; [|discriminate]. symmetry in EL. apply andb_prop in EL as [EM EI].
        apply Nat.eqb_eq in EI. apply Z.eqb_eq in EM. destruct (mode2_some EM) as [t EK]. simpl. unfold Rdiv. rewrite Rmult_comm. apply (bk_mul _ _ OK); [now rewrite <- EI|].
        rewrite <- EI. apply (HT _ _ _ _ Ev). destruct HD as (_ & _ & M2 & _). apply (M2 t EK). apply (Hz t EK).
      * apply oki in ES. subst q. simpl. split; [|intros _; now rewrite Nat.sub_0_r]. unfold Rdiv. rewrite Rmult_comm. apply (bk_mul _ _ OK); auto.
Qed.
(* the plain loop *)
Lemma tay_plain {St} (stp : nat -> bool -> St -> res (B * St)) X f ka r0 st r : Rep X f -> tay stp m D (length X) (ps_h X) (length X - 1) 1 [t1] [r0] st = Ok r ->
  forall c0, dev_ok X f c0 -> loopsem stp X (fun t => f t - c0) (ka c0) r0 st r True.
Proof. intros HX E c0 HD. apply (tay_loopsem stp X (ps_h X)); auto; [now apply (Rep_len X f)|apply HD]. Qed.
Lemma gen_exp X f e r P : (1 <= length X)%nat -> bfun Aexp (at_ X 0) = Ok e -> Rep X f ->
  (forall c0, dev_ok X f c0 -> loopsem (step_fact X D (fun _ => bfun Aexp) (fun _ => e)) X (fun t => f t - c0) (fun j => exp c0 / INR (fact j)) e (t1 (B:=B)) r P) ->
  Rep r (fun t => exp (f t)) /\ P.
Proof.
  intros LX Ee HX HL. destruct (Rep_split X f HX) as [c0 HD]. specialize (HL c0 HD).
  assert (R0 : rel e (exp c0)) by (apply (bk_fun _ _ OK _ _ _ _ Ee); [apply HD|exact I]).
  refine (fact_gen (fun _ => exp) _ _ X f c0 e r P fam_exp HX HD _ _ _ HL); auto. intros j V U v EV HV. apply (bk_fun _ _ OK _ _ _ _ EV HV I).
Qed.
Lemma Rep_exp X Y f : ps_exp m D X = Ok Y -> Rep X f -> Rep Y (fun t => exp (f t)).
Proof.
  intros E HX. destruct X as [|a X]; [discriminate|]. unfold ps_exp in E. apply bind_ok in E as (e & Ee & E). apply ps_tay_inv in E as (r & Er & ->).
  apply Rep_mul1. apply (gen_exp (a :: X) f e r True); auto; [simpl; lia|]. apply (tay_plain _ _ f (fun c0 j => exp c0 / INR (fact j)) _ _ _ HX Er).
Qed.
Lemma sinF_mod j v : sinF j v = match (j mod 4)%nat with 0%nat => sin v | 1%nat => cos v | 2%nat => - sin v | _ => - cos v end.
Proof.
  assert (P : forall q j, sinF (j + 4 * q) v = sinF j v).
  { induction q; intros i; [f_equal; lia|]. replace (i + 4 * S q)%nat with (S (S (S (S (i + 4 * q))))) by lia. cbn [sinF]. rewrite IHq. ring. }
  rewrite (Nat.div_mod j 4) at 1 by lia. rewrite Nat.add_comm, P. pose proof (Nat.mod_upper_bound j 4 ltac:(lia)).
  destruct (j mod 4)%nat as [|[|[|[|]]]]; simpl; try lra; lia.
Qed.
Lemma cosF_mod j v : cosF j v = match (j mod 4)%nat with 0%nat => cos v | 1%nat => - sin v | 2%nat => - cos v | _ => sin v end.
Proof.
  assert (P : forall q j, cosF (j + 4 * q) v = cosF j v).
  { induction q; intros i; [f_equal; lia|]. replace (i + 4 * S q)%nat with (S (S (S (S (i + 4 * q))))) by lia. unfold cosF in *. cbn [sinF]. specialize (IHq i).
    cbn [sinF] in IHq. rewrite IHq. ring. }
  rewrite (Nat.div_mod j 4) at 1 by lia. rewrite Nat.add_comm, P. pose proof (Nat.mod_upper_bound j 4 ltac:(lia)).
  destruct (j mod 4)%nat as [|[|[|[|]]]]; unfold cosF; simpl; try lra; lia.
Qed.
Ltac bf OK := match goal with H : bfun ?f ?V = Ok ?U, HV : rel ?V ?v |- rel ?U ?g => exact (bk_fun _ _ OK f V U v H HV I) end.
Ltac bfn OK := match goal with H : bind (bfun ?f ?V) _ = Ok ?U |- _ => let s := fresh in let Es := fresh in apply bind_ok in H as (s & Es & H); apply oki in H; subst U; apply (bk_neg _ _ OK) end.
Lemma gen_sin X f si co r P : (1 <= length X)%nat -> bfun Asin (at_ X 0) = Ok si -> bfun Acos (at_ X 0) = Ok co -> Rep X f ->
  (forall c0, dev_ok X f c0 -> loopsem (step_fact X D tab_sin (tab4 si co (bneg si) (bneg co))) X (fun t => f t - c0) (fun j => sinF j c0 / INR (fact j)) si (t1 (B:=B)) r P) ->
  Rep r (fun t => sin (f t)) /\ P.
Proof.
  intros LX E1 E2 HX HL. destruct (Rep_split X f HX) as [c0 HD]. specialize (HL c0 HD).
  pose proof (proj1 HD) as Ra. assert (Rs : rel si (sin c0)) by bf OK. assert (Rc : rel co (cos c0)) by bf OK.
  refine (fact_gen sinF _ _ X f c0 si r P fam_sin HX HD _ _ _ HL); auto.
  - intros j V U v EV HV. rewrite sinF_mod. unfold tab_sin in EV. destruct (j mod 4)%nat as [|[|[|]]]; try bfn OK; bf OK.
  - intros j. rewrite sinF_mod. unfold tab4. destruct (j mod 4)%nat as [|[|[|]]]; auto; now apply (bk_neg _ _ OK).
Qed.
Lemma Rep_sin X Y f : ps_sin m D X = Ok Y -> Rep X f -> Rep Y (fun t => sin (f t)).
Proof.
  intros E HX. destruct X as [|a X]; [discriminate|]. unfold ps_sin in E. apply bind_ok in E as (si & E1 & E). apply bind_ok in E as (co & E2 & E). apply ps_tay_inv in E as (r & Er & ->).
  apply Rep_mul1. apply (gen_sin (a :: X) f si co r True); auto; [simpl; lia|]. apply (tay_plain _ _ f (fun c0 j => sinF j c0 / INR (fact j)) _ _ _ HX Er).
Qed.
Lemma gen_cos X f co si r P : (1 <= length X)%nat -> bfun Acos (at_ X 0) = Ok co -> bfun Asin (at_ X 0) = Ok si -> Rep X f ->
  (forall c0, dev_ok X f c0 -> loopsem (step_fact X D tab_cos (tab4 co (bneg si) (bneg co) (bneg (bneg si)))) X (fun t => f t - c0) (fun j => cosF j c0 / INR (fact j)) co (t1 (B:=B)) r P) ->
  Rep r (fun t => cos (f t)) /\ P.
Proof.
  intros LX E1 E2 HX HL. destruct (Rep_split X f HX) as [c0 HD]. specialize (HL c0 HD).
  pose proof (proj1 HD) as Ra. assert (Rs : rel si (sin c0)) by bf OK. assert (Rc : rel co (cos c0)) by bf OK.
  refine (fact_gen cosF _ _ X f c0 co r P fam_cos HX HD _ _ _ HL); auto.
  - intros j V U v EV HV. rewrite cosF_mod. unfold tab_cos in EV. destruct (j mod 4)%nat as [|[|[|]]]; try bfn OK; bf OK.
  - intros j. rewrite cosF_mod. unfold tab4. destruct (j mod 4)%nat as [|[|[|]]]; auto; try now apply (bk_neg _ _ OK).
    rewrite <- (Ropp_involutive (sin c0)). do 2 apply (bk_neg _ _ OK). auto.
Qed.
Lemma Rep_cos X Y f : ps_cos m D X = Ok Y -> Rep X f -> Rep Y (fun t => cos (f t)).
Proof.
  intros E HX. destruct X as [|a X]; [discriminate|]. unfold ps_cos in E. apply bind_ok in E as (co & E1 & E). apply bind_ok in E as (si & E2 & E). apply ps_tay_inv in E as (r & Er & ->).
  apply Rep_mul1. apply (gen_cos (a :: X) f co si r True); auto; [simpl; lia|]. apply (tay_plain _ _ f (fun c0 j => cosF j c0 / INR (fact j)) _ _ _ HX Er).
Qed.
Lemma gen_sinh X f si co r P : (1 <= length X)%nat -> bfun Asinh (at_ X 0) = Ok si -> bfun Acosh_ (at_ X 0) = Ok co -> Rep X f ->
  (forall c0, dev_ok X f c0 -> loopsem (step_fact X D tab_sinh (tab2 si co)) X (fun t => f t - c0) (fun j => shF j c0 / INR (fact j)) si (t1 (B:=B)) r P) ->
  Rep r (fun t => sinh (f t)) /\ P.
Proof.
  intros LX E1 E2 HX HL. destruct (Rep_split X f HX) as [c0 HD]. specialize (HL c0 HD).
  pose proof (proj1 HD) as Ra. assert (Rs : rel si (sinh c0)) by bf OK. assert (Rc : rel co (cosh c0)) by bf OK.
  refine (fact_gen shF _ _ X f c0 si r P fam_sinh HX HD _ _ _ HL); auto.
  - intros j V U v EV HV. unfold shF. unfold tab_sinh in EV. destruct (Nat.even j); bf OK.
  - intros j. unfold shF, tab2. now destruct (Nat.even j).
Qed.
Lemma Rep_sinh X Y f : ps_sinh m D X = Ok Y -> Rep X f -> Rep Y (fun t => sinh (f t)).
Proof.
  intros E HX. destruct X as [|a X]; [discriminate|]. unfold ps_sinh in E. apply bind_ok in E as (si & E1 & E). apply bind_ok in E as (co & E2 & E). apply ps_tay_inv in E as (r & Er & ->).
  apply Rep_mul1. apply (gen_sinh (a :: X) f si co r True); auto; [simpl; lia|]. apply (tay_plain _ _ f (fun c0 j => shF j c0 / INR (fact j)) _ _ _ HX Er).
Qed.
Lemma gen_cosh X f co si r P : (1 <= length X)%nat -> bfun Acosh_ (at_ X 0) = Ok co -> bfun Asinh (at_ X 0) = Ok si -> Rep X f ->
  (forall c0, dev_ok X f c0 -> loopsem (step_fact X D tab_cosh (tab2 co si)) X (fun t => f t - c0) (fun j => shF (S j) c0 / INR (fact j)) co (t1 (B:=B)) r P) ->
  Rep r (fun t => cosh (f t)) /\ P.
Proof.
  intros LX E1 E2 HX HL. destruct (Rep_split X f HX) as [c0 HD]. specialize (HL c0 HD).
  pose proof (proj1 HD) as Ra. assert (Rs : rel si (sinh c0)) by bf OK. assert (Rc : rel co (cosh c0)) by bf OK.
  assert (EF : forall j v, shF (S j) v = if Nat.even j then cosh v else sinh v).
  { intros. unfold shF. rewrite Nat.even_succ, <- Nat.negb_even. now destruct (Nat.even j). }
  refine (fact_gen (fun j => shF (S j)) _ _ X f c0 co r P fam_cosh HX HD _ _ _ HL); auto.
  - intros j V U v EV HV. rewrite EF. unfold tab_cosh in EV. destruct (Nat.even j); bf OK.
  - intros j. rewrite EF. unfold tab2. now destruct (Nat.even j).
Qed.
Lemma Rep_cosh X Y f : ps_cosh m D X = Ok Y -> Rep X f -> Rep Y (fun t => cosh (f t)).
Proof.
  intros E HX. destruct X as [|a X]; [discriminate|]. unfold ps_cosh in E. apply bind_ok in E as (co & E1 & E). apply bind_ok in E as (si & E2 & E). apply ps_tay_inv in E as (r & Er & ->).
  apply Rep_mul1. apply (gen_cosh (a :: X) f co si r True); auto; [simpl; lia|]. apply (tay_plain _ _ f (fun c0 j => shF (S j) c0 / INR (fact j)) _ _ _ HX Er).
Qed.

Lemma gen_inv X1 f a ia x2 r P : at_ X1 0 = a -> bSdiv 1 0 a = Ok ia -> (if (m =? 2)%Z then bSdiv 1 0 (ps_eval X1 D) else Ok t0) = Ok x2 -> Rep X1 f ->
  (forall c0, dev_ok X1 f c0 -> loopsem (step_inv m a (ps_eval X1 D)) X1 (fun t => (f t - c0) / c0) (fun j => (-1) ^ j / c0) ia (ia, x2) r P) ->
  Ev k (fun t => f t <> 0) /\ Rep r (fun t => / f t) /\ P.
Proof.
  intros EA Eia Ex2 HX HL. destruct (Rep_split X1 f HX) as [c0 HD]. specialize (HL c0 HD). pose proof (Rep_len _ _ HX) as LX.
  pose proof (proj1 HD) as Ra. rewrite EA in Ra. assert (L1 : lit 1 0) by (apply lit_int; lia).
  destruct (bk_Sdiv _ _ OK _ _ _ _ _ L1 Eia Ra) as [NZ Ria]. rewrite dy_int in Ria.
  assert (RG : forall t z, k = Some t -> mix c0 (f (fst t)) z -> z <> 0 /\ rel x2 (/ z)).
  { intros t z EK Hz. destruct (mode_some t EK) as (M & _). rewrite M in Ex2. simpl in Ex2.
    pose proof (proj1 (proj1 (proj2 (proj2 HD)) t EK) z Hz) as Rz. destruct (bk_Sdiv _ _ OK _ _ _ _ _ L1 Ex2 Rz) as [NZz R2]. rewrite dy_int in R2.
    split; auto. unfold Rdiv in R2. now rewrite Rmult_1_l in R2. }
  assert (DM : domok (fun y => y <> 0) f c0). { split; [intros t EK z Hz; apply (RG t z EK Hz)|now apply open_neq]. }
  split; [now apply (domok_Ev (fun y => y <> 0) X1 f c0)|].
  cut (Rep r (fun t => invF 0 (f t)) /\ P). { intros [HR HP]. split; auto. revert HR. apply Rep_eq. intros; apply invF_0. }
  apply (tay_comp (step_inv m a (ps_eval X1 D)) invF (fun y => y <> 0) X1 f c0 (fun t => (f t - c0) / c0) (fun j => (-1) ^ j / c0) ia (ia, x2) r P); auto.
  - apply fam_inv.
  - intros t EK _. apply (proj1 DM t EK).
  - intros _. apply (proj2 DM).
  - exact (near_one invF (fun y => y <> 0) X1 f c0 fam_inv HD DM).
  - intros j t. unfold invF, Rdiv. rewrite Rpow_mult_distr, pow_inv. simpl. field. nzs.
  - rewrite invF_0. unfold Rdiv in Ria. now rewrite Rmult_1_l in Ria.
  - intros z Hz Hz0. assert (NZz : z <> 0). { destruct k as [t|] eqn:EK; [apply (RG t z eq_refl (Hz t eq_refl))|rewrite Hz0 by auto; auto]. }
    exists (fun i st => rel (fst st) ((-1) ^ (i - 1) / c0) /\ (m = 2%Z -> rel (snd st) ((-1) ^ (i - 1) * c0 ^ (i - 1) / z ^ i))),
      ((-1) ^ (length X1 - 1) * c0 ^ (length X1 - 1) / z ^ (length X1)).
    split; [|split].
    + intros t. unfold invF, Rdiv. rewrite Rpow_mult_distr, pow_inv. replace (S (length X1 - 1)) with (length X1) by lia. field. nzs.
    + simpl. split; [exact Ria|]. intros M. destruct (mode2_some M) as [t EK]. destruct (RG t z EK (Hz t EK)) as [_ R2].
      replace (1 * 1 / (z * 1)) with (/ z) by (field; auto). auto.
    + intros i last [xn xn2] q Hi EL [I1 I2] ES. simpl in I1, I2. simpl in ES.
      assert (NX : forall x2', m = 2%Z -> (do q0 <- bdiv (bneg xn2) (ps_eval X1 D); Ok (bmul q0 a)) = Ok x2' -> rel x2' ((-1) ^ i * c0 ^ i / z ^ S i)).
      { intros x2' M Ex. destruct (mode2_some M) as [t EK]. apply bind_ok in Ex as (q0 & Eq0 & Ex). apply oki in Ex. subst x2'.
        pose proof (proj1 (proj1 (proj2 (proj2 HD)) t EK) z (Hz t EK)) as Rz. specialize (I2 M). apply (bk_neg _ _ OK) in I2.
        destruct (bk_div _ _ OK _ _ _ _ _ Eq0 I2 Rz) as [_ R3]. pose proof (bk_mul _ _ OK _ _ _ _ R3 Ra) as R4.
        replace ((-1) ^ i * c0 ^ i / z ^ S i) with (- ((-1) ^ (i - 1) * c0 ^ (i - 1) / z ^ i) / z * c0); auto.
        replace ((-1) ^ i) with (-1 * (-1) ^ (i - 1)) by (replace i with (S (i - 1)) at 2 by lia; reflexivity).
        replace (c0 ^ i) with (c0 * c0 ^ (i - 1)) by (replace i with (S (i - 1)) at 2 by lia; reflexivity). simpl. field. nzs. }
      destruct last.
      * symmetry in EL. apply andb_prop in EL as [EM EI]. apply Nat.eqb_eq in EI. apply Z.eqb_eq in EM.
        apply bind_ok in ES as (y2 & Ey & ES). apply oki in ES. subst q. split; [|discriminate]. simpl. rewrite <- EI. replace (length X1) with (S i) by lia. now apply NX.
      * apply bind_ok in ES as (y2 & Ey & ES). apply oki in ES. subst q. simpl. rewrite Nat.sub_0_r.
        assert (R1 : rel (bneg xn) ((-1) ^ i / c0)).
        { replace ((-1) ^ i / c0) with (- ((-1) ^ (i - 1) / c0)); [now apply (bk_neg _ _ OK)|].
          replace ((-1) ^ i) with (-1 * (-1) ^ (i - 1)) by (replace i with (S (i - 1)) at 2 by lia; reflexivity). field. auto. }
        split; auto. intros _. split; auto. intros M. rewrite M in Ey. simpl in Ey. now apply NX.
Qed.
Lemma Rep_inv X Y f : ps_inv m D X = Ok Y -> Rep X f -> Ev k (fun t => f t <> 0) /\ Rep Y (fun t => / f t).
Proof.
  intros E HX. destruct X as [|a X]; [discriminate|]. unfold ps_inv in E.
  apply bind_ok in E as (ia & Eia & E). apply bind_ok in E as (x2 & Ex2 & E). apply bind_ok in E as (g & Eg & E). apply ps_tay_inv in E as (r & Er & ->).
  destruct (gen_inv (a :: X) f a ia x2 r True eq_refl Eia Ex2 HX) as (N & R & _).
  - intros c0 HD. pose proof (proj1 HD : rel a c0) as Ra. destruct (Rep_divT _ _ _ _ _ Eg Ra (proj1 (proj2 HD))) as [_ HG].
    apply (tay_loopsem _ _ g); auto. simpl; lia.
  - split; auto. now apply Rep_mul1.
Qed.
Lemma Rep_Tdiv A a X Y f : ps_Tdiv m D A X = Ok Y -> rel A a -> Rep X f -> Ev k (fun t => f t <> 0) /\ Rep Y (fun t => a / f t).
Proof.
  intros E HA HX. unfold ps_Tdiv in E. apply bind_ok in E as (i & Ei & E). apply oki in E. subst Y. destruct (Rep_inv _ _ _ Ei HX) as [N R].
  split; auto. now apply Rep_Tmul.
Qed.
Lemma Rep_div X Y U f g : ps_div m D X Y = Ok U -> Rep X f -> Rep Y g -> Ev k (fun t => g t <> 0) /\ Rep U (fun t => f t / g t).
Proof.
  intros E HX HY. unfold ps_div in E. apply bind_ok in E as (i & Ei & E). destruct (Rep_inv _ _ _ Ei HY) as [N R].
  split; auto. now apply (Rep_mul _ _ _ _ _ E).
Qed.
Lemma gen_sqrt X1 f a sa xn x2 r P : at_ X1 0 = a -> bfun Asqrt a = Ok sa -> bSdiv 1 0 (bSmul 2 0 sa) = Ok xn ->
  (if (m =? 2)%Z then do sr <- bfun Asqrt (ps_eval X1 D); bSdiv 1 0 (bSmul 2 0 sr) else Ok t0) = Ok x2 -> Rep X1 f ->
  (forall c0, dev_ok X1 f c0 -> loopsem (step_sqrt m a (ps_eval X1 D)) X1 (fun t => f t - c0) (fun j => sqrtF j c0 / INR (fact j)) sa (xn, x2) r P) ->
  Ev k (fun t => 0 < f t) /\ Rep r (fun t => sqrt (f t)) /\ P.
Proof.
  intros EA Esa Exn Ex2 HX HL. destruct (Rep_split X1 f HX) as [c0 HD]. specialize (HL c0 HD). pose proof (Rep_len _ _ HX) as LX.
  pose proof (proj1 HD) as Ra. rewrite EA in Ra. assert (L1 : lit 1 0) by (apply lit_int; lia). assert (L2 : lit 2 0) by (apply lit_int; lia).
  assert (HH : forall A S U c, rel A c -> bfun Asqrt A = Ok S -> bSdiv 1 0 (bSmul 2 0 S) = Ok U -> 0 < c /\ rel S (sqrt c) /\ rel U (sqrtF 1 c / INR (fact 1))).
  { intros A S U c RA ES EU. pose proof (bk_dom _ _ OK _ _ _ _ ES RA) as DC. simpl in DC. pose proof (bk_fun _ _ OK _ _ _ _ ES RA DC) as RS. simpl in RS.
    pose proof (bk_Smul _ _ OK _ _ _ _ L2 RS) as R2. destruct (bk_Sdiv _ _ OK _ _ _ _ _ L1 EU R2) as [NZ RU]. rewrite !dy_int in *.
    assert (0 < c). { destruct DC as [|<-]; auto. rewrite sqrt_0 in NZ. lra. }
    assert (SP : 0 < sqrt c) by now apply sqrt_lt_R0. split; auto. split; auto. replace (sqrtF 1 c / INR (fact 1)) with (1 / (2 * sqrt c)); auto.
    unfold sqrtF. simpl. rewrite <- (sqrt_sqrt c) at 3 by lra. field. lra. }
  destruct (HH _ _ _ _ Ra Esa Exn) as (Pc & Rsa & Rxn).
  assert (RG : forall t z, k = Some t -> mix c0 (f (fst t)) z -> 0 < z /\ rel x2 (sqrtF 1 z / INR (fact 1))).
  { intros t z EK Hz. destruct (mode_some t EK) as (M & _). rewrite M in Ex2. simpl in Ex2. apply bind_ok in Ex2 as (sr & Esr & Ex2).
    pose proof (proj1 (proj1 (proj2 (proj2 HD)) t EK) z Hz) as Rz. destruct (HH _ _ _ _ Rz Esr Ex2) as (P2 & _ & R2). auto. }
  assert (DM : domok (fun y => 0 < y) f c0). { split; [intros t EK z Hz; apply (RG t z EK Hz)|now apply open_pos]. }
  split; [now apply (domok_Ev (fun y => 0 < y) X1 f c0)|].
  assert (E0 : forall y, sqrtF 0 y = sqrt y) by (intros; unfold sqrtF; simpl; field).
  cut (Rep r (fun t => sqrtF 0 (f t)) /\ P). { intros [HR HP]. split; auto. revert HR. apply Rep_eq. auto. }
  apply (tay_comp (step_sqrt m a (ps_eval X1 D)) sqrtF (fun y => 0 < y) X1 f c0 (fun t => f t - c0) (fun j => sqrtF j c0 / INR (fact j)) sa (xn, x2) r P); auto.
  - apply fam_sqrt.
  - intros t EK _. apply (proj1 DM t EK).
  - intros _. apply (proj2 DM).
  - exact (near_one sqrtF (fun y => 0 < y) X1 f c0 fam_sqrt HD DM).
  - now rewrite E0.
  - intros z Hz Hz0. assert (NZz : 0 < z). { destruct k as [t|] eqn:EK; [apply (RG t z eq_refl (Hz t eq_refl))|rewrite Hz0 by auto; auto]. }
    exists (fun i st => rel (fst st) (sqrtF i c0 / INR (fact i)) /\ (m = 2%Z -> rel (snd st) (sqrtF i z / INR (fact i)))),
      (sqrtF (length X1 - 1) z / INR (fact (length X1 - 1))).
    split; [auto|split].
    + split; [exact Rxn|]. intros M. destruct (mode2_some M) as [t EK]. apply (RG t z EK (Hz t EK)).
    + intros i last [y1 y2] q Hi EL [I1 I2] ES. simpl in I1, I2. unfold step_sqrt in ES.
      assert (NX : forall x A c u, 0 < c -> rel A c -> rel x (sqrtF i c / INR (fact i)) ->
         (do q0 <- bSdiv (1 - 2 * Z.of_nat i) (-1) A; do q1 <- bdivS q0 (Z.of_nat i + 1) 0; Ok (bmul x q1)) = Ok u -> rel u (sqrtF (S i) c / INR (fact (S i)))).
      { intros x A c u Pcc RA Rx Eu. apply bind_ok in Eu as (q0 & Eq0 & Eu). apply bind_ok in Eu as (q1 & Eq1 & Eu). apply oki in Eu. subst u.
        destruct (nat_lit X1 f i HX ltac:(lia)) as (_ & Lh & Lp). destruct (bk_Sdiv _ _ OK _ _ _ _ _ Lh Eq0 RA) as [_ R0].
        destruct (bk_divS _ _ OK _ _ _ _ _ Lp Eq1 R0) as [_ R1]. pose proof (bk_mul _ _ OK _ _ _ _ Rx R1) as R2.
        replace (sqrtF (S i) c / INR (fact (S i))) with (sqrtF i c / INR (fact i) * (dy (1 - 2 * Z.of_nat i) (-1) / c / dy (Z.of_nat i + 1) 0)); auto.
        rewrite dy_int, plus_IZR, <- INR_IZR_INZ, fact_simpl, mult_INR, S_INR. unfold dy. rewrite minus_IZR, mult_IZR, <- INR_IZR_INZ.
        change (Raux.bpow Zaux.radix2 (-1)) with (/ 2). unfold sqrtF. simpl bj. simpl pow. pose proof (pos_INR i). field. nzs. }
      destruct last.
      * symmetry in EL. apply andb_prop in EL as [EM EI]. apply Nat.eqb_eq in EI. apply Z.eqb_eq in EM.
        apply oki in ES. subst q. split; [|discriminate]. simpl. rewrite <- EI. auto.
      * apply bind_ok in ES as (u1 & Eu1 & ES). apply bind_ok in ES as (u2 & Eu2 & ES). apply oki in ES. subst q. simpl. split; auto. intros _.
        split; [now apply (NX _ _ _ _ Pc Ra I1)|]. intros M. specialize (I2 M). rewrite M in Eu2. simpl in Eu2. destruct (mode2_some M) as [t EK].
        pose proof (proj1 (proj1 (proj2 (proj2 HD)) t EK) z (Hz t EK)) as Rz. now apply (NX _ _ _ _ NZz Rz I2).
Qed.
Lemma Rep_sqrt X Y f : ps_sqrt m D X = Ok Y -> Rep X f -> Ev k (fun t => 0 < f t) /\ Rep Y (fun t => sqrt (f t)).
Proof.
  intros E HX. destruct X as [|a X]; [discriminate|]. unfold ps_sqrt in E.
  apply bind_ok in E as (sa & Esa & E). apply bind_ok in E as (xn & Exn & E). apply bind_ok in E as (x2 & Ex2 & E). apply ps_tay_inv in E as (r & Er & ->).
  destruct (gen_sqrt (a :: X) f a sa xn x2 r True eq_refl Esa Exn Ex2 HX) as (N & R & _).
  - apply (tay_plain _ _ f (fun c0 j => sqrtF j c0 / INR (fact j)) _ _ _ HX Er).
  - split; auto. now apply Rep_mul1.
Qed.
Lemma dev_0 X f c0 : dev_ok X f c0 -> k = None -> f 0 = c0.
Proof.
  intros (_ & _ & _ & M1) EK. destruct (M1 EK) as [(M & d & Hd & H) _]. specialize (H 0). rewrite Rabs_R0 in H. simpl in H.
  specialize (H Hd). rewrite Rmult_0_l, Rmult_0_r in H. pose proof (Rabs_pos (f 0 - c0)). assert (Rabs (f 0 - c0) = 0) by lra.
  apply Rabs_eq_0 in H1. lra.
Qed.
Lemma gen_log X1 f a l r P : at_ X1 0 = a -> bfun Alog a = Ok l -> Rep X1 f -> (length X1 = 1%nat -> 0 < f (match k with Some p => fst p | None => 0 end)) ->
  (forall c0, dev_ok X1 f c0 -> loopsem (step_log m a (ps_eval X1 D)) X1 (fun t => f t - c0) (fun j => logF j c0 / INR (fact j)) l (bneg (t1 (B:=B)), bneg (t1 (B:=B))) r P) ->
  Ev k (fun t => 0 < f t) /\ Rep r (fun t => ln (f t)) /\ P.
Proof.
  intros EA El HX HP HL. destruct (Rep_split X1 f HX) as [c0 HD]. specialize (HL c0 HD). pose proof (Rep_len _ _ HX) as LX.
  pose proof (proj1 HD) as Ra. rewrite EA in Ra.
  pose proof (bk_dom _ _ OK _ _ _ _ El Ra) as DC. simpl in DC.
  assert (Rm1 : rel (bneg t1) (-1)) by (replace (-1) with (- (1)) by ring; apply (bk_neg _ _ OK), rel1).
  assert (DM : 0 < c0 /\ forall t z, k = Some t -> mix c0 (f (fst t)) z -> 0 < z).
  { destruct (Nat.eq_dec (length X1) 1) as [L|L].
    - specialize (HP L). destruct k as [t|] eqn:EK.
      + pose proof (proj1 (proj2 (proj1 (proj2 (proj2 HD)) t EK)) L) as E0. rewrite E0 in HP. split; auto. intros t' z [= <-]. rewrite E0. unfold mix. lra.
      + split; [|discriminate]. rewrite <- (dev_0 X1 f c0 HD EK). exact HP.
    - destruct (proj1 HL ltac:(lia)) as (q & Eq). unfold step_log in Eq.
      destruct k as [t|] eqn:EK.
      + destruct (mode_some t EK) as (M & _).
        assert (DV : exists u, bdiv (bneg (bneg t1)) (ps_eval X1 D) = Ok u).
        { rewrite M in Eq. destruct (1 =? length X1 - 1)%nat; cbn [Z.eqb andb] in Eq; simpl in Eq.
          - apply bind_ok in Eq as (u & Eu & _). eauto.
          - apply bind_ok in Eq as (u1 & _ & Eq). apply bind_ok in Eq as (u & Eu & _). eauto. }
        destruct DV as [u Eu]. apply (bk_neg _ _ OK) in Rm1.
        assert (NZ : forall z, mix c0 (f (fst t)) z -> z <> 0).
        { intros z Hz. pose proof (proj1 (proj1 (proj2 (proj2 HD)) t EK) z Hz) as Rz. apply (bk_div _ _ OK _ _ _ _ _ Eu Rm1 Rz). }
        assert (P0 : 0 < c0). { assert (c0 <> 0) by (apply NZ; unfold mix; destruct (Rle_dec c0 (f (fst t))); lra). lra. }
        split; auto. intros t' z [= <-] Hz. destruct (Rlt_dec 0 z); auto. exfalso. apply (NZ 0); auto. unfold mix in *. lra.
      + split; [|discriminate]. rewrite (mode_none EK) in Eq. simpl in Eq. apply bind_ok in Eq as (u & Eu & _).
        apply (bk_neg _ _ OK) in Rm1. pose proof (proj1 (bk_div _ _ OK _ _ _ _ _ Eu Rm1 Ra)). lra. }
  destruct DM as [Pc RG].
  assert (DM : domok (fun y => 0 < y) f c0). { split; [intros t EK z Hz; apply (RG t z EK Hz)|now apply open_pos]. }
  split; [now apply (domok_Ev (fun y => 0 < y) X1 f c0)|].
  assert (Rl : rel l (ln c0)) by (apply (bk_fun _ _ OK _ _ _ _ El Ra); exact Pc).
  assert (HF : forall i y, (1 <= i)%nat -> 0 < y -> logF i y / INR (fact i) = (-1) ^ (i - 1) / y ^ i / INR i).
  { intros i y Hi Hy. replace i with (S (i - 1)) at 1 2 5 by lia. rewrite fact_simpl, mult_INR. simpl logF. unfold invF. replace (S (i - 1)) with i by lia.
    field. nzs. }
  cut (Rep r (fun t => logF 0 (f t)) /\ P). { intros [HR HP']. split; auto. }
  apply (tay_comp (step_log m a (ps_eval X1 D)) logF (fun y => 0 < y) X1 f c0 (fun t => f t - c0) (fun j => logF j c0 / INR (fact j)) l (bneg t1, bneg t1) r P); auto.
  - apply fam_log.
  - intros t EK _. apply (proj1 DM t EK).
  - intros _. apply (proj2 DM).
  - exact (near_one logF (fun y => 0 < y) X1 f c0 fam_log HD DM).
  - intros z Hz Hz0. assert (NZz : 0 < z). { destruct k as [t|] eqn:EK; [apply (RG t z eq_refl (Hz t eq_refl))|rewrite Hz0 by auto; auto]. }
    exists (fun i st => rel (fst st) (- (-1) ^ (i - 1) / c0 ^ (i - 1)) /\ (m = 2%Z -> rel (snd st) (- (-1) ^ (i - 1) / z ^ (i - 1)))),
      (logF (length X1 - 1) z / INR (fact (length X1 - 1))).
    split; [auto|split].
    + simpl. replace (- (1) / 1) with (-1) by field. auto.
    + intros i last [y1 y2] q Hi EL [I1 I2] ES. simpl in I1, I2. unfold step_log in ES.
      destruct (nat_lit X1 f i HX ltac:(lia)) as (Li & _).
      assert (NX : forall x A c u, 0 < c -> rel A c -> rel x (- (-1) ^ (i - 1) / c ^ (i - 1)) -> bdiv (bneg x) A = Ok u -> rel u ((-1) ^ (i - 1) / c ^ i)).
      { intros x A c u Pcc RA Rx Eu. apply (bk_neg _ _ OK) in Rx. destruct (bk_div _ _ OK _ _ _ _ _ Eu Rx RA) as [_ R].
        replace ((-1) ^ (i - 1) / c ^ i) with (- (- (-1) ^ (i - 1) / c ^ (i - 1)) / c); auto. replace i with (S (i - 1)) at 4 by lia. simpl. field. nzs. }
      assert (NK : forall u c w, 0 < c -> rel u ((-1) ^ (i - 1) / c ^ i) -> bdivS u (Z.of_nat i) 0 = Ok w -> rel w (logF i c / INR (fact i))).
      { intros u c w Pcc Ru Ew. destruct (bk_divS _ _ OK _ _ _ _ _ Li Ew Ru) as [_ R]. rewrite dy_nat in R. rewrite HF by (auto; lia). exact R. }
      assert (NS : forall c, 0 < c -> - (-1) ^ (S i - 1) / c ^ (S i - 1) = (-1) ^ (i - 1) / c ^ i).
      { intros c Pcc. replace (S i - 1)%nat with i by lia. replace i with (S (i - 1)) at 1 by lia. simpl. field. apply pow_nonzero; lra. }
      destruct last.
      * symmetry in EL. apply andb_prop in EL as [EM EI]. apply Nat.eqb_eq in EI. apply Z.eqb_eq in EM. destruct (mode2_some EM) as [t EK].
        pose proof (proj1 (proj1 (proj2 (proj2 HD)) t EK) z (Hz t EK)) as Rz.
        apply bind_ok in ES as (u2 & Eu2 & ES). apply bind_ok in ES as (w & Ew & ES). apply oki in ES. subst q. split; [|discriminate]. simpl. rewrite <- EI.
        apply (NK u2); auto. now apply (NX _ _ _ _ NZz Rz (I2 EM)).
      * apply bind_ok in ES as (u1 & Eu1 & ES). apply bind_ok in ES as (u2 & Eu2 & ES). apply bind_ok in ES as (w & Ew & ES). apply oki in ES. subst q. cbn [fst snd].
        pose proof (NX _ _ _ _ Pc Ra I1 Eu1) as R1. split; [now apply (NK u1)|]. intros _. rewrite (NS c0 Pc), (NS z NZz). split; auto.
        intros M. specialize (I2 M). rewrite M in Eu2. simpl in Eu2. destruct (mode2_some M) as [t EK].
        pose proof (proj1 (proj1 (proj2 (proj2 HD)) t EK) z (Hz t EK)) as Rz. now apply (NX _ _ _ _ NZz Rz I2).
Qed.
Lemma Rep_log X Y f : ps_log m D X = Ok Y -> Rep X f -> (length X = 1%nat -> forall t, 0 < f t) -> Ev k (fun t => 0 < f t) /\ Rep Y (fun t => ln (f t)).
Proof.
  intros E HX HP. destruct X as [|a X]; [discriminate|]. unfold ps_log in E. apply bind_ok in E as (l & El & E). apply ps_tay_inv in E as (r & Er & ->).
  destruct (gen_log (a :: X) f a l r True eq_refl El HX) as (N & R & _).
  - intros L. now apply HP.
  - apply (tay_plain _ _ f (fun c0 j => logF j c0 / INR (fact j)) _ _ _ HX Er).
  - split; auto. now apply Rep_mul1.
Qed.
Lemma Rep_pow_loop p r xp Y f g : ps_pow_loop m D p r xp = Ok Y -> Rep r f -> Rep xp g -> Rep Y (fun t => f t * g t ^ Pos.to_nat p).
Proof.
  revert r xp f g. induction p; cbn [ps_pow_loop]; intros r xp f g E Hr Hx.
  - apply bind_ok in E as (r' & Er & E). apply bind_ok in E as (x2 & Ex & E).
    apply (Rep_eq _ (fun t => f t * g t * (g t * g t) ^ Pos.to_nat p)).
    + intros t. rewrite Pos2Nat.inj_xI. simpl pow. replace (Pos.to_nat p + (Pos.to_nat p + 0))%nat with (Pos.to_nat p + Pos.to_nat p)%nat by lia.
      rewrite Rpow_mult_distr, pow_add. ring.
    + apply (IHp _ _ _ _ E); [now apply (Rep_mul _ _ _ _ _ Er)|now apply (Rep_mul _ _ _ _ _ Ex)].
  - apply bind_ok in E as (x2 & Ex & E).
    apply (Rep_eq _ (fun t => f t * (g t * g t) ^ Pos.to_nat p)).
    + intros t. rewrite Pos2Nat.inj_xO. replace (2 * Pos.to_nat p)%nat with (Pos.to_nat p + Pos.to_nat p)%nat by lia.
      rewrite Rpow_mult_distr, pow_add. ring.
    + apply (IHp _ _ _ _ E); auto. now apply (Rep_mul _ _ _ _ _ Ex).
  - apply (Rep_eq _ (fun t => f t * g t)); [intros; change (Pos.to_nat 1) with 1%nat; ring|]. now apply (Rep_mul _ _ _ _ _ E).
Qed.
Lemma Rep_powi X n Y f : ps_powi m D X n = Ok Y -> Rep X f -> ((n < 0)%Z -> Ev k (fun t => f t <> 0)) /\ Rep Y (fun t => powerRZ (f t) n).
Proof.
  intros E HX. unfold ps_powi in E. pose proof (Rep_cst _ _ rel1) as H1. destruct n as [|p|p].
  - split; [lia|]. apply oki in E. subst Y. exact H1.
  - split; [lia|]. apply (Rep_eq _ (fun t => 1 * f t ^ Pos.to_nat p)); [intros; simpl; ring|]. now apply (Rep_pow_loop _ _ _ _ _ _ E).
  - apply bind_ok in E as (r & Er & E). pose proof (Rep_pow_loop _ _ _ _ _ _ Er H1 HX) as Hr. destruct (Rep_Tdiv _ _ _ _ _ E rel1 Hr) as [N R]. split.
    + intros _. revert N. apply Ev_imp. intros t N F0. apply N. rewrite F0, pow_i by lia. ring.
    + revert R. apply Rep_eq. intros t. simpl. unfold Rdiv. now rewrite !Rmult_1_l.
Qed.
Lemma Rep_sc o c e X Y f : ps_sc o c e m D X = Ok Y -> lit c e -> Rep X f ->
  Ev k (fun t => match o with SOdiv => dy c e <> 0 | SOdivr => f t <> 0 | _ => True end) /\ Rep Y (fun t => scv o c e (f t)).
Proof.
  intros E L HX. pose proof (bk_cst _ _ OK _ _ L) as RC. unfold ps_sc in E. destruct o.
  - split; [now apply Ev_all|]. apply (Rep_head _ _ _ _ _ E); auto. intros. now apply (bk_addS _ _ OK).
  - split; [now apply Ev_all|]. apply (Rep_eq _ (fun t => f t + dy c e)); [intros; simpl; ring|]. apply (Rep_head _ _ _ _ _ E); auto. intros. now apply (bk_addS _ _ OK).
  - split; [now apply Ev_all|]. apply (Rep_eq _ (fun t => f t + - dy c e)); [intros; simpl; ring|]. apply (Rep_head _ _ _ _ _ E); auto. intros. now apply (bk_subS _ _ OK).
  - split; [now apply Ev_all|]. apply (Rep_eq _ (fun t => - f t + dy c e)); [intros; simpl; ring|]. apply (Rep_head _ _ _ _ _ E); [intros; now apply (bk_addS _ _ OK)|].
    exact (Rep_neg _ _ HX).
  - split; [now apply Ev_all|]. apply oki in E. subst Y. now apply Rep_mulT.
  - split; [now apply Ev_all|]. apply oki in E. subst Y. now apply Rep_Tmul.
  - destruct (Rep_divT _ _ _ _ _ E RC HX) as [N R]. split; auto. now apply Ev_all.
  - destruct (Rep_Tdiv _ _ _ _ _ E RC HX) as [N R]. split; auto.
Qed.
(* 1/sqrt(1-t*t) and the like *)
Definition der_dom (f : afun) (x : R) : Prop :=
  match f with Aasin | Aacos => 0 < 1 - x * x | Aacosh => 0 < x * x - 1 | Aatanh => 1 - x * x <> 0 | _ => True end.
Definition is_arc (f : afun) : bool := match f with Aasin | Aacos | Aatan | Aasinh | Aacosh | Aatanh => true | _ => false end.
Lemma Rep_der g X Y f : is_arc g = true -> ps_der g m D X = Ok Y -> Rep X f -> Ev k (fun t => der_dom g (f t)) /\ Rep Y (fun t => fder g (f t)).
Proof.
  intros A E HX. unfold ps_der in E. apply bind_ok in E as (q & Eq & E). pose proof (Rep_mul _ _ _ _ _ Eq HX HX) as Hq. pose proof (Rep_neg _ _ Hq) as Hn.
  assert (L1 : lit 1 0) by (apply lit_int; lia). assert (AS : forall Z z, rel Z z -> rel (baddS Z 1 0) (z + 1)) by (intros; rewrite <- (dy_int 1); now apply (bk_addS _ _ OK)).
  assert (SS : forall Z z, rel Z z -> rel (bsubS Z 1 0) (z + -1)) by (intros; replace (z + -1) with (z - dy 1 0) by (rewrite dy_int; ring); now apply (bk_subS _ _ OK)).
  assert (RM : rel (bcst (-1) 0) (-1)) by (rewrite <- (dy_int (-1)); apply (bk_cst _ _ OK), lit_int; lia).
  destruct g; try discriminate.
  - apply bind_ok in E as (d & Ed & E). apply bind_ok in E as (sq & Es & E). pose proof (Rep_head _ _ _ _ _ Ed AS Hn) as Hd.
    destruct (Rep_sqrt _ _ _ Es Hd) as [P Hs]. destruct (Rep_Tdiv _ _ _ _ _ E rel1 Hs) as [_ R]. split; [revert P; apply Ev_imp; simpl; intros; lra|].
    revert R. apply Rep_eq. intros t. simpl. do 2 f_equal. ring.
  - apply bind_ok in E as (d & Ed & E). apply bind_ok in E as (sq & Es & E). pose proof (Rep_head _ _ _ _ _ Ed AS Hn) as Hd.
    destruct (Rep_sqrt _ _ _ Es Hd) as [P Hs]. destruct (Rep_Tdiv _ _ _ _ _ E RM Hs) as [_ R]. split; [revert P; apply Ev_imp; simpl; intros; lra|].
    revert R. apply Rep_eq. intros t. simpl. do 2 f_equal. ring.
  - apply bind_ok in E as (d & Ed & E). pose proof (Rep_head _ _ _ _ _ Ed AS Hq) as Hd.
    destruct (Rep_Tdiv _ _ _ _ _ E rel1 Hd) as [_ R]. split; [now apply Ev_all|].
    revert R. apply Rep_eq. intros t. simpl. f_equal. ring.
  - apply bind_ok in E as (d & Ed & E). apply bind_ok in E as (sq & Es & E). pose proof (Rep_head _ _ _ _ _ Ed AS Hq) as Hd.
    destruct (Rep_sqrt _ _ _ Es Hd) as [P Hs]. destruct (Rep_Tdiv _ _ _ _ _ E rel1 Hs) as [_ R]. split; [now apply Ev_all|].
    exact R.
  - apply bind_ok in E as (d & Ed & E). apply bind_ok in E as (sq & Es & E). pose proof (Rep_head _ _ _ _ _ Ed SS Hq) as Hd.
    destruct (Rep_sqrt _ _ _ Es Hd) as [P Hs]. destruct (Rep_Tdiv _ _ _ _ _ E rel1 Hs) as [_ R]. split; [revert P; apply Ev_imp; simpl; intros; lra|].
    exact R.
  - apply bind_ok in E as (d & Ed & E). pose proof (Rep_head _ _ _ _ _ Ed AS Hn) as Hd.
    destruct (Rep_Tdiv _ _ _ _ _ E rel1 Hd) as [N R]. split; [revert N; apply Ev_imp; simpl; intros; lra|].
    revert R. apply Rep_eq. intros t. simpl. f_equal. ring.
Qed.
(* the functions other than the inverse ones *)
Lemma Rep_fun_diff g X Y f : is_arc g = false -> ps_fun g m D X = Ok Y -> Rep X f -> (g = Alog -> length X = 1%nat -> forall t, 0 < f t) ->
  Ev k (fun t => fdiff g (f t)) /\ Rep Y (fun t => frl g (f t)).
Proof.
  intros A E HX HP. destruct g; try discriminate; cbn [ps_fun] in E.
  - split; [now apply Ev_all|]. now apply (Rep_exp _ _ _ E).
  - apply (Rep_log _ _ _ E HX). auto.
  - destruct (Rep_sqrt _ _ _ E HX) as [P R]. split; auto.
  - split; [now apply Ev_all|]. now apply (Rep_sin _ _ _ E).
  - split; [now apply Ev_all|]. now apply (Rep_cos _ _ _ E).
  - apply bind_ok in E as (si & Es & E). apply bind_ok in E as (co & Ec & E). apply (Rep_div _ _ _ _ _ E); [now apply (Rep_sin _ _ _ Es)|now apply (Rep_cos _ _ _ Ec)].
  - split; [now apply Ev_all|]. now apply (Rep_sinh _ _ _ E).
  - split; [now apply Ev_all|]. now apply (Rep_cosh _ _ _ E).
  - apply bind_ok in E as (si & Es & E). apply bind_ok in E as (co & Ec & E). split; [now apply Ev_all|].
    apply (Rep_div _ _ _ _ _ E); [now apply (Rep_sinh _ _ _ Es)|now apply (Rep_cosh _ _ _ Ec)].
Qed.
Lemma Rep_fun g X Y f : is_arc g = false -> ps_fun g m D X = Ok Y -> Rep X f -> (g = Alog -> length X = 1%nat -> forall t, 0 < f t) ->
  Ev k (fun t => fdom g (f t)) /\ Rep Y (fun t => frl g (f t)).
Proof. intros A E HX HP. destruct (Rep_fun_diff g X Y f A E HX HP) as [P R]. split; auto. revert P. apply Ev_imp. intros t. apply fdiff_dom. Qed.
Lemma Rep_pow X Y U f g : ps_pow m D X Y = Ok U -> Rep X f -> Rep Y g -> (length X = 1%nat -> forall t, 0 < f t) ->
  Ev k (fun t => 0 < f t) /\ Rep U (fun t => exp (g t * ln (f t))).
Proof.
  intros E HX HY HP. unfold ps_pow in E. apply bind_ok in E as (l & El & E). apply bind_ok in E as (p & Ep & E).
  destruct (Rep_log _ _ _ El HX HP) as [P Rl]. split; auto. apply (Rep_exp _ _ _ E). now apply (Rep_mul _ _ _ _ _ Ep).
Qed.
End Fix.
End PsaP.
