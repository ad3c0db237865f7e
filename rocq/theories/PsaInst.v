(* Power series arithmetic over the exact reals and over intervals: what a series represents, independent of the code. *)
From Coq Require Import Reals ZArith Bool List Lra Lia Psatz Arith.
From Coquelicot Require Import Coquelicot.
From Verif Require Import Ext Scalar IntervalModel IntervalSpec IntervalProofs IntervalEncl IntervalSets Backends ElemModel PropsElem.
From Verif Require Import RealFun ADModel ADReal ADProofs ADInst PsaModel PsaReal PsaProofs PsaExpr PsaInt PsaUse PsaUseProofs.
Import ListNotations.
Open Scope R_scope.

(* the i-th coefficient of the vector X contains c i, for every i *)
Definition cin_ {b} (X : list (iv (bscal b))) (c : nat -> R) : Prop :=
  forall i, (i < length X)%nat -> isin (nth i X (ipt (sdy 0 0))) (c i).
(* the value c_0 + c_1 t + ... for some coefficients in X *)
Definition repr {b} (X : list (iv (bscal b))) (t y : R) : Prop :=
  exists c, cin_ X c /\ y = rsum (fun i => c i * t ^ i) (length X).
(* X represents f on the domain D *)
Definition represents {b} (D : iv (bscal b)) (X : list (iv (bscal b))) (f : R -> R) : Prop := forall t, isin D t -> repr X t (f t).

Section Gen.
Variable B : base.
Variable rel : B -> R -> Prop.
Hypothesis OK : base_ok B rel.
Definition grepr (X : list B) (t y : R) : Prop := exists c, coef B rel X c /\ y = rsum (fun i => c i * t ^ i) (length X).
Lemma grepr_Rep s t (X : list B) f : (length X = 1%nat \/ length X = s) -> grepr X t (f t) -> (length X <= s)%nat -> Rep B rel (Some (t, false)) s X f.
Proof.
  intros L (c & C & E) Ls. split; auto. exists (fun i => if (i <? length X)%nat then c i else 0). split; [|split].
  - intros i Hi. destruct (Nat.ltb_spec i (length X)); [|lia]. now apply C.
  - intros i Hi. destruct (Nat.ltb_spec i (length X)); [lia|auto].
  - split; [|discriminate]. cbn [fst]. rewrite E. rewrite (pe_more _ (length X)); auto. { unfold pe. apply rsum_ext. intros i Hi. destruct (Nat.ltb_spec i (length X)); [auto|lia]. }
    intros i Hi. destruct (Nat.ltb_spec i (length X)); [lia|auto].
Qed.
Lemma Rep_grepr s t (X : list B) f : (1 <= s)%nat -> Rep B rel (Some (t, false)) s X f -> grepr X t (f t).
Proof.
  intros Hs [L (c & C & Z & E)]. exists c. split; [exact C|]. destruct E as [E _]. cbn [fst] in E. rewrite E. apply pe_more; auto. lia.
Qed.
(* change of order *)
Lemma pe_split c k s t : (k <= s)%nat -> pe c s t = pe c k t + t ^ k * pe (fun i => c (k + i)%nat) (s - k) t.
Proof.
  intros H. unfold pe. replace s with (k + (s - k))%nat at 1 by lia. rewrite rsum_split, <- rsum_scal. f_equal. apply rsum_ext. intros i _. rewrite pow_add. ring.
Qed.
Lemma setorder2_grepr D (X : list B) n Y t y : rel D t -> ps_setorder (B:=B) 2 D X n = Ok Y -> grepr X t y -> length Y = S (Z.to_nat n) /\ grepr Y t y.
Proof.
  intros HD E (c & C & EY). unfold ps_setorder in E. destruct (Z.ltb_spec n 0); [discriminate|]. set (k := Z.to_nat n) in *.
  change (2 =? 1)%Z with false in E. cbn iota in E. destruct (Nat.leb_spec (length X) (k + 1)) as [L|L]; apply oki in E; subst Y.
  - rewrite app_length, repeat_length. split; [lia|]. exists (fun i => if (i <? length X)%nat then c i else 0). split.
    + intros i Hi. change (rel (at_ (X ++ repeat t0 (k + 1 - length X)) i) (if (i <? length X)%nat then c i else 0)). rewrite at_repeat.
      destruct (Nat.ltb_spec i (length X)); [now apply C|]. unfold at_. rewrite nth_overflow by auto. apply (rel0 B rel OK).
    + rewrite app_length, repeat_length, EY. fold (pe c (length X) t). fold (pe (fun i => if (i <? length X)%nat then c i else 0) (length X + (k + 1 - length X)) t).
      rewrite (pe_more (fun i => if (i <? length X)%nat then c i else 0) (length X)); [| |lia]. { apply pe_ext. intros i Hi. destruct (Nat.ltb_spec i (length X)); [auto|lia]. }
      intros i Hi. destruct (Nat.ltb_spec i (length X)); [lia|auto].
  - rewrite app_length, firstn_length_le by lia. split; [simpl; lia|].
    set (q := pe (fun i => c (k + i)%nat) (length X - k) t).
    exists (fun i => if (i <? k)%nat then c i else q). split.
    + intros i Hi. rewrite app_length, firstn_length_le in Hi by lia. simpl in Hi. unfold coef, at_ in C. unfold at_. destruct (Nat.ltb_spec i k).
      * rewrite app_nth1 by (rewrite firstn_length_le; lia). rewrite <- (firstn_skipn k X) in C. specialize (C i). rewrite app_nth1 in C by (rewrite firstn_length_le; lia).
        apply C. rewrite app_length, firstn_length_le by lia. lia.
      * rewrite app_nth2 by (rewrite firstn_length_le; lia). rewrite firstn_length_le by lia. replace (i - k)%nat with 0%nat by lia. cbn [nth].
        replace q with (pe (fun i => c (k + i)%nat) (length (skipn k X)) t) by (unfold q; now rewrite skipn_length).
        apply (horner_rel B rel OK); auto. intros j Hj. rewrite skipn_length in Hj. unfold at_.
        replace (nth j (skipn k X) t0) with (nth (k + j) X (t0 (B:=B))). { apply C. lia. }
        rewrite <- (firstn_skipn k X) at 1. rewrite app_nth2; rewrite firstn_length_le by lia; [f_equal; lia|lia].
    + rewrite app_length, firstn_length_le by lia. cbn [length]. rewrite EY. fold (pe c (length X) t). rewrite (pe_split c k) by lia. fold q.
      replace (k + 1)%nat with (S k) by lia. fold (pe (fun i => if (i <? k)%nat then c i else q) (S k) t). rewrite pe_last, Nat.ltb_irrefl.
      rewrite (pe_ext (fun i => if (i <? k)%nat then c i else q) c k); [ring|]. intros i Hi. destruct (Nat.ltb_spec i k); [auto|lia].
Qed.
End Gen.

Section Inst.
Variables (b : backend) (fuel : nat).
Notation B := (Ibase (bpar b) fuel).
Notation I := (iv (bscal b)).
Lemma IOK : base_ok B (@isin (bscal b)).
Proof. exact (Ibase_ok (bok b) (bpar b) (bexp b) (blog b) (btrig b) fuel). Qed.
Lemma isin_mix (X : I) x y z : isin X x -> isin X y -> mix x y z -> isin X z.
Proof.
  intros (W1 & W2 & L & U) (_ & _ & L' & U') M. split; auto. split; auto. unfold mix in M.
  split; [destruct (sval (lo X))|destruct (sval (hi X))]; simpl in *; auto; lra.
Qed.
Lemma isin_itv : rel_itv B (@isin (bscal b)).
Proof.
  intros X x (W1 & W2 & L & U). split; [|split].
  - intros p q z. apply isin_mix.
  - destruct (sval (lo X)) as [l| | |] eqn:E; simpl in L; try tauto; [left|right].
    + exists l. split; [|intros y (_ & _ & Y & _); rewrite E in Y; exact Y]. split; auto. split; auto. rewrite E. split; [simpl; lra|]. destruct (sval (hi X)); simpl in *; auto; lra.
    + intros M. exists (Rmin x M). split; [|apply Rmin_r]. split; auto. split; auto. rewrite E. split; [simpl; auto|]. pose proof (Rmin_l x M). destruct (sval (hi X)); simpl in *; auto; lra.
  - destruct (sval (hi X)) as [l| | |] eqn:E; simpl in U; try tauto; [left|right].
    + exists l. split; [|intros y (_ & _ & _ & Y); rewrite E in Y; exact Y]. split; auto. split; auto. rewrite E. split; [|simpl; lra]. destruct (sval (lo X)); simpl in *; auto; lra.
    + intros M. exists (Rmax x M). split; [|apply Rmax_r]. split; auto. split; auto. rewrite E. split; [|simpl; auto]. pose proof (Rmax_l x M). destruct (sval (lo X)); simpl in *; auto; lra.
Qed.
Lemma isin_hull_law (X Y : I) x y z : isin X x -> isin Y y -> mix x y z -> isin (hull X Y) z.
Proof. intros. eapply (isin_hull_mid (bok b)); eauto. Qed.
(* expressions, mode 2 *)
Lemma pseval_represents D s n (env : nat -> list I) x e r :
  (2 <= s)%nat -> (Z.of_nat s <= 2 ^ 52)%Z -> awf n e -> plog e -> noarc e = true -> isin D 0 ->
  (forall i, (i < n)%nat -> length (env i) = s /\ represents D (env i) (fun t => x t i)) -> pseval (B:=B) 2 D env e = Ok r ->
  forall t, isin D t -> adom e (x t) /\ repr r t (rval e (x t)) /\ (length r = 1%nat \/ length r = s).
Proof.
  intros S1 S2 W P NA HD HE E t Ht.
  destruct (pseval_ok B _ IOK (Some (t, false)) 2 D s n env x e r) as [DD RR]; auto.
  - simpl. split; auto. split; auto. split; auto. exact (itv_cvx B _ isin_itv).
  - intros i Hi. destruct (HE i Hi) as [L R]. split; auto. apply grepr_Rep; [right; exact L|now apply (R t)|]. rewrite <- L. apply le_n.
  - split; [exact (proj1 DD)|]. split; [exact (Rep_grepr B _ s t r _ ltac:(lia) RR)|]. apply RR.
Qed.
End Inst.
