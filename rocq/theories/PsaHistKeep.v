(* In mode 2 the history list stays good whatever domain() is: the recorded coefficients below the last one are those taken from the list. *)
From Coq Require Import Reals ZArith Bool List Lra Lia Psatz Arith.
From Coquelicot Require Import Coquelicot.
From Verif Require Import Ext RealFun RealConst ADModel ADReal ADProofs PsaModel PsaReal PsaProofs PsaInt PsaExpr PsaUseProofs PsaHist PsaHistProofs PsaHistRep.
Import List ListNotations.
Open Scope R_scope.

Section Keep.
Variable B : base.
Variable rel : B -> R -> Prop.
Hypothesis OK : base_ok B rel.
Notation psa := (list B).
Notation hv := (hv B rel).
Section KeepG.
Variable s : nat.
Hypothesis L2 : (2 <= s)%nat.
(* the size of the recorded series that are taken *)
Variable so : nat.
Hypothesis HSO : so = (s - 1)%nat \/ so = s.
Notation hc := (hc B rel s so).
Lemma at_rml (X : psa) i : (i < length X - 1)%nat -> at_ (removelast X) i = at_ X i.
Proof.
  revert i. induction X as [|a X IH]; intros i H; [simpl in H; lia|]. destruct X as [|a' X]; [simpl in H; lia|].
  change (removelast (a :: a' :: X)) with (a :: removelast (a' :: X)). destruct i; [reflexivity|]. unfold at_ in *. cbn [nth]. apply IH. simpl in *. lia.
Qed.
Lemma rml_len (X : psa) : length (removelast X) = (length X - 1)%nat.
Proof. induction X as [|a [|a' X] IH]; auto. change (removelast (a :: a' :: X)) with (a :: removelast (a' :: X)). simpl length in *. lia. Qed.
Lemma at_fst o (X : psa) i : (i < o)%nat -> at_ (firstn o X) i = at_ X i.
Proof. revert X i. induction o; intros X i H; [inversion H|]. destruct X; [now destruct i|]. destruct i; [reflexivity|]. unfold at_ in *. simpl. apply IHo. now apply Nat.succ_lt_mono. Qed.
(* the coefficients below the last one *)
Definition LR (b : bool) (f : R -> R) (U : psa) : Prop :=
  if b then (exists v, U = [v] /\ rel v (f 0)) /\ forall t, f t = f 0
  else length U = s /\ exists c, jet (s - 1) f c /\ forall i, (i < s - 1)%nat -> rel (at_ U i) (c i).
Definition KG {A} (M : hM B A) (T : nat -> list ent) (P : A -> Prop) : Prop :=
  forall st A0 rest a st', p_mode st = 2%Z -> p_uh st = true -> p_hist st = A0 ++ rest -> Forall2 hc (T so) A0 -> M st = (Ok a, st') ->
  P a /\ p_mode st' = 2%Z /\ p_dom st' = p_dom st /\ p_uh st' = true /\ p_rh st' = p_rh st /\
  exists A1, p_hist st' = rest ++ A1 /\ (if p_rh st then Forall2 (hv (s - 1)) (T (s - 1)%nat) A1 else A1 = []).
Lemma KG_lift {A} (r : res A) (P : A -> Prop) : (forall a, r = Ok a -> P a) -> KG (hlift r) (fun _ => []) P.
Proof.
  intros H st A0 rest a st' M1 MU HH HU E. unfold hlift in E. injection E as E E'. subst st'. split; auto. repeat (split; auto).
  exists []. rewrite app_nil_r. split; [|now destruct (p_rh st)]. rewrite HH. inversion HU. auto.
Qed.
Lemma KG_bind {A A'} (M : hM B A) (f : A -> hM B A') T T' P P' : KG M T P -> (forall a, P a -> KG (f a) T' P') -> KG (hbind M f) (fun N => T N ++ T' N) P'.
Proof.
  intros HM HF st A0 rest b st' M1 MU HH HU E. unfold hbind in E. destruct (M st) as [[a|e] st1] eqn:E1; [|discriminate E].
  apply Forall2_app_inv_l in HU as (A1 & A2 & F1 & F2 & ->). rewrite <- app_assoc in HH.
  destruct (HM st A1 (A2 ++ rest) a st1 M1 MU HH F1 E1) as (PA & N1 & N2 & N3 & N4 & C1 & HC1 & V1). rewrite <- app_assoc in HC1.
  destruct (HF a PA st1 A2 (rest ++ C1) b st' N1 N3 HC1 F2 E) as (PB & O1 & O2 & O3 & O4 & C2 & HC2 & V2).
  split; auto. repeat (split; [congruence|]). exists (C1 ++ C2). rewrite app_assoc. split; auto. rewrite N4 in V2. destruct (p_rh st); [now apply Forall2_app|now subst].
Qed.
Lemma KG_post {A} (M : hM B A) T (P P' : A -> Prop) : (forall a, P a -> P' a) -> KG M T P -> KG M T P'.
Proof. intros E H st A0 rest a st' M1 M2 HH HU EM. destruct (H st A0 rest a st' M1 M2 HH HU EM) as (PA & R). split; auto. Qed.
Lemma KG_T {A} (M : hM B A) (T T' : nat -> list ent) P : (forall N, T N = T' N) -> KG M T P -> KG M T' P.
Proof. intros E H st A0 rest a st' M1 M2 HH HU EM. rewrite <- E in *. exact (H st A0 rest a st' M1 M2 HH HU EM). Qed.
Lemma KG_lbind {A A'} (r : res A) (f : A -> hM B A') T P : (forall a, r = Ok a -> KG (f a) T P) -> KG (hbind (hlift r) f) T P.
Proof. intros H. apply (KG_bind (hlift r) f (fun _ => []) T (fun a => r = Ok a) P); auto. apply KG_lift. auto. Qed.
Lemma KG_get {A} (f : Z -> B -> hM B A) T P : (forall D, KG (f 2%Z D) T P) -> KG (hget f) T P.
Proof. intros H st A0 rest a st' M1 M2 HH HU E. unfold hget in E. rewrite M1 in E. now apply (H (p_dom st) st A0 rest a st'). Qed.
Lemma jet_head q f c : (1 <= q)%nat -> jet q f c -> c O = f 0.
Proof.
  intros Q1 J. apply (jet_weak q 1) in J; auto. rewrite jet_bigO in J. destruct J as (M & d & Hd & H). specialize (H 0). rewrite Rabs_R0 in H. specialize (H Hd).
  simpl pow in H. rewrite Rmult_0_l, Rmult_0_r in H. unfold pe in H. simpl in H. pose proof (Rabs_pos (f 0 - (0 + c O * 1))). assert (Z0 : Rabs (f 0 - (0 + c O * 1)) = 0) by lra. apply Rabs_eq_0 in Z0. lra.
Qed.
Lemma LR_head b f U : LR b f U -> rel (at_ U 0) (f 0).
Proof. destruct b; intros H. - destruct H as [(v & -> & R) _]. exact R. - destruct H as (L & c & J & K). rewrite <- (jet_head (s - 1) f c); [apply K; lia|lia|auto]. Qed.
Lemma LR_len b f U : LR b f U -> length U = if b then 1%nat else s.
Proof. destruct b; intros H. - destruct H as [(v & -> & R) _]. reflexivity. - apply H. Qed.
Lemma LR_eq b f g U : (forall t, f t = g t) -> LR b f U -> LR b g U.
Proof. intros E. replace g with f; auto. apply FunctionalExtensionality.functional_extensionality, E. Qed.
Lemma KG_fin fr V b f : (if fr && negb b then length V = s else LR b f V) -> KG (hfin fr V) (fun _ => [(b, f)]) (LR b f).
Proof.
  intros HV st A0 rest a st' M1 MU HH HU E. unfold hfin in E. rewrite MU, M1 in E.
  destruct A0 as [|h A0']; [inversion HU|]. assert (HH1 : hc (b, f) h) by (inversion HU; auto). assert (A0' = []) as -> by (inversion HU as [|? ? ? ? ? HN]; inversion HN; auto).
  rewrite HH in E. cbn [app] in E. injection E as EU EST. destruct HH1 as [LH (ch & JH & CH)]. cbn [fst snd] in *.
  assert (HA : LR b f a /\ hv (s - 1) (b, f) (removelast a)).
  { destruct b.
    - rewrite andb_false_r in HV. pose proof HV as [(v & EV & RV) KF]. assert (a = [v]) as ->.
      { rewrite <- EU, EV. destruct fr; auto. unfold reuse. cbn [length Nat.sub Z.eqb Pos.eqb]. rewrite Nat.min_0_r. reflexivity. }
      split; [split; eauto|]. split; [simpl; lia|]. exists ch. split; [exact JH|]. intros i Hi. simpl in Hi. lia.
    - rewrite andb_true_r in HV. destruct fr.
      + assert (EA : a = firstn (s - 1) h ++ skipn (s - 1) V). { rewrite <- EU. unfold reuse. cbn [Z.eqb Pos.eqb]. rewrite HV, LH. now replace (Nat.min so (s - 1)) with (s - 1)%nat by lia. }
        assert (LF : length (firstn (s - 1) h) = (s - 1)%nat) by (rewrite firstn_length_le; lia).
        assert (LS : length (skipn (s - 1) V) = 1%nat) by (rewrite skipn_length; lia). destruct (skipn (s - 1) V) as [|w [|]]; try discriminate LS. rewrite EA. split.
        * split; [rewrite app_length; simpl; lia|]. exists ch. split; auto. intros i Hi. unfold at_. rewrite app_nth1 by lia. fold (at_ (firstn (s - 1) h) i). rewrite at_fst by lia. apply CH; lia.
        * rewrite removelast_last. split; auto. exists ch. split; auto. intros i Hi. rewrite LF in Hi. rewrite at_fst by lia. apply CH; lia.
      + subst V. split; auto. destruct HV as (LA & c & J & K). split; cbn [fst snd]; [rewrite (rml_len a); lia|]. exists c. split; auto. intros i Hi. rewrite (rml_len a) in Hi. rewrite (at_rml a) by lia. apply K. lia. }
  destruct HA as [HA HR]. split; auto. rewrite EU in EST. unfold record in EST. cbn [set_hist p_rh p_mode] in EST. destruct (p_rh st) eqn:RH; subst st'; cbn [set_hist p_mode p_dom p_uh p_rh p_hist]; (do 4 (split; [auto|])).
  - exists [recd 2 a]. rewrite M1. split; auto.
  - exists []. rewrite app_nil_r. auto.
Qed.
Lemma two_len b f X : LR b f X -> two X = negb b.
Proof. intros H. apply LR_len in H. unfold two. rewrite H. destruct b; auto. apply Nat.leb_le. auto. Qed.
Lemma LR_headop (g : B -> B) a X Y b f : PsaModel.head g X = Ok Y -> (forall Z z, rel Z z -> rel (g Z) (z + a)) -> LR b f X -> LR b (fun t => f t + a) Y.
Proof.
  intros E H HX. destruct X as [|x X]; [discriminate E|]. cbn [PsaModel.head] in E. apply oki in E. subst Y. destruct b.
  - destruct HX as [(v & EV & RV) KF]. injection EV as -> ->. split; [|intros; now rewrite KF]. eexists. split; [reflexivity|]. auto.
  - destruct HX as (L & c & J & K). split; [exact L|]. exists (fun i => c i + delta a i). split.
    + apply (jet_add (s - 1) f (fun _ => a) c (delta a)); auto. apply jet_cst. lia.
    + intros [|i] Hi; specialize (K _ Hi); unfold delta; [apply (H x (c O)) in K; exact K|]. rewrite Rplus_0_r. exact K.
Qed.

Lemma LR_add X Y U b c f g : ps_add X Y = Ok U -> LR b f X -> LR c g Y -> if two X && two Y then length U = s else LR (b && c) (fun t => f t + g t) U.
Proof.
  intros E HX HY. rewrite (two_len b f X HX), (two_len c g Y HY). destruct b; cbn [negb andb].
  - destruct HX as [(v & -> & RV) KF]. assert (E' : PsaModel.head (fun y => badd y v) Y = Ok U) by (destruct Y; [discriminate E|exact E]).
    apply (LR_eq c (fun t => g t + f 0)); [intros t; rewrite (KF t); ring|]. apply (LR_headop _ _ _ _ _ _ E'); auto. intros Z z HZ. now apply (bk_add _ _ OK).
  - pose proof (LR_len _ _ _ HX) as LX. destruct c; cbn [negb andb].
    + destruct HY as [(v & -> & RV) KF]. assert (E' : PsaModel.head (fun x => badd x v) X = Ok U) by (destruct X as [|x [|]]; simpl in LX; try lia; exact E).
      apply (LR_eq false (fun t => f t + g 0)); [intros t; now rewrite (KF t)|]. apply (LR_headop _ _ _ _ _ _ E'); auto. intros Z z HZ. now apply (bk_add _ _ OK).
    + exact (add_len B s L2 X Y U false false E LX (LR_len _ _ _ HY)).
Qed.
Lemma LR_map (h : B -> B) q X b f : (forall Y y, rel Y y -> rel (h Y) (q * y)) -> LR b f X -> LR b (fun t => q * f t) (map h X).
Proof.
  intros H HX. destruct b.
  - destruct HX as [(v & -> & RV) KF]. split; [|intros; now rewrite KF]. exists (h v). split; auto.
  - destruct HX as (L & c & J & K). split; [now rewrite map_length|]. exists (fun i => q * c i). split; [now apply jet_scal|]. intros i Hi. rewrite (at_map B) by lia. auto.
Qed.
Lemma LR_neg X b f : LR b f X -> LR b (fun t => - f t) (ps_neg X).
Proof. intros H. apply (LR_eq b (fun t => -1 * f t)); [intros; ring|]. apply LR_map; auto. intros Y y HY. replace (-1 * y) with (- y) by ring. now apply (bk_neg _ _ OK). Qed.
Lemma LR_sub X Y U b c f g : ps_sub X Y = Ok U -> LR b f X -> LR c g Y -> if two X && two Y then length U = s else LR (b && c) (fun t => f t - g t) U.
Proof.
  intros E HX HY. rewrite (two_len b f X HX), (two_len c g Y HY). destruct b; cbn [negb andb].
  - destruct HX as [(v & -> & RV) KF]. assert (E' : PsaModel.head (fun y => badd y v) (ps_neg Y) = Ok U) by (destruct Y; [discriminate E|exact E]).
    apply (LR_eq c (fun t => - g t + f 0)); [intros t; rewrite (KF t); ring|]. apply (LR_headop _ _ _ _ _ _ E'); [|now apply LR_neg]. intros Z z HZ. now apply (bk_add _ _ OK).
  - pose proof (LR_len _ _ _ HX) as LX. destruct c; cbn [negb andb].
    + destruct HY as [(v & -> & RV) KF]. assert (E' : PsaModel.head (fun x => bsub x v) X = Ok U) by (destruct X as [|x [|]]; simpl in LX; try lia; exact E).
      apply (LR_eq false (fun t => f t + - g 0)); [intros t; rewrite (KF t); ring|]. apply (LR_headop _ _ _ _ _ _ E'); auto. intros Z z HZ. now apply (bk_sub _ _ OK).
    + exact (sub_len B s L2 X Y U false false E LX (LR_len _ _ _ HY)).
Qed.
Lemma KG_add X Y b c f g : LR b f X -> LR c g Y -> KG (hps_add X Y) (fun _ => [(b && c, fun t => f t + g t)]) (LR (b && c) (fun t => f t + g t)).
Proof.
  intros HX HY. apply KG_lbind. intros V EV. apply KG_fin. pose proof (LR_add X Y V b c f g EV HX HY) as H. rewrite (two_len b f X HX), (two_len c g Y HY) in *.
  destruct b, c; cbn [negb andb] in *; auto.
Qed.
Lemma KG_sub X Y b c f g : LR b f X -> LR c g Y -> KG (hps_sub X Y) (fun _ => [(b && c, fun t => f t - g t)]) (LR (b && c) (fun t => f t - g t)).
Proof.
  intros HX HY. apply KG_lbind. intros V EV. apply KG_fin. pose proof (LR_sub X Y V b c f g EV HX HY) as H. rewrite (two_len b f X HX), (two_len c g Y HY) in *.
  destruct b, c; cbn [negb andb] in *; auto.
Qed.
(* a product with an operand of full size: only the sizes matter *)
Lemma KG_mul0 X Y b c h : b && c = false -> length X = (if b then 1%nat else s) -> length Y = (if c then 1%nat else s) -> KG (hps_mul X Y) (fun _ => [(false, h)]) (LR false h).
Proof.
  intros E LX LY. apply KG_get. intros D. apply KG_lbind. intros V EV. apply KG_fin. cbn [negb andb]. pose proof (mul_len B 2 D s L2 X Y V b c EV LX LY) as H. unfold ln1 in H. now rewrite E in H.
Qed.
Lemma KG_mul X Y b c d f g h : LR b f X -> LR c g Y -> (forall t, f t * g t = h t) -> d = b && c -> KG (hps_mul X Y) (fun _ => [(d, h)]) (LR d h).
Proof.
  intros HX HY E ->. destruct (b && c) eqn:EB; [|now apply (KG_mul0 X Y b c); auto; eapply LR_len; eauto]. apply andb_prop in EB as [-> ->].
  destruct HX as [(v & -> & RV) KF], HY as [(w & -> & RW) KG]. apply KG_get. intros D. apply KG_lbind. intros V EV. apply KG_fin. cbn [negb andb]. apply oki in EV. subst V.
  split; [|intros t; rewrite <- !E, KF, KG; auto]. exists (bmul v w). split; auto. rewrite <- E. now apply (bk_mul _ _ OK).
Qed.
Lemma KG_Tmul0 a X h : length X = s -> KG (hps_Tmul a X) (fun _ => [(false, h)]) (LR false h).
Proof. intros L. apply KG_fin. cbn [negb andb]. unfold ps_Tmul. now rewrite map_length. Qed.
Lemma KG_map (h0 h1 : B -> B) q X b f (M : hM B psa) : (forall st, M st = hfin true (if p_uh st then map h0 X else map h1 X) st) ->
  (forall Y y, rel Y y -> rel (h0 Y) (q * y)) -> LR b f X -> KG M (fun _ => [(b, fun t => q * f t)]) (LR b (fun t => q * f t)).
Proof.
  intros EM H HX st A0 rest a st' M1 MU HH HU E. rewrite EM, MU in E. refine (KG_fin true (map h0 X) b (fun t => q * f t) _ st A0 rest a st' M1 MU HH HU E).
  pose proof (LR_map h0 q X b f H HX) as HL. destruct b; cbn [negb andb]; auto. exact (LR_len _ _ _ HL).
Qed.
Lemma KG_mulC X n e b f : lit n e -> LR b f X -> KG (hps_mulC X n e) (fun _ => [(b, fun t => dy n e * f t)]) (LR b (fun t => dy n e * f t)).
Proof. intros L. apply (KG_map (fun x => bmulS x n e) (fun x => bmul x (bcst n e))); [reflexivity|]. intros Y y HY. rewrite Rmult_comm. now apply (bk_mulS _ _ OK). Qed.
Lemma KG_Cmul X n e b f : lit n e -> LR b f X -> KG (hps_Cmul n e X) (fun _ => [(b, fun t => dy n e * f t)]) (LR b (fun t => dy n e * f t)).
Proof. intros L. apply (KG_map (bSmul n e) (bmul (bcst n e))); [reflexivity|]. intros Y y HY. now apply (bk_Smul _ _ OK). Qed.
Lemma KG_mul1 X h : length X = s -> KG (hps_mulC X 1 0) (fun _ => [(false, h)]) (LR false h).
Proof.
  intros L st A0 rest a st' M1 MU HH HU E. unfold hps_mulC in E. rewrite MU in E. refine (KG_fin true _ false h _ st A0 rest a st' M1 MU HH HU E). cbn [negb andb]. now rewrite map_length.
Qed.
(* ---- the loop ---- *)
Lemma hturn_off {St} (stp : nat -> bool -> St -> res (B * St)) (g : psa) i last (hn r : psa) sst (st : pst B) q st' (b : bool) : p_uh st = false -> p_rh st = false ->
  length g = s -> length hn = (if b then 1%nat else s) -> length r = (if b then 1%nat else s) ->
  hturn stp g i last hn r sst st = (Ok q, st') -> st' = st /\ length (snd (fst q)) = s.
Proof.
  intros U R LG LH LR_ E. assert (FIN : forall fr V, hfin fr V st = (Ok V, st)). { intros. unfold hfin. rewrite U. unfold record. now rewrite R. }
  unfold hturn, hbind, hps_mul, hget, hbind, hlift in E. destruct (ps_mul (p_mode st) (p_dom st) hn g) as [hn'|] eqn:E1; [|discriminate E]. rewrite FIN in E.
  destruct (stp i last sst) as [k|] eqn:E2; [|discriminate E]. unfold hps_Tmul in E. rewrite FIN in E. unfold hps_add, hbind, hlift in E.
  destruct (ps_add r (ps_Tmul (fst k) hn')) as [r'|] eqn:E3; [|discriminate E]. rewrite FIN in E. unfold hret, hlift in E. injection E as <- <-. split; auto. cbn [fst snd].
  pose proof (mul_len B (p_mode st) (p_dom st) s L2 hn g hn' b false E1 LH LG) as L1. unfold ln1 in L1. rewrite andb_false_r in L1.
  assert (LT : length (ps_Tmul (fst k) hn') = s) by (unfold ps_Tmul; now rewrite map_length).
  pose proof (add_len B s L2 r (ps_Tmul (fst k) hn') r' b false E3 LR_ LT) as L3. unfold ln1 in L3. now rewrite andb_false_r in L3.
Qed.
Lemma three {A A'} (P : A -> A' -> Prop) a b c l : Forall2 P [a; b; c] l -> exists x y z, l = [x; y; z].
Proof. intros H. inversion H as [|? h1 ? l1 _ K1]; subst. inversion K1 as [|? h2 ? l2 _ K2]; subst. inversion K2 as [|? h3 ? l3 _ K3]; subst. inversion K3; subst. eauto. Qed.
Lemma fin_pop fr (V : psa) (st : pst B) a st' h l : p_uh st = true -> p_rh st = false -> p_hist st = h :: l -> hfin fr V st = (Ok a, st') -> st' = set_hist l st /\ length a = length V.
Proof.
  intros U R H E. unfold hfin in E. rewrite U, H in E. injection E as <- <-. split; [unfold record; cbn [set_hist p_rh]; now rewrite R|]. destruct fr; auto. unfold reuse. rewrite app_length, firstn_length, skipn_length. destruct (p_mode st =? 2)%Z; lia.
Qed.
Lemma hturn_pop {St} (stp : nat -> bool -> St -> res (B * St)) (g : psa) i last (hn r : psa) sst (st : pst B) q st' (b : bool) h1 h2 h3 l : p_uh st = true -> p_rh st = false -> p_hist st = h1 :: h2 :: h3 :: l ->
  length g = s -> length hn = (if b then 1%nat else s) -> length r = (if b then 1%nat else s) ->
  hturn stp g i last hn r sst st = (Ok q, st') -> p_mode st' = p_mode st /\ p_dom st' = p_dom st /\ p_hist st' = l /\ length (snd (fst q)) = s.
Proof.
  intros U R HH LG LH LR_ E. unfold hturn, hbind, hps_mul, hget, hbind, hlift in E. destruct (ps_mul (p_mode st) (p_dom st) hn g) as [hn'|] eqn:E1; [|discriminate E].
  destruct (hfin true hn' st) as [[hn2|] s1] eqn:F1; [|discriminate E]. destruct (fin_pop true hn' st hn2 s1 h1 (h2 :: h3 :: l) U R HH F1) as [ES1 L1]. clear F1.
  destruct (stp i last sst) as [k|] eqn:E2; [|discriminate E]. unfold hps_Tmul in E.
  destruct (hfin true (ps_Tmul (fst k) hn2) s1) as [[kh|] s2] eqn:F2; [|discriminate E]. destruct (fin_pop true (ps_Tmul (fst k) hn2) s1 kh s2 h2 (h3 :: l)) as [ES2 L2']; [now rewrite ES1|now rewrite ES1|now rewrite ES1|exact F2|]. clear F2.
  unfold hps_add, hbind, hlift in E. destruct (ps_add r kh) as [r'|] eqn:E3; [|discriminate E].
  destruct (hfin (two r && two kh) r' s2) as [[r2|] s3] eqn:F3; [|discriminate E]. destruct (fin_pop (two r && two kh) r' s2 r2 s3 h3 l) as [ES3 L3]; [now rewrite ES2, ES1|now rewrite ES2, ES1|now rewrite ES2|exact F3|]. clear F3.
  unfold hret, hlift in E. injection E as <- <-. cbn [fst snd]. rewrite ES3, ES2, ES1. cbn [set_hist p_mode p_dom p_hist]. do 3 (split; [reflexivity|]).
  pose proof (mul_len B (p_mode st) (p_dom st) s L2 hn g hn' b false E1 LH LG) as K1. unfold ln1 in K1. rewrite andb_false_r in K1.
  assert (LT : length kh = s) by (rewrite L2'; unfold ps_Tmul; rewrite map_length; congruence).
  pose proof (add_len B s L2 r kh r' b false E3 LR_ LT) as K3. unfold ln1 in K3. rewrite andb_false_r in K3. congruence.
Qed.
Lemma KG_turn {St} (stp : nat -> bool -> St -> res (B * St)) (g : psa) ga ka i last (hn r : psa) sst : (1 <= i)%nat -> length g = s ->
  length hn = (if (i =? 1)%nat then 1%nat else s) -> (if (i =? 1)%nat then exists v, r = [v] /\ rel v (ka O) else LR false (fun t => rsum (fun j => ka j * ga t ^ j) i) r) ->
  KG (hturn stp g i last hn r sst) (fun _ => turn ga ka i) (fun q => length (fst (fst q)) = s /\ LR false (fun t => rsum (fun j => ka j * ga t ^ j) (S i)) (snd (fst q))).
Proof.
  intros L1 LG LH HR. unfold hturn, turn.
  apply (KG_bind _ _ (fun N => [(false, fun t => ga t ^ i)]) (fun N => [(false, fun t => ka i * ga t ^ i); (false, fun t => rsum (fun j => ka j * ga t ^ j) (S i))]) (LR false (fun t => ga t ^ i))).
  { apply (KG_mul0 hn g (i =? 1)%nat false); auto. now rewrite andb_false_r. }
  intros hn' HN'. apply KG_lbind. intros q Eq.
  apply (KG_bind _ _ (fun N => [(false, fun t => ka i * ga t ^ i)]) (fun N => [(false, fun t => rsum (fun j => ka j * ga t ^ j) (S i))]) (LR false (fun t => ka i * ga t ^ i))).
  { apply KG_Tmul0. apply (LR_len _ _ _ HN'). }
  intros kh HKH. apply (KG_bind _ _ (fun N => [(false, fun t => rsum (fun j => ka j * ga t ^ j) (S i))]) (fun N => []) (LR false (fun t => rsum (fun j => ka j * ga t ^ j) (S i)))).
  - assert (HR' : LR (i =? 1)%nat (fun t => rsum (fun j => ka j * ga t ^ j) i) r).
    { destruct (Nat.eqb_spec i 1) as [E1|]; auto. destruct HR as (v & EV & RV). rewrite E1. split.
      - exists v. split; auto. simpl. now replace (0 + ka O * 1) with (ka O) by ring.
      - reflexivity. }
    pose proof (KG_add r kh (i =? 1)%nat false _ _ HR' HKH) as K. rewrite andb_false_r in K. exact K.
  - intros r' HR'. apply KG_lift. intros a Ea. injection Ea as <-. cbn [fst snd]. split; auto. apply (LR_len _ _ _ HN').
Qed.
Lemma hloop_keep {St} (stp : nat -> bool -> St -> res (B * St)) (g : psa) ga ka cnt : length g = s -> forall i (hn r : psa) sst (st : pst B) A0 rest (out : psa) st', (S i + cnt = s)%nat -> (1 <= i)%nat ->
  length hn = (if (i =? 1)%nat then 1%nat else s) -> (if (i =? 1)%nat then length r = 1%nat /\ ((1 < s - 1)%nat -> exists v, r = [v] /\ rel v (ka O)) else LR false (fun t => rsum (fun j => ka j * ga t ^ j) i) r) ->
  p_mode st = 2%Z -> p_uh st = true -> p_hist st = A0 ++ rest -> Forall2 hc (turns ga ka i so) A0 -> hloop stp s g so (S cnt) i hn r sst st = (Ok out, st') ->
  length out = s /\ p_mode st' = 2%Z /\ p_dom st' = p_dom st /\ exists A1, p_hist st' = rest ++ A1 /\ (if p_rh st then Forall2 (hv (s - 1)) (turns ga ka i (s - 1)) A1 else A1 = []).
Proof.
  intros LG. induction cnt; intros i hn r sst st A0 rest out st' LC L1 LH HR M1 MU HH HU E.
  - assert (EI : i = (s - 1)%nat) by lia. assert (LR_ : length r = if (i =? 1)%nat then 1%nat else s) by (destruct (i =? 1)%nat; [apply HR|apply (LR_len _ _ _ HR)]).
    cbn [hloop] in E. cbv zeta in E. rewrite MU in E. destruct HSO as [ES|ES].
    + replace (so <=? i)%nat with true in E by (symmetry; apply Nat.leb_le; lia). rewrite EI in E. rewrite Nat.eqb_refl in E. cbn [andb set_uh p_mode] in E. rewrite M1 in E.
      cbn [Z.eqb Pos.eqb andb] in E. set (st2 := set_rh false (set_uh false st)) in E. unfold hbind in E. destruct (hturn stp g (s - 1) true hn r sst st2) as [[q|e] st3] eqn:ET; [|discriminate E].
      cbn [hloop] in E. injection E as <- <-.
      destruct (hturn_off stp g (s - 1) true hn r sst st2 q st3 (i =? 1)%nat eq_refl eq_refl LG LH) as [-> LQ]; auto.
      split; auto. cbn [st2 set_rh set_uh p_mode p_dom p_hist]. split; auto. split; auto. rewrite turns_0 in HU by lia. inversion HU; subst A0. exists []. rewrite app_nil_r. split; auto. rewrite turns_0 by lia. destruct (p_rh st); auto.
    + replace (so <=? i)%nat with false in E by (symmetry; apply Nat.leb_gt; lia). rewrite EI in E. rewrite Nat.eqb_refl in E. cbn [andb] in E. rewrite M1 in E.
      cbn [Z.eqb Pos.eqb andb] in E. set (st2 := set_rh false st) in E. unfold hbind in E. destruct (hturn stp g (s - 1) true hn r sst st2) as [[q|e] st3] eqn:ET; [|discriminate E].
      cbn [hloop] in E. injection E as <- <-. rewrite (turns_S _ _ i) in HU by lia. rewrite (turns_0 _ _ (S i)) in HU by lia. cbn [app turn] in HU.
      apply three in HU as (h1 & h2 & h3 & EA). rewrite EA in HH. cbn [app] in HH. rewrite EI in LH, LR_.
      destruct (hturn_pop stp g (s - 1) true hn r sst st2 q st3 (s - 1 =? 1)%nat h1 h2 h3 rest MU eq_refl HH LG LH LR_ ET) as (Q1 & Q2 & Q3 & Q4).
      split; auto. split; [now rewrite Q1|]. split; [now rewrite Q2|]. exists []. rewrite app_nil_r. split; auto. rewrite turns_0 by lia. destruct (p_rh st); auto.
  - assert (NI : (i < s - 1)%nat) by lia. replace (hloop stp s g so (S (S cnt)) i hn r sst st) with (hbind (hturn stp g i false hn r sst) (fun q => hloop stp s g so (S cnt) (S i) (fst (fst q)) (snd (fst q)) (snd q)) st) in E.
    2:{ change (hloop stp s g so (S (S cnt)) i hn r sst st) with
          (let s1 := if p_uh st && (so <=? i)%nat then set_uh false st else st in let last := (p_mode s1 =? 2)%Z && (i =? s - 1)%nat in let s2 := if last then set_rh false s1 else s1 in
           hbind (hturn stp g i last hn r sst) (fun q => hloop stp s g so (S cnt) (S i) (fst (fst q)) (snd (fst q)) (snd q)) s2).
        cbv zeta. replace (so <=? i)%nat with false by (symmetry; apply Nat.leb_gt; lia). rewrite andb_false_r. replace (i =? s - 1)%nat with false by (symmetry; apply Nat.eqb_neq; lia). now rewrite andb_false_r. }
    unfold hbind in E. destruct (hturn stp g i false hn r sst st) as [[q|e] st3] eqn:ET; [|discriminate E].
    rewrite (turns_S _ _ i so) in HU by lia. apply Forall2_app_inv_l in HU as (A1 & A2 & F1 & F2 & ->). rewrite <- app_assoc in HH.
    destruct (KG_turn stp g ga ka i false hn r sst L1 LG LH) with (st := st) (A0 := A1) (rest := A2 ++ rest) (a := q) (st' := st3) as ((P1 & P2) & N1 & N2 & N3 & N4 & C1 & N5 & N6); auto.
    { destruct (Nat.eqb_spec i 1); auto. apply HR. lia. }
    rewrite <- app_assoc in N5. assert (SI : (S i =? 1)%nat = false) by (apply Nat.eqb_neq; lia).
    destruct (IHcnt (S i) (fst (fst q)) (snd (fst q)) (snd q) st3 A2 (rest ++ C1) out st') as (Y1 & Y2 & Y3 & C2 & Y4 & Y5); auto; try lia; try (now rewrite SI).
    split; auto. split; auto. split; [congruence|]. exists (C1 ++ C2). rewrite app_assoc. split; auto. rewrite N4 in Y5. rewrite turns_S by lia. destruct (p_rh st); [now apply Forall2_app|now subst].
Qed.
Lemma KG_tay {St} (stp : nat -> bool -> St -> res (B * St)) (X g : psa) r0 st0 b f ga ka res : LR b f X -> length g = length X ->
  (forall q, (1 < s - 1)%nat -> stp 1%nat false st0 = Ok q -> rel r0 (ka O)) -> (b = true -> rel r0 (res 0) /\ forall t, res t = res 0) ->
  KG (htay stp X g r0 st0) (trl b ga ka res) (LR b res).
Proof.
  intros HX LG HR HB st A0 rest a st' M1 MU HH HU E. unfold trl in *. pose proof (LR_len _ _ _ HX) as LX. apply Forall2_app_inv_l in HU as (L & R1 & F1 & F2 & ->). rewrite <- app_assoc in HH.
  unfold htay in E. rewrite MU in E. destruct b.
  - rewrite LX in E. inversion F1; subst L. cbn [app] in HH. destruct R1 as [|h R1]; [inversion F2|]. rewrite HH in E. cbn [app Nat.sub hloop] in E. unfold hbind, hret, hlift, hmod in E.
    destruct (HB eq_refl) as [HR0 HC].
    assert (KM : KG (hps_mulC [r0] 1 0) (fun _ => [(true, res)]) (LR true res)).
    { assert (EQ : res = fun t => dy 1 0 * res t) by (apply FunctionalExtensionality.functional_extensionality; intros t; rewrite dy_int; ring). rewrite EQ. apply KG_mulC; [apply lit_int; lia|]. split; eauto. }
    refine (KM _ (h :: R1) rest a st' _ _ _ F2 E); auto.
  - rewrite LX in E, LG. destruct (match p_hist st with [] => None | h :: _ => Some (length h) end) as [old|] eqn:EO; [|discriminate E].
    assert (old = so) as ->.
    { rewrite HH in EO. destruct L as [|h L]; cbn [app] in EO.
      - destruct R1 as [|h R1]; [inversion F2|]. cbn [app] in EO. injection EO as <-. inversion F2 as [|? ? ? ? [V1 _] _]. exact V1.
      - injection EO as <-. destruct (Nat.le_gt_cases so 1) as [E2|N2]. { rewrite turns_0 in F1 by lia. inversion F1. } rewrite turns_S in F1 by lia. inversion F1 as [|? ? ? ? [V1 _] _]. exact V1. }
    unfold hbind at 1 in E. destruct (hloop stp s g so (s - 1) 1 [t1] [r0] st0 st) as [[r|e] st1] eqn:EL; [|discriminate E]. unfold hbind, hmod in E.
    assert (HR0 : (1 < s - 1)%nat -> rel r0 (ka O)).
    { intros LT. destruct (hloop_first B 2 stp s g so (s - 2) 1 [t1] [r0] st0 st r st1 M1) as [q Eq]. { now replace (S (s - 2)) with (s - 1)%nat by lia. }
      replace (1 =? s - 1)%nat with false in Eq by (symmetry; apply Nat.eqb_neq; lia). now apply (HR q). }
    replace (hloop stp s g so (s - 1) 1 [t1] [r0] st0 st) with (hloop stp s g so (S (s - 2)) 1 [t1] [r0] st0 st) in EL by (do 2 f_equal; lia).
    destruct (hloop_keep stp g ga ka (s - 2) LG 1 [t1] [r0] st0 st L (R1 ++ rest) r st1) as (Y1 & Y2 & Y3 & C1 & Y4 & Y5); auto; try lia.
    { split; auto. intros LT. exists r0. auto. }
    destruct (KG_mul1 r res Y1 (set_rh (p_rh st) (set_uh true st1)) R1 (rest ++ C1) a st') as (P1 & N1 & N2 & N3 & N4 & C2 & N5 & N6); auto. { cbn [set_rh set_uh p_hist]. now rewrite Y4, app_assoc. }
    cbn [set_rh set_uh p_dom p_rh] in *. split; auto. split; auto. split; [congruence|]. split; auto. split; auto. exists (C1 ++ C2). rewrite app_assoc. split; auto. destruct (p_rh st); [now apply Forall2_app|now subst].
Qed.
Lemma LR_ne b f X : LR b f X -> exists a x, X = a :: x. Proof. intros H. apply LR_len in H. destruct X; [simpl in H; destruct b; lia|eauto]. Qed.
Lemma KG_inv b f X : LR b f X -> KG (hps_inv X) (tr_inv b f) (LR b (fun t => / f t)).
Proof.
  intros HX. destruct (LR_ne _ _ _ HX) as (a & x & EX). unfold hps_inv. rewrite EX. rewrite <- EX. apply KG_get. intros D.
  apply KG_lbind. intros ia Eia. apply KG_lbind. intros x2 Ex2. apply KG_lbind. intros g Eg. unfold tr_inv.
  assert (Ra : rel a (f 0)). { pose proof (LR_head _ _ _ HX) as R. rewrite EX in R. exact R. }
  destruct (bk_Sdiv _ _ OK a (f 0) 1 0 ia ltac:(apply lit_int; lia) Eia Ra) as [NZ RI]. rewrite dy_int in RI.
  apply (KG_tay _ X g ia _ b f); auto.
  - pose proof (divT_ln1 B (length X) (ps_h X) a g false Eg) as H. unfold ln1 in H. cbv iota in H. apply H. apply h_len.
  - intros ->. split; [unfold Rdiv in RI; now rewrite Rmult_1_l in RI|]. destruct HX as [_ KF]. intros t. now rewrite KF.
Qed.
Lemma KG_f {St} (stp : nat -> bool -> St -> res (B * St)) X r0 st0 b f F g : LR b f X -> (forall q, (1 < s - 1)%nat -> stp 1%nat false st0 = Ok q -> rel r0 (F O (f 0))) ->
  (b = true -> rel r0 (g (f 0))) -> KG (htay stp X (ps_h X) r0 st0) (tr_f b f F g) (LR b (fun t => g (f t))).
Proof.
  intros HX HR HB. unfold tr_f. apply (KG_tay _ X _ r0 st0 b f); auto.
  - apply h_len.
  - intros q Lq Eq. simpl. replace (F O (f 0) / 1) with (F O (f 0)) by field. eapply HR; eauto.
  - intros ->. split; auto. destruct HX as [_ KF]. intros t. now rewrite KF.
Qed.
Ltac kf HX a x EX := destruct (LR_ne _ _ _ HX) as (a & x & EX); rewrite EX; rewrite <- EX; apply KG_get; intros D.
Lemma hd_rel b f X a x : LR b f X -> X = a :: x -> rel a (f 0).
Proof. intros HX EX. pose proof (LR_head _ _ _ HX) as R. rewrite EX in R. exact R. Qed.
Lemma KG_exp b f X : LR b f X -> KG (hps_exp X) (tr_exp b f) (LR b (fun t => exp (f t))).
Proof.
  intros HX. unfold hps_exp. kf HX a x EX. apply KG_lbind. intros e Ee. pose proof (bk_fun _ _ OK _ _ _ _ Ee (hd_rel _ _ _ _ _ HX EX) Logic.I) as R.
  apply (KG_f _ X e t1 b f (fun _ => exp) exp HX); auto.
Qed.
Lemma KG_sin b f X : LR b f X -> KG (hps_sin X) (tr_f b f sinF sin) (LR b (fun t => sin (f t))).
Proof.
  intros HX. unfold hps_sin. kf HX a x EX. apply KG_lbind. intros e Ee. apply KG_lbind. intros e' Ee'. pose proof (bk_fun _ _ OK _ _ _ _ Ee (hd_rel _ _ _ _ _ HX EX) Logic.I) as R.
  apply (KG_f _ X e t1 b f sinF sin HX); auto.
Qed.
Lemma KG_cos b f X : LR b f X -> KG (hps_cos X) (tr_f b f cosF cos) (LR b (fun t => cos (f t))).
Proof.
  intros HX. unfold hps_cos. kf HX a x EX. apply KG_lbind. intros e Ee. apply KG_lbind. intros e' Ee'. pose proof (bk_fun _ _ OK _ _ _ _ Ee (hd_rel _ _ _ _ _ HX EX) Logic.I) as R.
  apply (KG_f _ X e t1 b f cosF cos HX); auto.
Qed.
Lemma KG_sinh b f X : LR b f X -> KG (hps_sinh X) (tr_f b f shF sinh) (LR b (fun t => sinh (f t))).
Proof.
  intros HX. unfold hps_sinh. kf HX a x EX. apply KG_lbind. intros e Ee. apply KG_lbind. intros e' Ee'. pose proof (bk_fun _ _ OK _ _ _ _ Ee (hd_rel _ _ _ _ _ HX EX) Logic.I) as R.
  apply (KG_f _ X e t1 b f shF sinh HX); auto.
Qed.
Lemma KG_cosh b f X : LR b f X -> KG (hps_cosh X) (tr_f b f (fun j => shF (S j)) cosh) (LR b (fun t => cosh (f t))).
Proof.
  intros HX. unfold hps_cosh. kf HX a x EX. apply KG_lbind. intros e Ee. apply KG_lbind. intros e' Ee'. pose proof (bk_fun _ _ OK _ _ _ _ Ee (hd_rel _ _ _ _ _ HX EX) Logic.I) as R.
  apply (KG_f _ X e t1 b f (fun j => shF (S j)) cosh HX); auto.
Qed.
Lemma KG_sqrt b f X : LR b f X -> KG (hps_sqrt X) (tr_f b f sqrtF sqrt) (LR b (fun t => sqrt (f t))).
Proof.
  intros HX. unfold hps_sqrt. kf HX a x EX. apply KG_lbind. intros sa Es. apply KG_lbind. intros xn En. apply KG_lbind. intros x2 E2.
  pose proof (hd_rel _ _ _ _ _ HX EX) as Ra. pose proof (bk_fun _ _ OK _ _ _ _ Es Ra (bk_dom _ _ OK _ _ _ _ Es Ra)) as R.
  apply (KG_f _ X sa _ b f sqrtF sqrt HX); auto. intros q _ _. unfold sqrtF. simpl. replace (1 * sqrt (f 0) / 1) with (sqrt (f 0)) by field. exact R.
Qed.
Lemma KG_log b f X : LR b f X -> (b = true -> 0 < f 0) -> KG (hps_log X) (tr_log b f) (LR b (fun t => ln (f t))).
Proof.
  intros HX HP. unfold hps_log. kf HX a x EX. apply KG_lbind. intros l El. pose proof (hd_rel _ _ _ _ _ HX EX) as Ra.
  apply (KG_f _ X l _ b f logF ln HX).
  - intros q _ Eq. unfold step_log in Eq. apply bind_ok in Eq as (u & Eu & _). pose proof (bk_dom _ _ OK _ _ _ _ El Ra) as DC. simpl in DC.
    apply (bk_fun _ _ OK _ _ _ _ El Ra). simpl. destruct (bk_div _ _ OK _ _ _ _ _ Eu (bk_neg _ _ OK _ _ (bk_neg _ _ OK _ _ (rel1 B rel OK))) Ra) as [NZ _]. lra.
  - intros Eb. apply (bk_fun _ _ OK _ _ _ _ El Ra). simpl. auto.
Qed.
Lemma KG_div X Y b c f g : LR b f X -> LR c g Y -> KG (hps_div X Y) (tr_div b c f g) (LR (b && c) (fun t => f t / g t)).
Proof.
  intros HX HY. unfold hps_div, tr_div. apply (KG_bind _ _ _ _ _ _ (KG_inv c g Y HY)). intros i HI.
  apply (KG_mul X i b c (b && c) f (fun t => / g t)); auto.
Qed.
Lemma KG_Cdiv n e X b f : lit n e -> LR b f X -> KG (hps_Cdiv n e X) (fun N => tr_inv b f N ++ [(b, fun t => dy n e * / f t)]) (LR b (fun t => dy n e / f t)).
Proof. intros L HX. unfold hps_Cdiv. apply (KG_bind _ _ _ _ _ _ (KG_inv b f X HX)). intros i HI. now apply (KG_Cmul i n e b (fun t => / f t)). Qed.
Lemma KG_powl p : forall br bx f g r x, LR br f r -> LR bx g x -> KG (hps_pow_loop p r x) (fun _ => tr_powl p br bx f g) (LR (br && bx) (fun t => f t * g t ^ Pos.to_nat p)).
Proof.
  induction p; intros br bx f g r x HR HX; cbn [hps_pow_loop tr_powl].
  - apply (KG_bind _ _ (fun N => [(br && bx, fun t => f t * g t)]) (fun N => (bx, fun t => g t * g t) :: tr_powl p (br && bx) bx (fun t => f t * g t) (fun t => g t * g t)) (LR (br && bx) (fun t => f t * g t))).
    { now apply (KG_mul r x br bx (br && bx) f g). } intros r' HR'.
    apply (KG_bind _ _ (fun N => [(bx, fun t => g t * g t)]) (fun N => tr_powl p (br && bx) bx (fun t => f t * g t) (fun t => g t * g t)) (LR bx (fun t => g t * g t))).
    { apply (KG_mul x x bx bx bx g g); auto. now destruct bx. } intros x2 HX2.
    apply (KG_post _ _ (LR ((br && bx) && bx) (fun t => f t * g t * (g t * g t) ^ Pos.to_nat p))); [|now apply IHp].
    intros U. rewrite <- andb_assoc. replace (bx && bx) with bx by now destruct bx. apply LR_eq. intros t.
    rewrite Pos2Nat.inj_xI. simpl pow. replace (Pos.to_nat p + (Pos.to_nat p + 0))%nat with (Pos.to_nat p + Pos.to_nat p)%nat by lia.
      rewrite Rpow_mult_distr, pow_add. ring.
  - apply (KG_bind _ _ (fun N => [(bx, fun t => g t * g t)]) (fun N => tr_powl p br bx f (fun t => g t * g t)) (LR bx (fun t => g t * g t))).
    { apply (KG_mul x x bx bx bx g g); auto. now destruct bx. } intros x2 HX2.
    apply (KG_post _ _ (LR (br && bx) (fun t => f t * (g t * g t) ^ Pos.to_nat p))); [|now apply IHp].
    intros U. apply LR_eq. intros t. rewrite Pos2Nat.inj_xO. replace (2 * Pos.to_nat p)%nat with (Pos.to_nat p + Pos.to_nat p)%nat by lia.
      rewrite Rpow_mult_distr, pow_add. ring.
  - apply (KG_bind _ _ (fun N => [(br && bx, fun t => f t * g t)]) (fun N => [(bx, fun t => g t * g t)]) (LR (br && bx) (fun t => f t * g t))).
    { now apply (KG_mul r x br bx (br && bx) f g). } intros r' HR'.
    apply (KG_bind _ _ (fun N => [(bx, fun t => g t * g t)]) (fun N => []) (LR bx (fun t => g t * g t))).
    { apply (KG_mul x x bx bx bx g g); auto. now destruct bx. } intros x2 HX2. apply KG_lift. intros a Ea. injection Ea as <-.
    revert HR'. apply LR_eq. intros t. change (Pos.to_nat 1) with 1%nat. ring.
Qed.
Lemma LR_cst a v : rel a v -> LR true (fun _ => v) [a]. Proof. intros H. split; eauto. Qed.
Lemma KG_powi X n b f : LR b f X -> KG (hps_powi X n) (tr_powi b f n) (LR ((n =? 0)%Z || b) (fun t => powerRZ (f t) n)).
Proof.
  intros HX. pose proof (LR_cst _ _ (rel1 B rel OK)) as H1. unfold hps_powi. destruct n as [|p|p]; cbn [Z.eqb orb].
  - apply KG_lift. intros a Ea. injection Ea as <-. exact H1.
  - apply (KG_post _ _ (LR (true && b) (fun t => 1 * f t ^ Pos.to_nat p))); [|now apply KG_powl]. intros U. apply LR_eq. intros t. simpl. ring.
  - apply (KG_bind _ _ (fun N => tr_powl p true b (fun _ => 1) f) (fun N => tr_inv b (fun t => f t ^ Pos.to_nat p) N ++ [(b, fun t => 1 * / (f t ^ Pos.to_nat p))]) (LR b (fun t => f t ^ Pos.to_nat p))).
    + apply (KG_post _ _ (LR (true && b) (fun t => 1 * f t ^ Pos.to_nat p))); [|now apply KG_powl]. intros U. apply LR_eq. intros t. ring.
    + intros r HR. pose proof (KG_Cdiv 1 0 r b _ ltac:(apply lit_int; lia) HR) as HC. rewrite dy_int in HC. revert HC. apply KG_post. intros U. apply LR_eq. intros t. simpl. unfold Rdiv. ring.
Qed.
Lemma LR_divT A a X Y b f : ps_divT X A = Ok Y -> rel A a -> LR b f X -> LR b (fun t => f t / a) Y.
Proof.
  intros E HA HX. destruct b.
  - destruct HX as [(v & -> & RV) KF]. unfold ps_divT in E. cbn [mapM] in E. apply bind_ok in E as (w & Ew & E). cbn [bind] in E. apply oki in E. subst Y.
    split; [|intros; now rewrite KF]. exists w. split; auto. apply (bk_div _ _ OK _ _ _ _ _ Ew RV HA).
  - destruct HX as (L & c & J & K). split; [apply (divT_ln1 B s X A Y false E L)|]. exists (fun i => / a * c i). split.
    + apply (jet_ext (s - 1) (fun t => / a * f t) _ _ 1); [lra|intros; unfold Rdiv; ring|]. now apply jet_scal.
    + assert (LY : forall X Y, ps_divT X A = Ok Y -> forall i, (i < length X)%nat -> bdiv (at_ X i) A = Ok (at_ Y i)).
      { clear. unfold ps_divT. induction X as [|x X IH]; intros Y E i Hi; [simpl in Hi; lia|]. cbn [mapM] in E. apply bind_ok in E as (w & Ew & E). apply bind_ok in E as (W & EW & E). apply oki in E. subst Y.
        destruct i; [exact Ew|]. apply (IH W EW i). simpl in Hi. lia. }
      intros i Hi. destruct (bk_div _ _ OK _ _ _ _ _ (LY X Y E i ltac:(lia)) (K i Hi) HA) as [_ R]. unfold Rdiv in R. now rewrite Rmult_comm.
Qed.
Lemma KG_sc o n e X b f : lit n e -> LR b f X -> KG (hps_sc o n e X) (tr_sc o n e b f) (LR b (fun t => scv o n e (f t))).
Proof.
  intros L HX. destruct o; cbn [hps_sc tr_sc scv].
  - apply KG_lift. intros Y E. apply (LR_headop _ (dy n e) _ _ _ _ E); auto. intros. now apply (bk_addS _ _ OK).
  - apply KG_lift. intros Y E. apply (LR_eq b (fun t => f t + dy n e)); [intros; ring|]. apply (LR_headop _ (dy n e) _ _ _ _ E); auto. intros. now apply (bk_addS _ _ OK).
  - apply KG_lift. intros Y E. apply (LR_headop _ (- dy n e) _ _ _ _ E); auto. intros. now apply (bk_subS _ _ OK).
  - apply KG_lift. intros Y E. apply (LR_eq b (fun t => - f t + dy n e)); [intros; ring|]. apply (LR_headop _ (dy n e) _ _ _ _ E); [intros; now apply (bk_addS _ _ OK)|].
    now apply LR_neg.
  - apply (KG_post _ _ (LR b (fun t => dy n e * f t))); [|now apply KG_mulC]. intros U. apply LR_eq. intros; ring.
  - now apply KG_Cmul.
  - apply KG_lift. intros Y E. apply (LR_divT _ (dy n e) _ _ _ _ E (bk_cst _ _ OK _ _ L) HX).
  - now apply KG_Cdiv.
Qed.
Lemma KG_fun g X b f : is_arc g = false -> LR b f X -> (g = Alog -> b = true -> 0 < f 0) -> KG (hps_fun g X) (tr_fun g b f) (LR b (fun t => frl g (f t))).
Proof.
  intros A HX HP. destruct g; try discriminate A; cbn [hps_fun tr_fun frl].
  - now apply KG_exp.
  - apply KG_log; auto.
  - now apply KG_sqrt.
  - now apply KG_sin.
  - now apply KG_cos.
  - refine (KG_bind _ _ _ _ _ _ (KG_sin b f X HX) _). intros u Hu. refine (KG_bind _ _ _ _ _ _ (KG_cos b f X HX) _). intros v Hv.
    pose proof (KG_div u v b b _ _ Hu Hv) as HD. replace (b && b) with b in HD by now destruct b. exact HD.
  - now apply KG_sinh.
  - now apply KG_cosh.
  - refine (KG_bind _ _ _ _ _ _ (KG_sinh b f X HX) _). intros u Hu. refine (KG_bind _ _ _ _ _ _ (KG_cosh b f X HX) _). intros v Hv.
    pose proof (KG_div u v b b _ _ Hu Hv) as HD. replace (b && b) with b in HD by now destruct b. exact HD.
Qed.
(* an evaluation in mode 2, for any domain(), leaves a good list *)
Theorem KG_evalv vc x0 n env x e : awf n e -> noarc e = true -> plogv vc x0 e -> (forall i, (i < n)%nat -> LR (vc i) (fun t => x t i) (env i)) -> (forall i t, (i < n)%nat -> vc i = true -> x t i = x0 i) ->
  KG (hpseval env e) (trc vc e x) (LR (pfreev vc e) (fun t => rval e (x t))).
Proof.
  intros W NA PL HE HX. induction e; cbn [hpseval trc pfreev rval]; cbn [awf] in W; cbn [noarc] in NA; cbn [plogv] in PL.
  - apply KG_lift. intros a Ea. injection Ea as <-. now apply HE.
  - apply KG_lift. intros a Ea. injection Ea as <-. apply LR_cst. now apply (bk_cst _ _ OK).
  - destruct W, PL. apply andb_prop in NA as []. refine (KG_bind _ _ _ _ _ _ (IHe1 _ _ _) _); auto. intros u Hu. refine (KG_bind _ _ _ _ _ _ (IHe2 _ _ _) _); auto. intros v Hv. now apply KG_add.
  - destruct W, PL. apply andb_prop in NA as []. refine (KG_bind _ _ _ _ _ _ (IHe1 _ _ _) _); auto. intros u Hu. refine (KG_bind _ _ _ _ _ _ (IHe2 _ _ _) _); auto. intros v Hv. now apply KG_sub.
  - destruct W, PL. apply andb_prop in NA as []. refine (KG_bind _ _ _ _ _ _ (IHe1 _ _ _) _); auto. intros u Hu. refine (KG_bind _ _ _ _ _ _ (IHe2 _ _ _) _); auto. intros v Hv.
    now apply (KG_mul u v (pfreev vc e1) (pfreev vc e2) _ (fun t => rval e1 (x t)) (fun t => rval e2 (x t))).
  - destruct W, PL. apply andb_prop in NA as []. refine (KG_bind _ _ _ _ _ _ (IHe1 _ _ _) _); auto. intros u Hu. refine (KG_bind _ _ _ _ _ _ (IHe2 _ _ _) _); auto. intros v Hv. now apply KG_div.
  - destruct W as [WL W]. refine (KG_bind _ _ _ _ _ _ (IHe _ _ _) _); auto. intros u Hu. now apply KG_sc.
  - apply (KG_T _ (fun N => trc vc e x N ++ [])); [intros; apply app_nil_r|]. refine (KG_bind _ _ _ _ _ _ (IHe _ _ _) _); auto. intros u Hu. apply KG_lift. intros a Ea. injection Ea as <-. now apply LR_neg.
  - destruct W as [WL W]. refine (KG_bind _ _ _ _ _ _ (IHe _ _ _) _); auto. intros u Hu. now apply KG_powi.
  - destruct W, PL as (PL1 & PL2 & PL3). apply andb_prop in NA as []. refine (KG_bind _ _ _ _ _ _ (IHe1 _ _ _) _); auto. intros u Hu.
    refine (KG_bind _ _ _ _ _ _ (IHe2 _ _ _) _); auto. intros v Hv. unfold hps_pow.
    refine (KG_bind _ _ _ _ _ _ (KG_log _ _ u Hu _) _). { intros PF. rewrite (pfreev_const vc n e1 PF ltac:(assumption) _ x0); auto. }
    intros l Hl. refine (KG_bind _ _ _ _ _ _ (KG_mul v l _ _ _ _ _ _ Hv Hl (fun t => eq_refl) eq_refl) _). intros p Hp.
    refine (KG_post _ _ _ _ _ (KG_exp _ _ p Hp)). intros U HU. rewrite andb_comm. exact HU.
  - destruct PL as (PL1 & PL2). apply andb_prop in NA as [NA1 NA2]. refine (KG_bind _ _ _ _ _ _ (IHe _ _ _) _); auto. intros u Hu.
    apply KG_fun; auto; [now apply negb_true_iff|]. intros Ef PF. rewrite (pfreev_const vc n e PF W _ x0); auto.
Qed.
Theorem KG_eval n env x e : awf n e -> noarc e = true -> plog e -> (forall i, (i < n)%nat -> LR false (fun t => x t i) (env i)) ->
  KG (hpseval env e) (tr e x) (LR (pfree e) (fun t => rval e (x t))).
Proof. intros W NA PL HE. apply (KG_evalv (fun _ => false) (fun _ => 0) n env x e W NA PL HE). intros i t _ C. discriminate C. Qed.
End KeepG.
(* size s - 1 *)
Section Keep1.
Variable s : nat.
Definition KT {A} (M : hM B A) (T : list ent) (P : A -> Prop) : Prop :=
  forall st A0 rest a st', p_mode st = 2%Z -> p_uh st = true -> p_hist st = A0 ++ rest -> Forall2 (hv (s - 1)) T A0 -> M st = (Ok a, st') ->
  P a /\ p_mode st' = 2%Z /\ p_dom st' = p_dom st /\ p_uh st' = true /\ p_rh st' = p_rh st /\
  exists A1, p_hist st' = rest ++ A1 /\ (if p_rh st then Forall2 (hv (s - 1)) T A1 else A1 = []).
Lemma KT_lift {A} (r : res A) (P : A -> Prop) : (forall a, r = Ok a -> P a) -> KT (hlift r) [] P.
Proof.
  intros H st A0 rest a st' M1 MU HH HU E. unfold hlift in E. injection E as E E'. subst st'. split; auto. repeat (split; auto).
  exists []. rewrite app_nil_r. split; [|now destruct (p_rh st)]. rewrite HH. inversion HU. auto.
Qed.
Lemma KT_bind {A A'} (M : hM B A) (f : A -> hM B A') T T' P P' : KT M T P -> (forall a, P a -> KT (f a) T' P') -> KT (hbind M f) (T ++ T') P'.
Proof.
  intros HM HF st A0 rest b st' M1 MU HH HU E. unfold hbind in E. destruct (M st) as [[a|e] st1] eqn:E1; [|discriminate E].
  apply Forall2_app_inv_l in HU as (A1 & A2 & F1 & F2 & ->). rewrite <- app_assoc in HH.
  destruct (HM st A1 (A2 ++ rest) a st1 M1 MU HH F1 E1) as (PA & N1 & N2 & N3 & N4 & C1 & HC1 & V1). rewrite <- app_assoc in HC1.
  destruct (HF a PA st1 A2 (rest ++ C1) b st' N1 N3 HC1 F2 E) as (PB & O1 & O2 & O3 & O4 & C2 & HC2 & V2).
  split; auto. repeat (split; [congruence|]). exists (C1 ++ C2). rewrite app_assoc. split; auto. rewrite N4 in V2. destruct (p_rh st); [now apply Forall2_app|now subst].
Qed.
End Keep1.
Theorem KT_eval s : (2 <= s)%nat -> forall n env x e, awf n e -> noarc e = true -> plog e -> (forall i, (i < n)%nat -> LR s false (fun t => x t i) (env i)) ->
  KT s (hpseval env e) (tr e x (s - 1)) (LR s (pfree e) (fun t => rval e (x t))).
Proof.
  intros L2 n env x e W NA PL HE st A0 rest a st' M1 MU HH HU E.
  refine (KG_eval s L2 (s - 1) (or_introl eq_refl) n env x e W NA PL HE st A0 rest a st' M1 MU HH _ E).
  clear - L2 HU. induction HU; constructor; auto. now apply hv_hc.
Qed.
End Keep.
