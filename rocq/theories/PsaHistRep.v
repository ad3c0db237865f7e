(* Series computed with coefficients taken from a history list.
   A trace is the list of the functions whose series an evaluation records, in the order of recording.  An evaluation at size s takes
   from the list the trace for size s - 1 and appends the trace for the new size; the results represent the functions they should. *)
From Coq Require Import Reals ZArith Bool List Lra Lia Psatz Arith.
From Coquelicot Require Import Coquelicot.
From Verif Require Import Ext RealFun RealConst ADModel ADReal ADProofs PsaModel PsaReal PsaProofs PsaInt PsaExpr PsaUseProofs PsaHist PsaHistProofs.
Import List ListNotations.
Open Scope R_scope.

(* one entry: is the series of size 1, and its function *)
Definition ent := (bool * (R -> R))%type.
(* the three results of turn i of the loop of an elementary function *)
Definition turn (ga : R -> R) (ka : nat -> R) (i : nat) : list ent :=
  [(false, fun t => ga t ^ i); (false, fun t => ka i * ga t ^ i); (false, fun t => rsum (fun j => ka j * ga t ^ j) (S i))].
Definition turns (ga : R -> R) (ka : nat -> R) (i N : nat) : list ent := flat_map (turn ga ka) (seq i (N - i)).
Lemma turns_S ga ka i N : (i < N)%nat -> turns ga ka i N = turn ga ka i ++ turns ga ka (S i) N.
Proof. intros H. unfold turns. replace (N - i)%nat with (S (N - S i)) by lia. reflexivity. Qed.
Lemma turns_0 ga ka i N : (N <= i)%nat -> turns ga ka i N = [].
Proof. intros H. unfold turns. now replace (N - i)%nat with O by lia. Qed.
(* the loop of an elementary function, then r * 1. *)
Definition trl (b : bool) (ga : R -> R) (ka : nat -> R) (res : R -> R) (N : nat) : list ent := (if b then [] else turns ga ka 1 N) ++ [(b, res)].
Definition tr_inv (b : bool) (f : R -> R) : nat -> list ent := trl b (fun t => (f t - f 0) / f 0) (fun j => (-1) ^ j / f 0) (fun t => / f t).
Definition tr_f (b : bool) (f : R -> R) (F : nat -> R -> R) (g : R -> R) : nat -> list ent := trl b (fun t => f t - f 0) (fun j => F j (f 0) / INR (fact j)) (fun t => g (f t)).
Definition tr_exp b f := tr_f b f (fun _ => exp) exp.
Definition tr_log b f := tr_f b f logF ln.
Definition tr_div (b c : bool) (f g : R -> R) (N : nat) : list ent := tr_inv c g N ++ [(b && c, fun t => f t * / g t)].
Fixpoint tr_powl (p : positive) (br bx : bool) (r x : R -> R) : list ent :=
  match p with
  | xH => [(br && bx, fun t => r t * x t); (bx, fun t => x t * x t)]
  | xO p => (bx, fun t => x t * x t) :: tr_powl p br bx r (fun t => x t * x t)
  | xI p => (br && bx, fun t => r t * x t) :: (bx, fun t => x t * x t) :: tr_powl p (br && bx) bx (fun t => r t * x t) (fun t => x t * x t)
  end.
Definition tr_powi (b : bool) (f : R -> R) (n : Z) (N : nat) : list ent :=
  match n with
  | Z0 => []
  | Zpos p => tr_powl p true b (fun _ => 1) f
  | Zneg p => tr_powl p true b (fun _ => 1) f ++ tr_inv b (fun t => f t ^ Pos.to_nat p) N ++ [(b, fun t => 1 * / (f t ^ Pos.to_nat p))]
  end.
Definition tr_fun (g : afun) (b : bool) (f : R -> R) (N : nat) : list ent :=
  match g with
  | Aexp => tr_exp b f N | Alog => tr_log b f N | Asqrt => tr_f b f sqrtF sqrt N
  | Asin => tr_f b f sinF sin N | Acos => tr_f b f cosF cos N
  | Atan_ => tr_f b f sinF sin N ++ tr_f b f cosF cos N ++ tr_div b b (fun t => sin (f t)) (fun t => cos (f t)) N
  | Asinh => tr_f b f shF sinh N | Acosh_ => tr_f b f (fun j => shF (S j)) cosh N
  | Atanh_ => tr_f b f shF sinh N ++ tr_f b f (fun j => shF (S j)) cosh N ++ tr_div b b (fun t => sinh (f t)) (fun t => cosh (f t)) N
  | _ => []
  end.
Definition tr_sc (o : scop) (k e : Z) (b : bool) (f : R -> R) (N : nat) : list ent :=
  match o with
  | SOmul | SOmulr => [(b, fun t => dy k e * f t)]
  | SOdivr => tr_inv b f N ++ [(b, fun t => dy k e * / f t)]
  | _ => []
  end.
Fixpoint trc (vc : nat -> bool) (e : aexpr) (x : R -> nat -> R) (N : nat) : list ent :=
  match e with
  | XVar _ | XCst _ _ => []
  | XAdd a b => trc vc a x N ++ trc vc b x N ++ [(pfreev vc e, fun t => rval a (x t) + rval b (x t))]
  | XSub a b => trc vc a x N ++ trc vc b x N ++ [(pfreev vc e, fun t => rval a (x t) - rval b (x t))]
  | XMul a b => trc vc a x N ++ trc vc b x N ++ [(pfreev vc e, fun t => rval a (x t) * rval b (x t))]
  | XDiv a b => trc vc a x N ++ trc vc b x N ++ tr_div (pfreev vc a) (pfreev vc b) (fun t => rval a (x t)) (fun t => rval b (x t)) N
  | XSc o k z a => trc vc a x N ++ tr_sc o k z (pfreev vc a) (fun t => rval a (x t)) N
  | XNeg a => trc vc a x N
  | XPowZ a n => trc vc a x N ++ tr_powi (pfreev vc a) (fun t => rval a (x t)) n N
  | XPow a b => trc vc a x N ++ trc vc b x N ++ tr_log (pfreev vc a) (fun t => rval a (x t)) N ++ [(pfreev vc b && pfreev vc a, fun t => rval b (x t) * ln (rval a (x t)))] ++
      tr_exp (pfreev vc b && pfreev vc a) (fun t => rval b (x t) * ln (rval a (x t))) N
  | XFun f a => trc vc a x N ++ tr_fun f (pfreev vc a) (fun t => rval a (x t)) N
  end.
Notation tr := (trc (fun _ => false)).

Section HistRep.
Variable B : base.
Variable rel : B -> R -> Prop.
Hypothesis OK : base_ok B rel.
Notation psa := (list B).
Notation pst := (pst B).
(* a recorded series of size N *)
Definition hv (N : nat) (e : ent) (h : psa) : Prop :=
  (if fst e then (length h <= 1)%nat else length h = N) /\ exists c, jet N (snd e) c /\ coef B rel h c.

Section Fix.
Variables (k : kd) (m : Z) (D : B) (s : nat).
Hypothesis S1 : (1 <= s)%nat.
Hypothesis S2 : (Z.of_nat s <= 2 ^ 52)%Z.
Hypothesis MD : mdok B rel k m D.
Hypothesis KJ : match k with Some p => snd p = true /\ (2 <= s)%nat | None => True end.
(* the size of the recorded series that are taken: s - 1; in mode 2 also s *)
Variable so : nat.
Hypothesis HSO : so = (s - 1)%nat \/ (so = s /\ m = 2%Z).
Notation Rep := (Rep B rel k s).
(* the coefficients of a recorded series below s - 1 *)
Definition hc (e : ent) (h : psa) : Prop :=
  (if fst e then (length h <= 1)%nat else length h = so) /\ exists c, jet (s - 1) (snd e) c /\ forall i, (i < length h)%nat -> (i < s - 1)%nat -> rel (at_ h i) (c i).
Definition snew : nat := if (m =? 2)%Z then (s - 1)%nat else s.
(* X represents f, with the size given by b *)
Definition RL (b : bool) (f : R -> R) (X : psa) : Prop := Rep X f /\ length X = (if b then 1%nat else s).
Lemma m12 : (m = 1%Z /\ k = None) \/ (m = 2%Z /\ exists t, k = Some (t, true)).
Proof. unfold mdok in MD. destruct k as [[t j]|]; [right|left; auto]. destruct KJ as [J _]. simpl in J. subst j. destruct MD as [M _]. split; eauto. Qed.
Lemma Q_jet f c : (2 <= s)%nat -> Q k s f c -> jet (s - 1) f c.
Proof.
  intros L. destruct m12 as [[_ ->]|[_ [t ->]]]; simpl; [apply jet_weak; lia|]. intros [_ J]. rewrite <- Jo_2 by auto. now apply J.
Qed.
Lemma at_app (X Y : psa) i : at_ (X ++ Y) i = if (i <? length X)%nat then at_ X i else at_ Y (i - length X).
Proof. unfold at_. destruct (Nat.ltb_spec i (length X)); [now apply app_nth1|now apply app_nth2]. Qed.
Lemma at_firstn o (X : psa) i : (i < o)%nat -> at_ (firstn o X) i = at_ X i.
Proof. revert X i. induction o; intros X i H; [lia|]. destruct X; [now destruct i|]. destruct i; [reflexivity|]. unfold at_ in *. simpl. apply IHo. lia. Qed.
Lemma at_skipn o (X : psa) i : at_ (skipn o X) i = at_ X (o + i).
Proof. revert X. induction o; intros X; [reflexivity|]. destruct X; [now destruct i|]. unfold at_ in *. simpl. apply IHo. Qed.
Lemma reuse_len h (V : psa) : length (reuse m h V) = length V.
Proof. unfold reuse. rewrite app_length, firstn_length, skipn_length. destruct (m =? 2)%Z; lia. Qed.
Lemma RL_reuse b f h V : (2 <= s)%nat -> RL b f V -> hc (b, f) h -> RL b f (reuse m h V).
Proof.
  intros L [[LV (c & A & Z & HQ)] LB] [LH (ch & JH & CH)]. cbn [fst snd] in *. split; [|now rewrite reuse_len]. split; [now rewrite reuse_len|]. exists c. split; [|split; auto].
  - intros i Hi. rewrite reuse_len in Hi. unfold reuse. set (o := Nat.min _ _). rewrite at_app, firstn_length. destruct (Nat.ltb_spec i (Nat.min o (length h))) as [Ho|Ho].
    + rewrite at_firstn by lia. rewrite <- (jet_unique (s - 1) f ch c JH (Q_jet f c L HQ) i); [apply CH; [lia|]|]; unfold o in Ho; destruct HSO as [HO|[HO EM]]; [|rewrite EM in Ho; cbn [Z.eqb Pos.eqb] in Ho| |rewrite EM in Ho; cbn [Z.eqb Pos.eqb] in Ho]; destruct b, (m =? 2)%Z; lia.
    + rewrite at_skipn. assert (o <= length h)%nat by (unfold o; lia). replace (o + (i - Nat.min o (length h)))%nat with i by lia. now apply A.
  - intros i Hi. rewrite reuse_len in Hi. auto.
Qed.
Lemma at_removelast (X : psa) i : (i < length X - 1)%nat -> at_ (removelast X) i = at_ X i.
Proof.
  revert i. induction X as [|a X IH]; intros i H; [simpl in H; lia|]. destruct X as [|a' X]; [simpl in H; lia|].
  change (removelast (a :: a' :: X)) with (a :: removelast (a' :: X)). destruct i; [reflexivity|]. unfold at_ in *. cbn [nth]. apply IH. simpl in *. lia.
Qed.
Lemma removelast_len (X : psa) : length (removelast X) = (length X - 1)%nat.
Proof. induction X as [|a [|a' X] IH]; auto. change (removelast (a :: a' :: X)) with (a :: removelast (a' :: X)). simpl length in *. lia. Qed.
Lemma hv_recd b f U : RL b f U -> hv snew (b, f) (recd m U).
Proof.
  intros [[LU (c & A & Z & HQ)] LB]. unfold snew, recd. destruct m12 as [[EM EK]|[EM [t EK]]]; rewrite EM; cbn [Z.eqb Pos.eqb].
  - split; cbn [fst snd]; [destruct b; lia|]. exists c. split; auto. rewrite EK in HQ. exact HQ.
  - assert (L : (2 <= s)%nat) by (rewrite EK in KJ; apply KJ). split; cbn [fst snd]; [rewrite removelast_len; destruct b; lia|]. exists c. split; [now apply Q_jet|].
    intros i Hi. rewrite removelast_len in Hi. rewrite at_removelast by lia. apply A. lia.
Qed.
(* triples: an evaluation takes the trace for size so from the list and appends the trace for the new size *)
Definition HG {A} (M : hM B A) (T : nat -> list ent) (Post : A -> Prop) : Prop :=
  forall st A0 rest a st', p_mode st = m -> p_dom st = D -> p_hist st = A0 ++ rest ->
  (if p_uh st then (2 <= s)%nat /\ Forall2 hc (T so) A0 else A0 = []) -> M st = (Ok a, st') ->
  Post a /\ p_mode st' = m /\ p_dom st' = D /\ p_uh st' = p_uh st /\ p_rh st' = p_rh st /\
  exists A1, p_hist st' = rest ++ A1 /\ (if p_rh st then Forall2 (hv snew) (T snew) A1 else A1 = []).
Lemma HG_lift {A} (r : res A) (P : A -> Prop) : (forall a, r = Ok a -> P a) -> HG (hlift r) (fun _ => []) P.
Proof.
  intros H st A0 rest a st' M1 M2 HH HU E. unfold hlift in E. injection E as E E'. subst st'. split; auto. repeat (split; auto).
  exists []. rewrite app_nil_r. split; [|now destruct (p_rh st)]. rewrite HH. destruct (p_uh st); [destruct HU as [_ HU]; inversion HU; auto|]. now subst A0.
Qed.
Lemma HG_bind {A A'} (M : hM B A) (f : A -> hM B A') T T' P P' : HG M T P -> (forall a, P a -> HG (f a) T' P') -> HG (hbind M f) (fun N => T N ++ T' N) P'.
Proof.
  intros HM HF st A0 rest b st' M1 M2 HH HU E. unfold hbind in E. destruct (M st) as [[a|e] st1] eqn:E1; [|discriminate E].
  assert (SP : exists A1 A2, A0 = A1 ++ A2 /\ (if p_uh st then (2 <= s)%nat /\ Forall2 hc (T so) A1 else A1 = []) /\
    (if p_uh st then (2 <= s)%nat /\ Forall2 hc (T' so) A2 else A2 = [])).
  { destruct (p_uh st); [|exists [], []; auto]. destruct HU as [L HU]. apply Forall2_app_inv_l in HU as (A1 & A2 & F1 & F2 & ->). exists A1, A2. auto. }
  destruct SP as (A1 & A2 & -> & U1 & U2). rewrite <- app_assoc in HH.
  destruct (HM st A1 (A2 ++ rest) a st1 M1 M2 HH U1 E1) as (PA & N1 & N2 & N3 & N4 & C1 & HC1 & V1). rewrite <- app_assoc in HC1.
  rewrite <- N3 in U2. destruct (HF a PA st1 A2 (rest ++ C1) b st' N1 N2 HC1 U2 E) as (PB & O1 & O2 & O3 & O4 & C2 & HC2 & V2).
  split; auto. repeat (split; [congruence|]). exists (C1 ++ C2). rewrite app_assoc. split; auto. rewrite N4 in V2. destruct (p_rh st); [now apply Forall2_app|now subst].
Qed.
Lemma HG_T {A} (M : hM B A) (T T' : nat -> list ent) P : (forall N, T N = T' N) -> HG M T P -> HG M T' P.
Proof.
  intros E H st A0 rest a st' M1 M2 HH HU EM. rewrite <- E in HU. destruct (H st A0 rest a st' M1 M2 HH HU EM) as (PA & N1 & N2 & N3 & N4 & C1 & HC1 & V1).
  split; auto. repeat (split; auto). exists C1. rewrite <- E. auto.
Qed.
Lemma HG_post {A} (M : hM B A) T (P P' : A -> Prop) : (forall a, P a -> P' a) -> HG M T P -> HG M T P'.
Proof. intros E H st A0 rest a st' M1 M2 HH HU EM. destruct (H st A0 rest a st' M1 M2 HH HU EM) as (PA & R). split; auto. Qed.
Lemma HG_lbind {A A'} (r : res A) (f : A -> hM B A') T P : (forall a, r = Ok a -> HG (f a) T P) -> HG (hbind (hlift r) f) T P.
Proof. intros H. apply (HG_bind (hlift r) f (fun _ => []) T (fun a => r = Ok a) P); auto. apply HG_lift. auto. Qed.
Lemma HG_get {A} (f : Z -> B -> hM B A) T P : HG (f m D) T P -> HG (hget f) T P.
Proof. intros H st A0 rest a st' M1 M2 HH HU E. unfold hget in E. rewrite M1, M2 in E. now apply (H st A0 rest a st'). Qed.
Lemma HG_fin fr V b f : RL b f V -> HG (hfin fr V) (fun _ => [(b, f)]) (RL b f).
Proof.
  intros HV st A0 rest a st' M1 M2 HH HU E. unfold hfin in E. rewrite M1 in E.
  assert (RC : forall U st1 l, RL b f U -> p_mode st1 = m -> p_dom st1 = D -> p_uh st1 = p_uh st -> p_rh st1 = p_rh st -> p_hist st1 = l -> record U st1 = st' ->
    p_mode st' = m /\ p_dom st' = D /\ p_uh st' = p_uh st /\ p_rh st' = p_rh st /\ exists A1, p_hist st' = l ++ A1 /\ (if p_rh st then Forall2 (hv snew) [(b, f)] A1 else A1 = [])).
  { intros U st1 l HU' N1 N2 N3 N4 N5 ER. unfold record in ER. rewrite N4 in ER. destruct (p_rh st) eqn:RH; subst st'; cbn [set_hist p_mode p_dom p_uh p_rh p_hist];
    repeat (split; auto).
    - exists [recd (p_mode st1) U]. rewrite N5. split; auto. constructor; auto. rewrite N1. now apply hv_recd.
    - exists []. rewrite app_nil_r. auto. }
  destruct (p_uh st) eqn:UH.
  - destruct HU as [L HU]. destruct A0 as [|h A0']; [inversion HU|].
    assert (HH1 : hc (b, f) h) by (inversion HU; auto). assert (A0' = []) as -> by (inversion HU as [|? ? ? ? ? HN]; inversion HN; auto). rewrite HH in E. cbn [app] in E. injection E as EU EST.
    assert (HRU : RL b f a). { rewrite <- EU. destruct fr; auto. now apply RL_reuse. } split; auto.
    rewrite EU in EST. apply (RC a (set_hist rest st) rest HRU); auto.
  - subst A0. cbn [app] in HH. injection E as EU EST. subst a. split; auto. apply (RC V st rest HV); auto.
Qed.

(* ---- operators ---- *)
Lemma RL_eq b f g X : (forall t, f t = g t) -> RL b f X -> RL b g X.
Proof. intros E [H L]. split; auto. revert H. now apply Rep_eq. Qed.
Lemma len_s1 (b : bool) (X : psa) : s = 1%nat -> length X = (if b then 1%nat else s) -> length X = 1%nat. Proof. intros -> H. now destruct b. Qed.
Lemma RL_add X Y U b c f g : ps_add X Y = Ok U -> RL b f X -> RL c g Y -> RL (b && c) (fun t => f t + g t) U.
Proof.
  intros E [HX LX] [HY LY]. split; [now apply (Rep_add B rel OK k s S1 S2 X Y)|].
  destruct (Nat.eq_dec s 1) as [E1|N1]; [|apply (add_len B s ltac:(lia) X Y U b c E LX LY)].
  apply (len_s1 _ _ E1) in LX. apply (len_s1 _ _ E1) in LY. destruct X as [|x [|]]; try discriminate LX. destruct Y as [|y [|]]; try discriminate LY.
  apply oki in E. subst U. simpl. destruct (b && c); auto.
Qed.
Lemma RL_sub X Y U b c f g : ps_sub X Y = Ok U -> RL b f X -> RL c g Y -> RL (b && c) (fun t => f t - g t) U.
Proof.
  intros E [HX LX] [HY LY]. split; [now apply (Rep_sub B rel OK k s S1 S2 X Y)|].
  destruct (Nat.eq_dec s 1) as [E1|N1]; [|apply (sub_len B s ltac:(lia) X Y U b c E LX LY)].
  apply (len_s1 _ _ E1) in LX. apply (len_s1 _ _ E1) in LY. destruct X as [|x [|]]; try discriminate LX. destruct Y as [|y [|]]; try discriminate LY.
  apply oki in E. subst U. simpl. destruct (b && c); auto.
Qed.
Lemma RL_mul X Y U b c f g : ps_mul m D X Y = Ok U -> RL b f X -> RL c g Y -> RL (b && c) (fun t => f t * g t) U.
Proof.
  intros E [HX LX] [HY LY]. split; [now apply (Rep_mul B rel OK k m D s S1 S2 MD X Y)|].
  destruct (Nat.eq_dec s 1) as [E1|N1]; [|apply (mul_len B m D s ltac:(lia) X Y U b c E LX LY)].
  apply (len_s1 _ _ E1) in LX. apply (len_s1 _ _ E1) in LY. destruct X as [|x [|]]; try discriminate LX. destruct Y as [|y [|]]; try discriminate LY.
  apply oki in E. subst U. simpl. destruct (b && c); auto.
Qed.
Lemma RL_map (g : B -> B) q X b f : (forall Y y, rel Y y -> rel (g Y) (q * y)) -> RL b f X -> RL b (fun t => q * f t) (map g X).
Proof. intros H [HX LX]. split; [now apply Rep_map|now rewrite map_length]. Qed.
Lemma RL_Tmul a v X b f : rel a v -> RL b f X -> RL b (fun t => v * f t) (ps_Tmul a X).
Proof. intros H. apply RL_map. intros. now apply (bk_mul _ _ OK). Qed.
Lemma RL_cst a v : rel a v -> RL true (fun _ => v) [a]. Proof. intros H. split; auto. now apply Rep_cst. Qed.
Lemma RL_neg X b f : RL b f X -> RL b (fun t => - f t) (ps_neg X).
Proof. intros [H L]. split; [now apply Rep_neg|]. unfold ps_neg. now rewrite map_length. Qed.
Lemma RL_head (g : B -> B) a X Y b f : PsaModel.head g X = Ok Y -> (forall Z z, rel Z z -> rel (g Z) (z + a)) -> RL b f X -> RL b (fun t => f t + a) Y.
Proof. intros E H [HX L]. split; [now apply (Rep_head B rel k s S1 S2 g a X Y)|]. now rewrite (head_len B _ _ _ E). Qed.
Lemma RL_divT A a X Y b f : ps_divT X A = Ok Y -> rel A a -> RL b f X -> a <> 0 /\ RL b (fun t => f t / a) Y.
Proof. intros E H [HX L]. destruct (Rep_divT B rel OK k s S1 A a X Y f E H HX) as [N R]. split; auto. split; auto. apply (divT_ln1 B s X A Y b E L). Qed.
Lemma HG_add X Y b c d f g h : RL b f X -> RL c g Y -> (forall t, f t + g t = h t) -> d = b && c -> HG (hps_add X Y) (fun _ => [(d, h)]) (RL d h).
Proof. intros HX HY E ->. apply HG_lbind. intros V EV. apply HG_fin. apply (RL_eq _ _ _ _ E). now apply (RL_add X Y). Qed.
Lemma HG_sub X Y b c d f g h : RL b f X -> RL c g Y -> (forall t, f t - g t = h t) -> d = b && c -> HG (hps_sub X Y) (fun _ => [(d, h)]) (RL d h).
Proof. intros HX HY E ->. apply HG_lbind. intros V EV. apply HG_fin. apply (RL_eq _ _ _ _ E). now apply (RL_sub X Y). Qed.
Lemma HG_mul X Y b c d f g h : RL b f X -> RL c g Y -> (forall t, f t * g t = h t) -> d = b && c -> HG (hps_mul X Y) (fun _ => [(d, h)]) (RL d h).
Proof. intros HX HY E ->. apply HG_get, HG_lbind. intros V EV. apply HG_fin. apply (RL_eq _ _ _ _ E). now apply (RL_mul X Y). Qed.
Lemma HG_Tmul a v X b f : rel a v -> RL b f X -> HG (hps_Tmul a X) (fun _ => [(b, fun t => v * f t)]) (RL b (fun t => v * f t)).
Proof. intros HA HX. apply HG_fin. now apply RL_Tmul. Qed.
Lemma HG_mulC X n e b f : lit n e -> RL b f X -> HG (hps_mulC X n e) (fun _ => [(b, fun t => dy n e * f t)]) (RL b (fun t => dy n e * f t)).
Proof.
  intros L HX st A0 rest a st' M1 M2 HH HU E. unfold hps_mulC in E. refine (HG_fin true _ b (fun t => dy n e * f t) _ st A0 rest a st' M1 M2 HH HU E).
  destruct (p_uh st); apply RL_map; auto; intros Y y HY; rewrite Rmult_comm; [now apply (bk_mulS _ _ OK)|]. apply (bk_mul _ _ OK); auto. now apply (bk_cst _ _ OK).
Qed.
Lemma HG_Cmul X n e b f : lit n e -> RL b f X -> HG (hps_Cmul n e X) (fun _ => [(b, fun t => dy n e * f t)]) (RL b (fun t => dy n e * f t)).
Proof.
  intros L HX st A0 rest a st' M1 M2 HH HU E. unfold hps_Cmul in E. refine (HG_fin true _ b (fun t => dy n e * f t) _ st A0 rest a st' M1 M2 HH HU E).
  destruct (p_uh st); apply RL_map; auto; intros Y y HY; [now apply (bk_Smul _ _ OK)|]. apply (bk_mul _ _ OK); auto. now apply (bk_cst _ _ OK).
Qed.
(* ---- the loop ---- *)
Lemma HG_turn {St} (stp : nat -> bool -> St -> res (B * St)) g ga i last hn r st bh br R1 kap (I : St -> Prop) : (1 <= i)%nat -> RL false ga g ->
  RL bh (fun t => ga t ^ (i - 1)) hn -> RL br R1 r -> (forall q, stp i last st = Ok q -> rel (fst q) kap /\ I (snd q)) ->
  HG (hturn stp g i last hn r st) (fun _ => [(false, fun t => ga t ^ i); (false, fun t => kap * ga t ^ i); (false, fun t => R1 t + kap * ga t ^ i)])
    (fun q => RL false (fun t => ga t ^ i) (fst (fst q)) /\ RL false (fun t => R1 t + kap * ga t ^ i) (snd (fst q)) /\ I (snd q)).
Proof.
  intros L1 HG HN HR HS. unfold hturn.
  apply (HG_bind _ _ (fun _ => [(false, fun t => ga t ^ i)]) (fun _ => [(false, fun t => kap * ga t ^ i); (false, fun t => R1 t + kap * ga t ^ i)]) (RL false (fun t => ga t ^ i))).
  - apply (HG_mul hn g bh false false (fun t => ga t ^ (i - 1)) ga); auto; [|now rewrite andb_false_r]. intros t. replace i with (S (i - 1)) at 2 by lia. simpl. ring.
  - intros hn' HN'. apply HG_lbind. intros q Eq. destruct (HS q Eq) as [HK HI].
    apply (HG_bind _ _ (fun _ => [(false, fun t => kap * ga t ^ i)]) (fun _ => [(false, fun t => R1 t + kap * ga t ^ i)]) (RL false (fun t => kap * ga t ^ i))); [now apply (HG_Tmul _ kap _ _ (fun t => ga t ^ i))|].
    intros kh HKH. apply (HG_bind _ _ (fun _ => [(false, fun t => R1 t + kap * ga t ^ i)]) (fun _ => []) (RL false (fun t => R1 t + kap * ga t ^ i))).
    + apply (HG_add r kh br false false R1 (fun t => kap * ga t ^ i)); auto. now rewrite andb_false_r.
    + intros r' HR'. apply HG_lift. intros a Ea. injection Ea as <-. auto.
Qed.
Lemma snew_ge : (s - 1 <= snew)%nat. Proof. unfold snew. destruct (m =? 2)%Z; lia. Qed.
Lemma turn_kk ga ka kl i : (1 <= i < s)%nat -> ((m =? 2)%Z && (i =? s - 1)%nat) = false ->
  [(false, fun t => ga t ^ i); (false, fun t => kk m s ka kl i * ga t ^ i); (false, fun t => rsum (fun j => kk m s ka kl j * ga t ^ j) i + kk m s ka kl i * ga t ^ i)] = turn ga ka i.
Proof.
  intros Hi HL. assert (KE : forall j, (j <= i)%nat -> kk m s ka kl j = ka j).
  { intros j Hj. unfold kk. destruct (m =? 2)%Z; auto. cbn [andb] in *. apply Nat.eqb_neq in HL. destruct (Nat.eqb_spec j (s - 1)); [lia|reflexivity]. }
  unfold turn. repeat f_equal; apply FunctionalExtensionality.functional_extensionality; intros t.
  - now rewrite KE.
  - change (rsum (fun j => kk m s ka kl j * ga t ^ j) (S i) = rsum (fun j => ka j * ga t ^ j) (S i)). apply rsum_ext. intros j Hj. rewrite KE by lia. reflexivity.
Qed.
(* equal coefficients below s - 1 *)
Lemma hc_low b f g h : bigO (s - 1) (fun t => g t - f t) -> hc (b, f) h -> hc (b, g) h.
Proof.
  intros BO [L (c & J & C)]. split; [exact L|]. exists c. split; [|exact C]. cbn [fst snd] in *. rewrite jet_bigO in *.
  apply (bigO_ext _ (fun t => (f t - pe c (s - 1) t) + (g t - f t)) _ 1); [lra|intros; ring|]. now apply bigO_plus.
Qed.
Lemma hc_turn ga ka kl i A0 : bigO 1 ga -> i = (s - 1)%nat -> Forall2 hc (turn ga ka i) A0 ->
  Forall2 hc [(false, fun t => ga t ^ i); (false, fun t => kk m s ka kl i * ga t ^ i); (false, fun t => rsum (fun j => kk m s ka kl j * ga t ^ j) i + kk m s ka kl i * ga t ^ i)] A0.
Proof.
  intros BO EI H. inversion H as [|? h1 ? l1 H1 K1]; subst; clear H. inversion K1 as [|? h2 ? l2 H2 K2]; subst; clear K1. inversion K2 as [|? h3 ? l3 H3 K3]; subst; clear K2. inversion K3; subst.
  assert (BP : bigO (s - 1) (fun t => ga t ^ (s - 1))) by (apply (bigO_weak ((s - 1) * 1)); [lia|now apply bigO_pow]).
  constructor; [exact H1|]. constructor; [|constructor; [|constructor]].
  - revert H2. apply hc_low. apply (bigO_ext _ (fun t => (kk m s ka kl (s - 1) - ka (s - 1)%nat) * ga t ^ (s - 1)) _ 1); [lra|intros; ring|]. now apply bigO_scal.
  - revert H3. apply hc_low. apply (bigO_ext _ (fun t => (kk m s ka kl (s - 1) - ka (s - 1)%nat) * ga t ^ (s - 1)) _ 1); [lra| |now apply bigO_scal].
    intros t _. change (rsum ?f (S (s - 1))) with (rsum f (s - 1) + f (s - 1)%nat). rewrite (rsum_ext (fun j => kk m s ka kl j * ga t ^ j) (fun j => ka j * ga t ^ j) (s - 1)); [ring|].
    intros j Hj. unfold kk. destruct (Nat.eqb_spec j (s - 1)); [lia|]. now rewrite andb_false_r.
Qed.
Lemma hloop_ok {St} (stp : nat -> bool -> St -> res (B * St)) g ga ka kl (Inv : nat -> St -> Prop) old cnt : (2 <= s)%nat -> bigO 1 ga -> RL false ga g ->
  (forall i last st q, (1 <= i < s)%nat -> last = ((m =? 2)%Z && (i =? s - 1)%nat) -> Inv i st -> stp i last st = Ok q ->
    rel (fst q) (if last then kl else ka i) /\ (last = false -> Inv (S i) (snd q))) ->
  forall i hn r sst st A0 rest out st', (i + cnt = s)%nat -> (1 <= i)%nat -> RL (i =? 1)%nat (fun t => ga t ^ (i - 1)) hn ->
  RL (i =? 1)%nat (fun t => rsum (fun j => kk m s ka kl j * ga t ^ j) i) r -> (cnt = O \/ Inv i sst) -> p_mode st = m -> p_dom st = D -> p_hist st = A0 ++ rest ->
  (if p_uh st then ((i < s)%nat -> old = so) /\ Forall2 hc (turns ga ka i so) A0 else A0 = []) ->
  hloop stp s g old cnt i hn r sst st = (Ok out, st') ->
  RL false (fun t => rsum (fun j => kk m s ka kl j * ga t ^ j) s) out /\ p_mode st' = m /\ p_dom st' = D /\
  exists A1, p_hist st' = rest ++ A1 /\ (if p_rh st then Forall2 (hv snew) (turns ga ka i snew) A1 else A1 = []).
Proof.
  intros L2 BO HG HS. induction cnt; intros i hn r sst st A0 rest out st' LC L1 HN HR HI M1 M2 HH HU E; cbn [hloop] in E.
  - injection E as <- <-. assert (i = s) by lia. subst i. split; [|split; [|split]]; auto. { destruct (Nat.eqb_spec s 1); [lia|auto]. }
    assert (A0 = []) as ->. { destruct (p_uh st); auto. destruct HU as [_ HU]. rewrite turns_0 in HU by (destruct HSO as [ES|[ES _]]; lia). now inversion HU. }
    exists []. rewrite app_nil_r. split; auto. destruct (p_rh st); auto. rewrite turns_0; [constructor|]. unfold snew. destruct (m =? 2)%Z; lia.
  - destruct HI as [HI|HI]; [discriminate HI|]. cbv zeta in E.
    assert (HRX : forall kp, kp = kk m s ka kl i -> (forall t, rsum (fun j => kk m s ka kl j * ga t ^ j) i + kp * ga t ^ i = rsum (fun j => kk m s ka kl j * ga t ^ j) (S i))) by (intros kp -> t; reflexivity).
    assert (KI : kk m s ka kl i = if (m =? 2)%Z && (i =? s - 1)%nat then kl else ka i).
    { unfold kk. replace (i =? 0)%nat with false by (symmetry; apply Nat.eqb_neq; lia). now rewrite andb_true_r. }
    destruct (Nat.eq_dec i (s - 1)) as [EI|NI].
    + (* the last turn *)
      assert (cnt = O) by lia. subst cnt.
      assert (EB : (i =? s - 1)%nat = true) by (now apply Nat.eqb_eq). rewrite EB, andb_true_r in KI. 
      set (st1 := if p_uh st && (old <=? i)%nat then set_uh false st else st) in E.
      assert (Q1 : p_mode st1 = m /\ p_dom st1 = D /\ (if p_uh st1 then Forall2 hc (turn ga ka i) A0 else A0 = []) /\ p_rh st1 = p_rh st /\ p_hist st1 = A0 ++ rest).
      { unfold st1. destruct (p_uh st) eqn:UH; cbn [andb]; [|rewrite UH; auto]. destruct HU as [HO HU]. rewrite (HO ltac:(lia)). destruct HSO as [ES|[ES EM]].
        - rewrite turns_0 in HU by lia. inversion HU; subst A0. replace (so <=? i)%nat with true by (symmetry; apply Nat.leb_le; lia). cbn [set_uh p_mode p_dom p_uh p_rh p_hist]. auto.
        - assert (ET : turns ga ka i so = turn ga ka i) by (rewrite turns_S by lia; rewrite (turns_0 _ _ (S i)) by lia; apply app_nil_r). rewrite ET in HU. replace (so <=? i)%nat with false by (symmetry; apply Nat.leb_gt; lia). rewrite UH. auto. }
      clearbody st1. destruct Q1 as (Q1 & Q2 & Q3 & Q4 & Q5). rewrite Q1, EB, andb_true_r in E.
      set (st2 := if (m =? 2)%Z then set_rh false st1 else st1) in E.
      assert (W : p_mode st2 = m /\ p_dom st2 = D /\ p_uh st2 = p_uh st1 /\ p_rh st2 = (if (m =? 2)%Z then false else p_rh st) /\ p_hist st2 = A0 ++ rest).
      { unfold st2. destruct (m =? 2)%Z; auto. }
      clearbody st2. destruct W as (W1 & W2 & W3 & W4 & W5). unfold hbind in E. destruct (hturn stp g i (m =? 2)%Z hn r sst st2) as [[q|e] st3] eqn:ET; [|discriminate E].
      assert (HSi := HS i ((m =? 2)%Z)). rewrite EB, andb_true_r in HSi.
      destruct (HG_turn stp g ga i ((m =? 2)%Z) hn r sst _ _ _ (kk m s ka kl i) (fun _ => True) L1 HG HN HR) with (st := st2) (A0 := A0) (rest := rest) (a := q) (st' := st3)
        as ((P1 & P2 & _) & X1 & X2 & X3 & X4 & A1 & X5 & X6); auto.
      { intros q' Eq'. split; auto. rewrite KI. apply (HSi sst q'); auto; lia. } { rewrite W3. destruct (p_uh st1); [|exact Q3]. split; [exact L2|]. now apply (hc_turn ga ka kl i A0). }
      cbn [hloop] in E. injection E as <- <-. split; [|split; [|split]]; auto.
      { apply (RL_eq _ _ _ _ (HRX _ eq_refl)) in P2. assert (SS : S i = s) by lia. rewrite SS in P2. exact P2. }
      exists A1. split; auto. rewrite W4 in X6. destruct (m =? 2)%Z eqn:EM.
      * subst A1. rewrite turns_0 by (unfold snew; rewrite EM; lia). destruct (p_rh st); auto.
      * destruct (p_rh st); auto. assert (SN : snew = s) by (unfold snew; now rewrite EM). rewrite SN in *. rewrite turns_S, turns_0, app_nil_r by lia.
        rewrite (turn_kk ga ka kl i) in X6; auto; [lia|]. now rewrite EM.
    + (* the other turns *)
      assert (EB : (i =? s - 1)%nat = false) by (now apply Nat.eqb_neq). rewrite EB, andb_false_r in KI.
      replace (p_uh st && (old <=? i)%nat) with false in E.
      2:{ destruct (p_uh st); auto. destruct HU as [HO _]. rewrite (HO ltac:(lia)). symmetry. apply Nat.leb_gt. destruct HSO as [ES|[ES _]]; lia. }
      cbv iota in E. rewrite M1, EB, andb_false_r in E. cbv iota in E. unfold hbind in E. destruct (hturn stp g i false hn r sst st) as [[q|e] st3] eqn:ET; [|discriminate E].
      assert (SP : exists A1 A2, A0 = A1 ++ A2 /\ (if p_uh st then (2 <= s)%nat /\ Forall2 hc (turn ga ka i) A1 else A1 = []) /\
        (if p_uh st then ((S i < s)%nat -> old = so) /\ Forall2 hc (turns ga ka (S i) so) A2 else A2 = [])).
      { destruct (p_uh st); [|exists [], []; auto]. destruct HU as [HO HU]. rewrite turns_S in HU by (destruct HSO as [ES|[ES _]]; lia). apply Forall2_app_inv_l in HU as (A1 & A2 & F1 & F2 & ->). exists A1, A2.
        repeat (split; auto). intros _. apply HO. lia. }
      destruct SP as (A1 & A2 & -> & U1 & U2). rewrite <- app_assoc in HH.
      assert (TK := turn_kk ga ka kl i ltac:(lia)). rewrite EB, andb_false_r in TK. specialize (TK eq_refl).
      assert (HSi := HS i false). rewrite EB, andb_false_r in HSi.
      pose proof (HG_turn stp g ga i false hn r sst _ _ _ (kk m s ka kl i) (Inv (S i)) L1 HG HN HR) as HTT. cbv beta in HTT. rewrite TK in HTT.
      destruct (HTT ltac:(intros q' Eq'; destruct (HSi sst q' ltac:(lia) eq_refl HI Eq') as [Z1 Z2]; rewrite KI; auto) st A1 (A2 ++ rest) q st3 M1 M2 HH U1 ET)
        as ((P1 & P2 & P3) & X1 & X2 & X3 & X4 & C1 & X5 & X6).
      apply (RL_eq _ _ _ _ (HRX _ eq_refl)) in P2. rewrite <- app_assoc in X5.
      destruct (IHcnt (S i) (fst (fst q)) (snd (fst q)) (snd q) st3 A2 (rest ++ C1) out st') as (Y1 & Y2 & Y3 & C2 & Y4 & Y5); auto; try lia.
      { replace (S i =? 1)%nat with false by (symmetry; apply Nat.eqb_neq; lia). now replace (S i - 1)%nat with i by lia. }
      { replace (S i =? 1)%nat with false by (symmetry; apply Nat.eqb_neq; lia). exact P2. }
      { now rewrite X3. }
      split; auto. split; auto. split; auto. exists (C1 ++ C2). rewrite app_assoc. split; auto. rewrite X4 in Y5. destruct (p_rh st); [|now subst].
      rewrite turns_S by (pose proof snew_ge; lia). now apply Forall2_app.
Qed.

Lemma HG_mul1 X b f : RL b f X -> HG (hps_mulC X 1 0) (fun _ => [(b, f)]) (RL b f).
Proof.
  intros HX. pose proof (HG_mulC X 1 0 b f ltac:(apply lit_int; lia) HX) as H.
  replace (fun t => dy 1 0 * f t) with f in H; auto. apply FunctionalExtensionality.functional_extensionality. intros t. rewrite dy_int. ring.
Qed.
Lemma hloop_first {St} (stp : nat -> bool -> St -> res (B * St)) n g old cnt i hn r sst st out st' : p_mode st = m ->
  hloop stp n g old (S cnt) i hn r sst st = (Ok out, st') -> exists q, stp i ((m =? 2)%Z && (i =? n - 1)%nat) sst = Ok q.
Proof.
  intros M1 E. cbn [hloop] in E. cbv zeta in E. set (s1 := if p_uh st && (old <=? i)%nat then set_uh false st else st) in E.
  assert (Q1 : p_mode s1 = m) by (unfold s1; destruct (_ && _); auto). rewrite Q1 in E. clearbody s1. set (last := (m =? 2)%Z && (i =? n - 1)%nat) in *.
  set (s2 := if last then set_rh false s1 else s1) in E. clearbody s2. unfold hbind, hturn in E. unfold hbind at 1 in E.
  destruct (hps_mul hn g s2) as [[hn'|x] s3]; [|discriminate E]. unfold hbind at 1, hlift at 1 in E. destruct (stp i last sst) as [q|x]; [eauto|discriminate E].
Qed.
Lemma dev_big X f c0 : dev_ok B rel k D s X f c0 -> bigO 1 (fun t => f t - c0).
Proof. intros (_ & _ & M2 & M1). destruct m12 as [[_ EK]|[_ [t EK]]]; [apply (M1 EK)|]. destruct (M2 _ EK) as (_ & _ & H). now apply H. Qed.
Lemma dev0 X f c0 : dev_ok B rel k D s X f c0 -> f 0 = c0.
Proof.
  intros HD. pose proof (dev_big X f c0 HD) as BO.
  destruct BO as (M & d & Hd & H). specialize (H 0). rewrite Rabs_R0 in H. simpl in H.
  specialize (H Hd). rewrite Rmult_0_l, Rmult_0_r in H. pose proof (Rabs_pos (f 0 - c0)). assert (Rabs (f 0 - c0) = 0) by lra.
  apply Rabs_eq_0 in H1. lra.
Qed.
Lemma HG_tay {St} (stp : nat -> bool -> St -> res (B * St)) X g r0 st0 b f ga ka res (Qx : Prop) : RL b f X ->
  (forall c0, dev_ok B rel k D s X f c0 -> RL b (ga c0) g /\ bigO 1 (ga c0)) ->
  (forall r P, (forall c0, dev_ok B rel k D s X f c0 -> loopsem B rel k m s stp X (ga c0) (ka c0) r0 st0 r P) -> Qx /\ Rep r res /\ P) ->
  HG (htay stp X g r0 st0) (trl b (ga (f 0)) (ka (f 0)) res) (fun U => RL b res U /\ Qx).
Proof.
  intros [HX LX] HG GEN st A0 rest a st' M1 M2 HH HU E. unfold trl in *.
  assert (SP : exists L R1, A0 = L ++ R1 /\ (if p_uh st then (2 <= s)%nat /\ Forall2 hc (if b then [] else turns (ga (f 0)) (ka (f 0)) 1 so) L else L = []) /\
    (if p_uh st then (2 <= s)%nat /\ Forall2 hc [(b, res)] R1 else R1 = [])).
  { destruct (p_uh st); [|exists [], []; auto]. destruct HU as [L HU]. apply Forall2_app_inv_l in HU as (L1 & R1 & F1 & F2 & ->). exists L1, R1. auto. }
  destruct SP as (L & R1 & -> & UL & UR). rewrite <- app_assoc in HH. unfold htay in E.
  destruct (if p_uh st then match p_hist st with [] => None | h :: _ => Some (length h) end else Some 0%nat) as [old|] eqn:EO; [|discriminate E].
  unfold hbind at 1 in E. destruct (hloop stp (length X) g old (length X - 1) 1 [t1] [r0] st0 st) as [[r|e] st1] eqn:EL; [|discriminate E].
  unfold hbind, hmod in E.
  assert (MAIN : Qx /\ RL b res r /\ p_mode st1 = m /\ p_dom st1 = D /\ exists C1, p_hist st1 = (R1 ++ rest) ++ C1 /\
    (if p_rh st then Forall2 (hv snew) (if b then [] else turns (ga (f 0)) (ka (f 0)) 1 snew) C1 else C1 = [])).
  { destruct (Nat.eq_dec (length X) 1) as [L1|L1].
    - rewrite L1 in EL. cbn [Nat.sub hloop] in EL. injection EL as <- <-. destruct (GEN [r0] True) as (Z1 & Z2 & _).
      + intros c0 HD. split; [lia|]. intros kl Inv HS HR HI. split; auto. rewrite L1. apply (Rep_eq B rel k s _ (fun _ => ka c0 O)); [|now apply Rep_cst].
        intros t. simpl. unfold kk. rewrite andb_false_r. ring.
      + split; auto. split; [split; auto; simpl; destruct b; auto; lia|]. split; auto. split; auto. exists []. rewrite app_nil_r. split.
        * rewrite HH. destruct (p_uh st); [|now subst L]. destruct b; [destruct UL as [_ UL]; now inversion UL|]. destruct UL as [? _]. lia.
        * destruct (p_rh st); auto. destruct b; [constructor|]. rewrite turns_0; [constructor|]. unfold snew. destruct (m =? 2)%Z; lia.
    - assert (b = false) as -> by (destruct b; auto; contradiction). assert (L2 : (2 <= s)%nat) by lia. rewrite LX in EL.
      destruct (GEN r (length r = s /\ p_mode st1 = m /\ p_dom st1 = D /\ exists C1, p_hist st1 = (R1 ++ rest) ++ C1 /\
        (if p_rh st then Forall2 (hv snew) (turns (ga (f 0)) (ka (f 0)) 1 snew) C1 else C1 = []))) as (Z1 & Z2 & Z3 & Z4 & Z5 & Z6).
      + intros c0 HD. split.
        * intros _. rewrite LX. replace (s - 1)%nat with (S (s - 2)) in EL by lia. replace (S (s - 2)) with (s - 1)%nat by lia. apply (hloop_first _ _ _ _ _ _ _ _ _ _ _ _ M1 EL).
        * intros kl Inv HS HR HI. rewrite LX in *. pose proof (dev0 X f c0 HD) as E0. rewrite E0 in *.
          destruct (hloop_ok stp g (ga c0) (ka c0) kl Inv old (s - 1) L2 (proj2 (HG c0 HD)) (proj1 (HG c0 HD)) HS 1%nat [t1] [r0] st0 st L (R1 ++ rest) r st1) as ((Y1 & Y1') & Y2 & Y3 & Y4); auto; try lia.
          -- cbn [Nat.eqb]. apply (RL_eq _ (fun _ => 1)); [reflexivity|]. apply RL_cst. apply rel1. auto.
          -- cbn [Nat.eqb]. apply (RL_eq _ (fun _ => ka c0 O)); [|now apply RL_cst]. intros t. simpl. unfold kk. rewrite andb_false_r. ring.
          -- destruct (p_uh st); auto. destruct UL as [_ UL]. split; auto. intros _. rewrite HH in EO. destruct L as [|h L]; cbn [app] in EO.
             ++ destruct R1 as [|h R1]; [destruct UR as [_ UR]; inversion UR|]. cbn [app] in EO. injection EO as <-. destruct UR as [_ UR]. inversion UR as [|? ? ? ? [V1 _] _]. exact V1.
             ++ injection EO as <-. destruct (Nat.le_gt_cases so 1) as [E2|N2]. { rewrite turns_0 in UL by lia. inversion UL. }
                rewrite turns_S in UL by lia. inversion UL as [|? ? ? ? [V1 _] _]. exact V1.
      + split; auto. split; [split; auto|]. auto. }
  destruct MAIN as (HQ & HR & N1 & N2 & C1 & N3 & N4). set (st2 := set_rh (p_rh st) (set_uh (p_uh st) st1)) in E.
  destruct (HG_mul1 r b res HR st2 R1 (rest ++ C1) a st') as (P1 & O1 & O2 & O3 & O4 & C2 & O5 & O6); auto. { cbn [st2 set_rh set_uh p_hist]. now rewrite N3, app_assoc. }
  split; auto. split; auto. split; auto. split; auto. split; auto. exists (C1 ++ C2). rewrite app_assoc. split; auto. cbn [p_rh st2 set_rh] in O6. destruct (p_rh st); [now apply Forall2_app|now subst].
Qed.
Lemma RL_h b f X c0 : RL b f X -> dev_ok B rel k D s X f c0 -> RL b (fun t => f t - c0) (ps_h X).
Proof. intros [HX LX] HD. split; [apply HD|]. now rewrite h_len. Qed.
Lemma RL_ne b f X : RL b f X -> exists a x, X = a :: x. Proof. intros [H _]. pose proof (Rep_len B rel k s S1 _ _ H). destruct X; [simpl in *; lia|eauto]. Qed.
Lemma HG_inv b f X : RL b f X -> HG (hps_inv X) (tr_inv b f) (fun U => RL b (fun t => / f t) U /\ Ev k (fun t => f t <> 0)).
Proof.
  intros HX. destruct (RL_ne _ _ _ HX) as (a & x & EX). unfold hps_inv. rewrite EX. rewrite <- EX. apply HG_get.
  apply HG_lbind. intros ia Eia. apply HG_lbind. intros x2 Ex2. apply HG_lbind. intros g Eg. unfold tr_inv.
  apply (HG_tay (step_inv m a (ps_eval X D)) X g ia (ia, x2) b f (fun c0 t => (f t - c0) / c0) (fun c0 j => (-1) ^ j / c0)); auto.
  - intros c0 HD. assert (Ra : rel a c0) by (destruct HD as [Ra _]; rewrite EX in Ra; exact Ra). split; [apply (RL_divT a c0 (ps_h X) g b _ Eg Ra); now apply RL_h|].
    apply (bigO_ext _ (fun t => / c0 * (f t - c0)) _ 1); [lra|intros; unfold Rdiv; ring|]. now apply bigO_scal, (dev_big X).
  - intros r P HL. apply (gen_inv B rel OK k m D s S1 MD X f a ia x2 r P); auto; [now rewrite EX|]. apply HX.
Qed.
Lemma HG_div X Y b c f g : RL b f X -> RL c g Y -> HG (hps_div X Y) (tr_div b c f g) (fun U => RL (b && c) (fun t => f t / g t) U /\ Ev k (fun t => g t <> 0)).
Proof.
  intros HX HY. unfold hps_div, tr_div. apply (HG_bind _ _ _ (fun _ => [(b && c, fun t => f t * / g t)]) _ _ (HG_inv c g Y HY)). intros i [HI HE].
  apply (HG_post _ _ (RL (b && c) (fun t => f t * / g t))); [intros; split; auto|]. now apply (HG_mul X i b c (b && c) f (fun t => / g t)).
Qed.
Lemma HG_Cdiv n e X b f : lit n e -> RL b f X ->
  HG (hps_Cdiv n e X) (fun N => tr_inv b f N ++ [(b, fun t => dy n e * / f t)]) (fun U => RL b (fun t => dy n e / f t) U /\ Ev k (fun t => f t <> 0)).
Proof.
  intros L HX. unfold hps_Cdiv. apply (HG_bind _ _ _ (fun _ => [(b, fun t => dy n e * / f t)]) _ _ (HG_inv b f X HX)). intros i [HI HE].
  apply (HG_post _ _ (RL b (fun t => dy n e * / f t))); [intros; split; auto|]. now apply HG_Cmul.
Qed.
Lemma HG_f {St} (stp : nat -> bool -> St -> res (B * St)) X r0 st0 b f F g (Qx : Prop) : RL b f X ->
  (forall r P, (forall c0, dev_ok B rel k D s X f c0 -> loopsem B rel k m s stp X (fun t => f t - c0) (fun j => F j c0 / INR (fact j)) r0 st0 r P) -> Qx /\ Rep r (fun t => g (f t)) /\ P) ->
  HG (htay stp X (ps_h X) r0 st0) (tr_f b f F g) (fun U => RL b (fun t => g (f t)) U /\ Qx).
Proof.
  intros HX GEN. apply (HG_tay stp X (ps_h X) r0 st0 b f (fun c0 t => f t - c0) (fun c0 j => F j c0 / INR (fact j))); auto. intros c0 HD. split; [now apply RL_h|now apply (dev_big X)].
Qed.
Lemma HG_exp b f X : RL b f X -> HG (hps_exp X) (tr_exp b f) (fun U => RL b (fun t => exp (f t)) U).
Proof.
  intros HX. destruct (RL_ne _ _ _ HX) as (a & x & EX). unfold hps_exp. rewrite EX. rewrite <- EX. apply HG_get. apply HG_lbind. intros e Ee.
  apply (HG_post _ _ (fun U => RL b (fun t => exp (f t)) U /\ True)); [tauto|]. apply (HG_f _ X e t1 b f (fun _ => exp) exp True HX). intros r P HL. split; auto.
  apply (gen_exp B rel OK k m D s S1 S2 MD X f e r P); auto; [rewrite EX; simpl; lia|now rewrite EX|apply HX].
Qed.
Lemma HG_sin b f X : RL b f X -> HG (hps_sin X) (tr_f b f sinF sin) (fun U => RL b (fun t => sin (f t)) U).
Proof.
  intros HX. destruct (RL_ne _ _ _ HX) as (a & x & EX). unfold hps_sin. rewrite EX. rewrite <- EX. apply HG_get. apply HG_lbind. intros si Es. apply HG_lbind. intros co Ec.
  apply (HG_post _ _ (fun U => RL b (fun t => sin (f t)) U /\ True)); [tauto|]. apply (HG_f _ X si t1 b f sinF sin True HX). intros r P HL. split; auto.
  apply (gen_sin B rel OK k m D s S1 S2 MD X f si co r P); auto; [rewrite EX; simpl; lia|now rewrite EX|now rewrite EX|apply HX].
Qed.
Lemma HG_cos b f X : RL b f X -> HG (hps_cos X) (tr_f b f cosF cos) (fun U => RL b (fun t => cos (f t)) U).
Proof.
  intros HX. destruct (RL_ne _ _ _ HX) as (a & x & EX). unfold hps_cos. rewrite EX. rewrite <- EX. apply HG_get. apply HG_lbind. intros co Ec. apply HG_lbind. intros si Es.
  apply (HG_post _ _ (fun U => RL b (fun t => cos (f t)) U /\ True)); [tauto|]. apply (HG_f _ X co t1 b f cosF cos True HX). intros r P HL. split; auto.
  apply (gen_cos B rel OK k m D s S1 S2 MD X f co si r P); auto; [rewrite EX; simpl; lia|now rewrite EX|now rewrite EX|apply HX].
Qed.
Lemma HG_sinh b f X : RL b f X -> HG (hps_sinh X) (tr_f b f shF sinh) (fun U => RL b (fun t => sinh (f t)) U).
Proof.
  intros HX. destruct (RL_ne _ _ _ HX) as (a & x & EX). unfold hps_sinh. rewrite EX. rewrite <- EX. apply HG_get. apply HG_lbind. intros si Es. apply HG_lbind. intros co Ec.
  apply (HG_post _ _ (fun U => RL b (fun t => sinh (f t)) U /\ True)); [tauto|]. apply (HG_f _ X si t1 b f shF sinh True HX). intros r P HL. split; auto.
  apply (gen_sinh B rel OK k m D s S1 S2 MD X f si co r P); auto; [rewrite EX; simpl; lia|now rewrite EX|now rewrite EX|apply HX].
Qed.
Lemma HG_cosh b f X : RL b f X -> HG (hps_cosh X) (tr_f b f (fun j => shF (S j)) cosh) (fun U => RL b (fun t => cosh (f t)) U).
Proof.
  intros HX. destruct (RL_ne _ _ _ HX) as (a & x & EX). unfold hps_cosh. rewrite EX. rewrite <- EX. apply HG_get. apply HG_lbind. intros co Ec. apply HG_lbind. intros si Es.
  apply (HG_post _ _ (fun U => RL b (fun t => cosh (f t)) U /\ True)); [tauto|]. apply (HG_f _ X co t1 b f (fun j => shF (S j)) cosh True HX). intros r P HL. split; auto.
  apply (gen_cosh B rel OK k m D s S1 S2 MD X f co si r P); auto; [rewrite EX; simpl; lia|now rewrite EX|now rewrite EX|apply HX].
Qed.
Lemma HG_sqrt b f X : RL b f X -> HG (hps_sqrt X) (tr_f b f sqrtF sqrt) (fun U => RL b (fun t => sqrt (f t)) U /\ Ev k (fun t => 0 < f t)).
Proof.
  intros HX. destruct (RL_ne _ _ _ HX) as (a & x & EX). unfold hps_sqrt. rewrite EX. rewrite <- EX. apply HG_get. apply HG_lbind. intros sa Es. apply HG_lbind. intros xn En.
  apply HG_lbind. intros x2 E2. apply (HG_f _ X sa (xn, x2) b f sqrtF sqrt _ HX). intros r P HL.
  apply (gen_sqrt B rel OK k m D s S1 S2 MD X f a sa xn x2 r P); auto; [now rewrite EX|apply HX].
Qed.
Lemma HG_log b f X : RL b f X -> (length X = 1%nat -> 0 < f (match k with Some p => fst p | None => 0 end)) ->
  HG (hps_log X) (tr_log b f) (fun U => RL b (fun t => ln (f t)) U /\ Ev k (fun t => 0 < f t)).
Proof.
  intros HX HP. destruct (RL_ne _ _ _ HX) as (a & x & EX). unfold hps_log. rewrite EX. rewrite <- EX. apply HG_get. apply HG_lbind. intros l El.
  apply (HG_f _ X l _ b f logF ln _ HX). intros r P HL.
  apply (gen_log B rel OK k m D s S1 S2 MD X f a l r P); auto; [now rewrite EX|apply HX].
Qed.

Lemma HG_powl p : forall br bx f g r x, RL br f r -> RL bx g x ->
  HG (hps_pow_loop p r x) (fun _ => tr_powl p br bx f g) (RL (br && bx) (fun t => f t * g t ^ Pos.to_nat p)).
Proof.
  induction p; intros br bx f g r x HR HX; cbn [hps_pow_loop tr_powl].
  - apply (HG_bind _ _ (fun _ => [(br && bx, fun t => f t * g t)]) (fun _ => (bx, fun t => g t * g t) :: tr_powl p (br && bx) bx (fun t => f t * g t) (fun t => g t * g t)) (RL (br && bx) (fun t => f t * g t))).
    { now apply (HG_mul r x br bx (br && bx) f g). } intros r' HR'.
    apply (HG_bind _ _ (fun _ => [(bx, fun t => g t * g t)]) (fun _ => tr_powl p (br && bx) bx (fun t => f t * g t) (fun t => g t * g t)) (RL bx (fun t => g t * g t))).
    { apply (HG_mul x x bx bx bx g g); auto. now destruct bx. } intros x2 HX2.
    apply (HG_post _ _ (RL ((br && bx) && bx) (fun t => f t * g t * (g t * g t) ^ Pos.to_nat p))); [|now apply IHp].
    intros U. rewrite <- andb_assoc. replace (bx && bx) with bx by now destruct bx. apply RL_eq. intros t.
    rewrite Pos2Nat.inj_xI. simpl pow. replace (Pos.to_nat p + (Pos.to_nat p + 0))%nat with (Pos.to_nat p + Pos.to_nat p)%nat by lia.
      rewrite Rpow_mult_distr, pow_add. ring.
  - apply (HG_bind _ _ (fun _ => [(bx, fun t => g t * g t)]) (fun _ => tr_powl p br bx f (fun t => g t * g t)) (RL bx (fun t => g t * g t))).
    { apply (HG_mul x x bx bx bx g g); auto. now destruct bx. } intros x2 HX2.
    apply (HG_post _ _ (RL (br && bx) (fun t => f t * (g t * g t) ^ Pos.to_nat p))); [|now apply IHp].
    intros U. apply RL_eq. intros t. rewrite Pos2Nat.inj_xO. replace (2 * Pos.to_nat p)%nat with (Pos.to_nat p + Pos.to_nat p)%nat by lia.
      rewrite Rpow_mult_distr, pow_add. ring.
  - apply (HG_bind _ _ (fun _ => [(br && bx, fun t => f t * g t)]) (fun _ => [(bx, fun t => g t * g t)]) (RL (br && bx) (fun t => f t * g t))).
    { now apply (HG_mul r x br bx (br && bx) f g). } intros r' HR'.
    apply (HG_bind _ _ (fun _ => [(bx, fun t => g t * g t)]) (fun _ => []) (RL bx (fun t => g t * g t))).
    { apply (HG_mul x x bx bx bx g g); auto. now destruct bx. } intros x2 HX2. apply HG_lift. intros a Ea. injection Ea as <-.
    revert HR'. apply RL_eq. intros t. change (Pos.to_nat 1) with 1%nat. ring.
Qed.
Lemma HG_powi X n b f : RL b f X ->
  HG (hps_powi X n) (tr_powi b f n) (fun U => RL ((n =? 0)%Z || b) (fun t => powerRZ (f t) n) U /\ ((n < 0)%Z -> Ev k (fun t => f t <> 0))).
Proof.
  intros HX. pose proof (RL_cst _ _ (rel1 B rel OK)) as H1. unfold hps_powi. destruct n as [|p|p]; cbn [Z.eqb orb].
  - apply HG_lift. intros a Ea. injection Ea as <-. split; [exact H1|lia].
  - apply (HG_post _ _ (RL (true && b) (fun t => 1 * f t ^ Pos.to_nat p))); [|now apply HG_powl]. intros U HU. split; [|lia]. revert HU. apply RL_eq. intros t. simpl. ring.
  - apply (HG_bind _ _ (fun _ => tr_powl p true b (fun _ => 1) f) (fun N => tr_inv b (fun t => f t ^ Pos.to_nat p) N ++ [(b, fun t => 1 * / (f t ^ Pos.to_nat p))])
      (RL b (fun t => f t ^ Pos.to_nat p))).
    + apply (HG_post _ _ (RL (true && b) (fun t => 1 * f t ^ Pos.to_nat p))); [|now apply HG_powl]. intros U. apply RL_eq. intros t. ring.
    + intros r HR. pose proof (HG_Cdiv 1 0 r b _ ltac:(apply lit_int; lia) HR) as HC. rewrite dy_int in HC. revert HC. apply HG_post. intros U [HU HE]. split.
      * revert HU. apply RL_eq. intros t. simpl. unfold Rdiv. ring.
      * intros _. revert HE. apply Ev_imp. intros t N F0. apply N. rewrite F0, pow_i by lia. reflexivity.
Qed.
Lemma HG_sc o n e X b f : lit n e -> RL b f X -> HG (hps_sc o n e X) (tr_sc o n e b f)
  (fun U => RL b (fun t => scv o n e (f t)) U /\ Ev k (fun t => match o with SOdiv => dy n e <> 0 | SOdivr => f t <> 0 | _ => True end)).
Proof.
  intros L HX. destruct o; cbn [hps_sc tr_sc scv].
  - apply HG_lift. intros Y E. split; [|now apply Ev_all]. apply (RL_head _ (dy n e) _ _ _ _ E); auto. intros. now apply (bk_addS _ _ OK).
  - apply HG_lift. intros Y E. split; [|now apply Ev_all]. apply (RL_eq b (fun t => f t + dy n e)); [intros; ring|]. apply (RL_head _ (dy n e) _ _ _ _ E); auto. intros. now apply (bk_addS _ _ OK).
  - apply HG_lift. intros Y E. split; [|now apply Ev_all]. apply (RL_head _ (- dy n e) _ _ _ _ E); auto. intros. now apply (bk_subS _ _ OK).
  - apply HG_lift. intros Y E. split; [|now apply Ev_all]. apply (RL_eq b (fun t => - f t + dy n e)); [intros; ring|]. apply (RL_head _ (dy n e) _ _ _ _ E); [intros; now apply (bk_addS _ _ OK)|].
    now apply RL_neg.
  - apply (HG_post _ _ (RL b (fun t => dy n e * f t))); [|now apply HG_mulC]. intros U HU. split; [|now apply Ev_all]. revert HU. apply RL_eq. intros; ring.
  - apply (HG_post _ _ (RL b (fun t => dy n e * f t))); [|now apply HG_Cmul]. intros U HU. split; [|now apply Ev_all]. auto.
  - apply HG_lift. intros Y E. destruct (RL_divT _ (dy n e) _ _ _ _ E (bk_cst _ _ OK _ _ L) HX) as [N R]. split; auto. now apply Ev_all.
  - now apply HG_Cdiv.
Qed.
Definition kpt : R := match k with Some p => fst p | None => 0 end.
Lemma HG_fun g X b f : is_arc g = false -> RL b f X -> (g = Alog -> length X = 1%nat -> 0 < f kpt) ->
  HG (hps_fun g X) (tr_fun g b f) (fun U => RL b (fun t => frl g (f t)) U /\ Ev k (fun t => fdiff g (f t))).
Proof.
  intros A HX HP. destruct g; try discriminate A; cbn [hps_fun].
  - apply (HG_post _ _ (RL b (fun t => exp (f t)))); [|now apply HG_exp]. intros U HU. split; auto. now apply Ev_all.
  - now apply HG_log; auto.
  - now apply HG_sqrt.
  - apply (HG_post _ _ (RL b (fun t => sin (f t)))); [|now apply HG_sin]. intros U HU. split; auto. now apply Ev_all.
  - apply (HG_post _ _ (RL b (fun t => cos (f t)))); [|now apply HG_cos]. intros U HU. split; auto. now apply Ev_all.
  - refine (HG_bind _ _ _ _ _ _ (HG_sin b f X HX) _). intros u Hu. refine (HG_bind _ _ _ _ _ _ (HG_cos b f X HX) _). intros v Hv.
    pose proof (HG_div u v b b _ _ Hu Hv) as HD. revert HD. apply HG_post. intros U. replace (b && b) with b by now destruct b. auto.
  - apply (HG_post _ _ (RL b (fun t => sinh (f t)))); [|now apply HG_sinh]. intros U HU. split; auto. now apply Ev_all.
  - apply (HG_post _ _ (RL b (fun t => cosh (f t)))); [|now apply HG_cosh]. intros U HU. split; auto. now apply Ev_all.
  - refine (HG_bind _ _ _ _ _ _ (HG_sinh b f X HX) _). intros u Hu. refine (HG_bind _ _ _ _ _ _ (HG_cosh b f X HX) _). intros v Hv.
    pose proof (HG_div u v b b _ _ Hu Hv) as HD. revert HD. apply HG_post. intros U. replace (b && b) with b by now destruct b. intros [HU _]. split; auto. now apply Ev_all.
Qed.
Lemma log_pos vc x0 n e (x : R -> nat -> R) X : awf n e -> (forall i t, (i < n)%nat -> vc i = true -> x t i = x0 i) -> RL (pfreev vc e) (fun t => rval e (x t)) X -> (pfreev vc e = true -> 0 < rval e x0) -> (s = 1%nat -> 0 < rval e (x 0)) -> length X = 1%nat -> 0 < rval e (x kpt).
Proof.
  intros W HX [_ L] H1 H2 L1. destruct (pfreev vc e) eqn:PF; [rewrite (pfreev_const vc n e PF W _ x0); auto|]. rewrite L in L1. unfold kpt. destruct k; [destruct KJ; lia|auto].
Qed.
Theorem HG_evalv vc x0 n env x e : awf n e -> noarc e = true -> plogv vc x0 e -> (s = 1%nat -> adom e (x 0)) -> (forall i, (i < n)%nat -> RL (vc i) (fun t => x t i) (env i)) -> (forall i t, (i < n)%nat -> vc i = true -> x t i = x0 i) ->
  HG (hpseval env e) (trc vc e x) (fun r => RL (pfreev vc e) (fun t => rval e (x t)) r /\ Ev k (fun t => adiff e (x t))).
Proof.
  intros W NA PL AD HE HX. induction e; cbn [hpseval trc pfreev rval adiff]; cbn [awf] in W; cbn [noarc] in NA; cbn [plogv] in PL; cbn [adom] in AD.
  - apply HG_lift. intros a Ea. injection Ea as <-. split; [now apply HE|now apply Ev_all].
  - apply HG_lift. intros a Ea. injection Ea as <-. split; [|now apply Ev_all]. apply RL_cst. now apply (bk_cst _ _ OK).
  - destruct W, PL. apply andb_prop in NA as []. refine (HG_bind _ _ _ _ _ _ (IHe1 _ _ _ _) _); auto; [tauto|]. intros u [Hu Du].
    refine (HG_bind _ _ _ _ _ _ (IHe2 _ _ _ _) _); auto; [tauto|]. intros v [Hv Dv].
    apply (HG_post _ _ (RL (pfreev vc e1 && pfreev vc e2) (fun t => rval e1 (x t) + rval e2 (x t)))); [|now eapply HG_add; eauto]. intros U HU. split; auto. now apply Ev_and.
  - destruct W, PL. apply andb_prop in NA as []. refine (HG_bind _ _ _ _ _ _ (IHe1 _ _ _ _) _); auto; [tauto|]. intros u [Hu Du].
    refine (HG_bind _ _ _ _ _ _ (IHe2 _ _ _ _) _); auto; [tauto|]. intros v [Hv Dv].
    apply (HG_post _ _ (RL (pfreev vc e1 && pfreev vc e2) (fun t => rval e1 (x t) - rval e2 (x t)))); [|now eapply HG_sub; eauto]. intros U HU. split; auto. now apply Ev_and.
  - destruct W, PL. apply andb_prop in NA as []. refine (HG_bind _ _ _ _ _ _ (IHe1 _ _ _ _) _); auto; [tauto|]. intros u [Hu Du].
    refine (HG_bind _ _ _ _ _ _ (IHe2 _ _ _ _) _); auto; [tauto|]. intros v [Hv Dv].
    apply (HG_post _ _ (RL (pfreev vc e1 && pfreev vc e2) (fun t => rval e1 (x t) * rval e2 (x t)))); [|now eapply HG_mul; eauto]. intros U HU. split; auto. now apply Ev_and.
  - destruct W, PL. apply andb_prop in NA as []. refine (HG_bind _ _ _ _ _ _ (IHe1 _ _ _ _) _); auto; [tauto|]. intros u [Hu Du].
    refine (HG_bind _ _ _ _ _ _ (IHe2 _ _ _ _) _); auto; [tauto|]. intros v [Hv Dv].
    refine (HG_post _ _ _ _ _ (HG_div u v _ _ _ _ Hu Hv)). intros U [HU DU]. split; auto. now repeat apply Ev_and.
  - destruct W as [WL W]. refine (HG_bind _ _ _ _ _ _ (IHe _ _ _ _) _); auto; [tauto|]. intros u [Hu Du].
    refine (HG_post _ _ _ _ _ (HG_sc _ _ _ u _ _ WL Hu)). intros U [HU DU]. split; auto. now apply Ev_and.
  - apply (HG_T _ (fun N => trc vc e x N ++ [])); [intros; apply app_nil_r|]. refine (HG_bind _ _ _ _ _ _ (IHe _ _ _ _) _); auto. intros u [Hu Du].
    apply HG_lift. intros a Ea. injection Ea as <-. split; auto. now apply RL_neg.
  - destruct W as [WL W]. refine (HG_bind _ _ _ _ _ _ (IHe _ _ _ _) _); auto; [tauto|]. intros u [Hu Du].
    refine (HG_post _ _ _ _ _ (HG_powi u _ _ _ Hu)). intros U [HU DU]. split; auto. apply Ev_and; auto.
    match goal with |- Ev k (fun t => (?n0 < 0)%Z -> _) => destruct (Z.ltb_spec n0 0) as [HN|HN]; [specialize (DU HN); revert DU; apply Ev_imp; auto|apply Ev_all; intros; lia] end.
  - destruct W, PL as (PL1 & PL2 & PL3). apply andb_prop in NA as []. refine (HG_bind _ _ _ _ _ _ (IHe1 _ _ _ _) _); auto; [tauto|]. intros u [Hu Du].
    refine (HG_bind _ _ _ _ _ _ (IHe2 _ _ _ _) _); auto; [tauto|]. intros v [Hv Dv]. unfold hps_pow.
    refine (HG_bind _ _ _ _ _ _ (HG_log _ _ u Hu _) _). { intros L1. apply (log_pos vc x0 n e1 x u); auto. tauto. }
    intros l [Hl Dl]. refine (HG_bind _ _ _ _ _ _ (HG_mul v l _ _ _ _ _ _ Hv Hl (fun t => eq_refl) eq_refl) _). intros p Hp.
    refine (HG_post _ _ _ _ _ (HG_exp _ _ p Hp)). intros U HU. split; [rewrite andb_comm; exact HU|]. now repeat apply Ev_and.
  - destruct PL as (PL1 & PL2). apply andb_prop in NA as [NA1 NA2]. refine (HG_bind _ _ _ _ _ _ (IHe _ _ _ _) _); auto; [tauto|]. intros u [Hu Du].
    refine (HG_post _ _ _ _ _ (HG_fun f u _ _ _ Hu _)).
    + intros U [HU DU]. split; auto. now apply Ev_and.
    + now apply negb_true_iff.
    + intros Ef L1. subst f. cbn [fdom] in AD. apply (log_pos vc x0 n e x u); auto. tauto.
Qed.
Theorem HG_eval n env x e : awf n e -> noarc e = true -> plog e -> (s = 1%nat -> adom e (x 0)) -> (forall i, (i < n)%nat -> RL false (fun t => x t i) (env i)) ->
  HG (hpseval env e) (tr e x) (fun r => RL (pfree e) (fun t => rval e (x t)) r /\ Ev k (fun t => adiff e (x t))).
Proof. intros W NA PL AD HE. apply (HG_evalv (fun _ => false) (fun _ => 0) n env x e W NA PL AD HE). intros i t _ C. discriminate C. Qed.
End Fix.

(* size s - 1 *)
Lemma hv_hc s e h : (2 <= s)%nat -> hv (s - 1) e h -> hc s (s - 1) e h.
Proof. intros L [H (c & J & C)]. split; [exact H|]. exists c. split; auto. Qed.
Section Fix1.
Variables (m : Z) (D : B) (s : nat).
Notation snew := (snew m s).
(* triples *)
Definition HT {A} (M : hM B A) (T : nat -> list ent) (Post : A -> Prop) : Prop :=
  forall st A0 rest a st', p_mode st = m -> p_dom st = D -> p_hist st = A0 ++ rest ->
  (if p_uh st then (2 <= s)%nat /\ Forall2 (hv (s - 1)) (T (s - 1)%nat) A0 else A0 = []) -> M st = (Ok a, st') ->
  Post a /\ p_mode st' = m /\ p_dom st' = D /\ p_uh st' = p_uh st /\ p_rh st' = p_rh st /\
  exists A1, p_hist st' = rest ++ A1 /\ (if p_rh st then Forall2 (hv snew) (T snew) A1 else A1 = []).
Lemma HT_lift {A} (r : res A) (P : A -> Prop) : (forall a, r = Ok a -> P a) -> HT (hlift r) (fun _ => []) P.
Proof.
  intros H st A0 rest a st' M1 M2 HH HU E. unfold hlift in E. injection E as E E'. subst st'. split; auto. repeat (split; auto).
  exists []. rewrite app_nil_r. split; [|now destruct (p_rh st)]. rewrite HH. destruct (p_uh st); [destruct HU as [_ HU]; inversion HU; auto|]. now subst A0.
Qed.
Lemma HT_bind {A A'} (M : hM B A) (f : A -> hM B A') T T' P P' : HT M T P -> (forall a, P a -> HT (f a) T' P') -> HT (hbind M f) (fun N => T N ++ T' N) P'.
Proof.
  intros HM HF st A0 rest b st' M1 M2 HH HU E. unfold hbind in E. destruct (M st) as [[a|e] st1] eqn:E1; [|discriminate E].
  assert (SP : exists A1 A2, A0 = A1 ++ A2 /\ (if p_uh st then (2 <= s)%nat /\ Forall2 (hv (s - 1)) (T (s - 1)%nat) A1 else A1 = []) /\
    (if p_uh st then (2 <= s)%nat /\ Forall2 (hv (s - 1)) (T' (s - 1)%nat) A2 else A2 = [])).
  { destruct (p_uh st); [|exists [], []; auto]. destruct HU as [L HU]. apply Forall2_app_inv_l in HU as (A1 & A2 & F1 & F2 & ->). exists A1, A2. auto. }
  destruct SP as (A1 & A2 & -> & U1 & U2). rewrite <- app_assoc in HH.
  destruct (HM st A1 (A2 ++ rest) a st1 M1 M2 HH U1 E1) as (PA & N1 & N2 & N3 & N4 & C1 & HC1 & V1). rewrite <- app_assoc in HC1.
  rewrite <- N3 in U2. destruct (HF a PA st1 A2 (rest ++ C1) b st' N1 N2 HC1 U2 E) as (PB & O1 & O2 & O3 & O4 & C2 & HC2 & V2).
  split; auto. repeat (split; [congruence|]). exists (C1 ++ C2). rewrite app_assoc. split; auto. rewrite N4 in V2. destruct (p_rh st); [now apply Forall2_app|now subst].
Qed.
Lemma HT_T {A} (M : hM B A) (T T' : nat -> list ent) P : (forall N, T N = T' N) -> HT M T P -> HT M T' P.
Proof.
  intros E H st A0 rest a st' M1 M2 HH HU EM. rewrite <- E in HU. destruct (H st A0 rest a st' M1 M2 HH HU EM) as (PA & N1 & N2 & N3 & N4 & C1 & HC1 & V1).
  split; auto. repeat (split; auto). exists C1. rewrite <- E. auto.
Qed.
End Fix1.
Theorem HT_evalv vc x0 k m D s : (1 <= s)%nat -> (Z.of_nat s <= 2 ^ 52)%Z -> mdok B rel k m D -> match k with Some p => snd p = true /\ (2 <= s)%nat | None => True end -> forall n env x e,
  awf n e -> noarc e = true -> plogv vc x0 e -> (s = 1%nat -> adom e (x 0)) -> (forall i, (i < n)%nat -> RL k s (vc i) (fun t => x t i) (env i)) -> (forall i t, (i < n)%nat -> vc i = true -> x t i = x0 i) ->
  HT m D s (hpseval env e) (trc vc e x) (fun r => RL k s (pfreev vc e) (fun t => rval e (x t)) r /\ Ev k (fun t => adiff e (x t))).
Proof.
  intros S1 S2 MD KJ n env x e W NA PL AD HE HX st A0 rest a st' M1 M2 HH HU E.
  refine (HG_evalv k m D s S1 S2 MD KJ (s - 1) (or_introl eq_refl) vc x0 n env x e W NA PL AD HE HX st A0 rest a st' M1 M2 HH _ E).
  destruct (p_uh st); [|exact HU]. destruct HU as [L HU]. split; [exact L|]. clear - L HU. induction HU; constructor; auto. now apply hv_hc.
Qed.
Theorem HT_eval k m D s : (1 <= s)%nat -> (Z.of_nat s <= 2 ^ 52)%Z -> mdok B rel k m D -> match k with Some p => snd p = true /\ (2 <= s)%nat | None => True end -> forall n env x e,
  awf n e -> noarc e = true -> plog e -> (s = 1%nat -> adom e (x 0)) -> (forall i, (i < n)%nat -> RL k s false (fun t => x t i) (env i)) ->
  HT m D s (hpseval env e) (tr e x) (fun r => RL k s (pfree e) (fun t => rval e (x t)) r /\ Ev k (fun t => adiff e (x t))).
Proof. intros S1 S2 MD KJ n env x e W NA PL AD HE. apply (HT_evalv (fun _ => false) (fun _ => 0) k m D s S1 S2 MD KJ n env x e W NA PL AD HE). intros i t _ C. discriminate C. Qed.
End HistRep.
