(* Automatic differentiation returns the value and the gradient, for any base type whose operations
   respect a relation to the reals (equality for exact arithmetic, membership for intervals). *)
From Coq Require Import Reals Lra Lia Psatz ZArith Bool List Arith FunctionalExtensionality.
From Flocq Require Import Core.
From Verif Require Import Ext LinAlg RealFun RealInv ElemLog ADModel ADReal.
Import ListNotations.
Open Scope R_scope.

Record base_ok (B : base) (rel : B -> R -> Prop) : Prop := {
  bk_cst : forall m e, lit m e -> rel (bcst m e) (dy m e);
  bk_add : forall X Y x y, rel X x -> rel Y y -> rel (badd X Y) (x + y);
  bk_sub : forall X Y x y, rel X x -> rel Y y -> rel (bsub X Y) (x - y);
  bk_mul : forall X Y x y, rel X x -> rel Y y -> rel (bmul X Y) (x * y);
  bk_neg : forall X x, rel X x -> rel (bneg X) (- x);
  bk_div : forall X Y Q x y, bdiv X Y = Ok Q -> rel X x -> rel Y y -> y <> 0 /\ rel Q (x / y);
  bk_addS : forall X x m e, lit m e -> rel X x -> rel (baddS X m e) (x + dy m e);
  bk_Sadd : forall X x m e, lit m e -> rel X x -> rel (bSadd m e X) (dy m e + x);
  bk_subS : forall X x m e, lit m e -> rel X x -> rel (bsubS X m e) (x - dy m e);
  bk_Ssub : forall X x m e, lit m e -> rel X x -> rel (bSsub m e X) (dy m e - x);
  bk_mulS : forall X x m e, lit m e -> rel X x -> rel (bmulS X m e) (x * dy m e);
  bk_Smul : forall X x m e, lit m e -> rel X x -> rel (bSmul m e X) (dy m e * x);
  bk_divS : forall X x m e Q, lit m e -> bdivS X m e = Ok Q -> rel X x -> dy m e <> 0 /\ rel Q (x / dy m e);
  bk_Sdiv : forall X x m e Q, lit m e -> bSdiv m e X = Ok Q -> rel X x -> x <> 0 /\ rel Q (dy m e / x);
  bk_pow : forall X n Q x, bpowi X n = Ok Q -> rel X x -> ((n < 0)%Z -> x <> 0) /\ rel Q (powerRZ x n);
  bk_fun : forall f X Q x, bfun f X = Ok Q -> rel X x -> fdom f x -> rel Q (frl f x);
  bk_dom : forall f X Q x, bfun f X = Ok Q -> rel X x -> fclo f x
}.

(* G is the gradient of f at x: along every differentiable curve c through x the derivative of f is
   the product of G with the velocity of c (variables below n) *)
Definition curve_at (n : nat) (c : R -> nat -> R) (x v : nat -> R) : Prop :=
  c 0 = x /\ forall i, (i < n)%nat -> derivable_pt_lim (fun t => c t i) 0 (v i).
Definition grad (n : nat) (f : (nat -> R) -> R) (x G : nat -> R) : Prop :=
  forall c v, curve_at n c x v -> derivable_pt_lim (fun t => f (c t)) 0 (vsum n (fun j => G j * v j)).

Lemma dy_0 : dy 0 0 = 0. Proof. unfold dy. rewrite Rmult_0_l. reflexivity. Qed.
Lemma dy_int n : dy n 0 = IZR n. Proof. unfold dy. simpl. apply Rmult_1_r. Qed.
Lemma lit_int n : (Z.abs n <= 2 ^ 53)%Z -> lit n 0. Proof. unfold lit. lia. Qed.
Lemma lit_0 : lit 0 0. Proof. unfold lit. lia. Qed.
Lemma dy_neg m e : dy (- m) e = - dy m e. Proof. unfold dy. rewrite opp_IZR. ring. Qed.
Lemma lit_neg m e : lit m e -> lit (- m) e. Proof. unfold lit. lia. Qed.

Lemma dl_eq f x l l' : derivable_pt_lim f x l -> l = l' -> derivable_pt_lim f x l'.
Proof. now intros H <-. Qed.
Section Inv.
Variable B : base.
Variable rel : B -> R -> Prop.
Variable OK : base_ok B rel.
Let t0 : B := bcst 0 0.
Lemma rel0 : rel t0 0.
Proof. unfold t0. rewrite <- dy_0. apply (bk_cst _ _ OK), lit_0. Qed.

Definition adinv (n : nat) (f : (nat -> R) -> R) (x : nat -> R) (r : ad B) : Prop :=
  rel (av r) (f x) /\
  ((adv r = [] /\ forall y z, f y = f z) \/
   (adv r <> [] /\ length (adv r) = n /\
    exists G, (forall j, (j < n)%nat -> rel (nth j (adv r) t0) (G j)) /\ grad n f x G)).

Lemma mapM_ok (f : B -> res B) l d : mapM f l = Ok d -> length d = length l /\ forall j, (j < length l)%nat -> f (nth j l t0) = Ok (nth j d t0).
Proof.
  revert d. induction l; simpl; intros d H.
  - injection H as <-. split; auto. intros; lia.
  - apply bind_ok in H as (y & Hy & H). apply bind_ok in H as (r & Hr & H). injection H as <-.
    destruct (IHl r Hr) as [L E]. split; [simpl; lia|]. intros [|j] Hj; simpl; auto. apply E. lia.
Qed.
Lemma zipM_ok (f : B -> B -> res B) a b d : zipM f a b = Ok d -> length d = length a /\ length b = length a /\
  forall j, (j < length a)%nat -> f (nth j a t0) (nth j b t0) = Ok (nth j d t0).
Proof.
  revert b d. induction a; intros [|y b] d H; simpl in H; try discriminate.
  - injection H as <-. repeat split; auto. intros; simpl in *; lia.
  - apply bind_ok in H as (z & Hz & H). apply bind_ok in H as (r & Hr & H). injection H as <-.
    destruct (IHa b r Hr) as (L & L' & E). split; [simpl; lia|]. split; [simpl; lia|]. intros [|j] Hj; simpl; auto. apply E. simpl in Hj. lia.
Qed.
Lemma nth_map_in (g : B -> B) l j : (j < length l)%nat -> nth j (map g l) t0 = g (nth j l t0).
Proof. intros H. rewrite nth_indep with (d' := g t0) by (rewrite map_length; auto). apply map_nth. Qed.

(* d' is d with every component multiplied by D *)
Definition step (d d' : list B) (D : R) : Prop :=
  length d' = length d /\ forall j y, (j < length d)%nat -> rel (nth j d t0) y -> rel (nth j d' t0) (D * y).
Lemma step_map g l D : (forall Y y, rel Y y -> rel (g Y) (D * y)) -> step l (map g l) D.
Proof. intros H. split; [apply map_length|]. intros j y Hj HR. rewrite nth_map_in by auto. auto. Qed.
Lemma step_mapM g l d D : mapM g l = Ok d -> (forall Y Z y, g Y = Ok Z -> rel Y y -> rel Z (D * y)) -> step l d D.
Proof. intros M H. apply mapM_ok in M as [L E]. split; auto. intros j y Hj HR. eapply H; eauto. Qed.
Lemma step_id l : step l l 1.
Proof. split; auto. intros. now rewrite Rmult_1_l. Qed.

Lemma inv_unary n f x a (F : R -> R) D v d : adinv n f x a -> rel v (F (f x)) ->
  (adv a = [] -> d = []) ->
  (adv a <> [] -> derivable_pt_lim F (f x) D /\ step (adv a) d D) -> adinv n (fun x => F (f x)) x (mkad v d).
Proof.
  intros [RV [[E C]|(N & L & G & HG & GR)]] HV D0 HD.
  - split; simpl; auto. left. split; auto. intros y z. now rewrite (C y z).
  - destruct (HD N) as [HF [SL SR]]. split; simpl; auto. right. split; [|split].
    + intros ->. simpl in SL. destruct (adv a); [auto|discriminate].
    + congruence.
    + exists (fun j => D * G j). split.
      * intros j Hj. apply SR; [congruence|auto].
      * intros c w [C0 CW]. specialize (GR c w (conj C0 CW)).
        rewrite (vsum_ext n _ (fun j => D * (G j * w j))) by (intros; ring). rewrite vsum_scal.
        apply (derivable_pt_lim_comp (fun t => f (c t)) F); auto. now rewrite C0.
Qed.
Lemma inv_binary n f g x a b (F : R -> R -> R) Fu Fv v d : adinv n f x a -> adinv n g x b -> rel v (F (f x) (g x)) ->
  (forall p q p' q', p 0 = f x -> q 0 = g x -> derivable_pt_lim p 0 p' -> derivable_pt_lim q 0 q' ->
     derivable_pt_lim (fun t => F (p t) (q t)) 0 (Fu * p' + Fv * q')) ->
  (adv a = [] -> step (adv b) d Fv) ->
  (adv a <> [] -> adv b = [] -> step (adv a) d Fu) ->
  (adv a <> [] -> adv b <> [] -> length d = length (adv a) /\
     forall j y z, (j < length (adv a))%nat -> rel (nth j (adv a) t0) y -> rel (nth j (adv b) t0) z -> rel (nth j d t0) (Fu * y + Fv * z)) ->
  adinv n (fun x => F (f x) (g x)) x (mkad v d).
Proof.
  intros [RA [[EA CA]|(NA & LA & GA & HA & DA)]] [RB [[EB CB]|(NB & LB & GB & HB & DB)]] HV HF H1 H2 H3; split; simpl; auto.
  - left. destruct (H1 EA) as [L _]. rewrite EB in L. split; [destruct d; auto; discriminate|].
    intros y z. now rewrite (CA y z), (CB y z).
  - right. destruct (H1 EA) as [L S]. split; [intros ->; destruct (adv b); auto; discriminate|]. split; [congruence|].
    exists (fun j => Fv * GB j). split; [intros; apply S; [congruence|auto]|]. intros c w CW.
    rewrite (vsum_ext n _ (fun j => Fv * (GB j * w j))) by (intros; ring). rewrite vsum_scal.
    replace (Fv * vsum n (fun j => GB j * w j)) with (Fu * 0 + Fv * vsum n (fun j => GB j * w j)) by ring.
    apply (HF (fun t => f (c t)) (fun t => g (c t))); try (destruct CW as [-> _]; auto; fail).
    + apply (derivable_pt_lim_ext (fun _ => f x)); [intros; auto|]. apply derivable_pt_lim_const.
    + apply DB; auto.
  - right. destruct (H2 NA EB) as [L S]. split; [intros ->; destruct (adv a); auto; discriminate|]. split; [congruence|].
    exists (fun j => Fu * GA j). split; [intros; apply S; [congruence|auto]|]. intros c w CW.
    rewrite (vsum_ext n _ (fun j => Fu * (GA j * w j))) by (intros; ring). rewrite vsum_scal.
    replace (Fu * vsum n (fun j => GA j * w j)) with (Fu * vsum n (fun j => GA j * w j) + Fv * 0) by ring.
    apply (HF (fun t => f (c t)) (fun t => g (c t))); try (destruct CW as [-> _]; auto; fail).
    + apply DA; auto.
    + apply (derivable_pt_lim_ext (fun _ => g x)); [intros; auto|]. apply derivable_pt_lim_const.
  - right. destruct (H3 NA NB) as [L S]. split; [intros ->; destruct (adv a); auto; discriminate|]. split; [congruence|].
    exists (fun j => Fu * GA j + Fv * GB j). split; [intros; apply S; [congruence|auto|auto]|]. intros c w CW.
    rewrite (vsum_ext n _ (fun j => Fu * (GA j * w j) + Fv * (GB j * w j))) by (intros; ring). rewrite vsum_plus, !vsum_scal.
    apply (HF (fun t => f (c t)) (fun t => g (c t))); try (destruct CW as [-> _]; auto; fail).
    + apply DA; auto.
    + apply DB; auto.
Qed.

Lemma inv_add n f g x a b r : ad_add a b = Ok r -> adinv n f x a -> adinv n g x b -> adinv n (fun x => f x + g x) x r.
Proof.
  intros H IA IB. pose proof (proj1 IA) as RA. pose proof (proj1 IB) as RB.
  assert (V : rel (badd (av a) (av b)) (f x + g x)) by (apply (bk_add _ _ OK); auto).
  assert (HF : forall p q p' q', p 0 = f x -> q 0 = g x -> derivable_pt_lim p 0 p' -> derivable_pt_lim q 0 q' ->
     derivable_pt_lim (fun t => p t + q t) 0 (1 * p' + 1 * q')).
  { intros p q p' q' _ _ P Q. rewrite !Rmult_1_l. apply (derivable_pt_lim_plus p q); auto. }
  unfold ad_add in H. destruct (adv a) as [|a1 al] eqn:EA, (adv b) as [|b1 bl] eqn:EB.
  1,2,3: injection H as <-; apply (inv_binary n f g x a b Rplus 1 1); auto; intros;
    try (exfalso; congruence); rewrite ?EA, ?EB; apply step_id.
  apply bind_ok in H as (d & Hd & H). injection H as <-. apply zipM_ok in Hd as (L & L' & Z).
  apply (inv_binary n f g x a b Rplus 1 1); auto; intros; try (exfalso; congruence).
  rewrite EA, EB. split; auto. intros j y z Hj HY HZ. specialize (Z j Hj). injection Z as <-. rewrite !Rmult_1_l. apply (bk_add _ _ OK); auto.
Qed.
Lemma inv_sub n f g x a b r : ad_sub a b = Ok r -> adinv n f x a -> adinv n g x b -> adinv n (fun x => f x - g x) x r.
Proof.
  intros H IA IB. pose proof (proj1 IA) as RA. pose proof (proj1 IB) as RB.
  assert (V : rel (bsub (av a) (av b)) (f x - g x)) by (apply (bk_sub _ _ OK); auto).
  assert (HF : forall p q p' q', p 0 = f x -> q 0 = g x -> derivable_pt_lim p 0 p' -> derivable_pt_lim q 0 q' ->
     derivable_pt_lim (fun t => p t - q t) 0 (1 * p' + -1 * q')).
  { intros p q p' q' _ _ P Q. replace (1 * p' + -1 * q') with (p' - q') by ring. apply (derivable_pt_lim_minus p q); auto. }
  assert (NG : forall Y y, rel Y y -> rel (bneg Y) (-1 * y)).
  { intros. replace (-1 * y) with (- y) by ring. apply (bk_neg _ _ OK); auto. }
  unfold ad_sub in H. destruct (adv a) as [|a1 al] eqn:EA, (adv b) as [|b1 bl] eqn:EB.
  1,2: injection H as <-; apply (inv_binary n f g x a b Rminus 1 (-1)); auto; intros;
    try (exfalso; congruence); rewrite ?EA, ?EB; apply (step_map bneg); auto.
  - injection H as <-; apply (inv_binary n f g x a b Rminus 1 (-1)); auto; intros;
    try (exfalso; congruence); rewrite ?EA, ?EB; apply step_id.
  - apply bind_ok in H as (d & Hd & H). injection H as <-. apply zipM_ok in Hd as (L & L' & Z).
    apply (inv_binary n f g x a b Rminus 1 (-1)); auto; intros; try (exfalso; congruence).
    rewrite EA, EB. split; auto. intros j y z Hj HY HZ. specialize (Z j Hj). injection Z as <-.
    replace (1 * y + -1 * z) with (y - z) by ring. apply (bk_sub _ _ OK); auto.
Qed.
Lemma inv_mul n f g x a b r : ad_mul a b = Ok r -> adinv n f x a -> adinv n g x b -> adinv n (fun x => f x * g x) x r.
Proof.
  intros H IA IB. pose proof (proj1 IA) as RA. pose proof (proj1 IB) as RB.
  assert (V : rel (bmul (av a) (av b)) (f x * g x)) by (apply (bk_mul _ _ OK); auto).
  assert (HF : forall p q p' q', p 0 = f x -> q 0 = g x -> derivable_pt_lim p 0 p' -> derivable_pt_lim q 0 q' ->
     derivable_pt_lim (fun t => p t * q t) 0 (g x * p' + f x * q')).
  { intros p q p' q' <- <- P Q. replace (q 0 * p' + p 0 * q') with (p' * q 0 + p 0 * q') by ring. apply (derivable_pt_lim_mult p q); auto. }
  unfold ad_mul in H. destruct (adv a) as [|a1 al] eqn:EA, (adv b) as [|b1 bl] eqn:EB.
  1,2: injection H as <-; apply (inv_binary n f g x a b Rmult (g x) (f x)); auto; intros;
    try (exfalso; congruence); rewrite ?EA, ?EB; apply (step_map (bmul (av a))); intros; apply (bk_mul _ _ OK); auto.
  - injection H as <-; apply (inv_binary n f g x a b Rmult (g x) (f x)); auto; intros;
    try (exfalso; congruence); rewrite ?EA, ?EB; apply (step_map (bmul (av b))); intros; apply (bk_mul _ _ OK); auto.
  - apply bind_ok in H as (d & Hd & H). injection H as <-. apply zipM_ok in Hd as (L & L' & Z).
    apply (inv_binary n f g x a b Rmult (g x) (f x)); auto; intros; try (exfalso; congruence).
    rewrite EA, EB. split; auto. intros j y z Hj HY HZ. specialize (Z j Hj). injection Z as <-.
    apply (bk_add _ _ OK); apply (bk_mul _ _ OK); auto.
Qed.
Lemma inv_div n f g x a b r : ad_div a b = Ok r -> adinv n f x a -> adinv n g x b -> adinv n (fun x => f x / g x) x r.
Proof.
  intros H IA IB. pose proof (proj1 IA) as RA. pose proof (proj1 IB) as RB.
  unfold ad_div in H. apply bind_ok in H as (v & Hv & H).
  destruct (bk_div _ _ OK _ _ _ _ _ Hv RA RB) as [NZ V].
  assert (HF : forall p q p' q', p 0 = f x -> q 0 = g x -> derivable_pt_lim p 0 p' -> derivable_pt_lim q 0 q' ->
     derivable_pt_lim (fun t => p t / q t) 0 (/ g x * p' + - f x / (g x * g x) * q')).
  { intros p q p' q' P0 Q0 P Q. replace (/ g x * p' + - f x / (g x * g x) * q') with ((p' * q 0 - q' * p 0) / Rsqr (q 0)).
    apply (derivable_pt_lim_div p q); auto. now rewrite Q0. rewrite P0, Q0. unfold Rsqr. field. auto. }
  assert (K : forall k, bdiv (bneg (av a)) (bmul (av b) (av b)) = Ok k -> rel k (- f x / (g x * g x))).
  { intros k Hk. eapply (bk_div _ _ OK); eauto. apply (bk_neg _ _ OK); auto. apply (bk_mul _ _ OK); auto. }
  destruct (adv a) as [|a1 al] eqn:EA, (adv b) as [|b1 bl] eqn:EB.
  1,2: apply bind_ok in H as (k & Hk & H); specialize (K k Hk); injection H as <-;
    apply (inv_binary n f g x a b Rdiv (/ g x) (- f x / (g x * g x))); auto; intros ?; intros;
    try (exfalso; congruence); rewrite ?EA, ?EB; apply (step_map (fun y => bmul y k)); intros; rewrite (Rmult_comm _ y);
    apply (bk_mul _ _ OK); auto.
  - apply bind_ok in H as (d & Hd & H). injection H as <-.
    apply (inv_binary n f g x a b Rdiv (/ g x) (- f x / (g x * g x))); auto; intros;
    try (exfalso; congruence); rewrite ?EA, ?EB. eapply step_mapM; [exact Hd|]. intros Y Z y HY HZ.
    rewrite (Rmult_comm _ y). eapply (bk_div _ _ OK); [exact HY|auto|auto].
  - apply bind_ok in H as (k & Hk & H); specialize (K k Hk). apply bind_ok in H as (d & Hd & H). injection H as <-. apply zipM_ok in Hd as (L & L' & Z).
    apply (inv_binary n f g x a b Rdiv (/ g x) (- f x / (g x * g x))); auto; intros; try (exfalso; congruence).
    rewrite EA, EB. split; auto. intros j y z Hj HY HZ. specialize (Z j Hj). apply bind_ok in Z as (q & Hq & Z). injection Z as <-.
    apply (bk_add _ _ OK); [rewrite (Rmult_comm _ y); eapply (bk_div _ _ OK); eauto|]. rewrite (Rmult_comm _ z). apply (bk_mul _ _ OK); auto.
Qed.
Lemma inv_neg n f x a : adinv n f x a -> adinv n (fun x => - f x) x (ad_neg a).
Proof.
  intros IA. pose proof (proj1 IA) as RA. apply (inv_unary n f x a Ropp (-1)); auto.
  - apply (bk_neg _ _ OK); auto.
  - intros ->. auto.
  - intros _. split; [apply (derivable_pt_lim_opp id), derivable_pt_lim_id|].
    apply step_map. intros. replace (-1 * y) with (- y) by ring. apply (bk_neg _ _ OK); auto.
Qed.
Lemma inv_powz n f x a k r : ad_powz a k = Ok r -> (Z.abs k <= 2 ^ 53)%Z -> adinv n f x a ->
  adinv n (fun x => powerRZ (f x) k) x r.
Proof.
  intros H LK IA. pose proof (proj1 IA) as RA. unfold ad_powz in H. apply bind_ok in H as (v & Hv & H).
  destruct (bk_pow _ _ OK _ _ _ _ Hv RA) as [_ V].
  destruct (Z.eqb_spec k 0) as [-> |K].
  - injection H as <-. apply (inv_unary n f x a (fun t => powerRZ t 0) 0); auto.
    + intros ->. auto.
    + intros _. split; [apply derivable_pt_lim_const|]. apply step_map. intros. apply (bk_mul _ _ OK); auto using rel0.
  - apply bind_ok in H as (p & Hp & H). injection H as <-.
    destruct (bk_pow _ _ OK _ _ _ _ Hp RA) as [NZ P].
    apply (inv_unary n f x a (fun t => powerRZ t k) (IZR k * powerRZ (f x) (k - 1))); auto.
    + intros ->. auto.
    + intros _. split; [apply pow_deriv; auto; intros; apply NZ; lia|].
      apply step_map. intros. apply (bk_mul _ _ OK); auto. rewrite <- (dy_int k). apply (bk_Smul _ _ OK); auto using lit_int.
Qed.
Lemma inv_sc n f x a o m e r : ad_sc o m e a = Ok r -> lit m e -> adinv n f x a -> adinv n (fun x => scv o m e (f x)) x r.
Proof.
  intros H L IA. pose proof (proj1 IA) as RA. destruct o; simpl in H.
  - injection H as <-. apply (inv_unary n f x a (fun t => t + dy m e) 1); auto.
    + apply (bk_addS _ _ OK); auto.
    + intros _. split; [|apply step_id]. replace 1 with (1 + 0) by ring.
      apply (derivable_pt_lim_plus id (fun _ => dy m e)); [apply derivable_pt_lim_id|apply derivable_pt_lim_const].
  - injection H as <-. apply (inv_unary n f x a (fun t => dy m e + t) 1); auto.
    + apply (bk_Sadd _ _ OK); auto.
    + intros _. split; [|apply step_id]. replace 1 with (0 + 1) by ring.
      apply (derivable_pt_lim_plus (fun _ => dy m e) id); [apply derivable_pt_lim_const|apply derivable_pt_lim_id].
  - injection H as <-. apply (inv_unary n f x a (fun t => t - dy m e) 1); auto.
    + apply (bk_subS _ _ OK); auto.
    + intros _. split; [|apply step_id]. replace 1 with (1 - 0) by ring.
      apply (derivable_pt_lim_minus id (fun _ => dy m e)); [apply derivable_pt_lim_id|apply derivable_pt_lim_const].
  - injection H as <-. apply (inv_unary n f x a (fun t => dy m e - t) (-1)); auto.
    + apply (bk_Ssub _ _ OK); auto.
    + intros ->. auto.
    + intros _. split.
      * replace (-1) with (0 - 1) by ring.
        apply (derivable_pt_lim_minus (fun _ => dy m e) id); [apply derivable_pt_lim_const|apply derivable_pt_lim_id].
      * apply step_map. intros. replace (-1 * y) with (- y) by ring. apply (bk_neg _ _ OK); auto.
  - injection H as <-. apply (inv_unary n f x a (fun t => t * dy m e) (dy m e)); auto.
    + apply (bk_mulS _ _ OK); auto.
    + intros ->. auto.
    + intros _. split.
      * apply (dl_eq _ _ (1 * dy m e + f x * 0)); [|ring].
        apply (derivable_pt_lim_mult id (fun _ => dy m e)); [apply derivable_pt_lim_id|apply derivable_pt_lim_const].
      * apply step_map. intros. apply (bk_mul _ _ OK); auto. apply (bk_cst _ _ OK); auto.
  - injection H as <-. apply (inv_unary n f x a (fun t => dy m e * t) (dy m e)); auto.
    + apply (bk_Smul _ _ OK); auto.
    + intros ->. auto.
    + intros _. split.
      * apply (dl_eq _ _ (0 * f x + dy m e * 1)); [|ring].
        apply (derivable_pt_lim_mult (fun _ => dy m e) id); [apply derivable_pt_lim_const|apply derivable_pt_lim_id].
      * apply step_map. intros. apply (bk_mul _ _ OK); auto. apply (bk_cst _ _ OK); auto.
  - apply bind_ok in H as (v & Hv & H). apply bind_ok in H as (d & Hd & H). injection H as <-.
    destruct (bk_divS _ _ OK _ _ _ _ _ L Hv RA) as [NZ V].
    apply (inv_unary n f x a (fun t => t / dy m e) (/ dy m e)); auto.
    + intros E. rewrite E in Hd. now injection Hd as <-.
    + intros _. split.
      * apply (dl_eq _ _ (1 * / dy m e + f x * 0)); [|ring].
        apply (derivable_pt_lim_mult id (fun _ => / dy m e)); [apply derivable_pt_lim_id|apply derivable_pt_lim_const].
      * eapply step_mapM; [exact Hd|]. intros Y Z y HY HR. rewrite (Rmult_comm _ y).
        eapply (bk_div _ _ OK); [exact HY|auto|]. apply (bk_cst _ _ OK); auto.
  - apply bind_ok in H as (v & Hv & H). apply bind_ok in H as (k & Hk & H). injection H as <-.
    destruct (bk_Sdiv _ _ OK _ _ _ _ _ L Hv RA) as [NZ V].
    destruct (bk_Sdiv _ _ OK _ _ _ _ _ (lit_neg _ _ L) Hk (bk_mul _ _ OK _ _ _ _ RA RA)) as [_ K].
    apply (inv_unary n f x a (fun t => dy m e / t) (- dy m e / (f x * f x))); auto.
    + intros ->. auto.
    + intros _. split.
      * replace (- dy m e / (f x * f x)) with ((0 * f x - 1 * dy m e) / Rsqr (f x)) by (unfold Rsqr; field; auto).
        apply (derivable_pt_lim_div (fun _ => dy m e) id); [apply derivable_pt_lim_const|apply derivable_pt_lim_id|auto].
      * rewrite dy_neg in K. apply (step_map (fun y => bmul y k)). intros. rewrite (Rmult_comm _ y). apply (bk_mul _ _ OK); auto.
Qed.

Lemma inv_fun n g x a f r : ad_fun f a = Ok r -> adinv n g x a -> fdom f (g x) -> adinv n (fun x => frl f (g x)) x r.
Proof.
  intros H IA DM. pose proof (proj1 IA) as RA. unfold ad_fun in H. cbv zeta in H. apply bind_ok in H as (v & Hv & H).
  pose proof (bk_fun _ _ OK _ _ _ _ Hv RA DM) as V.
  assert (MUL : forall k, rel k (fder f (g x)) -> (adv a <> [] -> fdiff f (g x)) -> adinv n (fun x => frl f (g x)) x (mkad v (map (bmul k) (adv a)))).
  { intros k K FD. apply (inv_unary n g x a (frl f) (fder f (g x))); auto.
    - intros ->. auto.
    - intros NE. split; [apply fun_deriv; auto|]. apply step_map. intros. apply (bk_mul _ _ OK); auto. }
  assert (DIV : forall k s d, rel k s -> mapM (fun y => bdiv y k) (adv a) = Ok d -> fder f (g x) = / s -> (s <> 0 -> fdiff f (g x)) ->
     adinv n (fun x => frl f (g x)) x (mkad v d)).
  { intros k s d K Hd E FD. apply (inv_unary n g x a (frl f) (fder f (g x))); auto.
    - intros EA. rewrite EA in Hd. now injection Hd as <-.
    - intros NE. rewrite E.
      assert (SN : s <> 0).
      { destruct IA as [_ [[EA _]|(_ & L & G & HG & _)]]; [contradiction|].
        apply mapM_ok in Hd as [_ Z]. assert (P : (0 < length (adv a))%nat) by (destruct (adv a); [contradiction|simpl; lia]).
        specialize (Z 0%nat P). specialize (HG 0%nat ltac:(lia)). apply (bk_div _ _ OK _ _ _ _ _ Z HG K). }
      split; [rewrite <- E; apply fun_deriv; auto|]. eapply step_mapM; [exact Hd|]. intros Y Z y HY HR. rewrite (Rmult_comm _ y).
      eapply (bk_div _ _ OK); [exact HY|auto|auto]. }
  assert (XX : rel (bmul (av a) (av a)) (g x * g x)) by (apply (bk_mul _ _ OK); auto).
  assert (L1 : lit 1 0) by (apply lit_int; lia). assert (Lm1 : lit (-1) 0) by (apply lit_int; lia). assert (L2 : lit 2 0) by (apply lit_int; lia).
  destruct f; cbn [fdom] in DM; unfold ad_scale in H.
  - injection H as <-. apply MUL; cbn; auto.
  - apply bind_ok in H as (d & Hd & H). injection H as <-. apply (DIV (av a) (g x)); cbn; auto.
  - apply bind_ok in H as (d & Hd & H). injection H as <-. apply (DIV (bSmul 2 0 v) (2 * sqrt (g x))); cbn [fder fdiff fdom]; auto.
    + rewrite <- (dy_int 2). apply (bk_Smul _ _ OK); auto.
    + intros NZ. destruct DM as [|E]; auto. exfalso. apply NZ. rewrite <- E, sqrt_0. ring.
  - apply bind_ok in H as (k & Hk & H). injection H as <-. apply MUL; cbn; auto. apply (bk_fun _ _ OK Acos _ _ _ Hk RA). cbn; auto.
  - apply bind_ok in H as (k & Hk & H). injection H as <-. apply MUL; cbn; auto. apply (bk_neg _ _ OK).
    apply (bk_fun _ _ OK Asin _ _ _ Hk RA). cbn; auto.
  - apply bind_ok in H as (k & Hk & H). apply bind_ok in H as (q & Hq & H). injection H as <-. apply MUL; cbn; auto.
    pose proof (bk_fun _ _ OK Acos _ _ _ Hk RA I) as C. rewrite <- (dy_int 1).
    eapply (bk_Sdiv _ _ OK); [apply L1|apply Hq|]. apply (bk_mul _ _ OK); auto.
  - apply bind_ok in H as (s & Hs & H). apply bind_ok in H as (q & Hq & H). injection H as <-.
    assert (X1 : rel (bSsub 1 0 (bmul (av a) (av a))) (1 - g x * g x)) by (rewrite <- (dy_int 1); apply (bk_Ssub _ _ OK); auto).
    pose proof (bk_dom _ _ OK _ _ _ _ Hs X1) as P. pose proof (bk_fun _ _ OK _ _ _ _ Hs X1 P) as SS. cbn in SS.
    destruct (bk_Sdiv _ _ OK _ _ _ _ _ L1 Hq SS) as [NZ Q]. rewrite dy_int in Q. apply MUL; cbn [fder fdiff]; auto.
    intros _. destruct P as [P|P]; [|exfalso; apply NZ; rewrite <- P; apply sqrt_0]. nra.
  - apply bind_ok in H as (s & Hs & H). apply bind_ok in H as (q & Hq & H). injection H as <-.
    assert (X1 : rel (bSsub 1 0 (bmul (av a) (av a))) (1 - g x * g x)) by (rewrite <- (dy_int 1); apply (bk_Ssub _ _ OK); auto).
    pose proof (bk_dom _ _ OK _ _ _ _ Hs X1) as P. pose proof (bk_fun _ _ OK _ _ _ _ Hs X1 P) as SS. cbn in SS.
    destruct (bk_Sdiv _ _ OK _ _ _ _ _ Lm1 Hq SS) as [NZ Q]. rewrite dy_int in Q. apply MUL; cbn [fder fdiff]; auto.
    intros _. destruct P as [P|P]; [|exfalso; apply NZ; rewrite <- P; apply sqrt_0]. nra.
  - apply bind_ok in H as (q & Hq & H). injection H as <-. apply MUL; cbn; auto. rewrite <- (dy_int 1).
    eapply (bk_Sdiv _ _ OK); [apply L1|apply Hq|]. apply (bk_Sadd _ _ OK); auto.
  - apply bind_ok in H as (k & Hk & H). injection H as <-. apply MUL; cbn; auto. apply (bk_fun _ _ OK Acosh_ _ _ _ Hk RA). cbn; auto.
  - apply bind_ok in H as (k & Hk & H). injection H as <-. apply MUL; cbn; auto. apply (bk_fun _ _ OK Asinh _ _ _ Hk RA). cbn; auto.
  - apply bind_ok in H as (k & Hk & H). apply bind_ok in H as (q & Hq & H). injection H as <-. apply MUL; cbn; auto.
    pose proof (bk_fun _ _ OK Acosh_ _ _ _ Hk RA I) as C. rewrite <- (dy_int 1).
    eapply (bk_Sdiv _ _ OK); [apply L1|apply Hq|]. apply (bk_mul _ _ OK); auto.
  - apply bind_ok in H as (s & Hs & H). apply bind_ok in H as (q & Hq & H). injection H as <-.
    assert (X1 : rel (baddS (bmul (av a) (av a)) 1 0) (g x * g x + 1)) by (rewrite <- (dy_int 1); apply (bk_addS _ _ OK); auto).
    pose proof (bk_dom _ _ OK _ _ _ _ Hs X1) as P. pose proof (bk_fun _ _ OK _ _ _ _ Hs X1 P) as SS. cbn in SS.
    destruct (bk_Sdiv _ _ OK _ _ _ _ _ L1 Hq SS) as [NZ Q]. rewrite dy_int in Q. apply MUL; cbn; auto.
  - apply bind_ok in H as (s & Hs & H). apply bind_ok in H as (q & Hq & H). injection H as <-.
    assert (X1 : rel (bsubS (bmul (av a) (av a)) 1 0) (g x * g x - 1)) by (rewrite <- (dy_int 1); apply (bk_subS _ _ OK); auto).
    pose proof (bk_dom _ _ OK _ _ _ _ Hs X1) as P. pose proof (bk_fun _ _ OK _ _ _ _ Hs X1 P) as SS. cbn in SS.
    destruct (bk_Sdiv _ _ OK _ _ _ _ _ L1 Hq SS) as [NZ Q]. rewrite dy_int in Q. apply MUL; cbn [fder fdiff]; auto.
    intros _. destruct P as [P|P]; [|exfalso; apply NZ; rewrite <- P; apply sqrt_0]. nra.
  - apply bind_ok in H as (q & Hq & H). injection H as <-. apply MUL; cbn; auto. rewrite <- (dy_int 1).
    eapply (bk_Sdiv _ _ OK); [apply L1|apply Hq|]. apply (bk_Ssub _ _ OK); auto.
Qed.

Lemma map_eq_nil (g : B -> B) l : map g l = [] -> l = [].
Proof. destruct l; auto; discriminate. Qed.
Lemma mapM_nil g l : mapM (B := B) g l = Ok [] -> l = [].
Proof. intros H. apply mapM_ok in H as [L _]. destruct l; auto; discriminate. Qed.
Lemma mul_nil (a b : ad B) r : ad_mul a b = Ok r -> adv r = [] -> adv a = [] /\ adv b = [].
Proof.
  intros H E. unfold ad_mul in H. destruct (adv a), (adv b); auto; try (injection H as <-; discriminate).
  apply bind_ok in H as (d & Hd & H). injection H as <-. apply zipM_ok in Hd as (L & _ & _). simpl in E. subst d. discriminate.
Qed.
Lemma div_nil (a b : ad B) r : ad_div a b = Ok r -> adv r = [] -> adv a = [] /\ adv b = [].
Proof.
  intros H E. unfold ad_div in H. apply bind_ok in H as (v & _ & H). destruct (adv a), (adv b); auto.
  - apply bind_ok in H as (k & _ & H). injection H as <-. discriminate.
  - apply bind_ok in H as (d & Hd & H). injection H as <-. simpl in E. subst d. now apply mapM_nil in Hd.
  - apply bind_ok in H as (k & _ & H). apply bind_ok in H as (d & Hd & H). injection H as <-. apply zipM_ok in Hd as (L & _ & _).
    simpl in E. subst d. discriminate.
Qed.
Lemma sc_nil o m e (a : ad B) r : ad_sc o m e a = Ok r -> adv r = [] -> adv a = [].
Proof.
  intros H E. destruct o; simpl in H; try (injection H as <-; simpl in E; auto; now apply map_eq_nil in E).
  - apply bind_ok in H as (v & _ & H). apply bind_ok in H as (d & Hd & H). injection H as <-. simpl in E. subst d. now apply mapM_nil in Hd.
  - apply bind_ok in H as (v & _ & H). apply bind_ok in H as (k & _ & H). injection H as <-. simpl in E. now apply map_eq_nil in E.
Qed.
Lemma fun_nil f (a : ad B) r : ad_fun f a = Ok r -> adv r = [] -> adv a = [].
Proof.
  intros H E. unfold ad_fun in H. cbv zeta in H. apply bind_ok in H as (v & _ & H).
  destruct f; unfold ad_scale in H;
  repeat (let k := fresh "k" in let Hk := fresh "Hk" in apply bind_ok in H as (k & Hk & H)); injection H as <-; simpl in E;
  try (now apply map_eq_nil in E); subst k; now apply mapM_nil in Hk.
Qed.
Lemma aeval_inv n (env : nat -> ad B) x e r : (forall i, (i < n)%nat -> adinv n (fun y => y i) x (env i)) ->
  awf n e -> adom e x -> aeval env e = Ok r -> adinv n (rval e) x r.
Proof.
  intros HE. revert r. induction e; simpl; intros r W D H.
  - injection H as <-. apply HE; auto.
  - injection H as <-. split; simpl; [apply (bk_cst _ _ OK); auto|]. left; auto.
  - apply bind_ok in H as (a & Ha & H). apply bind_ok in H as (b & Hb & H). eapply inv_add; [exact H|apply IHe1; tauto|apply IHe2; tauto].
  - apply bind_ok in H as (a & Ha & H). apply bind_ok in H as (b & Hb & H). eapply inv_sub; [exact H|apply IHe1; tauto|apply IHe2; tauto].
  - apply bind_ok in H as (a & Ha & H). apply bind_ok in H as (b & Hb & H). eapply inv_mul; [exact H|apply IHe1; tauto|apply IHe2; tauto].
  - apply bind_ok in H as (a & Ha & H). apply bind_ok in H as (b & Hb & H). eapply inv_div; [exact H|apply IHe1; tauto|apply IHe2; tauto].
  - apply bind_ok in H as (a & Ha & H). eapply inv_sc; [exact H|tauto|apply IHe; tauto].
  - apply bind_ok in H as (a & Ha & H). injection H as <-. apply inv_neg. apply IHe; auto.
  - apply bind_ok in H as (a & Ha & H). eapply inv_powz; [exact H|tauto|apply IHe; tauto].
  - apply bind_ok in H as (a & Ha & H). apply bind_ok in H as (b & Hb & H).
    unfold ad_pow in H. apply bind_ok in H as (l & Hl & H). apply bind_ok in H as (p & Hp & H).
    assert (IL : adinv n (fun x => ln (rval e1 x)) x l) by (apply (inv_fun n (rval e1) x a Alog); simpl; tauto || (apply IHe1; tauto)).
    assert (IP : adinv n (fun x => rval e2 x * ln (rval e1 x)) x p) by (eapply inv_mul; [exact Hp|apply IHe2; tauto|exact IL]).
    apply (inv_fun n _ x p Aexp r H IP). exact I.
  - apply bind_ok in H as (a & Ha & H). eapply inv_fun; [exact H|apply IHe; tauto|tauto].
Qed.

Lemma vfree_adv n (env : nat -> ad B) e r : (forall i, (i < n)%nat -> adv (env i) <> []) -> awf n e ->
  aeval env e = Ok r -> adv r = [] -> vfree e = true.
Proof.
  intros HE. revert r. induction e; simpl; intros r W H E.
  - injection H as <-. destruct (HE n0 W E).
  - auto.
  - apply bind_ok in H as (a & Ha & H). apply bind_ok in H as (b & Hb & H). unfold ad_add in H.
    rewrite (IHe1 a), (IHe2 b); auto; try tauto.
    + destruct (adv a), (adv b); auto; try (injection H as <-; discriminate).
      apply bind_ok in H as (d & Hd & H). injection H as <-. apply zipM_ok in Hd as (L & _ & _). simpl in E. subst d. discriminate.
    + destruct (adv a), (adv b); auto; try (injection H as <-; discriminate).
      apply bind_ok in H as (d & Hd & H). injection H as <-. apply zipM_ok in Hd as (L & _ & _). simpl in E. subst d. discriminate.
  - apply bind_ok in H as (a & Ha & H). apply bind_ok in H as (b & Hb & H). unfold ad_sub in H.
    rewrite (IHe1 a), (IHe2 b); auto; try tauto.
    + destruct (adv a), (adv b); auto; try (injection H as <-; discriminate).
      apply bind_ok in H as (d & Hd & H). injection H as <-. apply zipM_ok in Hd as (L & _ & _). simpl in E. subst d. discriminate.
    + destruct (adv a), (adv b); auto; try (injection H as <-; discriminate).
      apply bind_ok in H as (d & Hd & H). injection H as <-. apply zipM_ok in Hd as (L & _ & _). simpl in E. subst d. discriminate.
  - apply bind_ok in H as (a & Ha & H). apply bind_ok in H as (b & Hb & H).
    rewrite (IHe1 a), (IHe2 b); auto; try tauto; destruct (mul_nil _ _ _ H E); auto.
  - apply bind_ok in H as (a & Ha & H). apply bind_ok in H as (b & Hb & H).
    rewrite (IHe1 a), (IHe2 b); auto; try tauto; destruct (div_nil _ _ _ H E); auto.
  - apply bind_ok in H as (a & Ha & H). apply (IHe a); try tauto. eapply sc_nil; eauto.
  - apply bind_ok in H as (a & Ha & H). injection H as <-. apply (IHe a); try tauto. simpl in E. now apply map_eq_nil in E.
  - apply bind_ok in H as (a & Ha & H). apply (IHe a); try tauto. unfold ad_powz in H. apply bind_ok in H as (v & _ & H).
    destruct (n0 =? 0)%Z; [injection H as <-; simpl in E; now apply map_eq_nil in E|].
    apply bind_ok in H as (p & _ & H). injection H as <-; simpl in E; now apply map_eq_nil in E.
  - apply bind_ok in H as (a & Ha & H). apply bind_ok in H as (b & Hb & H). unfold ad_pow in H.
    apply bind_ok in H as (l & Hl & H). apply bind_ok in H as (p & Hp & H).
    pose proof (fun_nil _ _ _ H E) as EP. destruct (mul_nil _ _ _ Hp EP) as [Eb El]. pose proof (fun_nil _ _ _ Hl El) as Ea.
    rewrite (IHe1 a), (IHe2 b); auto; tauto.
  - apply bind_ok in H as (a & Ha & H). apply (IHe a); try tauto. eapply fun_nil; eauto.
Qed.
(* success of the evaluation implies that the point is in the domain *)
Lemma fun_dom n g x a f r : ad_fun f a = Ok r -> adinv n g x a -> (f = Alog -> adv a = [] -> 0 < g x) -> fdom f (g x).
Proof.
  intros H IA HC. pose proof (proj1 IA) as RA. unfold ad_fun in H. cbv zeta in H. apply bind_ok in H as (v & Hv & H).
  pose proof (bk_dom _ _ OK _ _ _ _ Hv RA) as C. assert (L1 : lit 1 0) by (apply lit_int; lia).
  destruct f; cbn [fdom fclo] in *; auto.
  - apply bind_ok in H as (d & Hd & _). destruct (adv a) as [|a1 al] eqn:EA; [auto|].
    apply mapM_ok in Hd as [_ Z]. specialize (Z 0%nat ltac:(simpl; lia)). simpl in Z.
    destruct IA as [_ [[E _]|(_ & L & G & HG & _)]]; [congruence|].
    specialize (HG 0%nat ltac:(rewrite <- L, EA; simpl; lia)). rewrite EA in HG.
    destruct (bk_div _ _ OK _ _ _ _ _ Z HG RA). lra.
  - apply bind_ok in H as (k & Hk & H). apply bind_ok in H as (q & Hq & H).
    pose proof (bk_fun _ _ OK Acos _ _ _ Hk RA I) as CC.
    destruct (bk_Sdiv _ _ OK _ _ _ _ _ L1 Hq (bk_mul _ _ OK _ _ _ _ CC CC)) as [NZ _]. cbn in NZ. intros E. rewrite E in NZ. lra.
  - apply bind_ok in H as (q & Hq & H).
    assert (X1 : rel (bSsub 1 0 (bmul (av a) (av a))) (1 - g x * g x)) by (rewrite <- (dy_int 1); apply (bk_Ssub _ _ OK); auto; apply (bk_mul _ _ OK); auto).
    destruct (bk_Sdiv _ _ OK _ _ _ _ _ L1 Hq X1) as [NZ _].
    assert (g x <> 1) by (intros E; apply NZ; rewrite E; ring). assert (g x <> -1) by (intros E; apply NZ; rewrite E; ring). lra.
Qed.
Lemma aeval_dom n (env : nat -> ad B) x e r : (forall i, (i < n)%nat -> adv (env i) <> [] /\ adinv n (fun y => y i) x (env i)) ->
  awf n e -> clog e -> aeval env e = Ok r -> adom e x.
Proof.
  intros HE.
  assert (HV : forall i, (i < n)%nat -> adv (env i) <> []) by (intros; apply HE; auto).
  assert (HI : forall i, (i < n)%nat -> adinv n (fun y => y i) x (env i)) by (intros; apply HE; auto).
  revert r. induction e; simpl; intros r W C H; auto.
  - apply bind_ok in H as (a & Ha & H). apply bind_ok in H as (b & Hb & H). split; [apply (IHe1 a)|apply (IHe2 b)]; tauto.
  - apply bind_ok in H as (a & Ha & H). apply bind_ok in H as (b & Hb & H). split; [apply (IHe1 a)|apply (IHe2 b)]; tauto.
  - apply bind_ok in H as (a & Ha & H). apply bind_ok in H as (b & Hb & H). split; [apply (IHe1 a)|apply (IHe2 b)]; tauto.
  - apply bind_ok in H as (a & Ha & H). apply bind_ok in H as (b & Hb & H).
    assert (D1 : adom e1 x) by (apply (IHe1 a); tauto). assert (D2 : adom e2 x) by (apply (IHe2 b); tauto).
    split; auto. split; auto. unfold ad_div in H. apply bind_ok in H as (v & Hv & _).
    eapply (bk_div _ _ OK); [exact Hv| |]; [apply (aeval_inv n env x e1 a)|apply (aeval_inv n env x e2 b)]; tauto.
  - apply bind_ok in H as (a & Ha & H). assert (D : adom e0 x) by (apply (IHe a); tauto). split; auto.
    destruct o; auto; simpl in H; apply bind_ok in H as (v & Hv & _).
    + eapply (bk_divS _ _ OK); [|exact Hv|apply (aeval_inv n env x e0 a)]; tauto.
    + eapply (bk_Sdiv _ _ OK); [|exact Hv|apply (aeval_inv n env x e0 a)]; tauto.
  - apply bind_ok in H as (a & Ha & H). apply (IHe a); tauto.
  - apply bind_ok in H as (a & Ha & H). assert (D : adom e x) by (apply (IHe a); tauto). split; auto.
    unfold ad_powz in H. apply bind_ok in H as (v & Hv & _). eapply (bk_pow _ _ OK); [exact Hv|]. apply (aeval_inv n env x e a); tauto.
  - apply bind_ok in H as (a & Ha & H). apply bind_ok in H as (b & Hb & H).
    assert (D1 : adom e1 x) by (apply (IHe1 a); tauto). assert (D2 : adom e2 x) by (apply (IHe2 b); tauto).
    split; auto. split; auto. unfold ad_pow in H. apply bind_ok in H as (l & Hl & _).
    apply (fun_dom n (rval e1) x a Alog l Hl); [apply (aeval_inv n env x e1 a); tauto|].
    intros _ E. pose proof (vfree_adv n env e1 a HV ltac:(tauto) Ha E) as VF. rewrite (vfree_const e1 VF x (fun _ => 0)). tauto.
  - apply bind_ok in H as (a & Ha & H). assert (D : adom e x) by (apply (IHe a); tauto). split; auto.
    apply (fun_dom n (rval e) x a f r H); [apply (aeval_inv n env x e a); tauto|].
    intros EF E. pose proof (vfree_adv n env e a HV ltac:(tauto) Ha E) as VF. rewrite (vfree_const e VF x (fun _ => 0)). tauto.
Qed.

(* init *)
Lemma unit_len n i : length (@ad_unit B n i) = n.
Proof. unfold ad_unit. now rewrite map_length, seq_length. Qed.
Lemma unit_nth n i j : (j < n)%nat -> nth j (@ad_unit B n i) t0 = if Nat.eq_dec i j then bcst 1 0 else bcst 0 0.
Proof.
  intros H. unfold ad_unit. set (F := fun j => if Nat.eq_dec i j then bcst 1 0 else bcst 0 0).
  rewrite nth_indep with (d' := F 0%nat) by (rewrite map_length, seq_length; auto).
  rewrite map_nth. rewrite seq_nth by auto. reflexivity.
Qed.
Lemma unit_inv n X x i : (i < n)%nat -> rel X (x i) -> adinv n (fun y => y i) x (mkad X (ad_unit n i)).
Proof.
  intros H R. split; simpl; auto. right. split; [|split].
  - intros E. pose proof (unit_len n i) as L. rewrite E in L. simpl in L. lia.
  - apply unit_len.
  - exists (fun j => dlt i j). split.
    + intros j Hj. rewrite unit_nth by auto. unfold dlt. destruct Nat.eq_dec.
      * rewrite <- (dy_int 1). apply (bk_cst _ _ OK), lit_int. lia.
      * apply rel0.
    + intros c v [_ D]. change (vsum n (fun j => dlt i j * v j)) with (mv n dlt v i). rewrite mv_dlt by auto. auto.
Qed.
Lemma init_inv n X x i : (i < n)%nat -> (forall i, (i < n)%nat -> rel (X i) (x i)) -> adinv n (fun y => y i) x (ad_init n X i).
Proof. intros. apply unit_inv; auto. Qed.

(* the gradient as split returns it: missing components are zero *)
Lemma inv_row n f x r : adinv n f x r -> exists G, (forall j, (j < n)%nat -> rel (ad_row r j) (G j)) /\ grad n f x G /\
  (adv r = [] -> forall j, G j = 0).
Proof.
  intros [RV [[E C]|(NE & L & G & HG & GR)]].
  - exists (fun _ => 0). split; [|split]; auto.
    + intros j _. unfold ad_row. rewrite E. destruct j; apply rel0.
    + intros c v _. rewrite vsum_zero by (intros; ring).
      apply (derivable_pt_lim_ext (fun _ => f x)); [intros; auto|]. apply derivable_pt_lim_const.
  - exists G. split; [|split]; auto. intros. contradiction.
Qed.
Theorem ad_value_gradient n X x e r : (forall i, (i < n)%nat -> rel (X i) (x i)) -> awf n e -> clog e ->
  aeval (ad_init n X) e = Ok r ->
  adom e x /\ rel (av r) (rval e x) /\ exists G, (forall j, (j < n)%nat -> rel (ad_row r j) (G j)) /\ grad n (rval e) x G.
Proof.
  intros HX W D H.
  assert (DM : adom e x). { apply (aeval_dom n (ad_init n X) x e r); auto. intros i Hi. split; [|apply init_inv; auto].
    simpl. intros E. pose proof (unit_len n i) as L. rewrite E in L. simpl in L. lia. }
  split; auto.
  assert (IN : adinv n (rval e) x r) by (eapply aeval_inv; eauto; intros; apply init_inv; auto).
  split; [apply IN|]. destruct (inv_row _ _ _ _ IN) as (G & A & C & _). exists G; auto.
Qed.

(* compress / expand *)
Lemma bdot_rel G j J : forall d k acc (a : R) save, (forall i, (i < length d)%nat -> rel (nth i d t0) (G (k + i)%nat)) ->
  (forall i, (i < length d)%nat -> rel (save (k + i)%nat j) (J (k + i)%nat)) -> rel acc a ->
  rel (bdot d k save j acc) (a + vsum (length d) (fun i => G (k + i)%nat * J (k + i)%nat)).
Proof.
  induction d as [|y d IH]; intros k acc a save HG HS HA; cbn [bdot length].
  - simpl. now rewrite Rplus_0_r.
  - rewrite (vsum_skip (length d) 0) by lia.
    rewrite (vsum_ext (length d) (fun k0 => G (k + skip 0 k0)%nat * J (k + skip 0 k0)%nat) (fun i => G (S k + i)%nat * J (S k + i)%nat)).
    2:{ intros i Hi. unfold skip. destruct le_lt_dec; [|lia]. f_equal; f_equal; lia. }
    rewrite <- Rplus_assoc. apply IH.
    + intros i Hi. specialize (HG (S i)). simpl in HG. replace (S k + i)%nat with (k + S i)%nat by lia. apply HG. simpl. lia.
    + intros i Hi. specialize (HS (S i)). replace (S k + i)%nat with (k + S i)%nat by lia. apply HS. simpl. lia.
    + apply (bk_add _ _ OK); auto. rewrite Nat.add_0_r. apply (bk_mul _ _ OK).
      * specialize (HG 0%nat). simpl in HG. rewrite Nat.add_0_r in HG. apply HG. lia.
      * specialize (HS 0%nat). rewrite Nat.add_0_r in HS. apply HS. simpl. lia.
Qed.
(* in_ holds values and gradients of the functions g k at x in R^m; e is evaluated on the compressed
   variables; expanding gives value and gradient of the composition *)
Theorem compress_expand m n (in_ : nat -> ad B) (g : nat -> (nat -> R) -> R) x e comp ms save r :
  (0 < m)%nat -> (forall k, (k < n)%nat -> adinv m (g k) x (in_ k)) -> awf n e -> adom e (fun k => g k x) ->
  ad_compress n in_ = Ok (comp, (ms, save)) -> aeval comp e = Ok r ->
  rel (av (ad_expand r m save)) (rval e (fun k => g k x)) /\
  length (adv (ad_expand r m save)) = m /\
  exists G, (forall j, (j < m)%nat -> rel (nth j (adv (ad_expand r m save)) t0) (G j)) /\
    grad m (fun y => rval e (fun k => g k y)) x G.
Proof.
  intros M HI W D HC H. unfold ad_compress in HC. destruct (n =? 0)%nat; [discriminate|]. injection HC as <- <- <-.
  set (gx := fun k => g k x) in *.
  assert (IN : adinv n (rval e) gx r).
  { eapply aeval_inv; eauto. intros i Hi. apply unit_inv; auto. apply (HI i Hi). }
  split; [apply IN|]. split; [simpl; now rewrite map_length, seq_length|].
  assert (JJ : exists J, forall k, (k < n)%nat -> (forall j, (j < m)%nat -> rel (ad_row (in_ k) j) (J k j)) /\ grad m (g k) x (J k)).
  { apply (fin_choice (fun _ => 0) n (fun k Jk => (forall j, (j < m)%nat -> rel (ad_row (in_ k) j) (Jk j)) /\ grad m (g k) x Jk)).
    intros k Hk. destruct (inv_row _ _ _ _ (HI k Hk)) as (G & A & C & _). eauto. }
  destruct JJ as [J HJ]. destruct (inv_row _ _ _ _ IN) as (G & A & C & Z).
  exists (fun j => vsum n (fun k => G k * J k j)). split.
  - intros j Hj. simpl. set (F := fun j => bdot (adv r) 0 (fun i j0 => ad_row (in_ i) j0) j (bcst 0 0)).
    rewrite nth_indep with (d' := F 0%nat) by (rewrite map_length, seq_length; auto). rewrite map_nth, seq_nth by auto. simpl.
    assert (LR : adv r = [] \/ length (adv r) = n) by (destruct IN as [_ [[? _]|(_ & ? & _)]]; auto).
    destruct LR as [E|L].
    + rewrite vsum_zero by (intros; rewrite Z by auto; ring). unfold F. rewrite E. simpl. apply rel0.
    + unfold F. rewrite <- L. rewrite <- (Rplus_0_l (vsum _ _)).
      apply (bdot_rel G j (fun k => J k j) (adv r) 0 (bcst 0 0) 0); simpl.
      * intros i Hi. apply A. lia.
      * intros i Hi. apply HJ; lia.
      * apply rel0.
  - intros c v CV.
    assert (CV' : curve_at n (fun t k => g k (c t)) gx (fun k => vsum m (fun j => J k j * v j))).
    { split; [destruct CV as [-> _]; reflexivity|]. intros k Hk. apply (HJ k Hk). auto. }
    specialize (C _ _ CV'). simpl in C.
    replace (vsum m (fun j => vsum n (fun k => G k * J k j) * v j)) with (vsum n (fun k => G k * vsum m (fun j => J k j * v j))); auto.
    rewrite (vsum_ext n _ (fun k => vsum m (fun j => G k * J k j * v j))).
    2:{ intros k _. rewrite <- vsum_scal. apply vsum_ext. intros; ring. }
    rewrite vsum_swap. apply vsum_ext. intros j _. now rewrite vsum_scal_r.
Qed.
End Inv.
