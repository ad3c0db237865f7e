(* Property theorems: beta.hpp (C102, C103), for every double back end.  steps_in: the end of every step lies in the range of integration; the
   right half is integrated over [-1, -1/2], with the sign reversed. *)
From Coq Require Import Reals ZArith Bool List Lra Lia Psatz Arith.
From Coquelicot Require Import Coquelicot.
From Flocq Require Import Core BinarySingleNaN.
From Verif Require Import Fp64 RDoubleHw.
From Verif Require Import Ext Scalar IntervalModel IntervalSpec IntervalProofs IntervalEncl IntervalSets Backends Ex64 ElemModel Elem64 PropsElem.
From Verif Require Import ADModel ADReal ADInst PsaModel PsaInst PsaHist PropsPsa PropsPsaHist OdeModel DefintAuto SingAuto PropsSingAuto PropsPowPar GammaProofs PropsGamma BetaReal BetaModel BetaProofs.
Import List ListNotations.
Open Scope R_scope.

Theorem C102_beta_r : forall b fuel root proot order n fast (X Y : iv (bscal b)) x y v l l' st st', (1 <= order < 2 ^ 52)%Z -> isin X x -> isin Y y -> 0 < x -> 0 < y ->
  beta_r (bpar b) fuel root proot order n fast X Y st = (Ok (v, (l, l')), st') -> steps_in l 0 (/ 2) -> steps_in l' (-1) (- / 2) -> exists B, is_beta x y B /\ isin v B.
Proof.
  intros b fuel root proot order n fast X Y x y v l l' st st' OR HX HY Px Py R HL HL'. match type of R with beta_r _ _ _ _ _ _ _ X Y _ = _ => idtac end.
  exact (beta_r_ok b fuel root proot order n fast OR X Y x y v l l' st st' HX HY Px Py R HL HL').
Qed.
Theorem C103_beta : forall b fuel root proot toint order n fast (X Y : iv (bscal b)) x y zx zy v l l' st st', int_conv toint -> (1 <= order < 2 ^ 52)%Z ->
  isin X x -> isin Y y -> no_pole x -> no_pole y -> floor_of b X zx -> floor_of b Y zy -> (Z.abs zx < 2 ^ 30 - 1)%Z -> (Z.abs zy < 2 ^ 30 - 1)%Z ->
  beta (bpar b) fuel root proot toint order n fast X Y st = (Ok (v, (l, l')), st') -> steps_in l 0 (/ 2) -> steps_in l' (-1) (- / 2) -> exists B, is_Beta x y B /\ isin v B.
Proof.
  intros b fuel root proot toint order n fast X Y x y zx zy v l l' st st' TO OR HX HY Px Py FX FY ZX ZY R HL HL'. match type of R with beta _ _ _ _ _ _ _ _ X Y _ = _ => idtac end.
  exact (beta_ok b fuel root proot toint order n fast TO OR X Y x y zx zy v l l' st st' HX HY Px Py FX FY ZX ZY R HL HL').
Qed.
(* beta(-1/2, 5/2) = -3 pi / 2, with order 2 *)
Local Notation C103_run := (beta (S:=bscal BHw) (bpar BHw) 60%nat C98_root (fun _ => C98_root) toint_b 2%Z 1%nat true (qiv (-1) (-1) (-1) (-1)) (qiv 5 (-1) 5 (-1)) (C78_st 1 false false [])).
Definition at_point (l : list (iv (bscal BHw) * iv (bscal BHw) * iv (bscal BHw))) (m e : Z) : bool :=
  match l with [(_, t, _)] => Beqb (lo t : b64) (bdy m e) && Beqb (hi t : b64) (bdy m e) | _ => false end.
Definition bcheck (r : res (iv (bscal BHw) * (list (iv (bscal BHw) * iv (bscal BHw) * iv (bscal BHw)) * list (iv (bscal BHw) * iv (bscal BHw) * iv (bscal BHw))))) : bool :=
  match r with Ok (v, (l, l')) => Bleb (bdy (-5) 0) (lo v : b64) && Bleb (hi v : b64) (bdy (-4) 0) && at_point l 1 (-1) && at_point l' (-1) (-1) | _ => false end.
Lemma at_point_ok l m e a c : lit m e -> at_point l m e = true -> a < dy m e <= c -> steps_in l a c.
Proof.
  intros L H HB q Hq. destruct l as [|[[s t] w] [|]]; try discriminate. destruct Hq as [<-|[]]. cbn [fst snd]. exists (dy m e). split; auto.
  unfold at_point in H. apply andb_prop in H as [H1 H2]. apply (ok_eq _ (bok BHw)) in H1, H2; try exact Logic.I. rewrite (q_v m e (dy m e) L eq_refl) in H1, H2.
  split; [exact Logic.I|]. split; [exact Logic.I|]. destruct (sval (lo t)); simpl in H1; try tauto. destruct (sval (hi t)); simpl in H2; try tauto. simpl. lra.
Qed.
Lemma C103_runs : bcheck (fst C103_run) = true.
Proof. vm_compute. reflexivity. Qed.
Example C103_case : exists v l l' st' B, C103_run = (Ok (v, (l, l')), st') /\ is_Beta (- / 2) (5 / 2) B /\ isin v B /\ -5 <= B <= -4.
Proof.
  pose proof C103_runs as R. destruct C103_run as [q st'] eqn:E. cbn [fst] in R. destruct q as [[v [l l']]|]; [|discriminate]. unfold bcheck in R.
  apply andb_prop in R as [R R4]. apply andb_prop in R as [R R3]. apply andb_prop in R as [R1 R2].
  assert (S1 : steps_in l 0 (/ 2)) by (apply (at_point_ok l 1 (-1)); auto; [unfold lit; lia|unfold dy; simpl; lra]).
  assert (S2 : steps_in l' (-1) (- / 2)) by (apply (at_point_ok l' (-1) (-1)); auto; [unfold lit; lia|unfold dy; simpl; lra]).
  assert (HX : isin (S:=bscal BHw) (qiv (-1) (-1) (-1) (-1)) (- / 2)) by qin. assert (HY : isin (S:=bscal BHw) (qiv 5 (-1) 5 (-1)) (5 / 2)) by qin.
  assert (FX : floor_of BHw (qiv (-1) (-1) (-1) (-1)) (-1)). { exists (- / 2). split; [apply q_v; [unfold lit; lia|unfold dy; simpl; lra]|]. symmetry. apply Zfloor_imp. simpl. lra. }
  assert (FY : floor_of BHw (qiv 5 (-1) 5 (-1)) 2). { exists (5 / 2). split; [apply q_v; [unfold lit; lia|unfold dy; simpl; lra]|]. symmetry. apply Zfloor_imp. simpl. lra. }
  assert (NX : no_pole (- / 2)). { intros k K. assert (Q : 2 * IZR (Z.of_nat k) = 1) by (rewrite <- INR_IZR_INZ; lra). rewrite <- mult_IZR in Q. apply eq_IZR in Q. lia. }
  assert (NY : no_pole (5 / 2)). { intros k K. pose proof (pos_INR k). lra. }
  destruct (C103_beta BHw 60 C98_root (fun _ => C98_root) toint_b 2 1 true _ _ _ _ _ _ v l l' _ st' toint_ok ltac:(lia) HX HY NX NY FX FY ltac:(lia) ltac:(lia) E S1 S2) as (B & HB & HV).
  exists v, l, l', st', B. split; [reflexivity|]. split; [exact HB|]. split; [exact HV|].
  apply (ok_le _ (bok BHw)) in R1, R2; try exact Logic.I. rewrite (q_v (-5) 0 (-5)) in R1; [|unfold lit; lia|unfold dy; simpl; lra]. rewrite (q_v (-4) 0 (-4)) in R2; [|unfold lit; lia|unfold dy; simpl; lra].
  destruct HV as (_ & _ & X1 & X2). unfold lb, ub in *. destruct (sval (lo v)), (sval (hi v)); simpl in *; try tauto; lra.
Qed.
Definition Beta_all := (C102_beta_r, C103_beta, C103_case, Beta_unique, beta_11).
Print Assumptions Beta_all.
