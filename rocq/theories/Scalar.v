(* The operations interval<T> takes from its base type T and from rop<T>
   (kv/interval.hpp 21-88 gives the interface of rop<T>), with the laws that make interval
   arithmetic sound.  Instances: Fp64.v (double), Rdd*.v (dd). *)
From Coq Require Import Reals Lra ZArith Bool.
From Flocq Require Import Core.
From Verif Require Import Ext.
Open Scope R_scope.

Record scal := mkscal {
  sT :> Type;
  sval : sT -> ext;                 (* meaning; used in statements only, never computed with *)
  swf : sT -> Prop;                 (* representation invariant of T (True for double) *)
  s0 : sT; s1 : sT;                 (* T(0.), T(1.) *)
  sdy : Z -> Z -> sT;               (* T of the literal m*2^e *)
  spinf : sT; sninf : sT;           (* +- std::numeric_limits<T>::infinity() *)
  smax : sT;                        (* std::numeric_limits<T>::max() *)
  sdmin : sT;                       (* std::numeric_limits<T>::denorm_min() *)
  seps : sT;                        (* std::numeric_limits<T>::epsilon() *)
  slt : sT -> sT -> bool;           (* operator<  ; a > b is slt b a *)
  sle : sT -> sT -> bool;           (* operator<= ; a >= b is sle b a *)
  seqb : sT -> sT -> bool;          (* operator== *)
  sneg : sT -> sT;                  (* unary - *)
  sabs : sT -> sT;                  (* std::abs / abs *)
  nadd : sT -> sT -> sT; nsub : sT -> sT -> sT;   (* T's own + - * / : round to nearest *)
  nmul : sT -> sT -> sT; ndiv : sT -> sT -> sT;
  sfloor : sT -> sT; sceil : sT -> sT;
  addu : sT -> sT -> sT; addd : sT -> sT -> sT;   (* rop<T>::add_up, add_down, ... *)
  subu : sT -> sT -> sT; subd : sT -> sT -> sT;
  mulu : sT -> sT -> sT; muld : sT -> sT -> sT;
  divu : sT -> sT -> sT; divd : sT -> sT -> sT;
  sqru : sT -> sT; sqrd : sT -> sT
}.
Arguments s0 {_}. Arguments s1 {_}. Arguments sdy {_}. Arguments spinf {_}. Arguments sninf {_}.
Arguments smax {_}. Arguments sdmin {_}. Arguments seps {_}.
Arguments sval {_}. Arguments swf {_}. Arguments slt {_}. Arguments sle {_}. Arguments seqb {_}.
Arguments sneg {_}. Arguments sabs {_}. Arguments sfloor {_}. Arguments sceil {_}.
Arguments nadd {_}. Arguments nsub {_}. Arguments nmul {_}. Arguments ndiv {_}.
Arguments addu {_}. Arguments addd {_}. Arguments subu {_}. Arguments subd {_}.
Arguments mulu {_}. Arguments muld {_}. Arguments divu {_}. Arguments divd {_}.
Arguments sqru {_}. Arguments sqrd {_}.

Record scal_ok (S : scal) : Prop := mkscal_ok {
  ok_lt : forall x y : S, swf x -> swf y -> slt x y = true <-> xlt (sval x) (sval y);
  ok_le : forall x y : S, swf x -> swf y -> sle x y = true <-> xle (sval x) (sval y);
  ok_eq : forall x y : S, swf x -> swf y -> seqb x y = true <-> xeq (sval x) (sval y);
  ok_neg : forall x : S, swf x -> swf (sneg x) /\ sval (sneg x) = xneg (sval x);
  ok_s0 : swf (@s0 S) /\ sval (@s0 S) = XR 0;
  ok_s1 : swf (@s1 S) /\ sval (@s1 S) = XR 1;
  ok_dy : forall m e : Z, (Z.abs m <= 2 ^ 53)%Z -> (-900 <= e <= 900)%Z ->
    swf (@sdy S m e) /\ sval (@sdy S m e) = XR (IZR m * bpow radix2 e);
  ok_pinf : swf (@spinf S) /\ sval (@spinf S) = Xp;
  ok_ninf : swf (@sninf S) /\ sval (@sninf S) = Xm;
  ok_max : swf (@smax S) /\ exists r, sval (@smax S) = XR r /\ 0 < r;
  ok_dmin : swf (@sdmin S) /\ exists r, sval (@sdmin S) = XR r /\ 0 < r;
  ok_addu : forall x y : S, swf x -> swf y -> swf (addu x y) /\ xup (xadd (sval x) (sval y)) (sval (addu x y));
  ok_addd : forall x y : S, swf x -> swf y -> swf (addd x y) /\ xdown (xadd (sval x) (sval y)) (sval (addd x y));
  ok_subu : forall x y : S, swf x -> swf y -> swf (subu x y) /\ xup (xsub (sval x) (sval y)) (sval (subu x y));
  ok_subd : forall x y : S, swf x -> swf y -> swf (subd x y) /\ xdown (xsub (sval x) (sval y)) (sval (subd x y));
  ok_mulu : forall x y : S, swf x -> swf y -> swf (mulu x y) /\ xup (xmul (sval x) (sval y)) (sval (mulu x y));
  ok_muld : forall x y : S, swf x -> swf y -> swf (muld x y) /\ xdown (xmul (sval x) (sval y)) (sval (muld x y));
  ok_divu : forall x y : S, swf x -> swf y -> sval y <> XR 0 ->
    swf (divu x y) /\ xup (xdiv (sval x) (sval y)) (sval (divu x y));
  ok_divd : forall x y : S, swf x -> swf y -> sval y <> XR 0 ->
    swf (divd x y) /\ xdown (xdiv (sval x) (sval y)) (sval (divd x y));
  ok_sqru : forall x : S, swf x -> swf (sqru x) /\ xup (xsqrt (sval x)) (sval (sqru x));
  ok_sqrd : forall x : S, swf x -> swf (sqrd x) /\ xdown (xsqrt (sval x)) (sval (sqrd x))
}.

Section Facts.
Context {S : scal} (OK : scal_ok S).
Implicit Types x y : S.

Lemma slt_false x y : swf x -> swf y -> sval x <> Xn -> sval y <> Xn ->
  slt x y = false -> xle (sval y) (sval x).
Proof.
  intros Wx Wy Hx Hy H. apply not_xlt_xle; auto. intros L. apply (ok_lt _ OK) in L; auto. congruence.
Qed.
Lemma sle_false x y : swf x -> swf y -> sval x <> Xn -> sval y <> Xn ->
  sle x y = false -> xlt (sval y) (sval x).
Proof.
  intros Wx Wy Hx Hy H. apply not_xle_xlt; auto. intros L. apply (ok_le _ OK) in L; auto. congruence.
Qed.
Lemma slt_true x y : swf x -> swf y -> slt x y = true -> xlt (sval x) (sval y).
Proof. intros; now apply (ok_lt _ OK). Qed.
Lemma sle_true x y : swf x -> swf y -> sle x y = true -> xle (sval x) (sval y).
Proof. intros; now apply (ok_le _ OK). Qed.
End Facts.
