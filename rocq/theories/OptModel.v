(* Model of kv/optimize.hpp: optimize 63-318 with the default macros (OPTIMIZE_TRIM = 0, OPTIMIZE_USESLOPE = 1), optimize_nd
   533-630, and minimize_value 344-365, minimize_nd_value.  minimize, minimize_nd, the versions taking a number of
   subdivisions (they only compute `limit`), the one-dimensional and the maximize versions (-f in place of f) call these.
   A box of size n is a function read below n.  Printing is not modelled.  The loop over `targets` takes fuel. *)
From Coq Require Import ZArith Bool List Arith.
From Verif Require Import Ext Scalar IntervalModel VecModel.
Import ListNotations.

Section OptModel.
Variable S : scal.
Notation iv := (iv S).
Notation box := (nat -> iv).
Variable n : nat.
(* f(I), and the partial derivatives from autodif<interval<T>>::split(f(autodif::init(I)), fi, fdi); fdi.resize(s)
   (a constant f has the gradient zero) *)
Variable fI : box -> res iv.
Variable fD : box -> res box.
Variables (init : box) (limit : S) (unify : bool).

(* targets, solutions, delta; mi is declared outside the loop: it keeps its last value, None = not initialised *)
Record ostate := mkost { otg : list box; osol : list box; odelta : S; omi : option nat }.

(* 287-297, one pass over the solutions: those meeting I are erased and I is enlarged; whether any was *)
Fixpoint mpass (I : box) (sols : list box) : bool * (box * list box) :=
  match sols with
  | [] => (false, (I, []))
  | p :: sols =>
    if voverlap n p I then let '(_, r) := mpass (force n (vhull I p)) sols in (true, r)
    else let '(b, (J, r)) := mpass I sols in (b, (J, p :: r))
  end.
(* 286-300: repeat until nothing changes; each repetition erases a box *)
Fixpoint merge (fuel : nat) (I : box) (sols : list box) : box * list box :=
  match fuel with
  | O => (I, sols)
  | Datatypes.S k => let '(b, (J, r)) := mpass I sols in if b then merge k J r else (J, r)
  end.

(* 271-310, from the label on: store the box or cut it in two *)
Definition finish (st : ostate) (I : box) (errflag : bool) : res ostate :=
  let '(w, o) := maxwidth_loop n I in
  let mi := match o with Some i => Some i | None => omi st end in
  if slt w limit && negb errflag then
    let '(J, r) := if unify then merge (Datatypes.S (length (osol st))) I (osol st) else (I, osol st) in
    Ok (mkost (otg st) (r ++ [J]) (odelta st) mi)
  else
    match mi with
    | None => Err EUB
    | Some i =>
      let m := mid (I i) in
      let I1 := force n (fun j => if Nat.eq_dec j i then mkiv (lo (I i)) m else I j) in
      let I2 := force n (fun j => if Nat.eq_dec j i then mkiv m (hi (I i)) else I j) in
      Ok (mkost (otg st ++ [I1; I2]) (osol st) (odelta st) mi)
    end.

(* if (tmp < delta) delta = tmp *)
Definition low (d t : S) : S := if slt t d then t else d.
Definition setd (st : ostate) (d : S) : ostate := mkost (otg st) (osol st) d (omi st).
Fixpoint vany (k : nat) (p : nat -> bool) : bool :=
  match k with O => false | Datatypes.S k => vany k p || p k end.
(* 123-131: the gradient has a sign on I and I does not touch the corresponding face of init *)
Definition slope_out (I fdi : box) : bool :=
  vany n (fun i => (slt s0 (lo (fdi i)) && negb (seqb (lo (I i)) (lo (init i)))) ||
                   (slt (hi (fdi i)) s0 && negb (seqb (hi (I i)) (hi (init i))))).
(* 139-145: the corner where the mean gradient points downwards *)
Definition corner (I fdi : box) : box :=
  fun i => let t := mid (fdi i) in
    ipt (if slt s0 t then lo (I i) else if slt t s0 then hi (I i) else mid (I i)).

(* 90-310: one iteration on the box I, already removed from targets *)
Definition ostep (st : ostate) (I : box) : res ostate :=
  match fI I with
  | Err EDomain => finish st I true
  | Err e => Err e
  | Ok fi =>
    if slt (odelta st) (lo fi) then Ok st else
    let C := force n (fun i => ipt (mid (I i))) in
    match fI C with
    | Err EDomain => finish st I false
    | Err e => Err e
    | Ok fc =>
      match fD I with
      | Err EDomain => finish st I false
      | Err e => Err e
      | Ok fdi =>
        let mvf := iadd fc (isum n (fun i => imul (fdi i) (isub (I i) (C i)))) in
        if slt (odelta st) (lo mvf) then Ok st else
        if slope_out I fdi then Ok st else
        let st := setd st (low (odelta st) (hi fc)) in
        match fI (force n (corner I fdi)) with
        | Err EDomain => finish st I false
        | Err e => Err e
        | Ok fc2 => finish (setd st (low (odelta st) (hi fc2))) I false
        end
      end
    end
  end.
(* optimize_nd 554-622 *)
Definition ndstep (st : ostate) (I : box) : res ostate :=
  match fI I with
  | Err EDomain => finish st I true
  | Err e => Err e
  | Ok fi =>
    if slt (odelta st) (lo fi) then Ok st else
    match fI (force n (fun i => ipt (mid (I i)))) with
    | Err EDomain => finish st I false
    | Err e => Err e
    | Ok fc => finish (setd st (low (odelta st) (hi fc))) I false
    end
  end.
Fixpoint oloop (step : ostate -> box -> res ostate) (fuel : nat) (st : ostate) : res ostate :=
  match fuel with
  | O => Err EFuel
  | Datatypes.S k =>
    match otg st with
    | [] => Ok st
    | X :: ts => do st' <- step (mkost ts (osol st) (odelta st) (omi st)) X; oloop step k st'
    end
  end.
Definition ostart : ostate := mkost [init] [] smax None.
Definition optimize (fuel : nat) : res (list box) := do st <- oloop ostep fuel ostart; Ok (osol st).
Definition optimize_nd (fuel : nat) : res (list box) := do st <- oloop ndstep fuel ostart; Ok (osol st).

(* std::min(a, b) *)
Definition stdmin (a b : S) : S := if slt b a then b else a.
(* 355-364: f is evaluated again on each box, outside any try block *)
Fixpoint value_loop (bs : list box) (r : iv) : res iv :=
  match bs with
  | [] => Ok r
  | p :: bs => do t <- fI p; value_loop bs (mkiv (stdmin (lo r) (lo t)) (stdmin (hi r) (hi t)))
  end.
End OptModel.
Arguments mkost {S}. Arguments otg {S}. Arguments osol {S}. Arguments odelta {S}. Arguments omi {S}.
Arguments mpass {S}. Arguments merge {S}. Arguments finish {S}. Arguments low {S}. Arguments setd {S}. Arguments slope_out {S}.
Arguments corner {S}. Arguments ostep {S}. Arguments ndstep {S}. Arguments oloop {S}. Arguments ostart {S}.
Arguments optimize {S}. Arguments optimize_nd {S}. Arguments stdmin {S}. Arguments value_loop {S}.

Section Values.
Context {S : scal} (n : nat) (fI : (nat -> iv S) -> res (iv S)) (fD : (nat -> iv S) -> res (nat -> iv S)).
(* 344-365 minimize_value: unify is switched off *)
Definition minimize_value (init : nat -> iv S) (limit : S) (fuel : nat) : res (iv S) :=
  do bs <- optimize n fI fD init limit false fuel; value_loop fI bs (mkiv spinf spinf).
(* 656-677 minimize_nd_value *)
Definition minimize_nd_value (init : nat -> iv S) (limit : S) (fuel : nat) : res (iv S) :=
  do bs <- optimize_nd n fI init limit false fuel; value_loop fI bs (mkiv spinf spinf).
End Values.
