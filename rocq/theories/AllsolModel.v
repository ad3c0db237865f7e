(* Model of kv/allsol.hpp with the default switches (24-88): USE_TRIM 3, USE_ZERODIVIDE 2, USE_MULTITRIM 0,
   USE_AFFINEABS 0, USE_MIGSKIP 1, USE_SLOWDIVIDE 1, USE_FI 1, USE_SUPERLINEAR 1, UNIFY_REST 1,
   ENABLE_INFINITY 1, WEIGHTED_MAX 1, and without OpenMP.
   Vectors as in VecModel.v.  Printing and the counters are left out.  `rest` always collects; the
   code drops the boxes when the pointer is NULL.  A std::domain_error outside the try blocks (926, 962, 967)
   leaves the function: Err EDomain. *)
From Coq Require Import ZArith Bool List.
From Verif Require Import Ext Scalar IntervalModel VecModel.
Import ListNotations.

Section Allsol.
Variable S : scal.
Notation iv := (iv S).
Notation vec := (fun A : Type => nat -> A).
Notation mat := (fun A : Type => nat -> nat -> A).
Variable n : nat.
Variable fI : vec iv -> res (vec iv).                  (* f on interval vectors *)
Variable fD : vec iv -> res (vec iv * mat iv).         (* split(f(init(X))): values and Jacobian *)
Variable inv : mat S -> option (mat S).                (* invert *)
Variable giveup : S.

Definition p1 : S := sdy 7205759403792794 (-56).       (* RECOVER_RATIO, the literal 0.1 *)
Definition p8 : S := sdy 7205759403792794 (-53).       (* EXISTENCE_RATIO, the literal 0.8 *)
Definition p19 : S := sdy 8556839292003942 (-52).      (* 1. + EDGE_RATIO, in double *)

(* 160-182 recovery_inflation, one component: x is I(i), j is J(i) *)
Definition recover1 (x j : iv) : iv :=
  if slt (width x) (nmul p1 (width j)) then
    let tmp := mid x in
    let tmp2 := nmul (rad j) p1 in
    let l := nsub tmp tmp2 in
    let u := nadd tmp tmp2 in
    if slt l (lo j) then hull x (mkiv (lo j) (nadd u (nsub (lo j) l)))
    else if slt (hi j) u then hull x (mkiv (nsub l (nsub u (hi j))) (hi j))
    else hull x (mkiv l u)
  else x.
Definition recover (I J : vec iv) : vec iv := fun i => recover1 (I i) (J i).
(* 189-204 recovery_inflation2 *)
Definition recover21 (x j : iv) : iv :=
  if slt (width x) (nmul p1 (width j)) then
    let tmp := mid x in
    let tmp2 := nmul (rad j) p1 in
    hull x (mkiv (nsub tmp tmp2) (nadd tmp tmp2))
  else x.
Definition recover2 (I J : vec iv) : vec iv := fun i => recover21 (I i) (J i).

(* 271-317 mid_infinity; 276 builds interval<T>(max, lower), the ends in the wrong order *)
Definition mid_infinity (x : iv) : S :=
  if seqb (hi x) spinf then
    if seqb (lo x) sninf then s0 else mid (mkiv smax (lo x))
  else
    if seqb (lo x) sninf then mid (mkiv (sneg smax) (hi x)) else mid x.
(* 319-322, 324-334 include_infinity *)
Definition inc_inf (x : iv) : bool := seqb (lo x) sninf || seqb (hi x) spinf.
Definition vinc_inf (I : vec iv) : bool := existsb (fun i => inc_inf (I i)) (seq 0 n).
(* 108, 358, 382: WEIGHTED_MAX == 1 *)
Definition wwidth (x : iv) : S := ndiv (width x) (nadd s1 (nmul (ndiv (mag x) smax) (mag x))).
(* 336-370 search_maxwidth_infinity; (r, m, mi) are the variables of the loop, None: mi is uninitialised *)
Fixpoint smi_loop (is : list nat) (I : vec iv) (r : bool) (m : S) (mi : option nat) : option nat :=
  match is with
  | [] => mi
  | i :: is =>
    let x := I i in
    if seqb (lo x) sninf && seqb (hi x) spinf then Some i
    else
      let '(tr, tmp) :=
        if seqb (lo x) sninf then (true, hi x)
        else if seqb (hi x) spinf then (true, sneg (lo x))
        else (false, wwidth x) in
      if (tr && negb r) || (Bool.eqb tr r && slt m tmp) then smi_loop is I tr tmp (Some i) else smi_loop is I r m mi
  end.
Definition search_maxwidth_infinity (I : vec iv) : option nat := smi_loop (seq 0 n) I false s0 None.
(* 372-392 search_maxwidth_finite; None is -1 *)
Fixpoint smf_loop (is : list nat) (I : vec iv) (m : S) (mi : option nat) : option nat :=
  match is with
  | [] => mi
  | i :: is =>
    if inc_inf (I i) then smf_loop is I m mi
    else let tmp := wwidth (I i) in
      if slt m tmp then smf_loop is I tmp (Some i) else smf_loop is I m mi
  end.
Definition search_maxwidth_finite (I : vec iv) : option nat := smf_loop (seq 0 n) I s0 None.

Definition upd (I : vec iv) (k : nat) (x : iv) : vec iv := force n (fun i => if Nat.eqb i k then x else I i).

Record fstate := mkfst {
  ftargets : list (vec iv);
  fsols : list (vec iv * vec iv);     (* solutions with solutions_big *)
  frest : list (vec iv);              (* *rest *)
  (* not in the code, used in statements: *)
  ftrim : list (vec iv);              (* the boxes I = IR of 782 *)
  frisk : bool                        (* a box was discarded at 715 although 0 is in A *)
}.
Definition push (st : fstate) (l : list (vec iv)) : fstate :=
  mkfst (ftargets st ++ l) (fsols st) (frest st) (ftrim st) (frisk st).

(* ---- 598-759: interval shrinking ---- *)
Inductive trimres :=
| TGo (IR : vec iv) (flag2 : bool)
| TNone (risk : bool)                 (* flag *)
| TSplit (I1 I2 : vec iv).            (* flag3 *)

Section Trim.
Variables (I C fc : vec iv) (fdi : mat iv).
(* 607-613 *)
Definition wmax : S := nmul (maxloop n (fun i => width (I i))) p1.
(* 624-626 *)
Definition tA0 (i : nat) : vec iv := force n (fun j => imul (fdi i j) (isub (I j) (C j))).
(* 628-632: A1(j) = sum of A0(0..j-1); 633-637: A2(j) = A0(s-1) + ... + A0(j+1) *)
Fixpoint sumdown (k : nat) (a : vec iv) : iv :=
  match k with O => i0 | Datatypes.S k => iadd (sumdown k a) (a (n - 1 - k)%nat) end.
Definition tA (i j : nat) (A0 : vec iv) : iv := iadd (iadd (fc i) (isum j A0)) (sumdown (n - 1 - j) A0).
(* 641-734: one pair (i, j) *)
Definition trim_entry (i j : nat) (A0 IR : vec iv) (flag2 : bool) : res trimres :=
  if slt (width (I j)) wmax then Ok (TGo IR flag2)
  else
    let B := fdi i j in
    let A := tA i j A0 in
    if zero_in B then
      if sle (rad B) s0 then Ok (TGo IR flag2)
      else
        do d1 <- division_part1 A B;
        do d2 <- division_part2 A B;
        let J := isub (C j) (fst d1) in
        let J2 := isub (C j) d2 in
        if overlap (IR j) J then
          if overlap (IR j) J2 then
            if overlap J J2 then Ok (TGo IR flag2)
            else
              Ok (TSplit (force n (recover (upd IR j (intersect (IR j) J)) I)) (force n (recover (upd IR j (intersect (IR j) J2)) I)))
          else if negb (isubset (IR j) J) then Ok (TGo (upd IR j (intersect (IR j) J)) true)
          else Ok (TGo IR flag2)
        else
          if overlap (IR j) J2 then
            if negb (isubset (IR j) J2) then Ok (TGo (upd IR j (intersect (IR j) J2)) true)
            else Ok (TGo IR flag2)
          else Ok (TNone (zero_in A))
    else
      do q <- idiv A B;
      let J := isub (C j) q in
      if overlap (IR j) J then
        if negb (isubset (IR j) J) then Ok (TGo (upd IR j (intersect (IR j) J)) true)
        else Ok (TGo IR flag2)
      else Ok (TNone false).
Fixpoint trim_js (js : list nat) (i : nat) (A0 IR : vec iv) (flag2 : bool) : res trimres :=
  match js with
  | [] => Ok (TGo IR flag2)
  | j :: js =>
    do r <- trim_entry i j A0 IR flag2;
    match r with TGo IR flag2 => trim_js js i A0 IR flag2 | _ => Ok r end
  end.
Fixpoint trim_is (is : list nat) (IR : vec iv) (flag2 : bool) : res trimres :=
  match is with
  | [] => Ok (TGo IR flag2)
  | i :: is =>
    do r <- trim_js (seq 0 n) i (tA0 i) IR flag2;
    match r with TGo IR flag2 => trim_is is IR flag2 | _ => Ok r end
  end.
Definition trim : res trimres := trim_is (seq 0 n) I false.
End Trim.

(* 1083-1095: one pass over rest, uniting with I1; the kept boxes, the new I1, flag *)
Fixpoint unify_pass (rest : list (vec iv)) (I1 : vec iv) : list (vec iv) * vec iv * bool :=
  match rest with
  | [] => ([], I1, false)
  | p :: rest =>
    if voverlap n p I1 then
      let '(k, I1, _) := unify_pass rest (force n (vhull I1 p)) in (k, I1, true)
    else let '(k, I1, fl) := unify_pass rest I1 in (p :: k, I1, fl)
  end.
(* 1081-1098 *)
Fixpoint unify (fuel : nat) (rest : list (vec iv)) (I1 : vec iv) : res (list (vec iv)) :=
  match fuel with
  | O => Err EFuel
  | Datatypes.S fuel =>
    let '(k, I1, fl) := unify_pass rest I1 in
    if fl then unify fuel k I1 else Ok (k ++ [I1])
  end.

(* 1120-1155: an unbounded half is cut once more along its widest bounded component *)
Definition cut_finite (I1 : vec iv) (mi : nat) : vec iv * list (vec iv) :=
  if inc_inf (I1 mi) then
    match search_maxwidth_finite I1 with
    | Some mi2 =>
      let tmp := mid (I1 mi2) in
      (upd I1 mi2 (mkiv (lo (I1 mi2)) tmp), [upd I1 mi2 (mkiv tmp (hi (I1 mi2)))])
    | None => (I1, [])
    end
  else (I1, []).

(* 1016-1165, label: divide the interval *)
Definition fdivide (st : fstate) (I Iorg : vec iv) : res fstate :=
  if negb (vinc_inf I) && sle (widthratio_max n I Iorg) (sdy 1 (-1)) then Ok (push st [I])
  else
    match search_maxwidth_infinity I with
    | None => Err EUB
    | Some mi =>
      let tmp := mid_infinity (I mi) in
      if slt (width (I mi)) giveup || seqb tmp (lo (I mi)) || seqb tmp (hi (I mi)) then
        do r <- unify (Datatypes.S (length (frest st))) (frest st) I;
        Ok (mkfst (ftargets st) (fsols st) r (ftrim st) (frisk st))
      else
        let '(I1, l1) := cut_finite (upd I mi (mkiv (lo (I mi)) tmp)) mi in
        let '(I2, l2) := cut_finite (upd I mi (mkiv tmp (hi (I mi)))) mi in
        Ok (push st (l1 ++ l2 ++ [I1; I2]))
    end.

(* 959-973: iterative refinement, Jacobian and R anew in every step.  The result of invert is not looked at:
   when lu_factorize reports a singular matrix R keeps its value *)
Fixpoint fimprove (fuel : nat) (R : mat S) (K : vec iv) : res (vec iv) :=
  match fuel with
  | O => Err EFuel
  | Datatypes.S fuel =>
    do d <- fD K;
    let fdi := snd d in
    let R := match inv (mmid fdi) with Some R => R | None => R end in
    let M := fun i j => iSsub (idS i j) (mmSI n R fdi i j) in
    do I1 <- refine_once n fI R M K;
    let tmp := widthratio_min n I1 K in
    if slt p9 tmp then Ok I1 else fimprove fuel R I1
  end.

(* 833-1014: existence test for the (possibly shrunk) box I *)
Definition fexist (fuel : nat) (st : fstate) (I C fc : vec iv) (fdi : mat iv) (Iorg : vec iv) : res fstate :=
  let mvf := fun i => iadd (fc i) (mvSI n (fun i j => mig (fdi i j)) (fun j => imul (ipt p19) (isub (I j) (C j))) i) in
  if negb (vzero_in n mvf) then fdivide st I Iorg
  else
    match inv (mmid fdi) with
    | None => fdivide st I Iorg
    | Some R =>
      let M := fun i j => iSsub (idS i j) (mmSI n R fdi i j) in
      let CK := fun i => isub (C i) (mvSI n R fc i) in
      let K := force n (fun i => iadd (CK i) (mvI n M (fun j => isub (I j) (C j)) i)) in
      if negb (voverlap n K I) then Ok st
      else if vproper n K I && slt (widthratio_max n K I) p8 then
        do r <- find_dup n fI fuel R M I K (fsols st);
        if fst r then
          do K <- fimprove fuel R (snd r);
          Ok (mkfst (ftargets st) (fsols st ++ [(K, I)]) (frest st) (ftrim st) (frisk st))
        else Ok st
      else if negb (vinc_inf I) && slt (widthratio_max n K I) p9 then Ok (push st [force n (recover2 K Iorg)])
      else fdivide st (force n (recover (vintersect I K) Iorg)) Iorg
    end.

(* 512-1165: one iteration of the main loop on the box I (already removed from targets) *)
Definition fstep (fuel : nat) (st : fstate) (I : vec iv) : res fstate :=
  match fI I with
  | Err EDomain => fdivide st I I
  | Err e => Err e
  | Ok fi =>
    if negb (vzero_in n fi) then Ok st else
    match fD I with
    | Err EDomain => fdivide st I I
    | Err e => Err e
    | Ok (_, fdi) =>
      let C := force n (fun i => ipt (mid_infinity (I i))) in
      match fI C with
      | Err EDomain => fdivide st I I
      | Err e => Err e
      | Ok fc =>
        let mvf := fun i => iadd (fc i) (mvI n fdi (fun j => isub (I j) (C j)) i) in
        if negb (vzero_in n mvf) then Ok st
        else if vinc_inf I then fdivide st I I
        else
          do t <- trim I C fc fdi;
          match t with
          | TNone risk => Ok (mkfst (ftargets st) (fsols st) (frest st) (ftrim st) (frisk st || risk))
          | TSplit I1 I2 => Ok (push st [I1; I2])
          | TGo IR false => fexist fuel st I C fc fdi I
          | TGo IR true =>
            let I' := force n (recover IR I) in
            let st := mkfst (ftargets st) (fsols st) (frest st) (ftrim st ++ [I']) (frisk st) in
            let C := force n (fun i => ipt (mid (I' i))) in
            match fI C with
            | Err EDomain => fdivide st I' I
            | Err e => Err e
            | Ok fc =>
              let mvf := fun i => iadd (fc i) (mvI n fdi (fun j => isub (I' j) (C j)) i) in
              if negb (vzero_in n mvf) then Ok st
              else fexist fuel st I' C fc fdi I
            end
          end
      end
    end
  end.

(* 474-1166: the main loop *)
Fixpoint floop (fuel : nat) (st : fstate) : res fstate :=
  match ftargets st with
  | [] => Ok st
  | B :: rest =>
    match fuel with
    | O => Err EFuel
    | Datatypes.S fuel' =>
      do st' <- fstep fuel (mkfst rest (fsols st) (frest st) (ftrim st) (frisk st)) B;
      floop fuel' st'
    end
  end.
(* 434-1175 allsol_list; 416-429 allsol; rest0 is the list that rest points to at the call *)
Definition allsol_list (fuel : nat) (ts rest0 : list (vec iv)) : res fstate := floop fuel (mkfst ts [] rest0 [] false).
Definition allsol (fuel : nat) (I : vec iv) (rest0 : list (vec iv)) : res fstate := allsol_list fuel [I] rest0.
End Allsol.
Arguments p1 {S}. Arguments p8 {S}. Arguments p19 {S}. Arguments recover1 {S}. Arguments recover {S}. Arguments recover21 {S}.
Arguments recover2 {S}. Arguments mid_infinity {S}. Arguments inc_inf {S}. Arguments vinc_inf {S}. Arguments wwidth {S}.
Arguments smi_loop {S}. Arguments search_maxwidth_infinity {S}. Arguments smf_loop {S}. Arguments search_maxwidth_finite {S}.
Arguments upd {S}. Arguments mkfst {S}. Arguments ftargets {S}. Arguments fsols {S}. Arguments frest {S}. Arguments ftrim {S}.
Arguments frisk {S}. Arguments push {S}. Arguments TGo {S}. Arguments TNone {S}. Arguments TSplit {S}. Arguments wmax {S}.
Arguments tA0 {S}. Arguments sumdown {S}. Arguments tA {S}. Arguments trim_entry {S}. Arguments trim_js {S}. Arguments trim_is {S}.
Arguments trim {S}. Arguments unify_pass {S}. Arguments unify {S}. Arguments cut_finite {S}. Arguments fdivide {S}.
Arguments fimprove {S}. Arguments fexist {S}. Arguments fstep {S}. Arguments floop {S}. Arguments allsol_list {S}. Arguments allsol {S}.
