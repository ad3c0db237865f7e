(* Model of kv/interval-vector.hpp, kv/make-candidate.hpp, kv/vleq.hpp, kv/kraw-approx.hpp,
   kv/allsol-simple.hpp and of mm_mult of kv/matrix-inversion.hpp.
   A ublas vector (matrix) of size n is a function nat -> A (nat -> nat -> A) read below n only;
   out-of-range accesses do not occur in the modelled functions.  ublas prod() accumulates
   t = 0; t += a(i,k)*b(k,j) in increasing k.  Printing (verbose) is not modelled. *)
From Coq Require Import ZArith Bool List.
From Verif Require Import Ext Scalar IntervalModel.
Import ListNotations.

Section VecModel.
Variable S : scal.
Notation iv := (iv S).
Notation vec := (fun A : Type => nat -> A).
Notation mat := (fun A : Type => nat -> nat -> A).

Fixpoint vall (n : nat) (p : nat -> bool) : bool :=
  match n with O => true | Datatypes.S k => vall k p && p k end.

(* a stored vector: the same function, entries evaluated once *)
Fixpoint force {A : Type} (n : nat) (f : nat -> A) : nat -> A :=
  match n with O => f | Datatypes.S k => let v := f k in let g := force k f in fun i => if Nat.eqb i k then v else g i end.

(* kv/interval-vector.hpp 19-29, 31-45: mid *)
Definition vmid (X : vec iv) : vec S := fun i => mid (X i).
Definition mmid (X : mat iv) : mat S := fun i j => mid (X i j).
(* 47-73 rad *)
Definition vrad (X : vec iv) : vec S := fun i => rad (X i).
Definition mrad (X : mat iv) : mat S := fun i j => rad (X i j).
(* 75-100 mag *)
Definition vmag (X : vec iv) : vec S := fun i => mag (X i).
Definition mmag (X : mat iv) : mat S := fun i j => mag (X i j).
(* 102-129 mag of plain T: (x >= 0) ? x : -x *)
Definition sabsc (x : S) : S := if sle s0 x then x else sneg x.
Definition vmagS (x : vec S) : vec S := fun i => sabsc (x i).
Definition mmagS (x : mat S) : mat S := fun i j => sabsc (x i j).
(* 131-157 mig *)
Definition vmig (X : vec iv) : vec S := fun i => mig (X i).
Definition mmig (X : mat iv) : mat S := fun i j => mig (X i j).
(* 159-168 zero_in; 170-179 subset; 181-190 proper_subset; 192-201 overlap *)
Definition vzero_in n (X : vec iv) : bool := vall n (fun i => zero_in (X i)).
Definition vsubset n (X Y : vec iv) : bool := vall n (fun i => isubset (X i) (Y i)).
Definition vproper n (X Y : vec iv) : bool := vall n (fun i => iproper (X i) (Y i)).
Definition voverlap n (X Y : vec iv) : bool := vall n (fun i => overlap (X i) (Y i)).
(* 203-228 intersect; 230-255 hull *)
Definition vintersect (X Y : vec iv) : vec iv := fun i => intersect (X i) (Y i).
Definition mintersect (X Y : mat iv) : mat iv := fun i j => intersect (X i j) (Y i j).
Definition vhull (X Y : vec iv) : vec iv := fun i => hull (X i) (Y i).
Definition mhull (X Y : mat iv) : mat iv := fun i j => hull (X i j) (Y i j).

(* if (tmp > r) r = tmp, over i = 0 .. n-1, from r = 0 *)
Fixpoint maxloop (n : nat) (f : nat -> S) : S :=
  match n with O => s0 | Datatypes.S k => let r := maxloop k f in if slt r (f k) then f k else r end.
(* tmp = add_up(tmp, f(j)), from tmp = 0 *)
Fixpoint sumu (n : nat) (f : nat -> S) : S :=
  match n with O => s0 | Datatypes.S k => addu (sumu k f) (f k) end.
(* 258-271 max_norm(vector<T>); 273-292 max_norm(matrix<T>) *)
Definition vmax_normS n (x : vec S) : S := maxloop n (fun i => sabsc (x i)).
Definition mmax_normS n1 n2 (x : mat S) : S := maxloop n1 (fun i => sumu n2 (fun j => sabsc (x i j))).
(* 294-306 max_norm(vector<interval>); 308-326 max_norm(matrix<interval>) *)
Definition vmax_norm n (x : vec iv) : S := maxloop n (fun i => mag (x i)).
Definition mmax_norm n1 n2 (x : mat iv) : S := maxloop n1 (fun i => sumu n2 (fun j => mag (x i j))).

(* ublas prod *)
Fixpoint isum (n : nat) (f : nat -> iv) : iv :=
  match n with O => i0 | Datatypes.S k => iadd (isum k f) (f k) end.
Fixpoint nsum (n : nat) (f : nat -> S) : S :=
  match n with O => s0 | Datatypes.S k => nadd (nsum k f) (f k) end.
Definition mvI n (A : mat iv) (x : vec iv) : vec iv := fun i => isum n (fun j => imul (A i j) (x j)).
Definition mvSI n (A : mat S) (x : vec iv) : vec iv := fun i => isum n (fun j => iSmul (A i j) (x j)).
Definition mvS n (A : mat S) (x : vec S) : vec S := fun i => nsum n (fun j => nmul (A i j) (x j)).
Definition mmSI n (A : mat S) (B : mat iv) : mat iv := fun i j => isum n (fun k => iSmul (A i k) (B k j)).
Definition mmS n (A B : mat S) : mat S := fun i j => nsum n (fun k => nmul (A i k) (B k j)).
Definition idS (i j : nat) : S := if Nat.eq_dec i j then s1 else s0.

(* kv/matrix-inversion.hpp 128-131 mm_mult, generic; 136-149: the double specialisation compiled
   with USE_LAPACK or USE_ATLAS builds both operands from a *)
Definition mm_mult n (a b : mat S) : mat S := mmS n a b.
Definition mm_mult_lapack n (a b : mat S) : mat S := let ca := a in let cb := a in mmS n ca cb.

(* kv/vleq.hpp 24-77: vleq, matrix right-hand side (column i of the result).  R is *r or the result of
   invert(mid(a)) (then `inverted` tells whether invert succeeded). *)
Definition vleq_mat n (a b : mat iv) (R : option (mat S)) : option (mat iv) :=
  match R with
  | None => None
  | Some R =>
    let EmRA := fun i j => iSsub (idS i j) (mmSI n R a i j) in
    let norm1 := subd s1 (mmax_norm n n EmRA) in
    if sle norm1 s0 then None
    else
      let x := fun i j => mmS n R (mmid b) i j in
      let norm2 := mmax_normS n n R in
      Some (fun j i =>
        let xtmp := fun j => ipt (x j i) in
        let rtmp := fun j => isub (mvI n a xtmp j) (b j i) in
        let norm3 := vmax_norm n rtmp in
        let err := divu (mulu norm2 norm3) norm1 in
        iadd (ipt (x j i)) (mkiv (sneg err) err))
  end.
(* 83-107: vleq, vector right-hand side *)
Definition vleq n (a : mat iv) (b : vec iv) (R : option (mat S)) : option (vec iv) :=
  match vleq_mat n a (fun i _ => b i) R with
  | None => None
  | Some x => Some (fun i => x i 0%nat)
  end.

(* ------------------------------------------------------------------ *)
(* kv/make-candidate.hpp 16-37; twice = NEWTON_TWICE defined *)
Definition make_candidate (twice : bool) n (x : vec S) : vec S :=
  if twice then
    let m := maxloop n x in fun _ => nmul (sdy 2 0) m
  else
    let av := ndiv (nsum n x) (sdy (Z.of_nat n) 0) in fun i => nadd (x i) av.

Definition stdmax (a b : S) : S := if slt a b then b else a.
Fixpoint maxabs (n : nat) (r : S) (f : nat -> S) : S :=
  match n with O => r | Datatypes.S k => stdmax (maxabs k r f) (sabs (f k)) end.

Section Solve.
Variable n : nat.
Variable tmin : S.                                     (* std::numeric_limits<T>::min() *)
Variable fI : vec iv -> res (vec iv).                  (* f on interval vectors *)
Variable fD : vec iv -> res (vec iv * mat iv).         (* split(f(init(X))): values and Jacobian *)
Variable inv : mat S -> option (mat S).                (* invert *)

(* kv/kraw-approx.hpp 46-73: Newton iterations.  None: the function returns false. *)
Fixpoint newton (k : nat) (c : vec S) : res (option (vec S)) :=
  match k with
  | O => Ok (Some c)
  | Datatypes.S k =>
    match fD (fun i => ipt (c i)) with
    | Err EDomain => Ok None
    | Err e => Err e
    | Ok (fc, fdc) =>
      match inv (mmid fdc) with
      | None => Ok None
      | Some R =>
        let minus := mvS n R (vmid fc) in
        let tmp := maxabs n s1 c in
        let tmp2 := maxabs n s0 minus in
        let c' := force n (fun i => nsub (c i) (minus i)) in
        if sle tmp2 (nmul tmp seps) then Ok (Some c') else newton k c'
      end
    end
  end.

Definition ipm1 : iv := mkiv (sneg s1) s1.
(* 85-99: radius of the candidate box, and the box *)
Definition kraw_radius (twice : bool) (C Rfc : vec iv) : vec S :=
  let st := make_candidate twice n (fun i => mag (Rfc i)) in
  fun i =>
    let sp := sdy (Z.of_nat (n + 1)) 0 in
    let tmp := nmul (nmul (nmul seps (mag (C i))) sp) (sdy 2 0) in
    let tmp2 := nmul (nmul tmin sp) (sdy 2 0) in
    let s := st i in
    let s := if slt s tmp then tmp else s in
    if slt s tmp2 then tmp2 else s.
(* 112-116: Krawczyk's operator *)
Definition kraw_op (C Rfc I : vec iv) (R : mat S) (fdi : mat iv) : vec iv :=
  let M := fun i j => isub (ipt (idS i j)) (mmSI n R fdi i j) in
  fun i => iadd (isub (C i) (Rfc i)) (mvI n M (fun j => isub (I j) (C j)) i).

(* 75-128 after the Newton iterations; the candidate box is returned beside the result for the statements *)
Definition kraw_test (twice : bool) (c2 : vec S) : res (option (vec iv * vec iv)) :=
  let C := fun i => ipt (c2 i) in
  match fD C with
  | Err EDomain => Ok None
  | Err e => Err e
  | Ok (fc, fdc) =>
    match inv (mmid fdc) with
    | None => Ok None
    | Some R =>
      let Rfc := force n (mvSI n R fc) in
      let st := force n (kraw_radius twice C Rfc) in
      let I := force n (fun i => iadd (C i) (iSmul (st i) ipm1)) in
      match fD I with
      | Err EDomain => Ok None
      | Err e => Err e
      | Ok (fi, fdi) =>
        let K := force n (kraw_op C Rfc I R fdi) in
        if vproper n K I then Ok (Some (I, K)) else Ok None
      end
    end
  end.
(* 27-129 krawczyk_approx: None = false, Some (candidate, result) = true *)
Definition krawczyk_approx (twice : bool) (c : vec S) (newton_max : nat) : res (option (vec iv * vec iv)) :=
  match newton newton_max c with
  | Err e => Err e
  | Ok None => Ok None
  | Ok (Some c2) => kraw_test twice c2
  end.

(* ------------------------------------------------------------------ *)
(* kv/allsol-simple.hpp 27-41 search_maxwidth: None if mi stays uninitialised *)
Fixpoint maxwidth_loop (k : nat) (I : vec iv) : S * option nat :=
  match k with
  | O => (s0, None)
  | Datatypes.S k => let '(m, mi) := maxwidth_loop k I in
    let tmp := width (I k) in if slt m tmp then (tmp, Some k) else (m, mi)
  end.
Definition search_maxwidth (I : vec iv) : option nat := snd (maxwidth_loop n I).
(* 45-58 widthratio_max, 62-75 widthratio_min *)
Definition widthratio_max (I J : vec iv) : S := maxloop n (fun i => ndiv (width (I i)) (width (J i))).
Fixpoint minloop (k : nat) (f : nat -> S) : S :=
  match k with O => smax | Datatypes.S k => let r := minloop k f in if slt (f k) r then f k else r end.
Definition widthratio_min (I J : vec iv) : S := minloop n (fun i => ndiv (width (I i)) (width (J i))).

Definition p9 : S := sdy 8106479329266893 (-53).       (* the literal 0.9 *)

(* 177, 203: C - prod(R, f(C)) + prod(M, K - C) with C = mid(K), intersected with K *)
Definition refine_once (R : mat S) (M : mat iv) (K : vec iv) : res (vec iv) :=
  let C := fun i => ipt (mid (K i)) in
  do fc <- fI C;
  let I1 := fun i => iadd (isub (C i) (mvSI n R fc i)) (mvI n M (fun j => isub (K j) (C j)) i) in
  Ok (force n (vintersect K I1)).

(* 175-187: shrink K until it is inside *p2 or does not meet *p *)
Fixpoint separate (fuel : nat) (R : mat S) (M : mat iv) (p p2 K : vec iv) : res (bool * vec iv) :=
  match fuel with
  | O => Err EFuel
  | Datatypes.S fuel =>
    do K <- refine_once R M K;
    if vsubset n K p2 then Ok (true, K)
    else if negb (voverlap n K p) then Ok (false, K)
    else separate fuel R M p p2 K
  end.
(* 163-196: is the solution in K already found?  Returns `flag` and the possibly narrowed K.
   The list holds the pairs ( *p, *p2 ) of solutions and solutions_big. *)
Fixpoint find_dup (fuel : nat) (R : mat S) (M : mat iv) (I K : vec iv) (sols : list (vec iv * vec iv)) : res (bool * vec iv) :=
  match sols with
  | [] => Ok (true, K)
  | (p, p2) :: sols =>
    if voverlap n K p then
      if vsubset n K p2 || vsubset n p I then Ok (false, K)
      else
        do r <- separate fuel R M p p2 K;
        if fst r then Ok (false, snd r) else find_dup fuel R M I (snd r) sols
    else find_dup fuel R M I K sols
  end.
(* 200-209: iterative refinement *)
Fixpoint improve (fuel : nat) (R : mat S) (M : mat iv) (K : vec iv) : res (vec iv) :=
  match fuel with
  | O => Err EFuel
  | Datatypes.S fuel =>
    do I1 <- refine_once R M K;
    let tmp := widthratio_min I1 K in
    if slt p9 tmp then Ok I1 else improve fuel R M I1
  end.

Record astate := mkast {
  targets : list (vec iv);
  sols : list (vec iv * vec iv);      (* solutions with solutions_big *)
  small : list (vec iv);              (* boxes reported as "too small interval" *)
  seen : list (vec iv)                (* every box taken from targets (not in the code; used in statements) *)
}.

(* 225-245, label: divide the interval *)
Definition divide (st : astate) (I : vec iv) : res astate :=
  match search_maxwidth I with
  | None => Err EUB
  | Some mi =>
    let tmp := mid (I mi) in
    if seqb tmp (lo (I mi)) || seqb tmp (hi (I mi)) then
      Ok (mkast (targets st) (sols st) (small st ++ [I]) (seen st))
    else
      let I1 := force n (fun i => if Nat.eq_dec i mi then mkiv (lo (I mi)) tmp else I i) in
      let I2 := force n (fun i => if Nat.eq_dec i mi then mkiv tmp (hi (I mi)) else I i) in
      Ok (mkast (targets st ++ [I1; I2]) (sols st) (small st) (seen st))
  end.

(* 108-246: one iteration of the main loop on the box I (already removed from targets) *)
Definition astep (fuel : nat) (st : astate) (I : vec iv) : res astate :=
  match fI I with
  | Err EDomain => divide st I
  | Err e => Err e
  | Ok fi =>
    if negb (vzero_in n fi) then Ok st else
    let C := fun i => ipt (mid (I i)) in
    match fI C with
    | Err EDomain => divide st I
    | Err e => Err e
    | Ok fc =>
      match fD I with
      | Err EDomain => divide st I
      | Err e => Err e
      | Ok (fi, fdi) =>
        let mvf := fun i => iadd (fc i) (mvI n fdi (fun j => isub (I j) (C j)) i) in
        if negb (vzero_in n mvf) then Ok st else
        match inv (mmid fdi) with
        | None => divide st I
        | Some R =>
          let M := fun i j => iSsub (idS i j) (mmSI n R fdi i j) in
          let CK := fun i => isub (C i) (mvSI n R fc i) in
          let K := force n (fun i => iadd (CK i) (mvI n M (fun j => isub (I j) (C j)) i)) in
          if negb (voverlap n K I) then Ok st
          else if vproper n K I then
            do r <- find_dup fuel R M I K (sols st);
            if fst r then
              do K <- improve fuel R M (snd r);
              Ok (mkast (targets st) (sols st ++ [(K, I)]) (small st) (seen st))
            else Ok st
          else if slt (widthratio_max K I) p9 then
            Ok (mkast (targets st ++ [K]) (sols st) (small st) (seen st))
          else divide st (force n (vintersect I K))
        end
      end
    end
  end.

(* 103-246: the main loop *)
Fixpoint aloop (fuel : nat) (st : astate) : res astate :=
  match targets st with
  | [] => Ok st
  | B :: rest =>
    match fuel with
    | O => Err EFuel
    | Datatypes.S fuel' =>
      do st' <- astep fuel (mkast rest (sols st) (small st) (seen st ++ [B])) B;
      aloop fuel' st'
    end
  end.
(* 91-254 allsol_list_simple; 82-88 allsol_simple *)
Definition allsol_list_simple (fuel : nat) (ts : list (vec iv)) : res astate := aloop fuel (mkast ts [] [] []).
Definition allsol_simple (fuel : nat) (I : vec iv) : res astate := allsol_list_simple fuel [I].
End Solve.
End VecModel.
Arguments vmid {S}. Arguments mmid {S}. Arguments vrad {S}. Arguments mrad {S}. Arguments vmag {S}. Arguments mmag {S}.
Arguments sabsc {S}. Arguments vmagS {S}. Arguments mmagS {S}. Arguments vmig {S}. Arguments mmig {S}.
Arguments vzero_in {S}. Arguments vsubset {S}. Arguments vproper {S}. Arguments voverlap {S}.
Arguments vintersect {S}. Arguments mintersect {S}. Arguments vhull {S}. Arguments mhull {S}.
Arguments maxloop {S}. Arguments sumu {S}. Arguments vmax_normS {S}. Arguments mmax_normS {S}.
Arguments vmax_norm {S}. Arguments mmax_norm {S}. Arguments isum {S}. Arguments nsum {S}.
Arguments mvI {S}. Arguments mvSI {S}. Arguments mvS {S}. Arguments mmSI {S}. Arguments mmS {S}. Arguments idS {S}.
Arguments mm_mult {S}. Arguments mm_mult_lapack {S}. Arguments vleq_mat {S}. Arguments vleq {S}.
Arguments make_candidate {S}. Arguments stdmax {S}. Arguments maxabs {S}. Arguments newton {S}. Arguments ipm1 {S}.
Arguments kraw_radius {S}. Arguments kraw_op {S}. Arguments kraw_test {S}. Arguments krawczyk_approx {S}.
Arguments maxwidth_loop {S}. Arguments search_maxwidth {S}. Arguments widthratio_max {S}. Arguments minloop {S}.
Arguments widthratio_min {S}. Arguments p9 {S}. Arguments refine_once {S}. Arguments separate {S}.
Arguments find_dup {S}. Arguments improve {S}. Arguments mkast {S}. Arguments targets {S}. Arguments sols {S}.
Arguments small {S}. Arguments seen {S}. Arguments divide {S}. Arguments astep {S}. Arguments aloop {S}.
Arguments allsol_list_simple {S}. Arguments allsol_simple {S}.
