(* Models of kv/geoseries.hpp, kv/hypergeom.hpp and of the complementarity functions of kv/kkt.hpp. *)
From Coq Require Import ZArith Bool.
From Verif Require Import Ext Scalar IntervalModel ElemModel.
Open Scope Z_scope.

Section Series.
Variable S : scal.
Notation iv := (iv S).

(* geoseries.hpp 19-36; 1 is converted to T *)
Definition geoseries (I : iv) : res iv :=
  if igeS I s0 then iSdiv s1 (iSsub s1 I)
  else
    let l := ipt (lo I) in
    let u := ipt (hi I) in
    if ileS I s0 then
      let tmp := iSsub s1 (imul l u) in
      do a <- idiv (iSadd s1 l) tmp;
      do b <- idiv (iSadd s1 u) tmp;
      Ok (mkiv (lo a) (hi b))
    else
      do q <- idiv l (iSsub s1 u);
      do b <- iSdiv s1 (iSsub s1 u);
      Ok (mkiv (lo (iSadd s1 q)) (hi b)).

(* std::min(a, b): (b < a) ? b : a *)
Definition smin (a b : S) : S := if slt b a then b else a.
(* hypergeom.hpp 110 *)
Definition hg_offset (ta tb tc td : iv) : S := smin (smin (smin (lo ta) (lo tb)) (lo tc)) (lo td).
(* hypergeom.hpp 112-114 *)
Definition hg_ratio (ta tb tc td z : iv) (offset : S) : res iv :=
  do tmp <- iSdiv s1 (mkiv offset spinf);
  let g := fun t => iSadd s1 (imul (isubS t offset) tmp) in
  do q <- idiv (imul (imul z (g ta)) (g tb)) (g tc);
  idiv q (g td).
(* hypergeom.hpp 104-126: one turn of the loop per unit of fuel *)
Fixpoint hg_loop (fuel : nat) (z result ta tb tc td tr : iv) : res iv :=
  match fuel with
  | O => Err EFuel
  | Datatypes.S f =>
      do t1 <- idiv (imul (imul tr ta) tb) tc;
      do t2 <- idiv t1 td;
      let tr := imul t2 z in
      let offset := hg_offset ta tb tc td in
      let next := fun _ : unit => hg_loop f z (iadd result tr) (iaddS ta s1) (iaddS tb s1) (iaddS tc s1) (iaddS td s1) tr in
      if slt s0 offset then
        do ratio <- hg_ratio ta tb tc td z offset;
        if slt (mag ratio) s1 then
          do g <- geoseries ratio;
          let residual := imul tr g in
          if slt (width residual) (nmul (mag result) seps) then Ok (iadd result residual)
          else next tt
        else next tt
      else next tt
  end.
(* hypergeom.hpp 92-129 *)
Definition hypergeom (fuel : nat) (a b c z : iv) : res iv :=
  hg_loop fuel z (ipt s1) a b c (ipt s1) (ipt s1).

(* kkt.hpp 53-127; pow(interval, 3.) with a double exponent is pow(interval, interval(3.)), pow(interval, 3) is the
   integer power *)
Variable P : elemp S.
Variable fuel : nat.
Definition alpha_plus (x : iv) : res iv :=
  do l <- if sle (lo x) s0 then Ok s0 else do t <- ipowI S P fuel (ipt (lo x)) (ipt (sint S 3)); Ok (lo t);
  do u <- if sle (hi x) s0 then Ok s0 else do t <- ipowI S P fuel (ipt (hi x)) (ipt (sint S 3)); Ok (hi t);
  Ok (mkiv l u).
Definition alpha_plus_d (x : iv) : res iv :=
  do l <- if sle (lo x) s0 then Ok s0 else do t <- ipowI S P fuel (ipt (lo x)) (ipt (sint S 2)); Ok (lo (iSmul (sint S 3) t));
  do u <- if sle (hi x) s0 then Ok s0 else do t <- ipowI S P fuel (ipt (hi x)) (ipt (sint S 2)); Ok (hi (iSmul (sint S 3) t));
  Ok (mkiv l u).
Definition alpha_minus (x : iv) : res iv :=
  do u <- if sle s0 (lo x) then Ok s0 else do t <- ipow (ipt (lo x)) 3; Ok (hi (ineg t));
  do l <- if sle s0 (hi x) then Ok s0 else do t <- ipow (ipt (hi x)) 3; Ok (lo (ineg t));
  Ok (mkiv l u).
Definition alpha_minus_d (x : iv) : res iv :=
  do l <- if sle s0 (lo x) then Ok s0 else do t <- ipow (ipt (lo x)) 2; Ok (lo (iSmul (sint S (-3)) t));
  do u <- if sle s0 (hi x) then Ok s0 else do t <- ipow (ipt (hi x)) 2; Ok (hi (iSmul (sint S (-3)) t));
  Ok (mkiv l u).
End Series.
Arguments geoseries {S}. Arguments smin {S}. Arguments hg_offset {S}. Arguments hg_ratio {S}.
