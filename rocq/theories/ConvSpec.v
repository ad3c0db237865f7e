(* Decimal numerals: what a text means.  Independent of the conversion code. *)
From Coq Require Import ZArith Reals List Bool Ascii.
Import ListNotations.
Open Scope R_scope.

Definition digit (d : Z) : Prop := (0 <= d <= 9)%Z.

(* [blanks] [sign] digits [ . digits ] [ e|E [sign] digits ] *)
Record numeral : Type := mkn {
  n_blank : list ascii;                               (* leading white space *)
  n_sign : option bool;                               (* Some true: '-', Some false: '+' *)
  n_int : list Z;                                     (* digits before the point *)
  n_frac : option (list Z);                           (* digits after the point, if there is one *)
  n_exp : option (bool * option bool * list Z)        (* upper case E?, sign, digits *)
}.

Definition ascii_z (n : Z) : ascii := ascii_of_nat (Z.to_nat n).
Definition digits_text (l : list Z) : list ascii := map (fun d => ascii_z (48 + d)) l.
Definition sign_text (s : option bool) : list ascii :=
  match s with Some true => [ascii_z 45] | Some false => [ascii_z 43] | None => [] end.

Definition render (n : numeral) : list ascii :=
  n_blank n ++ sign_text (n_sign n) ++ digits_text (n_int n) ++
  match n_frac n with Some f => ascii_z 46 :: digits_text f | None => [] end ++
  match n_exp n with
  | Some (up, s, e) => ascii_z (if up then 69 else 101) :: sign_text s ++ digits_text e
  | None => []
  end.

Definition white (c : ascii) : Prop := In c (map ascii_z [32; 9; 10; 11; 12; 13]%Z).

Definition n_fracd (n : numeral) : list Z := match n_frac n with Some f => f | None => [] end.
Definition n_expd (n : numeral) : list Z := match n_exp n with Some (_, _, e) => e | None => [] end.
Definition wf_numeral (n : numeral) : Prop :=
  Forall white (n_blank n) /\ Forall digit (n_int n) /\ Forall digit (n_fracd n) /\
  Forall digit (n_expd n) /\ n_int n ++ n_fracd n <> [] /\ (n_exp n <> None -> n_expd n <> []).

(* the integer written by a string of digits: sum of d_i 10^i *)
Fixpoint dsum (l : list Z) : Z :=
  match l with
  | [] => 0%Z
  | d :: l' => (d * 10 ^ Z.of_nat (length l') + dsum l')%Z
  end.

Definition sgn (s : option bool) : R := match s with Some true => -1 | _ => 1 end.
(* the exponent *)
Definition n_e10 (n : numeral) : Z :=
  match n_exp n with
  | Some (_, Some true, e) => (- dsum e)%Z
  | Some (_, _, e) => dsum e
  | None => 0%Z
  end.

(* +-(d...d.d...d) * 10^e *)
Definition value (n : numeral) : R :=
  sgn (n_sign n) *
  (IZR (dsum (n_int n)) + IZR (dsum (n_fracd n)) * powerRZ 10 (- Z.of_nat (length (n_fracd n)))) *
  powerRZ 10 (n_e10 n).
