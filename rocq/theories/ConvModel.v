(* Model of kv/conv-double.hpp: decimal text to double (stringtod) and double to decimal text
   (dtostring).

   Texts are lists of ascii characters.  The digit arrays of the code (int/bool arrays addressed
   by the weight of the digit through an offset) are represented by lists of digits written from
   the most significant digit downwards; the part of the array with indices >= 0 and the part
   with indices < 0 are separate lists, because the loops of the code work on them separately.
   Every number stored in an int by these functions apart from atoi's result and the array bounds
   is below 2^31 (carry*10+9 < 655360, 9*65536+carry, 2*10^8), so integers are Z.  Sizes of
   vectors and array bounds (int in the code) are not bounded by memory here. *)
From Coq Require Import ZArith List Bool Ascii.
From Flocq Require Import Core BinarySingleNaN.
From Verif Require Import Ext Fp64.
Import ListNotations.
Open Scope Z_scope.

(* ---- characters ---- *)
Definition code (c : ascii) : Z := Z.of_nat (nat_of_ascii c).
(* isdigit in the "C" locale *)
Definition isdigit (c : ascii) : bool := (48 <=? code c) && (code c <=? 57).
(* isspace in the "C" locale: space, \t \n \v \f \r *)
Definition isspace (c : ascii) : bool := (code c =? 32) || ((9 <=? code c) && (code c <=? 13)).
Definition ch (n : Z) : ascii := ascii_of_nat (Z.to_nat n).
Definition dchar (d : Z) : ascii := ch (48 + d).
Definition is_c (n : Z) (c : ascii) : bool := code c =? n.

(* ---- one pass over a digit array ---- *)
(* conv-double.hpp 134-139 (base 2, pm = 10^m) and 493-498 (base 10, pm = 2^m): divides the
   integer written by the digits by pm; returns the digits of the quotient and the remainder *)
Fixpoint idiv_pass (base pm carry : Z) (t : list Z) : list Z * Z :=
  match t with
  | [] => ([], carry)
  | d :: t' =>
    let tmp := carry * base + d in
    let (q, c) := idiv_pass base pm (tmp mod pm) t' in
    (tmp / pm :: q, c)
  end.

(* conv-double.hpp 159-164 (base 2, pm = 10^m) and 527-532 (base 10, pm = 2^m): multiplies the
   fraction 0.d1d2... by pm; returns the digits of the new fraction and the integer part *)
Fixpoint fmul_pass (base pm : Z) (t : list Z) : list Z * Z :=
  match t with
  | [] => ([], 0)
  | d :: t' =>
    let (r, c) := fmul_pass base pm t' in
    let tmp := d * pm + c in
    (tmp mod base :: r, tmp / base)
  end.

(* while (top digit == 0) top--, lines 147-149, 504-506, 239-241, 278-280, 417-419 *)
Fixpoint trim0 (l : list Z) : list Z :=
  match l with
  | 0 :: l' => trim0 l'
  | _ => l
  end.
(* while (last digit == 0) min++, lines 173-175, 551-553, 227-229, 264-266, 422-424 *)
Definition trimr (l : list Z) : list Z := rev (trim0 (rev l)).

(* lines 141-145 and 499-503: the m low digits of c in base b, lowest first *)
Fixpoint lowdig (b : Z) (m : nat) (c : Z) : list Z :=
  match m with
  | O => []
  | S m' => c mod b :: lowdig b m' (c / b)
  end.
(* lines 166-171 and 534-538: the m digits of c < b^m in base b, highest first *)
Fixpoint highdig (b : Z) (m : nat) (c : Z) : list Z :=
  match m with
  | O => []
  | S m' => c / b ^ Z.of_nat m' :: highdig b m' (c mod b ^ Z.of_nat m')
  end.

(* lines 124-150 and 484-507: the integer written by t in base ib is converted to base ob, m
   digits at a time; mm gives m for the length of t.  The result is lowest digit first. *)
Fixpoint conv_int (fuel : nat) (ib ob : Z) (mm : nat -> nat) (t acc : list Z) : res (list Z) :=
  match t with
  | [] => Ok acc
  | _ =>
    match fuel with
    | O => Err EFuel
    | S fuel' =>
      let m := mm (length t) in
      let (q, c) := idiv_pass ib (ob ^ Z.of_nat m) 0 t in
      conv_int fuel' ib ob mm (trim0 q) (acc ++ lowdig ob m c)
    end
  end.

(* ====================== stringtod, lines 392-627 ====================== *)

(* lines 485-490; the argument is table_max + 1 *)
Definition m_in (n : nat) : nat :=
  if (6 <=? n)%nat then 16%nat
  else if (5 <=? n)%nat then 13%nat
  else if (4 <=? n)%nat then 9%nat
  else if (3 <=? n)%nat then 6%nat
  else if (2 <=? n)%nat then 3%nat
  else 1%nat.

(* lines 349-353 *)
Fixpoint ignore_space (s : list ascii) : list ascii :=
  match s with
  | c :: s' => if isspace c then ignore_space s' else s
  | [] => []
  end.
(* lines 355-370; true: minus *)
Definition get_sign (s : list ascii) : bool * list ascii :=
  match s with
  | c :: s' => if is_c 45 c then (true, s') else if is_c 43 c then (false, s') else (false, s)
  | [] => (false, s)
  end.
(* lines 372-385; the digits are returned as numbers *)
Fixpoint get_number (s : list ascii) : list Z * list ascii :=
  match s with
  | c :: s' =>
    if isdigit c then let (r, s'') := get_number s' in (code c - 48 :: r, s'') else ([], s)
  | [] => ([], s)
  end.
(* atoi on a string of digits: undefined behaviour when the value is not an int (C standard
   7.22.1.2; only the digits of the string are converted) *)
Definition atoi (ds : list Z) : res Z :=
  let v := fold_left (fun a d => 10 * a + d) ds 0 in
  if v <? 2 ^ 31 then Ok v else Err EUB.

Definition zeros (n : Z) : list Z := repeat 0 (Z.to_nat n).

(* the loop over the new bits, lines 534-549: state (flag, result_max, result_min, result2) *)
Record fst_ : Type := mkf { f_flag : bool; f_max : Z; f_min : Z; f_out : list Z }.
Fixpoint push_bits (bs : list Z) (s : fst_) : fst_ :=
  match bs with
  | [] => s
  | b :: bs' =>
    let mn := f_min s - 1 in
    push_bits bs'
      (if f_flag s then mkf true (f_max s) mn (f_out s ++ [b])
       else if negb (b =? 0) then mkf true mn mn (f_out s ++ [b])
       else mkf false (f_max s) mn (f_out s))
  end.

(* lines 517-554 *)
Fixpoint frac_in (fuel : nat) (t : list Z) (s : fst_) : res fst_ :=
  match t with
  | [] => Ok s
  | _ =>
    let tmp := 53 - (f_max s - f_min s) in
    if f_flag s && (tmp <=? 0) then Ok s else
    match fuel with
    | O => Err EFuel
    | S fuel' =>
      let m := if negb (f_flag s) then 16 else Z.min 16 tmp in
      let (r, c) := fmul_pass 10 (2 ^ m) t in
      frac_in fuel' (trimr r) (push_bits (highdig 2 (Z.to_nat m) c) s)
    end
  end.

Definition b64add (x y : b64) : b64 := Bplus mode_NE x y.
Definition b64neg (x : b64) : b64 := Bopp x.
(* std::ldexp((double)k, e) for k = 0, 1 *)
Definition ldexp (k e : Z) : b64 := bdy k e.
(* sign * r with an int sign of value 1 or -1 *)
Definition signed (neg : bool) (r : b64) : b64 := if neg then b64neg r else r.

(* lines 597-624: bits from index i downwards; top = result_max *)
Fixpoint assemble (neg : bool) (mode : Z) (top : Z) (bits : list Z) (i : Z) (r : b64) : b64 :=
  match bits with
  | [] => r
  | b :: bits' =>
    if (top - i =? 53) || (i =? -1075) then
      if neg then
        (if mode =? -1 then b64add r (ldexp 1 (i + 1))
         else if mode =? 0 then (if b =? 0 then r else b64add r (ldexp 1 (i + 1)))
         else r)
      else
        (if mode =? -1 then r
         else if mode =? 0 then (if b =? 0 then r else b64add r (ldexp 1 (i + 1)))
         else b64add r (ldexp 1 (i + 1)))
    else assemble neg mode top bits' (i - 1) (b64add r (ldexp b i))
  end.

(* lines 578-626 *)
Definition finish_in (neg : bool) (mode rmax : Z) (bits : list Z) : b64 :=
  if 1023 <? rmax then
    (if (negb neg && (mode =? -1)) || (neg && (mode =? 1)) then signed neg bmax
     else signed neg (B754_infinity false))
  else if rmax <? -1075 then
    (if (negb neg && (mode =? 1)) || (neg && (mode =? -1)) then signed neg bdmin
     else signed neg (B754_zero false))
  else signed neg (assemble neg mode rmax bits rmax (B754_zero false)).

(* lines 416-626 once the text has been taken apart.
   d1 / d2: digits of num1_s / num2_s; e10: exponent *)
Definition digits_to_double (neg : bool) (mode : Z) (num1 num2 : list Z) (e10 : Z) : res b64 :=
  let d1 := trim0 num1 in
  let d2 := trimr num2 in
  let n1 := Z.of_nat (length d1) in
  let n2 := Z.of_nat (length d2) in
  (* 426-465 *)
  let tmax := n1 - 1 + e10 in
  let tmin := e10 - n2 in
  let t := zeros (-1 - tmax) ++ d1 ++ d2 ++ zeros tmin in
  let k := Z.to_nat (tmax + 1) in
  let ip := firstn k t in
  let fp := skipn k t in
  (* 480-507 *)
  do r1 <- conv_int (4 * length ip + 5) 10 2 m_in ip [];
  let rmax := Z.of_nat (length r1) - 1 in
  (* 509-554 *)
  do s <- frac_in (4 * length fp + 60) fp (mkf (0 <=? rmax) rmax 0 []);
  (* 556-570; result2.front() of an empty list is undefined behaviour *)
  let need := Z.min (-1) (f_max s) - f_min s + 1 in
  if Z.of_nat (length (f_out s)) <? need then Err EUB else
  Ok (finish_in neg mode (f_max s) (rev r1 ++ f_out s)).

(* lines 392-414 *)
Definition stringtod (s : list ascii) (mode : Z) : res b64 :=
  let s := ignore_space s in
  let (neg, s) := get_sign s in
  let (num1, s) := get_number s in
  let '(num2, s) :=
    match s with
    | c :: s' => if is_c 46 c then get_number s' else ([], s)
    | [] => ([], s)
    end in
  do e10 <-
    match s with
    | c :: s' =>
      if is_c 101 c || is_c 69 c then
        let (eneg, s') := get_sign s' in
        let (nume, _) := get_number s' in
        do v <- atoi nume; Ok (if eneg then - v else v)
      else Ok 0
    | [] => Ok 0
    end;
  digits_to_double neg mode num1 num2 e10.

(* ====================== dtostring, lines 54-346 ====================== *)

(* lines 125-129; the argument is emax + 1 *)
Definition m_out (n : nat) : nat :=
  if (18 <=? n)%nat then 5%nat
  else if (15 <=? n)%nat then 4%nat
  else if (11 <=? n)%nat then 3%nat
  else if (8 <=? n)%nat then 2%nat
  else 1%nat.

(* get_exponent of a finite number > 0, lines 34-43 (std::frexp gives the position of the leading
   bit; the two guards return the same value as frexp for finite doubles > 0) *)
Definition get_exponent (x : b64) : Z :=
  match x with
  | B754_finite _ m e _ => Zdigits radix2 (Z.pos m) + e - 1
  | _ => -1075
  end.

(* lines 90-103: bits of absx from weight ex downwards; n counts the remaining iterations *)
Fixpoint bits_of (n : nat) (dtmp dtmp2 : b64) : res (list Z) :=
  match n with
  | O => Err EUB (* emax, emin would be used uninitialised *)
  | S n' =>
    let ge := match Bcompare dtmp dtmp2 with Some Lt => false | None => false | _ => true end in
    let b := if ge then 1 else 0 in
    let d := if ge then Bplus mode_NE dtmp (Bopp dtmp2) else dtmp in
    if match Bcompare d (B754_zero false) with Some Eq => true | _ => false end then Ok [b]
    else do l <- bits_of n' d (Bdiv mode_NE dtmp2 (bdy 2 0)); Ok (b :: l)
  end.

(* lines 154-176 *)
Fixpoint frac_out (fuel : nat) (t acc : list Z) : res (list Z) :=
  match t with
  | [] => Ok acc
  | _ =>
    match fuel with
    | O => Err EFuel
    | S fuel' =>
      let m := Nat.min 8 (length t) in
      let (r, c) := fmul_pass 2 (10 ^ Z.of_nat m) t in
      frac_out fuel' (trimr r) (acc ++ highdig 10 m c)
    end
  end.

(* lines 213-223: adds one to the last digit; true when the carry leaves the digits (the cell
   result_max + 1, set to 0 before, becomes 1) *)
Fixpoint incr (l : list Z) : list Z * bool :=
  match l with
  | [] => ([], true)
  | d :: l' =>
    let (r, c) := incr l' in
    if c then (if d + 1 =? 10 then (0 :: r, true) else (d + 1 :: r, false)) else (d :: r, false)
  end.

Definition round_up (neg : bool) (mode tmp : Z) : bool :=
  ((mode =? 1) && negb neg) || ((mode =? -1) && neg) || ((mode =? 0) && (5 <=? tmp)).

(* lines 209-224, 244-261, 283-300: keep the first k digits *)
Definition round_keep (neg : bool) (mode : Z) (k : nat) (d : list Z) : list Z * bool :=
  if (k <? length d)%nat then
    if round_up neg mode (nth k d 0) then incr (firstn k d) else (firstn k d, false)
  else (d, false).

Definition text (l : list Z) : list ascii := map dchar l.
(* digits i = rmax .. rmin with a point before index -1, lines 232-235, 315-318, 339-342 *)
Definition fixed_text (rmax : Z) (d : list Z) : list ascii :=
  let k := Z.to_nat (rmax + 1) in
  let fp := skipn k d in
  text (firstn k d) ++ (match fp with [] => [] | _ => ch 46 :: text fp end).
(* decimal digits of n >= 0, at least w of them *)
Fixpoint dec_digits (fuel : nat) (w : nat) (n : Z) : list Z :=
  match fuel with
  | O => []
  | S fuel' =>
    if (n =? 0) && Nat.eqb w 0 then [] else dec_digits fuel' (Nat.pred w) (n / 10) ++ [n mod 10]
  end.
(* "e" << internal << showpos << setfill('0') << setw(3) << rmax, lines 274, 334 *)
Definition exp_text (rmax : Z) : list ascii :=
  ch 101 :: ch (if rmax <? 0 then 45 else 43) :: text (dec_digits 12 2 (Z.abs rmax)).
(* lines 263-274, 323-334 *)
Definition sci_text (rmax : Z) (d : list Z) : list ascii :=
  match trimr d with
  | [] => exp_text rmax
  | d0 :: l => dchar d0 :: (match l with [] => [] | _ => ch 46 :: text l end) ++ exp_text rmax
  end.
(* while (result_min < 0 && last digit == 0) result_min++ *)
Definition trim_frac (rmax : Z) (d : list Z) : list Z :=
  let k := Z.to_nat (rmax + 1) in
  firstn k d ++ trimr (skipn k d).

Inductive fmt := FmtE | FmtF | FmtG | FmtA.

(* the 'f' branch, lines 207-235 *)
Definition fmt_f (neg : bool) (mode precision rmax : Z) (d : list Z) : list ascii :=
  let (d', c) := round_keep neg mode (Z.to_nat (rmax + precision + 1)) d in
  let d'' := if c then 1 :: d' else d' in
  let rmax' := if c then rmax + 1 else rmax in
  fixed_text rmax' (trim_frac rmax' d'').

(* head zeros, rounding to k digits: lines 238-261 and 277-300 *)
Definition lead_round (neg : bool) (mode : Z) (k : nat) (rmax : Z) (d : list Z) : Z * list Z :=
  let d1 := trim0 d in
  let rmax1 := rmax - (Z.of_nat (length d) - Z.of_nat (length d1)) in
  let (d', c) := round_keep neg mode k d1 in
  if c then (rmax1 + 1, 1 :: removelast d') else (rmax1, d').

(* the 'e' branch, lines 237-274 *)
Definition fmt_e (neg : bool) (mode precision rmax : Z) (d : list Z) : list ascii :=
  let (rm, d') := lead_round neg mode (Z.to_nat (precision + 1)) rmax d in sci_text rm d'.

(* the 'g' branch, lines 276-335 *)
Definition fmt_g (neg : bool) (mode precision rmax : Z) (d : list Z) : list ascii :=
  let (rm, d') := lead_round neg mode (Z.to_nat precision) rmax d in
  if (-4 <=? rm) && (rm <=? precision - 1) then
    let d2 := trim_frac rm d' in
    (* the cells between 0 and rm hold the zeros removed from the head *)
    fixed_text (Z.max rm 0) (zeros (- rm) ++ d2)
  else sci_text rm d'.

(* lines 119-191: the decimal digits of absx; first component result_max, then the digits *)
Definition decimal (absx : b64) : res (Z * list Z) :=
  let ex := get_exponent absx in
  do bl <- bits_of 53 absx (ldexp 1 ex);
  let emin := ex - Z.of_nat (length bl) + 1 in
  (* 105-117 *)
  let t := zeros (- ex) ++ bl ++ zeros emin in
  let k := Z.to_nat (Z.max ex 0 + 1) in
  let ib := firstn k t in
  let fb := skipn k t in
  do r1 <- conv_int (length ib) 2 10 m_out ib [];
  do r2 <- frac_out (length fb) fb [];
  Ok (Z.of_nat (length r1) - 1, rev r1 ++ r2).

(* lines 54-346.  Negative precisions and the format 'g' with precision 0 make the code read
   cells of the digit array outside the digits of the number (for x = 5, 'g', 0 outside the
   array: result_min becomes 2 with three cells of indices -1..1); both are EUB here. *)
Definition dtostring (x : b64) (precision : Z) (format : fmt) (mode : Z) : res (list ascii) :=
  match x with
  | B754_nan => Ok (map ch [110; 97; 110])
  | B754_zero s => Ok (if s then [ch 45; ch 48] else [ch 48])
  | B754_infinity s => Ok (map ch (if s then [45; 105; 110; 102] else [105; 110; 102]))
  | B754_finite neg _ _ _ =>
    let absx := if neg then Bopp x else x in
    do rd <- decimal absx;
    let (rmax, d) := rd in
    let pre := if neg then [ch 45] else [] in
    match format with
    | FmtF => if precision <? 0 then Err EUB else Ok (pre ++ fmt_f neg mode precision rmax d)
    | FmtE => if precision <? 0 then Err EUB else Ok (pre ++ fmt_e neg mode precision rmax d)
    | FmtG => if precision <? 1 then Err EUB else Ok (pre ++ fmt_g neg mode precision rmax d)
    | FmtA => Ok (pre ++ fixed_text rmax d)
    end
  end.
