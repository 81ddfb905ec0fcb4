(** Evaluation of arithmetic terms.
    Code: Reasoner/build.c 55-99 (checked operations), 1261-1303 (comparisons), 1305-1440
    (binary operations), 1488-1641 (unary operations on numbers).
    Arguments are given by their decoded value; type tests and record access are modelled in
    EncModel and TermModel.  Doubles are the binary64 numbers of the standard library's
    SpecFloat, rounded to nearest even.  [RUB]: a C operation with undefined behaviour. *)
From Coq Require Import List ZArith Bool Floats.SpecFloat.
From Verif Require Import Word64.
Open Scope Z_scope.

Inductive num := NInt (z : Z) | NDbl (x : spec_float) | NOther.
(** Left as it is; a new integer or double; the argument itself; true or false *)
Inductive res := RLeft | RInt (z : Z) | RDbl (x : spec_float) | RArg | RTrue | RFalse | RUB.

(** 55-59: the sums in the tests do not overflow where they are evaluated *)
Definition add_checked (a b : Z) : option Z :=
  if ((0 <? b) && (w64 (int_max - b) <? a)) || ((b <? 0) && (a <? w64 (int_min - b))) then None
  else Some (w64 (a + b)).
(** 62-67 *)
Definition sub_checked (a b : Z) : option Z :=
  if ((b <? 0) && (w64 (int_max + b) <? a)) || ((0 <? b) && (a <? w64 (int_min + b))) then None
  else Some (w64 (a - b)).
(** 69-91; / truncates *)
Definition mul_checked (a b : Z) : option Z :=
  if (a =? 0) || (b =? 0) then Some 0
  else if a =? -1 then (if b =? int_min then None else Some (w64 (0 - b)))
  else if b =? -1 then (if a =? int_min then None else Some (w64 (0 - a)))
  else if ((0 <? a) && (0 <? b) && (Z.quot int_max b <? a)) ||
          ((0 <? a) && (b <? 0) && (b <? Z.quot int_min a)) ||
          ((a <? 0) && (0 <? b) && (a <? Z.quot int_min b)) ||
          ((a <? 0) && (b <? 0) && (a <? Z.quot int_max b)) then None
  else Some (w64 (a * b)).

(** Rounding of a double to an integer; the C functions return that integer as a double, which
    is exact.  [None]: not finite. *)
Definition signed (s : bool) (m : positive) : Z := if s then Zneg m else Zpos m.
Definition to_z (div : Z -> Z -> Z) (x : spec_float) : option Z :=
  match x with
  | S754_zero _ => Some 0
  | S754_finite s m e => if 0 <=? e then Some (signed s m * 2 ^ e) else Some (div (signed s m) (2 ^ (- e)))
  | _ => None
  end.
Definition floor_z := to_z Z.div.
Definition ceil_z := to_z (fun a b => - (- a / b)).
Definition trunc_z := to_z Z.quot.
Definition round_z := to_z (fun a b => if a <? 0 then - ((2 * - a + b) / (2 * b)) else (2 * a + b) / (2 * b)).
(** wr_double_to_gint_checked 93-99 of a double that is an integer; the comparisons are made
    with long doubles and are exact *)
Definition gint_checked (z : option Z) : res :=
  match z with
  | None => RLeft
  | Some z => if (z <? int_min) || (int_max <? z) then RLeft else RInt z
  end.
(** The same for any double: the conversion truncates.  A double just above 2^63 - 1 is 2^63. *)
Definition gint_of_double (x : spec_float) : option Z :=
  match trunc_z x with
  | Some z => if (z <? int_min) || (int_max <? z) then None else Some z
  | None => None
  end.

(** Doubles *)
Definition of_int (z : Z) : spec_float := binary_normalize 53 1024 z 0 false.
Definition fadd := SFadd 53 1024.
Definition fsub := SFsub 53 1024.
Definition fmul := SFmul 53 1024.
Definition fdiv := SFdiv 53 1024.
Definition is_fin (x : spec_float) : bool := match x with S754_zero _ | S754_finite _ _ _ => true | _ => false end.
Definition is_zero (x : spec_float) : bool := match x with S754_zero _ => true | _ => false end.
Definition fneg0 (x : spec_float) : bool := SFltb x (S754_zero false).

(** The operations, build.h 68-106 *)
Inductive op2 := OPlus | OMinus | OMult | ODiv | OQuoE | OQuoT | OQuoF | ORemE | ORemT | ORemF.
Inductive op1 := OIsInt | OIsReal | OIsNumber | OToInt | OToReal | OFloor | OCeiling | OTruncate | ORound | OUMinus.
Inductive opc := OLess | OLessEq | OGreater | OGreaterEq.

Definition of_checked (o : option Z) : res := match o with Some z => RInt z | None => RLeft end.
(** ai / bi and ai % bi in C *)
Definition c_div (a b : Z) : res := if (b =? 0) || ((a =? int_min) && (b =? -1)) then RUB else RInt (Z.quot a b).
Definition c_rem (a b : Z) : res := if (b =? 0) || ((a =? int_min) && (b =? -1)) then RUB else RInt (Z.rem a b).
(** 1359, 1363, 1367, 1417, 1424, 1431 *)
Definition rem_guarded (a b : Z) : res := if (a =? int_min) && (b =? -1) then RInt 0 else c_rem a b.

(** 1322-1372 *)
Definition arith2_int (o : op2) (a b : Z) : res :=
  match o with
  | OPlus => of_checked (add_checked a b)
  | OMinus => of_checked (sub_checked a b)
  | OMult => of_checked (mul_checked a b)
  | ODiv => if b =? 0 then RLeft else if (a =? int_min) && (b =? -1) then RLeft else c_div a b
  | OQuoE => if b =? 0 then RLeft
             else if b <? 0 then gint_checked (floor_z (fdiv (of_int a) (of_int b)))
             else gint_checked (ceil_z (fdiv (of_int a) (of_int b)))
  | OQuoT => if b =? 0 then RLeft else gint_checked (trunc_z (fdiv (of_int a) (of_int b)))
  | OQuoF => if b =? 0 then RLeft else gint_checked (floor_z (fdiv (of_int a) (of_int b)))
  | ORemE => if b =? 0 then RLeft else rem_guarded a b
  | ORemT => if b =? 0 then RLeft else rem_guarded a b
  | ORemF => if b =? 0 then RLeft else rem_guarded a b
  end.
(** 1413-1433 *)
Definition rem_dbl (x y : spec_float) : res :=
  match gint_of_double x, gint_of_double y with
  | Some a, Some b => if b =? 0 then RLeft else rem_guarded a b
  | _, _ => RLeft
  end.
(** 1373-1439 *)
Definition arith2_dbl (o : op2) (x y : spec_float) : res :=
  if negb (is_fin x) || negb (is_fin y) then RLeft
  else
    let fin r := if is_fin r then RDbl r else RLeft in
    match o with
    | OPlus => fin (fadd x y)
    | OMinus => fin (fsub x y)
    | OMult => fin (fmul x y)
    | ODiv => if is_zero y then RLeft else fin (fdiv x y)
    | OQuoE => if is_zero y then RLeft
               else if fneg0 y then gint_checked (floor_z (fdiv x y)) else gint_checked (ceil_z (fdiv x y))
    | OQuoT => if is_zero y then RLeft else gint_checked (trunc_z (fdiv x y))
    | OQuoF => if is_zero y then RLeft else gint_checked (floor_z (fdiv x y))
    | ORemE | ORemT | ORemF => rem_dbl x y
    end.
Definition as_double (n : num) : spec_float :=
  match n with NInt z => of_int z | NDbl x => x | NOther => S754_nan end.
(** wr_compute_fun_arith2 1305-1440 *)
Definition arith2 (o : op2) (a b : num) : res :=
  match a, b with
  | NOther, _ | _, NOther => RLeft
  | NInt x, NInt y => arith2_int o x y
  | _, _ => arith2_dbl o (as_double a) (as_double b)
  end.

(** wr_compute_fun_arith1 1488-1641 *)
Definition arith1 (o : op1) (a : num) : res :=
  match a with
  | NInt z =>
      match o with
      | OIsInt => RTrue | OIsReal => RFalse | OIsNumber => RTrue
      | OToInt => RArg | OToReal => RDbl (of_int z)
      | OFloor | OCeiling | OTruncate | ORound => RArg
      | OUMinus => if z =? int_min then RLeft else RInt (w64 (0 - z))
      end
  | NDbl x =>
      match o with
      | OIsInt => RFalse | OIsReal => RTrue | OIsNumber => RTrue
      | OToInt => gint_checked (floor_z x) | OToReal => RArg
      | OFloor => gint_checked (floor_z x) | OCeiling => gint_checked (ceil_z x)
      | OTruncate => gint_checked (trunc_z x) | ORound => gint_checked (round_z x)
      | OUMinus => if is_fin x then RDbl (fsub (S754_zero false) x) else RLeft
      end
  | NOther => RLeft
  end.

(** wr_compute_fun_lesseq_core 1261-1303; [same]: what wr_equal_term (unify.c 539-565, 983-1003)
    says of the arguments: the same word, or equal type and value *)
Definition same (a b : num) : bool :=
  match a, b with
  | NInt x, NInt y => x =? y
  | NDbl x, NDbl y => SFeqb x y
  | _, _ => false
  end.
Definition lesseq_core (word : bool) (a b : num) (ifequal : res) (isless : bool) : res :=
  if word || same a b then ifequal
  else
    match a, b with
    | NOther, _ | _, NOther => RLeft
    | NInt x, NInt y => if isless then (if x <? y then RTrue else RFalse) else (if y <? x then RTrue else RFalse)
    | _, _ =>
        let x := as_double a in
        let y := as_double b in
        if negb (is_fin x) || negb (is_fin y) then RLeft
        else if isless then (if SFltb x y then RTrue else RFalse) else (if SFltb y x then RTrue else RFalse)
    end.
(** 1070-1081; [word]: the arguments are the same word *)
Definition compare (o : opc) (word : bool) (a b : num) : res :=
  match o with
  | OLess => lesseq_core word a b RFalse true
  | OLessEq => lesseq_core word a b RTrue true
  | OGreater => lesseq_core word a b RFalse false
  | OGreaterEq => lesseq_core word a b RTrue false
  end.
