(** Exact arithmetic. *)
From Coq Require Import ZArith Bool Floats.SpecFloat.
From Verif Require Import Word64 ArithModel.
Open Scope Z_scope.

(** The exact integer [z], or nothing if it is not a 64-bit integer. *)
Definition exactly (z : Z) (r : res) : Prop := in64 z /\ r = RInt z \/ ~ in64 z /\ r = RLeft.

(** Quotients and remainders (TPTP): truncating, flooring, and Euclidean. *)
Definition is_quo_t (a b q r : Z) : Prop := a = b * q + r /\ Z.abs r < Z.abs b /\ 0 <= r * a.
Definition is_quo_f (a b q r : Z) : Prop := a = b * q + r /\ Z.abs r < Z.abs b /\ 0 <= r * b.
Definition is_quo_e (a b q r : Z) : Prop := a = b * q + r /\ 0 <= r < Z.abs b.

(** The finite double [x] is [n / d]. *)
Definition value (x : spec_float) (n d : Z) : Prop :=
  match x with
  | S754_zero _ => n = 0 /\ d = 1
  | S754_finite s m e =>
      0 <= e /\ n = (if s then - Zpos m else Zpos m) * 2 ^ e /\ d = 1 \/
      e < 0 /\ n = (if s then - Zpos m else Zpos m) /\ d = 2 ^ (- e)
  | _ => False
  end.
(** Roundings of n / d. *)
Definition is_floor (n d z : Z) : Prop := z * d <= n < (z + 1) * d.
Definition is_ceiling (n d z : Z) : Prop := (z - 1) * d < n <= z * d.
Definition is_trunc (n d z : Z) : Prop := Z.abs (z * d) <= Z.abs n < (Z.abs z + 1) * d /\ 0 <= z * n.
(** The nearest integer, of two the one further from zero. *)
Definition is_round (n d z : Z) : Prop := (2 * Z.abs z - 1) * d <= 2 * Z.abs n < (2 * Z.abs z + 1) * d /\ 0 <= z * n.

(** What a comparison claims. *)
Definition holds (o : opc) (a b : Z) : Prop :=
  match o with OLess => a < b | OLessEq => a <= b | OGreater => b < a | OGreaterEq => b <= a end.
