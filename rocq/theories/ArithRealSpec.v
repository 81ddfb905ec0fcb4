(** Real numbers and their rounding to doubles. *)
From Coq Require Import ZArith Reals Bool Floats.SpecFloat.
From Flocq Require Import Core BinarySingleNaN.
From Verif Require Import Word64 ArithModel.
Open Scope Z_scope.

(** The real number a double stands for, and rounding to the nearest double (ties to even). *)
Definition realv (x : spec_float) : R := SF2R radix2 x.
Definition rnd (r : R) : R := round radix2 (FLT_exp (-1074) 53) ZnearestE r.
(** The doubles of the hardware. *)
Definition double (x : spec_float) : Prop := valid_binary 53 1024 x = true.
Definition top : R := bpow radix2 1024.

(** Correctly rounded: the rounded exact result, or not finite if that is too large. *)
Definition rounded (r : R) (x : spec_float) : Prop :=
  (Rabs (rnd r) < top)%R /\ is_fin x = true /\ double x /\ realv x = rnd r \/ (top <= Rabs (rnd r))%R /\ is_fin x = false.
(** The real number an argument stands for; an integer is first made a double. *)
Definition real_of (n : num) : R :=
  match n with NInt z => rnd (IZR z) | NDbl x => realv x | NOther => 0%R end.
Definition num_fin (n : num) : bool := match n with NDbl x => is_fin x | _ => true end.
Definition is_int (n : num) : bool := match n with NInt _ => true | _ => false end.
Definition real_op (o : op2) : option (R -> R -> R) :=
  match o with OPlus => Some Rplus | OMinus => Some Rminus | OMult => Some Rmult | ODiv => Some Rdiv | _ => None end.
Definition holdsR (o : opc) (a b : R) : Prop :=
  match o with OLess => (a < b)%R | OLessEq => (a <= b)%R | OGreater => (b < a)%R | OGreaterEq => (b <= a)%R end.
(** A number as the reasoner holds it. *)
Definition num_ok (n : num) : Prop := match n with NInt z => in64 z | NDbl x => double x | NOther => False end.
