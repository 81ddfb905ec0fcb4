(** The Gregorian calendar and the clock, written down from their definition. *)
From Coq Require Import List ZArith Bool.
Import ListNotations.
Open Scope Z_scope.

Definition leap (y : Z) : Prop := (y mod 4 = 0 /\ y mod 100 <> 0) \/ y mod 400 = 0.
Definition leapb (y : Z) : bool := if y mod 400 =? 0 then true else if y mod 100 =? 0 then false else y mod 4 =? 0.
Definition month_length (y m : Z) : Z :=
  if m =? 2 then if leapb y then 29 else 28
  else if (m =? 4) || (m =? 6) || (m =? 9) || (m =? 11) then 30
  else 31.
Definition year_length (y : Z) : Z := if leapb y then 366 else 365.
Definition valid_date (y m d : Z) : Prop := 1 <= y /\ 1 <= m <= 12 /\ 1 <= d <= month_length y m.

(** The days of the years 1 ... n, and of the months 1 ... n of year y. *)
Fixpoint days_of_years (n : nat) : Z :=
  match n with O => 0 | S n => days_of_years n + year_length (Z.of_nat (S n)) end.
Fixpoint days_of_months (y : Z) (n : nat) : Z :=
  match n with O => 0 | S n => days_of_months y n + month_length y (Z.of_nat (S n)) end.
(** Day 1 is 1 January of the year 1. *)
Definition day_number (y m d : Z) : Z :=
  days_of_years (Z.to_nat (y - 1)) + days_of_months y (Z.to_nat (m - 1)) + d.

Definition earlier (a b : Z * Z * Z) : Prop :=
  let '(y, m, d) := a in let '(y', m', d') := b in
  y < y' \/ (y = y' /\ (m < m' \/ (m = m' /\ d < d'))).

Definition valid_time (h m s p : Z) : Prop := 0 <= h < 24 /\ 0 <= m < 60 /\ 0 <= s < 60 /\ 0 <= p < 100.
Definition sooner (a b : Z * Z * Z * Z) : Prop :=
  let '(h, m, s, p) := a in let '(h', m', s', p') := b in
  h < h' \/ (h = h' /\ (m < m' \/ (m = m' /\ (s < s' \/ (s = s' /\ p < p'))))).
