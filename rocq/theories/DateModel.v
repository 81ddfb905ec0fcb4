(** Calendar dates and clock times.
    Code: Db/dbdata.c 3505-3540 (isleap, months_to_days, years_to_days, ymd_to_scalar,
    scalar_to_ymd), 1860-1895 (wg_ymd_to_date, wg_hms_to_time, wg_date_to_ymd, wg_time_to_hms).
    int and unsigned have 32 bits, long 64.  Simplification: the products and sums of long values
    are not reduced; with 32-bit arguments they stay below 2^42. *)
From Coq Require Import List ZArith Bool.
From Verif Require Import Word64.
Import ListNotations.
Open Scope Z_scope.

Definition u32 (z : Z) : Z := z mod 2 ^ 32.

(** isleap 3505-3507 *)
Definition isleap (yr : Z) : bool := (yr mod 400 =? 0) || ((yr mod 4 =? 0) && negb (yr mod 100 =? 0)).
(** months_to_days 3509-3511 *)
Definition months_to_days (month : Z) : Z := u32 (u32 (month * 3057) - 3007) / 100.
(** years_to_days 3513-3515: the divisions are unsigned, the sum is a long *)
Definition years_to_days (yr : Z) : Z := yr * 365 + yr / 4 - yr / 100 + yr / 400.
(** ymd_to_scalar 3517-3525 *)
Definition ymd_to_scalar (yr mo day : Z) : Z :=
  let scalar := u32 (day + months_to_days mo) in
  let scalar := if 2 <? mo then scalar - (if isleap yr then 1 else 2) else scalar in
  scalar + years_to_days (u32 (yr - 1)).
(** The loop 3530; [None]: out of fuel. *)
Fixpoint find_year (k : nat) (n scalar : Z) : option Z :=
  match k with
  | O => None
  | S k => if years_to_days n <? scalar then find_year k (u32 (n + 1)) scalar else Some n
  end.
(** scalar_to_ymd 3527-3540; C division truncates *)
Definition scalar_to_ymd (scalar : Z) : option (Z * Z * Z) :=
  match find_year 4 (u32 (Z.quot (scalar * 400) 146097)) scalar with
  | None => None
  | Some yr =>
      let n := u32 (scalar - years_to_days (u32 (yr - 1))) in
      let n := if 59 <? n then
                 let n := u32 (n + 2) in
                 if isleap yr then u32 (n - (if 62 <? n then 1 else 2)) else n
               else n in
      let mo := u32 (n * 100 + 3007) / 3057 in
      Some (yr, mo, u32 (n - months_to_days mo))
  end.

(** wg_ymd_to_date 1860-1863; the arguments are ints *)
Definition ymd_to_date (yr mo day : Z) : Z :=
  if (yr <? 0) || (mo <? 1) || (12 <? mo) || (day <? 1) || (31 <? day) then -1
  else w32 (ymd_to_scalar (u32 yr) (u32 mo) (u32 day)).
(** wg_date_to_ymd 1873-1880 *)
Definition date_to_ymd (date : Z) : option (Z * Z * Z) :=
  match scalar_to_ymd date with
  | Some (y, m, d) => Some (w32 y, w32 m, w32 d)
  | None => None
  end.

(** wg_hms_to_time 1866-1870 *)
Definition hms_to_time (hr min sec prt : Z) : Z :=
  if (hr <? 0) || (24 <? hr) || (min <? 0) || (60 <? min) || (sec <? 0) || (60 <? sec) || (prt <? 0) || (99 <? prt)
  then -1
  else hr * 360000 + min * 6000 + sec * 100 + prt.
(** wg_time_to_hms 1883-1893 *)
Definition time_to_hms (t : Z) : Z * Z * Z * Z :=
  let hr := Z.quot t 360000 in
  let t := t - hr * 360000 in
  let min := Z.quot t 6000 in
  let t := t - min * 6000 in
  let sec := Z.quot t 100 in
  (hr, min, sec, t - sec * 100).
