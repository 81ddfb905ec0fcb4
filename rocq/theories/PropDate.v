(** C31, C32: dates and times. *)
From Coq Require Import List ZArith Bool Lia.
From Verif Require Import Word64 DateModel DateSpec DateProof.
Import ListNotations.
Open Scope Z_scope.

(** C31.  The day number of a valid date is the number of days since the start of year 1
    (Gregorian calendar); the range is limited by the 32-bit result only. *)
Theorem C31_day_number_is_exact : forall y m d, valid_date y m d -> day_number y m d < 2 ^ 31 ->
  ymd_to_date y m d = day_number y m d.
Proof. exact date_number. Qed.
Print Assumptions C31_day_number_is_exact.
Theorem C31_dates_roundtrip : forall y m d, valid_date y m d -> day_number y m d < 2 ^ 31 ->
  date_to_ymd (ymd_to_date y m d) = Some (y, m, d).
Proof. exact date_roundtrip. Qed.
Print Assumptions C31_dates_roundtrip.
Theorem C31_dates_monotone : forall y m d y' m' d', valid_date y m d -> valid_date y' m' d' ->
  day_number y m d < 2 ^ 31 -> day_number y' m' d' < 2 ^ 31 ->
  (earlier (y, m, d) (y', m', d') <-> ymd_to_date y m d < ymd_to_date y' m' d').
Proof. exact date_mono. Qed.
Print Assumptions C31_dates_monotone.
(** Every positive day number is the number of a valid date, and conversion finds it. *)
Theorem C31_day_numbers_are_dates : forall s, 1 <= s < 2 ^ 31 ->
  exists y m d, date_to_ymd s = Some (y, m, d) /\ valid_date y m d /\ ymd_to_date y m d = s.
Proof. exact date_sur. Qed.
Print Assumptions C31_day_numbers_are_dates.
(** The range contains all dates up to the year 5879610. *)
Theorem C31_range : forall y m d, valid_date y m d -> y <= 5879610 -> day_number y m d < 2 ^ 31.
Proof. exact date_in_range. Qed.
Print Assumptions C31_range.
Example C31_nonvacuous : valid_date 2000 2 29 /\ valid_date 2000 3 1 /\ earlier (2000, 2, 29) (2000, 3, 1) /\ leap 2000 /\
  ymd_to_date 2000 2 29 = 730179 /\ date_to_ymd 730180 = Some (2000, 3, 1).
Proof.
  split; [|split; [|split; [|split; [|split]]]].
  1,2: unfold valid_date; vm_compute; intuition discriminate.
  - cbn. lia.
  - right. reflexivity.
  - vm_compute. reflexivity.
  - vm_compute. reflexivity.
Qed.
(** Finding: the year 0 is accepted, but its dates come back as others (the year before is
    computed unsigned); so do days beyond the end of a month. *)
Theorem C31_year_zero_refuted : exists m d, ymd_to_date 0 m d <> -1 /\ date_to_ymd (ymd_to_date 0 m d) <> Some (0, m, d).
Proof. exists 3, 1. vm_compute. split; discriminate. Qed.
Print Assumptions C31_year_zero_refuted.
Theorem C31_overlong_month_refuted : exists y m d, 1 <= y /\ ymd_to_date y m d <> -1 /\ date_to_ymd (ymd_to_date y m d) <> Some (y, m, d).
Proof. exists 2001, 2, 31. vm_compute. repeat split; discriminate. Qed.
Print Assumptions C31_overlong_month_refuted.

(** C32.  The time value is the number of hundredths of a second since midnight. *)
Theorem C32_time_value_is_exact : forall h m s p, valid_time h m s p ->
  hms_to_time h m s p = ((h * 60 + m) * 60 + s) * 100 + p.
Proof. exact time_value. Qed.
Print Assumptions C32_time_value_is_exact.
Theorem C32_times_roundtrip : forall h m s p, valid_time h m s p -> time_to_hms (hms_to_time h m s p) = (h, m, s, p).
Proof. exact time_roundtrip. Qed.
Print Assumptions C32_times_roundtrip.
Theorem C32_times_monotone : forall h m s p h' m' s' p', valid_time h m s p -> valid_time h' m' s' p' ->
  (sooner (h, m, s, p) (h', m', s', p') <-> hms_to_time h m s p < hms_to_time h' m' s' p').
Proof. exact time_mono. Qed.
Print Assumptions C32_times_monotone.
Theorem C32_time_values_are_times : forall t, 0 <= t < 8640000 ->
  let '(h, m, s, p) := time_to_hms t in valid_time h m s p /\ hms_to_time h m s p = t.
Proof. exact time_sur. Qed.
Print Assumptions C32_time_values_are_times.
Example C32_nonvacuous : valid_time 23 59 59 99 /\ valid_time 0 0 0 7 /\ sooner (0, 0, 0, 7) (23, 59, 59, 99) /\
  hms_to_time 23 59 59 99 = 8639999.
Proof. unfold valid_time, sooner. repeat split; lia || reflexivity || discriminate. Qed.
(** Finding: 60 is accepted for minutes and seconds, and is read back as the next hour or minute. *)
Theorem C32_sixty_minutes_refuted : exists h m s p, hms_to_time h m s p <> -1 /\ time_to_hms (hms_to_time h m s p) <> (h, m, s, p).
Proof. exists 1, 60, 0, 0. vm_compute. split; discriminate. Qed.
Print Assumptions C32_sixty_minutes_refuted.
