From Coq Require Import List ZArith Bool Lia.
From Verif Require Import Word64 DateModel DateSpec.
Import ListNotations.
Open Scope Z_scope.

Lemma u32_id z : 0 <= z < 2 ^ 32 -> u32 z = z.
Proof. intros. apply Z.mod_small. lia. Qed.

Lemma isleap_leapb y : isleap y = leapb y.
Proof.
  unfold isleap, leapb.
  destruct (Z.eqb_spec (y mod 400) 0) as [A|A]; auto.
  destruct (Z.eqb_spec (y mod 100) 0) as [B|B]; destruct (y mod 4 =? 0); auto.
Qed.
Lemma leapb_iff y : leapb y = true <-> leap y.
Proof.
  unfold leapb, leap. destruct (Z.eqb_spec (y mod 400) 0); [intuition|].
  destruct (Z.eqb_spec (y mod 100) 0).
  - split; [discriminate|]. intuition.
  - rewrite Z.eqb_eq. intuition.
Qed.

Lemma ytd_step y : years_to_days (y + 1) = years_to_days y + year_length (y + 1).
Proof.
  unfold years_to_days, year_length, leapb.
  destruct (Z.eqb_spec ((y + 1) mod 400) 0); [|destruct (Z.eqb_spec ((y + 1) mod 100) 0); [|destruct (Z.eqb_spec ((y + 1) mod 4) 0)]];
    Z.to_euclidean_division_equations; lia.
Qed.
Lemma ytd_days n : days_of_years n = years_to_days (Z.of_nat n).
Proof.
  induction n as [|n IH]; [reflexivity|]. cbn [days_of_years]. rewrite IH.
  replace (Z.of_nat (S n)) with (Z.of_nat n + 1) by lia. symmetry. apply ytd_step.
Qed.
Lemma year_length_pos y : 365 <= year_length y <= 366.
Proof. unfold year_length. destruct (leapb y); lia. Qed.
Lemma ytd_mono a b : a <= b -> years_to_days a <= years_to_days b.
Proof. unfold years_to_days. intros. Z.to_euclidean_division_equations; lia. Qed.

Ltac months m H := assert (m = 1 \/ m = 2 \/ m = 3 \/ m = 4 \/ m = 5 \/ m = 6 \/ m = 7 \/ m = 8 \/ m = 9 \/ m = 10 \/ m = 11 \/ m = 12)
   as H by lia; repeat (destruct H as [H|H]); subst m.

Lemma scalar_spec y m d : valid_date y m d -> y < 2 ^ 32 -> ymd_to_scalar y m d = day_number y m d.
Proof.
  intros (Hy&Hm&Hd) Hb. unfold ymd_to_scalar, day_number. rewrite ytd_days.
  rewrite Z2Nat.id by lia. rewrite (u32_id (y - 1)) by lia. rewrite isleap_leapb.
  assert (D : d <= 31) by (unfold month_length in Hd; destruct (m =? 2); [destruct (leapb y); lia|destruct ((m =? 4) || _ || _ || _); lia]).
  assert (E : u32 (d + months_to_days m) - (if 2 <? m then (if leapb y then 1 else 2) else 0) = days_of_months y (Z.to_nat (m - 1)) + d).
  { assert (forall k, 0 <= k < 400 -> u32 (d + k) = d + k) as U by (intros; apply u32_id; lia).
    clear Hd. months m Hm'; match goal with |- context [months_to_days ?x] => let v := eval vm_compute in (months_to_days x) in
        change (months_to_days x) with v end; rewrite U by lia;
      match goal with |- context [Z.to_nat ?x] => let v := eval vm_compute in (Z.to_nat x) in change (Z.to_nat x) with v end;
      cbn -[Z.add Z.sub leapb]; destruct (leapb y); lia. }
  destruct (2 <? m); lia.
Qed.

Lemma month_length_pos y m : 28 <= month_length y m <= 31.
Proof. unfold month_length. destruct (m =? 2); [destruct (leapb y); lia|]. destruct ((m =? 4) || _ || _ || _); lia. Qed.
Lemma dom_step y n : (n < 12)%nat -> days_of_months y (S n) = days_of_months y n + month_length y (Z.of_nat (S n)).
Proof. reflexivity. Qed.
Lemma dom_mono y a b : (a <= b)%nat -> days_of_months y a <= days_of_months y b.
Proof. induction 1; [lia|]. cbn [days_of_months]. pose proof (month_length_pos y (Z.of_nat (S m))). lia. Qed.
Lemma dom_year y : days_of_months y 12 = year_length y.
Proof. unfold year_length. cbn. destruct (leapb y); reflexivity. Qed.

(** The day of the year. *)
Definition yday (y m d : Z) : Z := days_of_months y (Z.to_nat (m - 1)) + d.
Lemma yday_range y m d : valid_date y m d -> 1 <= yday y m d <= year_length y.
Proof.
  intros (Hy&Hm&Hd). unfold yday. pose proof (dom_mono y 0 (Z.to_nat (m - 1)) ltac:(lia)) as A. cbn [days_of_months] in A.
  pose proof (dom_mono y (S (Z.to_nat (m - 1))) 12 ltac:(lia)) as B. rewrite dom_year in B.
  rewrite dom_step in B by lia. replace (Z.of_nat (S (Z.to_nat (m - 1)))) with m in B by lia. lia.
Qed.
Lemma day_number_alt y m d : valid_date y m d -> day_number y m d = years_to_days (y - 1) + yday y m d.
Proof. intros (Hy&_). unfold day_number, yday. rewrite ytd_days, Z2Nat.id by lia. lia. Qed.

Lemma day_number_mono y m d y' m' d' : valid_date y m d -> valid_date y' m' d' ->
  earlier (y, m, d) (y', m', d') -> day_number y m d < day_number y' m' d'.
Proof.
  intros V V' E. rewrite !day_number_alt by auto. pose proof (yday_range _ _ _ V). pose proof (yday_range _ _ _ V').
  destruct E as [E|(->&E)].
  - pose proof (ytd_mono y (y' - 1) ltac:(lia)). pose proof (ytd_step (y - 1)) as S. replace (y - 1 + 1) with y in S by lia. lia.
  - destruct V as (_&Hm&Hd). destruct V' as (_&Hm'&Hd'). unfold yday in *. destruct E as [E|(->&E)]; [|lia].
    pose proof (dom_mono y' (S (Z.to_nat (m - 1))) (Z.to_nat (m' - 1)) ltac:(lia)) as B.
    rewrite dom_step in B by lia. replace (Z.of_nat (S (Z.to_nat (m - 1)))) with m in B by lia. lia.
Qed.
Lemma earlier_total a b : earlier a b \/ a = b \/ earlier b a.
Proof.
  destruct a as [[y m] d], b as [[y' m'] d']. unfold earlier.
  assert (y < y' \/ y' < y \/ (y = y' /\ (m < m' \/ m' < m \/ (m = m' /\ (d < d' \/ d = d' \/ d' < d))))) as H by lia.
  intuition (subst; auto); lia.
Qed.
Lemma day_number_inj y m d y' m' d' : valid_date y m d -> valid_date y' m' d' ->
  day_number y m d = day_number y' m' d' -> (y, m, d) = (y', m', d').
Proof.
  intros V V' E. destruct (earlier_total (y, m, d) (y', m', d')) as [H|[H|H]]; auto.
  - pose proof (day_number_mono _ _ _ _ _ _ V V' H). lia.
  - pose proof (day_number_mono _ _ _ _ _ _ V' V H). lia.
Qed.

(** The year loop. *)
Lemma find_year_ok s : 1 <= s < 2 ^ 31 ->
  exists y, find_year 4 (u32 (Z.quot (s * 400) 146097)) s = Some y /\ 1 <= y < 2 ^ 23 /\
            years_to_days (y - 1) < s <= years_to_days y.
Proof.
  intros H. rewrite Z.quot_div_nonneg by lia. set (n := s * 400 / 146097).
  assert (Hn : n * 146097 <= 400 * s < (n + 1) * 146097) by (unfold n; Z.to_euclidean_division_equations; lia).
  clearbody n. assert (0 <= n < 2 ^ 23 - 10) by lia. rewrite u32_id by lia.
  assert (A0 : years_to_days (n - 1) < s) by (unfold years_to_days; Z.to_euclidean_division_equations; lia).
  assert (A2 : s <= years_to_days (n + 2)) by (unfold years_to_days; Z.to_euclidean_division_equations; lia).
  cbn [find_year]. destruct (Z.ltb_spec (years_to_days n) s) as [L|L].
  - rewrite u32_id by lia. destruct (Z.ltb_spec (years_to_days (n + 1)) s) as [L'|L'].
    + rewrite u32_id by lia. replace (n + 1 + 1) with (n + 2) by lia.
      destruct (Z.ltb_spec (years_to_days (n + 2)) s); [lia|].
      exists (n + 2). split; auto. replace (n + 2 - 1) with (n + 1) by lia. lia.
    + exists (n + 1). split; auto. replace (n + 1 - 1) with n by lia. lia.
  - exists n. split; auto. assert (n <> 0) by (intros ->; cbn in L; lia). lia.
Qed.

(** Day of the year to month and day: 366 cases. *)
Definition back (lp : bool) (n : Z) : Z * Z :=
  let n := if 59 <? n then let n := u32 (n + 2) in if lp then u32 (n - (if 62 <? n then 1 else 2)) else n else n in
  let mo := u32 (n * 100 + 3007) / 3057 in (mo, u32 (n - months_to_days mo)).
Definition ry (lp : bool) : Z := if lp then 4 else 1.
Definition okb (lp : bool) (n : Z) : bool :=
  let '(m, d) := back lp n in
  (1 <=? m) && (m <=? 12) && (1 <=? d) && (d <=? month_length (ry lp) m) &&
  (days_of_months (ry lp) (Z.to_nat (m - 1)) + d =? n).
Lemma all_days lp : forallb (okb lp) (map Z.of_nat (seq 1 (if lp then 366 else 365))) = true.
Proof. destruct lp; vm_compute; reflexivity. Qed.
Lemma ry_leap lp : leapb (ry lp) = lp.
Proof. destruct lp; reflexivity. Qed.
Lemma ml_leap y y' m : leapb y = leapb y' -> month_length y m = month_length y' m.
Proof. unfold month_length. intros ->. auto. Qed.
Lemma dom_leap y y' n : leapb y = leapb y' -> days_of_months y n = days_of_months y' n.
Proof. intros E. induction n as [|n IH]; cbn [days_of_months]; auto. rewrite IH, (ml_leap y y') by auto. auto. Qed.
Lemma back_ok y n : 1 <= y -> 1 <= n <= year_length y ->
  let '(m, d) := back (leapb y) n in valid_date y m d /\ yday y m d = n.
Proof.
  intros Hy Hn. pose proof (all_days (leapb y)) as A. rewrite forallb_forall in A.
  assert (Hin : In n (map Z.of_nat (seq 1 (if leapb y then 366 else 365)))).
  { apply in_map_iff. exists (Z.to_nat n). split; [lia|]. apply in_seq. unfold year_length in Hn. destruct (leapb y); lia. }
  specialize (A n Hin). unfold okb in A. destruct (back (leapb y) n) as [m d].
  rewrite !andb_true_iff, !Z.leb_le, Z.eqb_eq in A. destruct A as ((((A1&A2)&A3)&A4)&A5).
  rewrite (ml_leap _ y) in A4 by apply ry_leap. rewrite (dom_leap _ y) in A5 by apply ry_leap.
  unfold valid_date, yday. repeat split; auto.
Qed.

Lemma scalar_back s : 1 <= s < 2 ^ 31 ->
  exists y m d, scalar_to_ymd s = Some (y, m, d) /\ valid_date y m d /\ y < 2 ^ 23 /\ day_number y m d = s.
Proof.
  intros H. destruct (find_year_ok s H) as (y&E&Hy&Hs). unfold scalar_to_ymd. rewrite E.
  rewrite (u32_id (y - 1)) by lia. pose proof (ytd_step (y - 1)) as S. replace (y - 1 + 1) with y in S by lia.
  pose proof (year_length_pos y). rewrite (u32_id (s - _)) by lia.
  pose proof (back_ok y (s - years_to_days (y - 1)) ltac:(lia) ltac:(lia)) as B.
  rewrite isleap_leapb. unfold back in B.
  set (n := if 59 <? _ then _ else _) in *. destruct B as (B1&B2).
  eexists y, _, _. split; [reflexivity|]. split; [exact B1|]. split; [lia|].
  rewrite day_number_alt by exact B1. rewrite B2. lia.
Qed.

Lemma date_number y m d : valid_date y m d -> day_number y m d < 2 ^ 31 -> ymd_to_date y m d = day_number y m d.
Proof.
  intros V B. pose proof V as (Hy&Hm&Hd). pose proof (month_length_pos y m). unfold ymd_to_date.
  assert (P : 0 <= years_to_days (y - 1)) by (apply (ytd_mono 0); lia).
  pose proof (yday_range _ _ _ V). pose proof (day_number_alt _ _ _ V) as E.
  assert (y < 2 ^ 32) by (unfold years_to_days in E; Z.to_euclidean_division_equations; lia).
  destruct (Z.ltb_spec y 0), (Z.ltb_spec m 1), (Z.ltb_spec 12 m), (Z.ltb_spec d 1), (Z.ltb_spec 31 d); try lia.
  cbn [orb]. rewrite !u32_id by lia. rewrite scalar_spec by auto. apply w32_id. lia.
Qed.
Lemma date_back s : 1 <= s < 2 ^ 31 ->
  exists y m d, date_to_ymd s = Some (y, m, d) /\ valid_date y m d /\ day_number y m d = s.
Proof.
  intros H. destruct (scalar_back s H) as (y&m&d&E&V&B&N). exists y, m, d. unfold date_to_ymd. rewrite E.
  split; [|auto]. pose proof V as (Hy&Hm&Hd). pose proof (month_length_pos y m). rewrite !w32_id by lia. reflexivity.
Qed.
Lemma date_roundtrip y m d : valid_date y m d -> day_number y m d < 2 ^ 31 ->
  date_to_ymd (ymd_to_date y m d) = Some (y, m, d).
Proof.
  intros V B. rewrite date_number by auto. pose proof (yday_range _ _ _ V). pose proof (day_number_alt _ _ _ V) as E.
  pose proof V as (Hy&_). assert (P : 0 <= years_to_days (y - 1)) by (apply (ytd_mono 0); lia).
  destruct (date_back (day_number y m d)) as (y'&m'&d'&E'&V'&N); [lia|]. rewrite E'. f_equal.
  apply day_number_inj; auto.
Qed.
Lemma date_mono y m d y' m' d' : valid_date y m d -> valid_date y' m' d' ->
  day_number y m d < 2 ^ 31 -> day_number y' m' d' < 2 ^ 31 ->
  (earlier (y, m, d) (y', m', d') <-> ymd_to_date y m d < ymd_to_date y' m' d').
Proof.
  intros V V' B B'. rewrite !date_number by auto. split; [apply day_number_mono; auto|]. intros L.
  destruct (earlier_total (y, m, d) (y', m', d')) as [H|[H|H]]; auto.
  - inversion H; subst. lia.
  - pose proof (day_number_mono _ _ _ _ _ _ V' V H). lia.
Qed.
Lemma date_sur s : 1 <= s < 2 ^ 31 ->
  exists y m d, date_to_ymd s = Some (y, m, d) /\ valid_date y m d /\ ymd_to_date y m d = s.
Proof.
  intros H. destruct (date_back s H) as (y&m&d&E&V&N). exists y, m, d. split; auto. split; auto.
  rewrite date_number by (auto; lia). auto.
Qed.
(** All dates up to the end of year 5879610 have day numbers below 2^31. *)
Lemma date_in_range y m d : valid_date y m d -> y <= 5879610 -> day_number y m d < 2 ^ 31.
Proof.
  intros V H. pose proof (yday_range _ _ _ V). rewrite day_number_alt by auto.
  pose proof (year_length_pos y). unfold years_to_days. Z.to_euclidean_division_equations; lia.
Qed.

(** Clock. *)
Lemma time_value h m s p : valid_time h m s p -> hms_to_time h m s p = ((h * 60 + m) * 60 + s) * 100 + p.
Proof.
  intros (H1&H2&H3&H4). unfold hms_to_time.
  destruct (Z.ltb_spec h 0), (Z.ltb_spec 24 h), (Z.ltb_spec m 0), (Z.ltb_spec 60 m), (Z.ltb_spec s 0), (Z.ltb_spec 60 s),
    (Z.ltb_spec p 0), (Z.ltb_spec 99 p); try lia. cbn [orb]. lia.
Qed.
Lemma time_back t : 0 <= t < 8640000 ->
  let '(h, m, s, p) := time_to_hms t in valid_time h m s p /\ ((h * 60 + m) * 60 + s) * 100 + p = t.
Proof.
  intros H. unfold time_to_hms, valid_time.
  assert (Q : forall a b, 0 <= a -> 0 < b -> 0 <= Z.quot a b /\ b * Z.quot a b <= a < b * Z.quot a b + b).
  { intros a b Ha Hb. rewrite Z.quot_div_nonneg by lia. pose proof (Z.div_mod a b ltac:(lia)). pose proof (Z.mod_pos_bound a b Hb).
    pose proof (Z.div_pos a b Ha Hb). lia. }
  destruct (Q t 360000) as (A&B); try lia. set (h := Z.quot t 360000) in *.
  destruct (Q (t - h * 360000) 6000) as (A1&B1); try lia. set (m := Z.quot (t - h * 360000) 6000) in *.
  destruct (Q (t - h * 360000 - m * 6000) 100) as (A2&B2); lia.
Qed.
Lemma time_inj h m s p h' m' s' p' : valid_time h m s p -> valid_time h' m' s' p' ->
  ((h * 60 + m) * 60 + s) * 100 + p = ((h' * 60 + m') * 60 + s') * 100 + p' -> (h, m, s, p) = (h', m', s', p').
Proof.
  intros (H1&H2&H3&H4) (K1&K2&K3&K4) E. assert (h = h') by lia. subst. assert (m = m') by lia. subst.
  assert (s = s') by lia. subst. f_equal. lia.
Qed.
Lemma time_roundtrip h m s p : valid_time h m s p -> time_to_hms (hms_to_time h m s p) = (h, m, s, p).
Proof.
  intros V. rewrite time_value by auto. pose proof V as (H1&H2&H3&H4).
  pose proof (time_back (((h * 60 + m) * 60 + s) * 100 + p) ltac:(lia)) as B.
  destruct (time_to_hms _) as [[[h' m'] s'] p']. destruct B as (B1&B2). apply time_inj; auto.
Qed.
Lemma time_mono h m s p h' m' s' p' : valid_time h m s p -> valid_time h' m' s' p' ->
  (sooner (h, m, s, p) (h', m', s', p') <-> hms_to_time h m s p < hms_to_time h' m' s' p').
Proof.
  intros V V'. rewrite !time_value by auto. destruct V as (H1&H2&H3&H4), V' as (K1&K2&K3&K4). unfold sooner. lia.
Qed.
Lemma time_sur t : 0 <= t < 8640000 ->
  let '(h, m, s, p) := time_to_hms t in valid_time h m s p /\ hms_to_time h m s p = t.
Proof.
  intros H. pose proof (time_back t H) as B. destruct (time_to_hms t) as [[[h m] s] p]. destruct B as (V&E).
  split; auto. rewrite time_value; auto.
Qed.
