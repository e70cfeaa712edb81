(** Property C80: calendar times. *)
From Coq Require Import List ZArith Bool Lia.
From Verif Require Import TimeSpec TimeModel TimeProofs.
Import ListNotations.
Open Scope Z_scope.

(** ** C80: A calendar-time names the day and the time of day of its seconds, and the seconds of its date.

    [date] is the year, month and day an object shows, [shows c n s] says that it shows the day that is [n] days after
    January 1st, 1970, its weekday, and the time of day [s]. *)

(** From 1970 to the end of 2100 :init shows the right moment. *)
Theorem C80_init_partial : forall secs micro tz dl, 0 <= secs - tz < 47847 * 86400 ->
  exists c, calendar_init secs micro tz dl = Some c /\
    shows c (Z.to_nat ((secs - tz) / 86400)) ((secs - tz) mod 86400) /\
    total c = secs - tz /\ micros c = micro /\ timezone c = tz /\ dst c = dl.
Proof.
  intros secs micro tz dl [H H']. destruct (init_cases secs micro tz dl H) as [A _]. apply A.
  apply Z.div_lt_upper_bound; lia.
Qed.
Print Assumptions C80_init_partial.

(** The bound is exact, and it is the first day of 2101. *)
Theorem C80_init_bound_partial : forall secs micro tz dl, 0 <= secs - tz ->
  ((exists c, calendar_init secs micro tz dl = Some c /\ date c = day_after (Z.to_nat ((secs - tz) / 86400))) <->
   secs - tz < 47847 * 86400).
Proof.
  intros secs micro tz dl H. destruct (init_cases secs micro tz dl H) as [A B]. split.
  - intros (c & E & D). destruct (Z_lt_ge_dec (secs - tz) (47847 * 86400)) as [L|L]; [exact L|]. exfalso.
    destruct B as [B|(c' & E' & D')]; [apply Z.div_le_lower_bound; lia|congruence|]. congruence.
  - intros L. destruct A as (c & E & (D & _) & _); [apply Z.div_lt_upper_bound; lia|]. exists c. auto.
Qed.
Print Assumptions C80_init_bound_partial.

Example C80_bound_day : day_after (Z.to_nat 47847) = (2101, 1, 1).
Proof. symmetry. apply day_after_iff; [vm_compute; repeat split; discriminate|rewrite Z2Nat.id by lia; reflexivity]. Qed.

(** December 31st, 2100 is shown; the day after it is an error; the second before 1970 is shown as second -1. *)
Example C80_example_init : exists c, calendar_init (47846 * 86400 + 3661) 0 0 0 = Some c /\
  date c = (2100, 12, 31) /\ hours c = 1 /\ minutes c = 1 /\ seconds c = 1 /\ weekday c = 5.
Proof. eexists. split; [vm_compute; reflexivity|]. repeat split. Qed.

Theorem C80_init_refuted : exists secs, 0 <= secs /\ calendar_init secs 0 0 0 = None.
Proof. exists (47847 * 86400). split; [lia|vm_compute; reflexivity]. Qed.
Print Assumptions C80_init_refuted.

Theorem C80_negative_refuted : exists secs c, secs < 0 /\ calendar_init secs 0 0 0 = Some c /\
  date c = (1970, 1, 1) /\ seconds c = -1.
Proof. exists (-1). eexists. split; [lia|]. split; [vm_compute; reflexivity|]. split; reflexivity. Qed.
Print Assumptions C80_negative_refuted.

(** :make in year 1900 + [now]: the seconds are those of the date just when the date is before March or the current year
    is a leap year if and only if the year of the date is; the weekday is right just in February, when the current year
    is not a leap year. *)
Theorem C80_make_partial : forall now y m k h mi x u s n,
  0 <= now -> 1970 <= y <= 2100 -> valid (y, m, k) -> clock s h mi x -> day_after n = (y, m, k) ->
  exists c, calendar_make now y m k h mi x u = Some c /\ date c = (y, m, k) /\
    hours c = h /\ minutes c = mi /\ seconds c = x /\ micros c = u /\
    (total c = 86400 * Z.of_nat n + s <-> m <= 2 \/ (now mod 4 =? 0) = leap y) /\
    (weekday c = weekday_after n <-> m = 2 /\ now mod 4 <> 0).
Proof. exact make_exact. Qed.
Print Assumptions C80_make_partial.

(** The seconds :make computes lead :init back to the date. *)
Theorem C80_make_init_partial : forall now y m k h mi x u s,
  0 <= now -> 1970 <= y <= 2100 -> valid (y, m, k) -> clock s h mi x -> m <= 2 \/ (now mod 4 =? 0) = leap y ->
  exists c c', calendar_make now y m k h mi x u = Some c /\ calendar_init (total c) u 0 0 = Some c' /\
    date c' = (y, m, k) /\ hours c' = h /\ minutes c' = mi /\ seconds c' = x /\ total c' = total c /\
    micros c' = micros c.
Proof. exact make_init. Qed.
Print Assumptions C80_make_init_partial.

(** March 1st, 2024, made in 2026, has the seconds of February 29th and is shown as a Sunday; it is a Friday. *)
Theorem C80_make_refuted : exists now y m k c c', valid (y, m, k) /\ calendar_make now y m k 0 0 0 0 = Some c /\
  calendar_init (total c) 0 0 0 = Some c' /\ date c = (y, m, k) /\ date c' = (2024, 2, 29) /\
  (y, m, k) = (2024, 3, 1) /\ weekday c = 0 /\ weekday c' = 4.
Proof.
  exists 126, 2024, 3, 1. eexists _, _. split; [vm_compute; repeat split; discriminate|].
  split; [vm_compute; reflexivity|]. split; [vm_compute; reflexivity|]. repeat split.
Qed.
Print Assumptions C80_make_refuted.

Example C80_example_make : valid (2023, 3, 1) /\ clock 3661 1 1 1 /\ (126 mod 4 =? 0) = leap 2023.
Proof. split; [vm_compute; repeat split; discriminate|]. split; [unfold clock; lia|reflexivity]. Qed.

(** Adding and subtracting: the sum or difference counted in microseconds, shown as such. *)
Theorem C80_add_partial : forall c i, 0 <= micros c < 1000000 -> 0 <= i_micros i < 1000000 ->
  let w := (total c * 1000000 + micros c) + (i_total i * 1000000 + i_micros i) in
  0 <= w / 1000000 < 47847 * 86400 ->
  exists c', calendar_add c i = Some c' /\ total c' = w / 1000000 /\ micros c' = w mod 1000000 /\
    shows c' (Z.to_nat (w / 1000000 / 86400)) (w / 1000000 mod 86400).
Proof. exact add_ok. Qed.
Print Assumptions C80_add_partial.

Theorem C80_subtract_partial : forall c i, 0 <= micros c < 1000000 -> 0 <= i_micros i < 1000000 ->
  let w := (total c * 1000000 + micros c) - (i_total i * 1000000 + i_micros i) in
  0 <= w / 1000000 < 47847 * 86400 ->
  exists c', calendar_subtract c i = Some c' /\ total c' = w / 1000000 /\ micros c' = w mod 1000000 /\
    shows c' (Z.to_nat (w / 1000000 / 86400)) (w / 1000000 mod 86400).
Proof. exact subtract_ok. Qed.
Print Assumptions C80_subtract_partial.

(** 1.6 s less 0.9 s, with a borrow *)
Example C80_example_subtract : exists c c', calendar_init 951782401 600000 0 0 = Some c /\
  calendar_subtract c (interval_make 0 0 0 0 0 0 900000) = Some c' /\ date c = (2000, 2, 29) /\ seconds c = 1 /\
  date c' = (2000, 2, 29) /\ seconds c' = 0 /\ micros c' = 700000.
Proof. eexists _, _. split; [vm_compute; reflexivity|]. split; [vm_compute; reflexivity|]. repeat split. Qed.

(** :offset-day goes to midnight, [k] days later or earlier. *)
Theorem C80_offset_day_partial : forall now c n k, 0 <= now -> date c = day_after n -> 0 <= Z.of_nat n < 47847 ->
  months c <= 1 \/ (now mod 4 =? 0) = leap (years c) -> 0 <= Z.of_nat n + k < 47847 ->
  exists c', offset_day now c k = Some c' /\ shows c' (Z.to_nat (Z.of_nat n + k)) 0.
Proof. exact offset_ok. Qed.
Print Assumptions C80_offset_day_partial.

(** (send date :offset-day 0) in 2026 on March 1st, 2024 *)
Theorem C80_offset_day_refuted : exists now c c', date c = (2024, 3, 1) /\ weekday c = 5 /\
  calendar_init (total c) 0 0 0 = Some c /\ offset_day now c 0 = Some c' /\ date c' = (2024, 2, 29).
Proof.
  exists 126, (Calendar 1709251200 0 0 1 0 0 5 2 2024 0 0). eexists. split; [reflexivity|]. split; [reflexivity|].
  split; [vm_compute; reflexivity|]. split; [vm_compute; reflexivity|reflexivity].
Qed.
Print Assumptions C80_offset_day_refuted.

Example C80_example_offset : exists c c', calendar_init (19782 * 86400 + 5) 0 0 0 = Some c /\
  date c = (2024, 2, 29) /\ offset_day 124 c 1 = Some c' /\ date c' = (2024, 3, 1) /\ weekday c' = 5.
Proof. eexists _, _. split; [vm_compute; reflexivity|]. split; [reflexivity|].
  split; [vm_compute; reflexivity|]. split; reflexivity. Qed.

(** An interval is split into days, hours, minutes and seconds just when it is shorter than a day. *)
Theorem C80_interval_partial : forall day hour minute second micro,
  let i := interval_make 0 0 day hour minute second micro in
  let t := ((day * 24 + hour) * 60 + minute) * 60 + second in 0 <= t ->
  i_total i = t /\ i_micros i = micro /\
  ((i_days i = t / 86400 /\ clock (t mod 86400) (i_hours i) (i_minutes i) (i_seconds i)) <-> t < 86400).
Proof. exact interval_exact. Qed.
Print Assumptions C80_interval_partial.

Theorem C80_interval_refuted : exists i, i = interval_make 0 0 1 0 0 0 0 /\ i_days i = 0 /\ i_hours i = 24.
Proof. eexists. split; [reflexivity|]. split; reflexivity. Qed.
Print Assumptions C80_interval_refuted.

(** Two intervals can be neither added nor subtracted: :init of interval-time takes one argument and is given two. *)
Theorem C80_interval_sum_refuted : forall a b, interval_add a b = None /\ interval_subtract a b = None.
Proof. intros a b. unfold interval_add, interval_subtract, add_args, subtract_args.
  split; [reflexivity|]. destruct (_ <? 0); reflexivity. Qed.
Print Assumptions C80_interval_sum_refuted.
