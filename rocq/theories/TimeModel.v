(** Model of the calendar functions and of the classes interval-time and calendar-time (lib/llib/time.l:36-187, 300-396).

    Numbers are integers; [/] truncates and [mod] is the C remainder (arith.c:360-373, 800-830), both as in C99.  They
    are not bounded here: no intermediate value of :init is larger than its argument.  The vector month-days is a global
    whose element 1 every function sets before using the vector; the vector is therefore an argument here.  An index
    outside the vector, a call with too many arguments and NIL where a number is needed are errors, [None].  The year
    that unix:localtime reports, counted from 1900, is the argument [now].  Strings, readtables and printing (:string,
    parse-time-string, read-ISO-date and so on) are not modelled. *)
From Coq Require Import List ZArith Bool.
Import ListNotations.
Open Scope Z_scope.

(** time.l:38 *)
Definition day_seconds : Z := 24 * 3600.

(** time.l:39 after element 1 has been set *)
Definition month_days (feb : Z) : list Z := [31; feb; 31; 30; 31; 30; 31; 31; 30; 31; 30; 31].

(** time.l:59-61: the loop that adds the lengths of the months before [month] *)
Fixpoint add_months (md : list Z) (month : nat) (days : Z) : option Z :=
  match month with
  | O => Some days
  | S m => match nth_error md m with
           | Some k => add_months md m (days + k)
           | None => None
           end
  end.

(** time.l:52-62: year-day; [year] is the current year when it is not given *)
Definition year_day (month day year : Z) : option Z :=
  let md := month_days (if Z.rem year 4 =? 0 then 29 else 28) in
  match add_months md (Z.to_nat month) 0 with
  | Some days => Some (days + (day - 1))
  | None => None
  end.

(** time.l:66-71 *)
Definition leap_year_p (year : Z) : bool :=
  ((Z.rem year 4 =? 0) && negb (Z.rem year 100 =? 0)) || (Z.rem year 400 =? 0).

(** time.l:74-86: secs-since-1970 *)
Definition secs_since_1970 (now year month day hour minute second : Z) : option Z :=
  let year := if year >? 1900 then year - 1900 else year in
  let years := year - 70 in
  let leaps := Z.quot (years + 1) 4 in
  match year_day month day now with
  | Some days => Some (second + 60 * (minute + 60 * (hour + 24 * (years * 365 + leaps + days))))
  | None => None
  end.

(** time.l:89-102: month-index of an integer *)
Definition month_index (m : Z) : Z := m - 1.

(** time.l:122-127: the slots of interval-time *)
Record interval := Interval {
  i_total : Z; i_seconds : Z; i_micros : Z; i_days : Z; i_hours : Z; i_minutes : Z }.

(** time.l:134-147: interval-time :make *)
Definition interval_make (year month day hour minute second micro : Z) : interval :=
  let total := second + 60 * (minute + 60 * (hour + 24 * (day + 30 * (month + 12 * year)))) in
  let minutes := Z.quot total 60 in
  let seconds := total - minutes * 60 in
  let hours := Z.quot minutes 60 in
  let minutes := minutes - hours * 60 in
  let days := Z.quot hours 60 in
  let hours := Z.rem hours 60 in
  Interval total seconds micro days hours minutes.

(** time.l:133: interval-time :init has one parameter *)
Definition interval_init (args : list Z) : option interval :=
  match args with
  | [secs] => Some (interval_make 0 0 0 0 0 secs 0)
  | _ => None
  end.

(** time.l:174-178 and 179-186: the arguments :add and :subtract give to :init of the class of the receiver *)
Definition add_args (t1 u1 t2 u2 : Z) : list Z :=
  let raw := u1 + u2 in [t1 + t2 + Z.quot raw 1000000; Z.rem raw 1000000].

Definition subtract_args (t1 u1 t2 u2 : Z) : list Z :=
  let raw := u1 - u2 in
  let rawt := t1 - t2 in
  if raw <? 0 then [rawt - (1 + Z.quot raw (-1000000)); 1000000 + Z.rem raw 1000000] else [rawt; raw].

Definition interval_add (a b : interval) : option interval :=
  interval_init (add_args (i_total a) (i_micros a) (i_total b) (i_micros b)).
Definition interval_subtract (a b : interval) : option interval :=
  interval_init (subtract_args (i_total a) (i_micros a) (i_total b) (i_micros b)).

(** time.l:300-302: the slots of calendar-time; months counts from 0, days from 1 *)
Record calendar := Calendar {
  total : Z; seconds : Z; micros : Z; days : Z; hours : Z; minutes : Z;
  weekday : Z; months : Z; years : Z; timezone : Z; dst : Z }.

(** time.l:342-344: the loop over the months *)
Fixpoint find_month (md : list Z) (days months : Z) : option (Z * Z) :=
  match md with
  | [] => None
  | k :: r => if days >? k then find_month r (days - k) (months + 1) else Some (days, months)
  end.

(** time.l:331-333: one of the [when]s *)
Definition drop_year (len : Z) (p : Z * Z) : Z * Z :=
  if fst p >=? len then (fst p - len, snd p + 1) else p.

(** time.l:307-347: calendar-time :init *)
Definition calendar_init (secs micro tzone daylight : Z) : option calendar :=
  let secs := secs - tzone in
  let days := Z.quot secs day_seconds in
  let seconds := secs - days * day_seconds in
  let hours := Z.quot seconds 3600 in
  let weekday := Z.rem (days + 4) 7 in
  let leaps := Z.quot days (365 + 365 + 365 + 366) in
  let years := 4 * leaps in
  let days := days - leaps * (365 + 365 + 365 + 366) in
  let '(days, years) := drop_year 366 (drop_year 365 (drop_year 365 (days, years))) in
  let seconds := seconds - hours * 3600 in
  let minutes := Z.quot seconds 60 in
  let seconds := seconds - minutes * 60 in
  let years := years + 1970 in
  let md := month_days (if leap_year_p years then 29 else 28) in
  match find_month md (days + 1) 0 with
  | Some (days, months) =>
      Some (Calendar secs seconds micro days hours minutes weekday months years tzone daylight)
  | None => None
  end.

(** time.l:307: the optional arguments of :init *)
Definition calendar_init_args (args : list Z) : option calendar :=
  match args with
  | [] => calendar_init 0 0 0 0
  | [s] => calendar_init s 0 0 0
  | [s; u] => calendar_init s u 0 0
  | [s; u; z] => calendar_init s u z 0
  | [s; u; z; d] => calendar_init s u z d
  | _ => None
  end.

(** time.l:388-396: :compute-seconds of the slots *)
Definition compute_seconds (now years months days hours minutes seconds : Z) : option Z :=
  let leaps := Z.quot (years - 1970 + 1) 4 in
  match year_day months days now with
  | Some days => Some (seconds + 60 * (minutes + 60 * (hours + 24 * ((years - 1970) * 365 + leaps + days))))
  | None => None
  end.

(** time.l:348-365: calendar-time :make of a new object, whose slot weekday is NIL; the month is an integer.  The slots
    timezone and dst stay NIL, which is 0 here. *)
Definition calendar_make (now year month day hour minute second micro : Z) : option calendar :=
  match compute_seconds now year (month_index month) day hour minute second,
        secs_since_1970 now year month day hour minute second with
  | Some t, Some secs =>
      let wd := Z.rem (4 + Z.quot secs day_seconds) 7 in
      Some (Calendar t second micro day hour minute wd (month_index month) year 0 0)
  | _, _ => None
  end.

(** time.l:174-178 inherited: the receiver is a calendar-time, the argument anything with a total and micros *)
Definition calendar_add (c : calendar) (i : interval) : option calendar :=
  calendar_init_args (add_args (total c) (micros c) (i_total i) (i_micros i)).
Definition calendar_subtract (c : calendar) (i : interval) : option calendar :=
  calendar_init_args (subtract_args (total c) (micros c) (i_total i) (i_micros i)).

(** time.l:379-381 *)
Definition midnight (now : Z) (c : calendar) : option calendar :=
  calendar_make now (years c) (months c + 1) (days c) 0 0 0 0.

(** time.l:382-384 *)
Definition offset_day (now : Z) (c : calendar) (offset : Z) : option calendar :=
  match midnight now c with
  | Some m => calendar_add m (interval_make 0 0 offset 0 0 0 0)
  | None => None
  end.
