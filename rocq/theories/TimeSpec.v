(** The Gregorian calendar, written without reference to the code: the days are counted one by one from Thursday,
    January 1st, 1970. *)
From Coq Require Import ZArith Bool.
Open Scope Z_scope.

(** a day: year, month from 1, day of the month from 1 *)
Definition day : Type := (Z * Z * Z)%type.

Definition leap (y : Z) : bool := ((y mod 4 =? 0) && negb (y mod 100 =? 0)) || (y mod 400 =? 0).

Definition month_length (y m : Z) : Z :=
  if m =? 2 then if leap y then 29 else 28
  else if (m =? 4) || (m =? 6) || (m =? 9) || (m =? 11) then 30 else 31.

Definition valid (d : day) : Prop :=
  let '(y, m, k) := d in 1 <= m <= 12 /\ 1 <= k <= month_length y m.

Definition next_day (d : day) : day :=
  let '(y, m, k) := d in
  if k <? month_length y m then (y, m, k + 1) else if m <? 12 then (y, m + 1, 1) else (y + 1, 1, 1).

(** the day that is [n] days after January 1st, 1970 *)
Definition day_after (n : nat) : day := Nat.iter n next_day (1970, 1, 1).

(** 0 is Sunday *)
Definition next_weekday (w : Z) : Z := if w =? 6 then 0 else w + 1.
Definition weekday_after (n : nat) : Z := Nat.iter n next_weekday 4.

(** seconds split into hours, minutes and seconds of a day *)
Definition clock (s h m x : Z) : Prop := 0 <= h < 24 /\ 0 <= m < 60 /\ 0 <= x < 60 /\ s = (h * 60 + m) * 60 + x.
