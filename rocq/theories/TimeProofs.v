(** Proofs about the calendar functions. *)
From Coq Require Import List ZArith Bool Lia.
From Verif Require Import TimeSpec TimeModel.
Import ListNotations.
Open Scope Z_scope.

(** ** The number of a day *)

(** days before year [y], before month [m] of a year, both from 1970 on *)
Definition year_start (y : Z) : Z :=
  365 * (y - 1970) + ((y - 1) / 4 - (y - 1) / 100 + (y - 1) / 400) - 477.

Definition month_start (l : bool) (m : Z) : Z :=
  (if m =? 1 then 0 else if m =? 2 then 31 else if m =? 3 then 59 else if m =? 4 then 90 else if m =? 5 then 120
   else if m =? 6 then 151 else if m =? 7 then 181 else if m =? 8 then 212 else if m =? 9 then 243
   else if m =? 10 then 273 else if m =? 11 then 304 else 334) + (if (m >? 2) && l then 1 else 0).

Definition dayno (d : day) : Z := let '(y, m, k) := d in year_start y + month_start (leap y) m + k - 1.

Definition year_length (y : Z) : Z := if leap y then 366 else 365.

Lemma leap_cases : forall y,
  (leap y = true /\ y mod 4 = 0 /\ (y mod 100 <> 0 \/ y mod 400 = 0)) \/
  (leap y = false /\ (y mod 4 <> 0 \/ (y mod 100 = 0 /\ y mod 400 <> 0))).
Proof.
  intros y. unfold leap. destruct (y mod 4 =? 0) eqn:A, (y mod 100 =? 0) eqn:B, (y mod 400 =? 0) eqn:C; cbn;
    repeat match goal with H : (_ =? _) = true |- _ => apply Z.eqb_eq in H | H : (_ =? _) = false |- _ => apply Z.eqb_neq in H end;
    try (left; repeat split; try assumption; auto; fail); try (right; repeat split; auto; fail).
  - left. repeat split; auto. Z.div_mod_to_equations; lia.
  - left. repeat split; auto. Z.div_mod_to_equations; lia.
Qed.

Lemma year_start_next : forall y, year_start (y + 1) = year_start y + year_length y.
Proof.
  intros y. unfold year_start, year_length. replace (y + 1 - 1) with y by lia.
  destruct (leap_cases y) as [(-> & A & B)|(-> & A)].
  - destruct (Z.eq_dec (y mod 400) 0).
    + Z.div_mod_to_equations; lia.
    + Z.div_mod_to_equations; lia.
  - Z.div_mod_to_equations; lia.
Qed.

Lemma month_cases : forall m, 1 <= m <= 12 ->
  m = 1 \/ m = 2 \/ m = 3 \/ m = 4 \/ m = 5 \/ m = 6 \/ m = 7 \/ m = 8 \/ m = 9 \/ m = 10 \/ m = 11 \/ m = 12.
Proof. intros; lia. Qed.

Ltac months H := apply month_cases in H; repeat destruct H as [->|H]; try subst.

Lemma month_start_next : forall y m, 1 <= m <= 11 ->
  month_start (leap y) (m + 1) = month_start (leap y) m + month_length y m.
Proof.
  intros y m H. assert (H' : 1 <= m <= 12) by lia. unfold month_length.
  months H'; destruct (leap y); try reflexivity; lia.
Qed.

Lemma month_start_last : forall y, month_start (leap y) 12 + month_length y 12 = year_length y.
Proof. intros y. unfold month_length, year_length. destruct (leap y); reflexivity. Qed.

Lemma month_length_pos : forall y m, 28 <= month_length y m <= 31.
Proof.
  intros y m. unfold month_length. destruct (m =? 2); [destruct (leap y); lia|]. destruct (_ || _); lia.
Qed.

Lemma next_valid : forall d, valid d -> valid (next_day d).
Proof.
  intros [[y m] k] [A B]. unfold next_day. destruct (k <? month_length y m) eqn:E.
  - apply Z.ltb_lt in E. cbn [valid]. lia.
  - destruct (m <? 12) eqn:F.
    + apply Z.ltb_lt in F. cbn [valid]. pose proof (month_length_pos y (m + 1)). lia.
    + cbn [valid]. pose proof (month_length_pos (y + 1) 1). lia.
Qed.

Lemma next_dayno : forall d, valid d -> dayno (next_day d) = dayno d + 1.
Proof.
  intros [[y m] k] [A B]. unfold next_day. destruct (k <? month_length y m) eqn:E.
  - cbn [dayno]. lia.
  - apply Z.ltb_ge in E. assert (k = month_length y m) by lia. destruct (m <? 12) eqn:F; cbn [dayno].
    + apply Z.ltb_lt in F. rewrite month_start_next by lia. lia.
    + apply Z.ltb_ge in F. assert (m = 12) by lia. subst m. rewrite year_start_next.
      pose proof (month_start_last y). replace (month_start (leap (y + 1)) 1) with 0 by reflexivity. lia.
Qed.

Lemma day_after_valid : forall n, valid (day_after n) /\ dayno (day_after n) = Z.of_nat n.
Proof.
  unfold day_after. induction n as [|n [IH1 IH2]].
  - split; [cbn; vm_compute; repeat split; discriminate|reflexivity].
  - cbn [Nat.iter nat_rect]. change (nat_rect _ _ _ n) with (Nat.iter n next_day (1970, 1, 1)).
    split; [apply next_valid; exact IH1|]. rewrite next_dayno by exact IH1. rewrite IH2. lia.
Qed.

Lemma year_start_mono : forall y y', y < y' -> year_start y + year_length y <= year_start y'.
Proof.
  intros y y' H. rewrite <- year_start_next.
  assert (G : forall k, 0 <= k -> year_start (y + 1) <= year_start (y + 1 + k)).
  { apply natlike_ind.
    - rewrite Z.add_0_r. lia.
    - intros k K IH. replace (y + 1 + Z.succ k) with (y + 1 + k + 1) by lia. rewrite (year_start_next (y + 1 + k)).
      unfold year_length. destruct (leap _); lia. }
  specialize (G (y' - (y + 1))). replace (y + 1 + (y' - (y + 1))) with y' in G by lia. apply G. lia.
Qed.

Lemma month_start_bounds : forall y m k, 1 <= m <= 12 -> 1 <= k <= month_length y m ->
  0 <= month_start (leap y) m + k - 1 < year_length y.
Proof.
  intros y m k A. unfold month_start, month_length, year_length. months A; destruct (leap y); cbn -[Z.add Z.sub Z.le Z.lt]; lia.
Qed.

Lemma month_start_mono : forall y m m', 1 <= m -> m < m' -> m' <= 12 ->
  month_start (leap y) m + month_length y m <= month_start (leap y) m'.
Proof.
  intros y m m' A B C. assert (D : 1 <= m <= 12) by lia. assert (E : 1 <= m' <= 12) by lia.
  unfold month_start, month_length. destruct (leap y); months D; months E; cbn -[Z.add Z.sub Z.le Z.lt]; lia.
Qed.

Lemma dayno_inj : forall d d', valid d -> valid d' -> dayno d = dayno d' -> d = d'.
Proof.
  intros [[y m] k] [[y' m'] k'] [A B] [A' B'] H. cbn [dayno] in H.
  pose proof (month_start_bounds y m k A B). pose proof (month_start_bounds y' m' k' A' B').
  assert (y = y').
  { destruct (Z.lt_trichotomy y y') as [L|[L|L]]; [|exact L|]; apply year_start_mono in L; lia. }
  subst y'. assert (m = m').
  { destruct (Z.lt_trichotomy m m') as [L|[L|L]]; [|exact L|].
    - pose proof (month_start_mono y m m'). lia.
    - pose proof (month_start_mono y m' m). lia. }
  subst m'. f_equal. lia.
Qed.

Lemma day_after_iff : forall n d, valid d -> (d = day_after n <-> dayno d = Z.of_nat n).
Proof.
  intros n d V. destruct (day_after_valid n) as [W E]. split.
  - intros ->. exact E.
  - intros H. apply dayno_inj; [exact V|exact W|congruence].
Qed.

Lemma weekday_after_eq : forall n, weekday_after n = (Z.of_nat n + 4) mod 7.
Proof.
  unfold weekday_after. induction n as [|n IH]; [reflexivity|].
  cbn [Nat.iter nat_rect]. change (nat_rect _ _ _ n) with (Nat.iter n next_weekday 4). rewrite IH.
  unfold next_weekday. destruct (_ =? 6) eqn:E; [apply Z.eqb_eq in E|apply Z.eqb_neq in E];
    replace (Z.of_nat (S n)) with (Z.of_nat n + 1) by lia; Z.div_mod_to_equations; lia.
Qed.

(** ** The code *)

Lemma leap_year_p_eq : forall y, 0 <= y -> leap_year_p y = leap y.
Proof. intros y H. unfold leap_year_p, leap. rewrite !Z.rem_mod_nonneg by lia. reflexivity. Qed.

Lemma year_start_julian : forall y, 1970 <= y <= 2100 -> year_start y = 365 * (y - 1970) + (y - 1969) / 4.
Proof. intros y H. unfold year_start. Z.div_mod_to_equations; lia. Qed.

Lemma year_start_late : forall y, 2101 <= y -> year_start y < 365 * (y - 1970) + (y - 1969) / 4.
Proof. intros y H. unfold year_start. Z.div_mod_to_equations; lia. Qed.

(** time.l:326-333: the year and the day of the year *)
Lemma drop_years : forall d d' y', 0 <= d ->
  drop_year 366 (drop_year 365 (drop_year 365 (d - Z.quot d (365 + 365 + 365 + 366) * (365 + 365 + 365 + 366),
    4 * Z.quot d (365 + 365 + 365 + 366)))) = (d', y') ->
  0 <= y' /\ d = 365 * y' + (y' + 1) / 4 + d' /\ 0 <= d' < (if (y' + 2) mod 4 =? 0 then 366 else 365).
Proof.
  intros d d' y' H E. change (365 + 365 + 365 + 366) with 1461 in *.
  rewrite Z.quot_div_nonneg in E by lia.
  set (q := d / 1461) in *. assert (Q : 1461 * q <= d < 1461 * q + 1461) by (unfold q; Z.div_mod_to_equations; lia).
  assert (0 <= q) by lia. clearbody q. remember (d - q * 1461) as r. assert (R : 0 <= r < 1461) by lia.
  unfold drop_year in E. cbn [fst snd] in E.
  destruct (r >=? 365) eqn:A; cbn [fst snd] in E.
  2: { rewrite A in E. cbn [fst snd] in E. destruct (r >=? 366) eqn:C; [lia|].
       apply pair_equal_spec in E as [<- <-]. replace ((4 * q + 2) mod 4) with 2 by (Z.div_mod_to_equations; lia).
       cbn [Z.eqb Pos.eqb].
       split; [lia|]. split; [|lia]. Z.div_mod_to_equations; lia. }
  destruct (r - 365 >=? 365) eqn:B; cbn [fst snd] in E.
  2: { destruct (r - 365 >=? 366) eqn:C; [lia|]. apply pair_equal_spec in E as [<- <-].
       replace ((4 * q + 1 + 2) mod 4) with 3 by (Z.div_mod_to_equations; lia).
       cbn [Z.eqb Pos.eqb]. split; [lia|]. split; [|lia]. Z.div_mod_to_equations; lia. }
  destruct (r - 365 - 365 >=? 366) eqn:C; apply pair_equal_spec in E as [<- <-].
  - replace ((4 * q + 1 + 1 + 1 + 2) mod 4) with 1 by (Z.div_mod_to_equations; lia).
    cbn [Z.eqb Pos.eqb]. split; [lia|]. split; [|lia]. Z.div_mod_to_equations; lia.
  - replace ((4 * q + 1 + 1 + 2) mod 4) with 0 by (Z.div_mod_to_equations; lia).
    cbn [Z.eqb Pos.eqb]. split; [lia|]. split; [|lia]. Z.div_mod_to_equations; lia.
Qed.

Ltac addnum := repeat match goal with |- context [?a + 1] =>
  let v := eval vm_compute in (a + 1) in match v with Zpos _ => change (a + 1) with v end end.

(** time.l:342-344 *)
Lemma find_month_ok : forall y d, 1 <= d <= year_length y ->
  exists k m, find_month (month_days (if leap y then 29 else 28)) d 0 = Some (k, m) /\
    valid (y, m + 1, k) /\ month_start (leap y) (m + 1) + k = d.
Proof.
  intros y d H. unfold year_length in H. unfold valid, month_start, month_length, month_days.
  destruct (leap y); cbn [find_month];
  repeat (match goal with |- context [if ?a >? ?b then _ else _] => destruct (a >? b) eqn:? end;
    [|eexists _, _; split; [reflexivity|]; addnum; cbn -[Z.add Z.sub Z.le Z.lt]; lia]); lia.
Qed.

Lemma find_month_none : forall y d, year_length y < d ->
  find_month (month_days (if leap y then 29 else 28)) d 0 = None.
Proof.
  intros y d H. unfold year_length in H. unfold month_days.
  destruct (leap y); cbn [find_month];
  repeat (match goal with |- context [if ?a >? ?b then _ else _] => destruct (a >? b) eqn:? end; [|lia]); reflexivity.
Qed.

(** the day an object shows *)
Definition date (c : calendar) : day := (years c, months c + 1, days c).

Definition shows (c : calendar) (n : nat) (s : Z) : Prop :=
  date c = day_after n /\ clock s (hours c) (minutes c) (seconds c) /\ weekday c = weekday_after n.

(** 47847 days: up to the end of the year 2100 *)
Lemma init_cases : forall secs micro tz dl, 0 <= secs - tz ->
  let n := (secs - tz) / 86400 in
  (n < 47847 ->
   exists c, calendar_init secs micro tz dl = Some c /\ shows c (Z.to_nat n) ((secs - tz) mod 86400) /\
     total c = secs - tz /\ micros c = micro /\ timezone c = tz /\ dst c = dl) /\
  (47847 <= n ->
   calendar_init secs micro tz dl = None \/
   exists c, calendar_init secs micro tz dl = Some c /\ date c <> day_after (Z.to_nat n)).
Proof.
  intros secs micro tz dl H n. unfold calendar_init. change day_seconds with 86400.
  remember (secs - tz) as s eqn:Es. rewrite (Z.quot_div_nonneg s 86400) by lia. fold n.
  assert (N : 0 <= n) by (unfold n; apply Z.div_pos; lia).
  destruct (drop_year 366 _) as [d y] eqn:E. apply drop_years in E; [|exact N]. destruct E as (Y & E & D).
  rewrite leap_year_p_eq by lia.
  assert (W : Z.rem (n + 4) 7 = weekday_after (Z.to_nat n)).
  { rewrite weekday_after_eq, Z2Nat.id by exact N. rewrite Z.rem_mod_nonneg by lia. reflexivity. }
  assert (M : s - n * 86400 = s mod 86400) by (unfold n; Z.div_mod_to_equations; lia).
  rewrite M. assert (B : 0 <= s mod 86400 < 86400) by (apply Z.mod_pos_bound; lia).
  remember (s mod 86400) as x. clear Heqx M.
  assert (K : clock x (Z.quot x 3600) (Z.quot (x - Z.quot x 3600 * 3600) 60)
                (x - Z.quot x 3600 * 3600 - Z.quot (x - Z.quot x 3600 * 3600) 60 * 60)).
  { rewrite (Z.quot_div_nonneg x 3600) by lia. set (h := x / 3600).
    assert (3600 * h <= x < 3600 * h + 3600) by (unfold h; Z.div_mod_to_equations; lia).
    rewrite Z.quot_div_nonneg by lia. set (m := (x - h * 3600) / 60).
    assert (60 * m <= x - h * 3600 < 60 * m + 60) by (unfold m; Z.div_mod_to_equations; lia).
    unfold clock. lia. }
  assert (Q : (y + 1970) mod 4 = (y + 2) mod 4) by (Z.div_mod_to_equations; lia).
  assert (L : year_length (y + 1970) = 366 -> (y + 2) mod 4 = 0).
  { unfold year_length. destruct (leap_cases (y + 1970)) as [(-> & A & _)|(-> & _)]; [congruence|discriminate]. }
  assert (L' : y <= 129 -> d < year_length (y + 1970)).
  { intros Y'. unfold year_length. destruct (leap_cases (y + 1970)) as [(-> & _)|(-> & A)].
    - destruct (_ =? 0); lia.
    - destruct A as [A|[A A']].
      + destruct (_ =? 0) eqn:F; [apply Z.eqb_eq in F; lia|lia].
      + exfalso. Z.div_mod_to_equations; lia. }
  split.
  - intros Hn.
    assert (R : 1 <= d + 1 <= year_length (y + 1970)).
    { destruct (Z_le_gt_dec y 129) as [G|G]; [specialize (L' G); lia|].
      assert (y = 130) by (Z.div_mod_to_equations; lia). subst y. change (year_length (130 + 1970)) with 365.
      change ((130 + 1) / 4) with 32 in E. lia. }
    destruct (find_month_ok (y + 1970) (d + 1) R) as (k & m & F & V & S'). rewrite F.
    eexists. split; [reflexivity|]. unfold shows, date.
    cbn [years months days hours minutes seconds weekday total micros timezone dst].
    split; [|auto]. split; [|split; [exact K|exact W]].
    apply day_after_iff; [exact V|]. cbn [dayno]. rewrite Z2Nat.id by exact N.
    rewrite year_start_julian by (Z.div_mod_to_equations; lia).
    replace (y + 1970 - 1969) with (y + 1) by lia. lia.
  - intros Hn. destruct (Z_lt_ge_dec d (year_length (y + 1970))) as [G|G].
    + right. assert (R : 1 <= d + 1 <= year_length (y + 1970)) by lia.
      destruct (find_month_ok (y + 1970) (d + 1) R) as (k & m & F & V & S'). rewrite F.
      eexists. split; [reflexivity|]. unfold date. cbn [years months days]. intros C.
      apply day_after_iff in C; [|exact V]. cbn [dayno] in C. rewrite Z2Nat.id in C by exact N.
      assert (2101 <= y + 1970).
      { destruct (Z_le_gt_dec y 129) as [U|U]; [destruct (_ =? 0); Z.div_mod_to_equations; lia|].
        destruct (Z.eq_dec y 130) as [->|]; [|lia].
        change (year_length (130 + 1970)) with 365 in G. change ((130 + 1) / 4) with 32 in E. lia. }
      pose proof (year_start_late (y + 1970) H0) as P. replace (y + 1970 - 1969) with (y + 1) in P by lia. lia.
    + left. rewrite find_month_none by lia. reflexivity.
Qed.

(** ** :make *)

(** length of a month in a year whose leapness is [l] *)
Definition mlen (l : bool) (m : Z) : Z :=
  if m =? 2 then if l then 29 else 28 else if (m =? 4) || (m =? 6) || (m =? 9) || (m =? 11) then 30 else 31.

Lemma year_day_eq : forall now m k, 0 <= now -> 1 <= m <= 12 ->
  year_day (m - 1) k now = Some (month_start (now mod 4 =? 0) m + k - 1).
Proof.
  intros now m k N M. unfold year_day, month_start, month_days. rewrite Z.rem_mod_nonneg by lia.
  months M; destruct (now mod 4 =? 0);
    (match goal with |- context [Z.to_nat ?e] => let v := eval vm_compute in (Z.to_nat e) in change (Z.to_nat e) with v end);
    cbn -[Z.add Z.sub]; f_equal; lia.
Qed.

Lemma year_day_next : forall now m k, 0 <= now -> 1 <= m <= 12 ->
  year_day m k now = Some (month_start (now mod 4 =? 0) m + mlen (now mod 4 =? 0) m + k - 1).
Proof.
  intros now m k N M. unfold year_day, month_start, mlen, month_days. rewrite Z.rem_mod_nonneg by lia.
  months M; destruct (now mod 4 =? 0);
    (match goal with |- context [Z.to_nat ?e] => let v := eval vm_compute in (Z.to_nat e) in change (Z.to_nat e) with v end);
    cbn -[Z.add Z.sub]; f_equal; lia.
Qed.

Lemma make_eq : forall now y m k h mi x u s, 0 <= now -> 1970 <= y <= 2100 -> valid (y, m, k) -> clock s h mi x ->
  let nl := now mod 4 =? 0 in
  exists c, calendar_make now y m k h mi x u = Some c /\ date c = (y, m, k) /\
    hours c = h /\ minutes c = mi /\ seconds c = x /\ micros c = u /\
    total c = 86400 * (year_start y + month_start nl m + k - 1) + s /\
    weekday c = (4 + (year_start y + month_start nl m + mlen nl m + k - 1)) mod 7.
Proof.
  intros now y m k h mi x u s N Y [M K] C nl. destruct C as (Ch & Cm & Cx & Cs).
  unfold calendar_make, compute_seconds, secs_since_1970, month_index.
  rewrite year_day_eq, year_day_next by assumption. fold nl.
  assert (E : (y >? 1900) = true) by lia. rewrite E.
  replace (y - 1900 - 70) with (y - 1970) by lia.
  rewrite (Z.quot_div_nonneg (y - 1970 + 1) 4) by lia. replace (y - 1970 + 1) with (y - 1969) by lia.
  rewrite year_start_julian by exact Y.
  pose proof (month_start_bounds y m k M K) as B.
  assert (P : 0 <= month_start nl m) by (unfold month_start; months M; destruct nl; cbn; lia).
  assert (P' : 0 <= mlen nl m) by (unfold mlen; destruct (m =? 2), nl; cbn; try lia; destruct (_ || _); lia).
  set (a := month_start nl m) in *. set (b := mlen nl m) in *. set (q := (y - 1969) / 4).
  assert (0 <= q) by (unfold q; apply Z.div_pos; lia).
  eexists. split; [reflexivity|]. unfold date.
  cbn [years months days hours minutes seconds weekday total micros].
  split; [f_equal; f_equal; lia|]. repeat (split; [reflexivity|]).
  split; [lia|]. change day_seconds with 86400.
  replace (x + 60 * (mi + 60 * (h + 24 * ((y - 1970) * 365 + q + (a + b + k - 1))))) with
    (s + (365 * (y - 1970) + q + a + b + k - 1) * 86400) by lia.
  rewrite Z.quot_div_nonneg by lia. rewrite Z.div_add by lia. rewrite Z.div_small by lia.
  rewrite Z.rem_mod_nonneg by lia. f_equal; lia.
Qed.

Lemma month_start_leaps : forall l l' m, 1 <= m <= 12 ->
  month_start l m - month_start l' m = if (m >? 2) then (if l then 1 else 0) - (if l' then 1 else 0) else 0.
Proof. intros l l' m M. unfold month_start. months M; destruct l, l'; reflexivity. Qed.

Lemma make_exact : forall now y m k h mi x u s n,
  0 <= now -> 1970 <= y <= 2100 -> valid (y, m, k) -> clock s h mi x -> day_after n = (y, m, k) ->
  exists c, calendar_make now y m k h mi x u = Some c /\ date c = (y, m, k) /\
    hours c = h /\ minutes c = mi /\ seconds c = x /\ micros c = u /\
    (total c = 86400 * Z.of_nat n + s <-> m <= 2 \/ (now mod 4 =? 0) = leap y) /\
    (weekday c = weekday_after n <-> m = 2 /\ now mod 4 <> 0).
Proof.
  intros now y m k h mi x u s n N Y V C D.
  destruct (make_eq now y m k h mi x u s N Y V C) as (c & E & E1 & E2 & E3 & E4 & E5 & E6 & E7).
  exists c. repeat (split; [assumption|]). symmetry in D. apply day_after_iff in D; [|exact V]. cbn [dayno] in D.
  destruct V as [M K]. pose proof (month_start_leaps (now mod 4 =? 0) (leap y) m M) as L.
  rewrite E6, E7, weekday_after_eq, <- D. clear - L M. set (z := year_start y). split.
  - destruct (m >? 2) eqn:G; [|split; [lia|]; lia].
    destruct (now mod 4 =? 0), (leap y); (split; [intros; try (right; reflexivity); lia|]);
      (intros [H|H]; [lia|]); try discriminate; lia.
  - replace (4 + (z + month_start (now mod 4 =? 0) m + mlen (now mod 4 =? 0) m + k - 1)) with
      (z + month_start (leap y) m + k - 1 + 4 +
        (mlen (now mod 4 =? 0) m + (month_start (now mod 4 =? 0) m - month_start (leap y) m))) by lia.
    rewrite L. set (w := z + month_start (leap y) m + k - 1 + 4). clearbody w. clear L.
    set (e := mlen _ _ + _).
    assert (X : (w + e) mod 7 = w mod 7 <-> e mod 7 = 0) by (Z.div_mod_to_equations; lia).
    rewrite X. clear X. unfold e. destruct (now mod 4 =? 0) eqn:A; [apply Z.eqb_eq in A|apply Z.eqb_neq in A];
      months M; destruct (leap y); vm_compute (Z.modulo _ 7);
      (split; [intros H; first [discriminate H|split; [reflexivity|assumption]]|intros [? ?]; try reflexivity; try lia]).
Qed.

(** the object :make builds and the object :init builds for the same moment *)
Lemma make_init : forall now y m k h mi x u s,
  0 <= now -> 1970 <= y <= 2100 -> valid (y, m, k) -> clock s h mi x -> m <= 2 \/ (now mod 4 =? 0) = leap y ->
  exists c c', calendar_make now y m k h mi x u = Some c /\ calendar_init (total c) u 0 0 = Some c' /\
    date c' = (y, m, k) /\ hours c' = h /\ minutes c' = mi /\ seconds c' = x /\ total c' = total c /\
    micros c' = micros c.
Proof.
  intros now y m k h mi x u s N Y V C A.
  destruct (make_eq now y m k h mi x u s N Y V C) as (c & E & E1 & E2 & E3 & E4 & E5 & E6 & E7).
  assert (D : total c = 86400 * dayno (y, m, k) + s).
  { rewrite E6. cbn [dayno]. destruct V as [M K].
    pose proof (month_start_leaps (now mod 4 =? 0) (leap y) m M) as L.
    destruct A as [A|A]; [destruct (m >? 2) eqn:G; lia|rewrite A; lia]. }
  pose proof V as V'. destruct V' as [M K]. pose proof (month_start_bounds y m k M K) as B. pose proof C as C'.
  destruct C' as (Ch & Cm & Cx & Cs).
  assert (Z0 : 0 <= dayno (y, m, k) < 47847).
  { cbn [dayno]. rewrite year_start_julian by exact Y. destruct (Z.eq_dec y 2100) as [->|].
    - change (year_length 2100) with 365 in B. change ((2100 - 1969) / 4) with 32. lia.
    - unfold year_length in B. destruct (leap y); Z.div_mod_to_equations; lia. }
  assert (N1 : (total c - 0) / 86400 = dayno (y, m, k)).
  { rewrite D. symmetry. apply Z.div_unique with s; lia. }
  assert (N2 : (total c - 0) mod 86400 = s).
  { rewrite D. symmetry. apply Z.mod_unique with (dayno (y, m, k)); lia. }
  destruct (init_cases (total c) u 0 0) as [H _]; [lia|]. rewrite N1, N2 in H.
  destruct (H (proj2 Z0)) as (c' & F & (S1 & S2 & S3) & T1 & T2 & _).
  exists c, c'. split; [exact E|]. split; [exact F|].
  assert (X : (y, m, k) = day_after (Z.to_nat (dayno (y, m, k)))).
  { apply day_after_iff; [exact V|]. rewrite Z2Nat.id by lia. reflexivity. }
  rewrite <- X in S1. split; [exact S1|]. destruct S2 as (H1 & H2 & H3 & H4). repeat split; try lia.
Qed.

(** ** Adding and subtracting *)

Lemma add_args_ok : forall t1 u1 t2 u2, 0 <= u1 < 1000000 -> 0 <= u2 < 1000000 ->
  exists t u, add_args t1 u1 t2 u2 = [t; u] /\ 0 <= u < 1000000 /\
    t * 1000000 + u = (t1 * 1000000 + u1) + (t2 * 1000000 + u2).
Proof.
  intros t1 u1 t2 u2 A B. unfold add_args. eexists _, _. split; [reflexivity|].
  rewrite Z.quot_div_nonneg, Z.rem_mod_nonneg by lia. Z.div_mod_to_equations; lia.
Qed.

Lemma subtract_args_ok : forall t1 u1 t2 u2, 0 <= u1 < 1000000 -> 0 <= u2 < 1000000 ->
  exists t u, subtract_args t1 u1 t2 u2 = [t; u] /\ 0 <= u < 1000000 /\
    t * 1000000 + u = (t1 * 1000000 + u1) - (t2 * 1000000 + u2).
Proof.
  intros t1 u1 t2 u2 A B. unfold subtract_args. destruct (u1 - u2 <? 0) eqn:E; eexists _, _.
  - split; [reflexivity|]. apply Z.ltb_lt in E.
    assert (Q : Z.quot (u1 - u2) (-1000000) = 0).
    { replace (u1 - u2) with (- (u2 - u1)) by lia. change (-1000000) with (- (1000000)).
      rewrite Z.quot_opp_opp by lia. apply Z.quot_small. lia. }
    assert (R : Z.rem (u1 - u2) 1000000 = u1 - u2).
    { replace (u1 - u2) with (- (u2 - u1)) by lia. rewrite Z.rem_opp_l by lia. rewrite Z.rem_small by lia. reflexivity. }
    rewrite Q, R. lia.
  - split; [reflexivity|]. apply Z.ltb_ge in E. lia.
Qed.

Lemma add_ok : forall c i, 0 <= micros c < 1000000 -> 0 <= i_micros i < 1000000 ->
  let w := (total c * 1000000 + micros c) + (i_total i * 1000000 + i_micros i) in
  0 <= w / 1000000 < 47847 * 86400 ->
  exists c', calendar_add c i = Some c' /\ total c' = w / 1000000 /\ micros c' = w mod 1000000 /\
    shows c' (Z.to_nat (w / 1000000 / 86400)) (w / 1000000 mod 86400).
Proof.
  intros c i A B w H. destruct (add_args_ok (total c) (micros c) (i_total i) (i_micros i) A B) as (t & u & E & U & T).
  fold w in T. assert (t = w / 1000000) by (apply Z.div_unique with u; lia).
  assert (u = w mod 1000000) by (apply Z.mod_unique with t; lia).
  unfold calendar_add. rewrite E. cbn [calendar_init_args].
  destruct (init_cases t u 0 0) as [I0 _]; [lia|]. replace (t - 0) with t in I0 by lia.
  destruct I0 as (c' & F & Sh & T1 & T2 & _); [apply Z.div_lt_upper_bound; lia|].
  exists c'. subst t u. auto.
Qed.

Lemma subtract_ok : forall c i, 0 <= micros c < 1000000 -> 0 <= i_micros i < 1000000 ->
  let w := (total c * 1000000 + micros c) - (i_total i * 1000000 + i_micros i) in
  0 <= w / 1000000 < 47847 * 86400 ->
  exists c', calendar_subtract c i = Some c' /\ total c' = w / 1000000 /\ micros c' = w mod 1000000 /\
    shows c' (Z.to_nat (w / 1000000 / 86400)) (w / 1000000 mod 86400).
Proof.
  intros c i A B w H.
  destruct (subtract_args_ok (total c) (micros c) (i_total i) (i_micros i) A B) as (t & u & E & U & T).
  fold w in T. assert (t = w / 1000000) by (apply Z.div_unique with u; lia).
  assert (u = w mod 1000000) by (apply Z.mod_unique with t; lia).
  unfold calendar_subtract. rewrite E. cbn [calendar_init_args].
  destruct (init_cases t u 0 0) as [I0 _]; [lia|]. replace (t - 0) with t in I0 by lia.
  destruct I0 as (c' & F & Sh & T1 & T2 & _); [apply Z.div_lt_upper_bound; lia|].
  exists c'. subst t u. auto.
Qed.

(** ** Days later *)

Lemma offset_ok : forall now c n k, 0 <= now -> date c = day_after n -> 0 <= Z.of_nat n < 47847 ->
  months c <= 1 \/ (now mod 4 =? 0) = leap (years c) -> 0 <= Z.of_nat n + k < 47847 ->
  exists c', offset_day now c k = Some c' /\ shows c' (Z.to_nat (Z.of_nat n + k)) 0.
Proof.
  intros now c n k N D R A K. unfold offset_day, midnight.
  destruct (day_after_valid n) as [V E]. rewrite <- D in V, E. unfold date in V, E, D.
  assert (Y : 1970 <= years c <= 2100).
  { cbn [dayno] in E. destruct V as [M Kd]. pose proof (month_start_bounds _ _ _ M Kd) as B.
    destruct (Z_lt_ge_dec (years c) 1970) as [L|L].
    - apply year_start_mono in L. change (year_start 1970) with 0 in L. lia.
    - destruct (Z_le_gt_dec (years c) 2100) as [L'|L']; [lia|].
      assert (X : 2100 < years c) by lia. apply year_start_mono in X.
      change (year_start 2100 + year_length 2100) with 47847 in X. lia. }
  destruct (make_eq now (years c) (months c + 1) (days c) 0 0 0 0 0 N Y V) as
    (m & F & F1 & F2 & F3 & F4 & F5 & F6 & F7); [unfold clock; lia|].
  rewrite F.
  assert (T : total m = 86400 * Z.of_nat n).
  { rewrite F6. rewrite <- E. cbn [dayno]. destruct V as [M Kd].
    pose proof (month_start_leaps (now mod 4 =? 0) (leap (years c)) (months c + 1) M) as L.
    destruct A as [A|A]; [destruct (months c + 1 >? 2) eqn:G; lia|rewrite A; lia]. }
  pose proof (add_ok m (interval_make 0 0 k 0 0 0 0)) as P. rewrite F5 in P. cbn [i_micros interval_make i_total] in P.
  specialize (P ltac:(lia) ltac:(lia)). rewrite T in P. cbv zeta in P.
  match type of P with 0 <= ?a < _ -> _ => replace a with (86400 * (Z.of_nat n + k)) in P by
    (apply Z.div_unique with 0; lia) end.
  destruct P as (c' & G & _ & _ & Sh); [lia|]. exists c'. split; [exact G|].
  replace (86400 * (Z.of_nat n + k) / 86400) with (Z.of_nat n + k) in Sh by (apply Z.div_unique with 0; lia).
  replace ((86400 * (Z.of_nat n + k)) mod 86400) with 0 in Sh by (apply Z.mod_unique with (Z.of_nat n + k); lia).
  exact Sh.
Qed.

(** ** Intervals *)

Lemma interval_exact : forall day hour minute second micro,
  let i := interval_make 0 0 day hour minute second micro in
  let t := ((day * 24 + hour) * 60 + minute) * 60 + second in 0 <= t ->
  i_total i = t /\ i_micros i = micro /\
  ((i_days i = t / 86400 /\ clock (t mod 86400) (i_hours i) (i_minutes i) (i_seconds i)) <-> t < 86400).
Proof.
  intros day hour minute second micro i t H. unfold i, interval_make. cbn [i_total i_micros i_days i_hours i_minutes i_seconds].
  replace (second + 60 * (minute + 60 * (hour + 24 * (day + 30 * (0 + 12 * 0))))) with t by (unfold t; lia).
  split; [reflexivity|]. split; [reflexivity|]. clearbody t. clear i.
  rewrite (Z.quot_div_nonneg t 60) by lia. set (m := t / 60).
  assert (60 * m <= t < 60 * m + 60) by (unfold m; Z.div_mod_to_equations; lia). clearbody m.
  rewrite (Z.quot_div_nonneg m 60) by lia. set (h := m / 60).
  assert (60 * h <= m < 60 * h + 60) by (unfold h; Z.div_mod_to_equations; lia). clearbody h.
  rewrite Z.quot_div_nonneg, Z.rem_mod_nonneg by lia. unfold clock. split.
  - intros (D & C1 & _). destruct (Z_lt_ge_dec t 86400) as [L|L]; [exact L|]. exfalso.
    Z.div_mod_to_equations; lia.
  - intros L. rewrite (Z.div_small t), (Z.mod_small t), (Z.div_small h), (Z.mod_small h) by lia. lia.
Qed.
