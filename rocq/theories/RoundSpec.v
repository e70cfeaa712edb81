(** Specification for C95 and C96: the number a float is, as a fraction, and what rounding, remainders and extremes mean. *)
From Verif Require Import Word BigModel BigSpec RoundModel.
Open Scope Z_scope.

(** a float is the fraction num / den *)
Definition num (x : flo) : Z := mant x * 2 ^ Z.max 0 (expo x).
Definition den (x : flo) : Z := 2 ^ Z.max 0 (- expo x).
Definition is_floor (n : Z) (x : flo) : Prop := n * den x <= num x < (n + 1) * den x.
Definition is_ceiling (n : Z) (x : flo) : Prop := (n - 1) * den x < num x <= n * den x.
Definition is_truncate (n : Z) (x : flo) : Prop := (0 <= num x -> is_floor n x) /\ (num x < 0 -> is_ceiling n x).
(** at most a half away, and even when exactly a half *)
Definition is_round (n : Z) (x : flo) : Prop :=
  2 * Z.abs (n * den x - num x) <= den x /\ (2 * Z.abs (n * den x - num x) = den x -> Z.even n = true).

(** at most 24 significant binary digits *)
Definition digits24 (n : Z) : Prop := exists a k, 0 <= k /\ Z.abs a < 2 ^ 24 /\ n = a * 2 ^ k.

(** the fraction of any number *)
Definition top (a : number) : Z := match a with Int o => value o | Flo x => num x end.
Definition bottom (a : number) : Z := match a with Int _ => 1 | Flo x => den x end.
Definition no_more (a b : number) : Prop := top a * bottom b <= top b * bottom a.
Definition same (a b : number) : Prop := top a * bottom b = top b * bottom a.
(** numbers that a Lisp float can hold: 51 digits *)
Definition held (a : number) : Prop :=
  match a with
  | Int o => canonical o /\ Z.abs (value o) < 2 ^ 51
  | Flo x => Z.abs (mant x) < 2 ^ 51
  end.
Definition fixnum (a : number) : Prop := match a with Int (Imm w) => canonical (Imm w) | _ => False end.
(** what is left of a after taking b away a whole number of times: less than b in size, and on a's side of zero *)
Definition remainder (a b r : number) : Prop :=
  (exists q, top r * bottom a * bottom b = (top a * bottom b - q * top b * bottom a) * bottom r) /\
  Z.abs (top r) * bottom b < Z.abs (top b) * bottom r /\ 0 <= top r * top a.
(** one of the numbers, and none of them is more, or none is less *)
Definition largest (args : list number) (r : number) : Prop :=
  (exists a, In a args /\ same r a) /\ forall b, In b args -> no_more b r.
Definition smallest (args : list number) (r : number) : Prop :=
  (exists a, In a args /\ same r a) /\ forall b, In b args -> no_more r b.
