(** Specification for C104: what a timer owes, from the events alone. *)
From Coq Require Import ZArith List Bool.
From Verif Require Import CycModel.
Import ListNotations.
Open Scope Z_scope.

(** the ticks that count: those while the timer is running and not deleted *)
Fixpoint ticks (on : bool) (es : list event) : Z :=
  match es with
  | [] => 0
  | Tick :: r => (if on then 1 else 0) + ticks on r
  | Start :: r => ticks true r
  | Stop :: r => ticks false r
  | Delete :: _ => 0
  | Step :: r => ticks on r
  end.
(** Interval by interval a call is due. *)
Definition due (n : Z) (es : list event) : Z := ticks true es / n.
