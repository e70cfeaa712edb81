(** Cyclic timers: class itimer of /repo/lisp/l/cyclic.l lines 20-73, with itimer-handler (lines 109-115) sending :tick and the thread of the timer
    (timer-func, lines 104-106) in :thread-waiting.

    Simplifications: one timer and its two threads, the one that ticks and the one that runs the function; the methods of the ticking side (:tick, :stop, :start,
    :delete) are atomic, the thread of the timer takes one of its shared accesses at a time; a semaphore is its counter, (aref timer-sem 0) being that counter
    (what the semaphore of the system keeps beside it is left out); real-time, a product of run-count, is left out; the function ends. *)
From Coq Require Import ZArith List Bool.
Import ListNotations.
Open Scope Z_scope.

(** where the thread of the timer is, in :thread-waiting and :run (lines 69-72, 65-68) *)
Inductive place := AtTest | AtWait | AtCount | AtClear | AtApply | Ended.
(** the slots of the object, the counter of timer-sem, the place of the thread, and how often the function has been called *)
Record timer := Tm { interval : Z; current : Z; running : bool; run_count : Z; missed : Z; deleted : bool; sem : Z; at_ : place; calls : Z }.
(** (:interval i), lines 61-64: [ticks] is the quotient of i and the tick, rounded *)
(** :init, lines 25-39 *)
Definition itimer_init (ticks : Z) : timer := Tm ticks ticks true 0 0 false 0 AtTest 0.
(** sema-post of mthread.c 331-337 *)
Definition sema_post (t : timer) : timer := Tm (interval t) (current t) (running t) (run_count t) (missed t) (deleted t) (sem t + 1) (at_ t) (calls t).
(** :tick, lines 48-53 *)
Definition tick (t : timer) : timer :=
  if running t then
    let c := current t - 1 in
    if c =? 0 then sema_post (Tm (interval t) (interval t) (running t) (run_count t + 1) (missed t) (deleted t) (sem t) (at_ t) (calls t))
    else Tm (interval t) c (running t) (run_count t) (missed t) (deleted t) (sem t) (at_ t) (calls t)
  else t.
(** :stop and :start, lines 59-60 *)
Definition set_running (b : bool) (t : timer) : timer := Tm (interval t) (current t) b (run_count t) (missed t) (deleted t) (sem t) (at_ t) (calls t).
(** :delete, lines 40-45: the timer is taken from the list, so that it gets no more ticks ([event] below), and its thread is woken *)
Definition delete (t : timer) : timer := sema_post (Tm (interval t) (current t) (running t) (run_count t) (missed t) true (sem t) (at_ t) (calls t)).
Definition go (p : place) (t : timer) : timer := Tm (interval t) (current t) (running t) (run_count t) (missed t) (deleted t) (sem t) p (calls t).
(** one access of the thread of the timer; a thread that waits stays where it is *)
Definition step (t : timer) : timer :=
  match at_ t with
  | AtTest => if deleted t then go Ended t else go AtWait t
  | AtWait => if 0 <? sem t then Tm (interval t) (current t) (running t) (run_count t) (missed t) (deleted t) (sem t - 1) AtCount (calls t) else t
  | AtCount => Tm (interval t) (current t) (running t) (run_count t) (missed t + sem t) (deleted t) (sem t) AtClear (calls t)
  | AtClear => Tm (interval t) (current t) (running t) (run_count t) (missed t) (deleted t) 0 AtApply (calls t)
  | AtApply => Tm (interval t) (current t) (running t) (run_count t) (missed t) (deleted t) (sem t) AtTest (calls t + 1)
  | Ended => t
  end.
(** what may happen; a deleted timer is no longer in the list of itimer-handler *)
Inductive event := Tick | Start | Stop | Delete | Step.
Definition happen (e : event) (t : timer) : timer :=
  match e with
  | Tick => if deleted t then t else tick t
  | Start => set_running true t
  | Stop => set_running false t
  | Delete => if deleted t then t else delete t
  | Step => step t
  end.
Definition exec (es : list event) (t : timer) : timer := fold_left (fun t e => happen e t) es t.
