(** Model of the thread pool, lisp/c/mthread.c:29-206: thread_main (the workers), get_free_thread, thread and
    thread-no-wait (AFUNCALL, AFUNCALL_NO_WAIT) and wait-thread (WAIT_AFUNCALL).

    There are [m] workers, each with its port, and [n] client threads.  A client is a thread that calls thread or
    wait-thread; the function a worker runs may be such a thread too.  All run in any order, one step at a time; a
    step is one access to a shared slot, one critical region of free_thread_lock, or one semaphore operation.
    Semaphores are counters, as in PortModel.v (C51 for the code).

    A request is a function and a list of arguments, here two numbers standing for the objects.  What the function
    returns is any value; when the function is left by a throw to 0 (mthread.c:72, 82-84) the value thrown, or the
    integer 0, counts as what it returned.  Not modelled: thread creation (a worker may take its first step at any
    time), deletion, the slots idle and requester, and garbage collection.

    Discipline of the clients: wait-thread is called once for every port returned by thread, by whatever thread.
    [pend] records the ports returned and not yet waited for. *)
From Verif Require Export LockModel.

(** thread_main *)
Inductive wpc :=
| WStart                      (* 55-57, before the port is put on the free list for the first time *)
| WPost                       (* 60, before sema_post(&free_thread_sem) *)
| WWait                       (* 62, at sema_wait(reqsem) *)
| WCopy                       (* 64-68, copying the special bindings of the requester, before sema_post(runsem) *)
| WArgs                       (* 74, before the slot args is read *)
| WFunc (a : nat)             (* 79, before the slot func is read *)
| WRun (f a : nat)            (* in ufuncall *)
| WStore (v : nat)            (* 85, before the slot result is set *)
| WTest                       (* 86, before the slot wait is tested *)
| WDone                       (* 87, before sema_post(donesem) *)
| WAck                        (* 88, at sema_wait(reqsem) *)
| WPush.                      (* 92-94, before the port is put back on the free list *)

(** clients.  The number [i] of a request is not in the program; requests are numbered as they come. *)
Inductive cpc :=
| CIdle
| CFree (w : bool) (f a i : nat)            (* in get_free_thread, at sema_wait(&free_thread_sem); w: thread, not thread-no-wait *)
| CPop (w : bool) (f a i : nat)             (* 32-35, before a port is taken off the free list *)
| CFunc (p : nat) (w : bool) (f a i : nat)  (* 154, 175, before the slot func is set *)
| CArgs (p : nat) (w : bool) (f a i : nat)  (* before the slot args is set *)
| CWait (p : nat) (w : bool) (f a i : nat)  (* before the slot wait is set *)
| CPost (p : nat) (w : bool) (f a i : nat)  (* 161, before sema_post(reqsem) *)
| CRun (p : nat) (w : bool) (i : nat)       (* 166, at sema_wait(runsem) *)
| QDone (p i : nat)                         (* 201, wait-thread at sema_wait(donesem) *)
| QRead (p i : nat)                         (* 202, before the slot result is read *)
| QAck (p i v : nat).                       (* 203, before sema_post(reqsem) *)

(** the thread port; [gid] is not in the program: the number of the last request posted *)
Record port := mkPort { work : wpc; reqsem : nat; runsem : nat; donesem : nat;
  func : nat; args : nat; wait : bool; result : nat; gid : nat }.

(** [calls], [runs] and [rets] are not in the program.  [calls]: the requests in order, thread or thread-no-wait,
    function, arguments.  [runs]: number of the request, function called, arguments, result.  [rets]: number of the
    request, value returned by wait-thread.  [crashed]: a port was taken from the empty free list, or wait-thread
    found the slot wait NIL. *)
Record st := mkSt { ports : nat -> port; clients : nat -> cpc; free : list nat; freesem : nat; pend : nat -> option nat;
  calls : list (bool * nat * nat); runs : list (nat * nat * nat * nat); rets : list (nat * nat); crashed : bool }.

Definition set_work (P : port) (w : wpc) : port :=
  mkPort w (reqsem P) (runsem P) (donesem P) (func P) (args P) (wait P) (result P) (gid P).

(** makethreadport: the semaphores are new *)
Definition port0 : port := mkPort WStart 0 0 0 0 0 false 0 0.
Definition init : st := mkSt (fun _ => port0) (fun _ => CIdle) [] 0 (fun _ => None) [] [] [] false.

(** the state with port p, or client c, or both, changed *)
Definition st_p (s : st) (p : nat) (P : port) : st :=
  mkSt (upd (ports s) p P) (clients s) (free s) (freesem s) (pend s) (calls s) (runs s) (rets s) (crashed s).
Definition st_c (s : st) (c : nat) (C : cpc) : st :=
  mkSt (ports s) (upd (clients s) c C) (free s) (freesem s) (pend s) (calls s) (runs s) (rets s) (crashed s).
Definition crash (s : st) : st :=
  mkSt (ports s) (clients s) (free s) (freesem s) (pend s) (calls s) (runs s) (rets s) true.
Definition set_free (s : st) (l : list nat) (k : nat) : st :=
  mkSt (ports s) (clients s) l k (pend s) (calls s) (runs s) (rets s) (crashed s).
Definition set_pend (s : st) (p : nat) (o : option nat) : st :=
  mkSt (ports s) (clients s) (free s) (freesem s) (upd (pend s) p o) (calls s) (runs s) (rets s) (crashed s).
Definition log_call (s : st) (x : bool * nat * nat) : st :=
  mkSt (ports s) (clients s) (free s) (freesem s) (pend s) (calls s ++ [x]) (runs s) (rets s) (crashed s).
Definition log_run (s : st) (x : nat * nat * nat * nat) : st :=
  mkSt (ports s) (clients s) (free s) (freesem s) (pend s) (calls s) (x :: runs s) (rets s) (crashed s).
Definition log_ret (s : st) (x : nat * nat) : st :=
  mkSt (ports s) (clients s) (free s) (freesem s) (pend s) (calls s) (runs s) (x :: rets s) (crashed s).

Inductive step (n m : nat) : st -> st -> Prop :=
(* thread_main, mthread.c:55-95 *)
| w_push p s : p < m -> work (ports s p) = WStart \/ work (ports s p) = WPush ->
    step n m s (set_free (st_p s p (set_work (ports s p) WPost)) (p :: free s) (freesem s))
| w_post p s : p < m -> work (ports s p) = WPost ->
    step n m s (set_free (st_p s p (set_work (ports s p) WWait)) (free s) (S (freesem s)))
| w_wait p s : p < m -> work (ports s p) = WWait -> 0 < reqsem (ports s p) ->
    step n m s (st_p s p (mkPort WCopy (reqsem (ports s p) - 1) (runsem (ports s p)) (donesem (ports s p))
      (func (ports s p)) (args (ports s p)) (wait (ports s p)) (result (ports s p)) (gid (ports s p))))
| w_copy p s : p < m -> work (ports s p) = WCopy ->
    step n m s (st_p s p (mkPort WArgs (reqsem (ports s p)) (S (runsem (ports s p))) (donesem (ports s p))
      (func (ports s p)) (args (ports s p)) (wait (ports s p)) (result (ports s p)) (gid (ports s p))))
| w_args p s : p < m -> work (ports s p) = WArgs ->
    step n m s (st_p s p (set_work (ports s p) (WFunc (args (ports s p)))))
| w_func p a s : p < m -> work (ports s p) = WFunc a ->
    step n m s (st_p s p (set_work (ports s p) (WRun (func (ports s p)) a)))
| w_run p f a v s : p < m -> work (ports s p) = WRun f a ->
    step n m s (log_run (st_p s p (set_work (ports s p) (WStore v))) (gid (ports s p), f, a, v))
| w_store p v s : p < m -> work (ports s p) = WStore v ->
    step n m s (st_p s p (mkPort WTest (reqsem (ports s p)) (runsem (ports s p)) (donesem (ports s p))
      (func (ports s p)) (args (ports s p)) (wait (ports s p)) v (gid (ports s p))))
| w_test p s : p < m -> work (ports s p) = WTest ->
    step n m s (st_p s p (set_work (ports s p) (if wait (ports s p) then WDone else WPush)))
| w_done p s : p < m -> work (ports s p) = WDone ->
    step n m s (st_p s p (mkPort WAck (reqsem (ports s p)) (runsem (ports s p)) (S (donesem (ports s p)))
      (func (ports s p)) (args (ports s p)) (wait (ports s p)) (result (ports s p)) (gid (ports s p))))
| w_ack p s : p < m -> work (ports s p) = WAck -> 0 < reqsem (ports s p) ->
    step n m s (st_p s p (mkPort WPush (reqsem (ports s p) - 1) (runsem (ports s p)) (donesem (ports s p))
      (func (ports s p)) (args (ports s p)) (wait (ports s p)) (result (ports s p)) (gid (ports s p))))
(* thread and thread-no-wait, mthread.c:29-37, 147-189 *)
| c_call c w f a s : c < n -> clients s c = CIdle ->
    step n m s (log_call (st_c s c (CFree w f a (length (calls s)))) (w, f, a))
| c_free c w f a i s : c < n -> clients s c = CFree w f a i -> 0 < freesem s ->
    step n m s (set_free (st_c s c (CPop w f a i)) (free s) (freesem s - 1))
| c_pop c w f a i p l s : c < n -> clients s c = CPop w f a i -> free s = p :: l ->
    step n m s (set_free (st_c s c (CFunc p w f a i)) l (freesem s))
| c_pop_empty c w f a i s : c < n -> clients s c = CPop w f a i -> free s = [] -> step n m s (crash s)
| c_func c p w f a i s : c < n -> clients s c = CFunc p w f a i ->
    step n m s (st_c (st_p s p (mkPort (work (ports s p)) (reqsem (ports s p)) (runsem (ports s p)) (donesem (ports s p))
      f (args (ports s p)) (wait (ports s p)) (result (ports s p)) (gid (ports s p)))) c (CArgs p w f a i))
| c_args c p w f a i s : c < n -> clients s c = CArgs p w f a i ->
    step n m s (st_c (st_p s p (mkPort (work (ports s p)) (reqsem (ports s p)) (runsem (ports s p)) (donesem (ports s p))
      (func (ports s p)) a (wait (ports s p)) (result (ports s p)) (gid (ports s p)))) c (CWait p w f a i))
| c_wait c p w f a i s : c < n -> clients s c = CWait p w f a i ->
    step n m s (st_c (st_p s p (mkPort (work (ports s p)) (reqsem (ports s p)) (runsem (ports s p)) (donesem (ports s p))
      (func (ports s p)) (args (ports s p)) w (result (ports s p)) (gid (ports s p)))) c (CPost p w f a i))
| c_post c p w f a i s : c < n -> clients s c = CPost p w f a i ->
    step n m s (st_c (st_p s p (mkPort (work (ports s p)) (S (reqsem (ports s p))) (runsem (ports s p)) (donesem (ports s p))
      (func (ports s p)) (args (ports s p)) (wait (ports s p)) (result (ports s p)) i)) c (CRun p w i))
| c_run c p (w : bool) i s : c < n -> clients s c = CRun p w i -> 0 < runsem (ports s p) ->
    step n m s (set_pend (st_c (st_p s p (mkPort (work (ports s p)) (reqsem (ports s p)) (runsem (ports s p) - 1) (donesem (ports s p))
      (func (ports s p)) (args (ports s p)) (wait (ports s p)) (result (ports s p)) (gid (ports s p)))) c CIdle)
      p (if w then Some i else pend s p))
(* wait-thread, mthread.c:191-205 *)
| q_call c p i s : c < n -> p < m -> clients s c = CIdle -> pend s p = Some i ->
    step n m s (if wait (ports s p) then set_pend (st_c s c (QDone p i)) p None else crash s)
| q_done c p i s : c < n -> clients s c = QDone p i -> 0 < donesem (ports s p) ->
    step n m s (st_c (st_p s p (mkPort (work (ports s p)) (reqsem (ports s p)) (runsem (ports s p)) (donesem (ports s p) - 1)
      (func (ports s p)) (args (ports s p)) (wait (ports s p)) (result (ports s p)) (gid (ports s p)))) c (QRead p i))
| q_read c p i s : c < n -> clients s c = QRead p i ->
    step n m s (st_c s c (QAck p i (result (ports s p))))
| q_ack c p i v s : c < n -> clients s c = QAck p i v ->
    step n m s (log_ret (st_c (st_p s p (mkPort (work (ports s p)) (S (reqsem (ports s p))) (runsem (ports s p)) (donesem (ports s p))
      (func (ports s p)) (args (ports s p)) (wait (ports s p)) (result (ports s p)) (gid (ports s p)))) c CIdle) (i, v)).

Inductive reachable (n m : nat) : st -> Prop :=
| r_init : reachable n m init
| r_step s s' : reachable n m s -> step n m s s' -> reachable n m s'.
