(** Model of the readers-writer locks and semaphores of lisp/c/mthread_posix.c:360-475, built from POSIX mutexes and
    condition variables.

    Threads 0..n-1 run in any order, one step at a time; a step is one access to the shared fields or one call of the
    pthread library.  pthread_mutex_lock waits until the mutex is free.  pthread_cond_wait gives up the mutex and
    falls asleep in one step; a sleeping thread is woken by a broadcast, or for no reason at all, and must then get the
    mutex again.  The threads use the lock as memory.c:363-381 and 799-813 do: a thread asks for a lock it does not
    hold and releases a lock it holds. *)
From Coq Require Export ZArith List Lia Bool Arith.
Export ListNotations.

Definition upd {A} (f : nat -> A) (i : nat) (a : A) : nat -> A := fun j => if j =? i then a else f j.
Definition W32 : Z := 4294967296.

(** ** Readers-writer locks *)
Module RW.
  Inductive kind := R | W.
  Inductive pc :=
  | Idle
  | Lock (k : kind)         (* before pthread_mutex_lock of rw_rdlock or rw_wrlock *)
  | Test (k : kind)         (* mutex held, at the test of the while *)
  | Sleep (k : kind)        (* in pthread_cond_wait on r_cond or w_cond *)
  | Woken (k : kind)        (* woken, the mutex not yet got back *)
  | Got (k : kind)          (* readers changed, before pthread_mutex_unlock *)
  | Hold (k : kind)         (* rw_rdlock or rw_wrlock has returned *)
  | ULock (k : kind)        (* rw_unlock called, before pthread_mutex_lock *)
  | USet (k : kind)         (* mutex held, before readers is changed *)
  | UBw | UBr               (* before the broadcast of w_cond, of r_cond *)
  | UEnd.                   (* before pthread_mutex_unlock *)

  (** mutex: its owner; readers: unsigned int, eus_thr.h:102 *)
  Record st := mkSt { owner : option nat; readers : Z; pcs : nat -> pc }.

  Definition wake (k : kind) (f : nat -> pc) : nat -> pc :=
    fun t => match f t, k with Sleep R, R => Woken R | Sleep W, W => Woken W | p, _ => p end.

  (** mthread_posix.c:361-370 *)
  Definition init : st := mkSt None 0 (fun _ => Idle).

  Inductive step (n : nat) : st -> st -> Prop :=
  | s_call t k s : t < n -> pcs s t = Idle -> step n s (mkSt (owner s) (readers s) (upd (pcs s) t (Lock k)))
  | s_lock t k s : t < n -> pcs s t = Lock k -> owner s = None -> step n s (mkSt (Some t) (readers s) (upd (pcs s) t (Test k)))
  (* rw_rdlock: 385-387 *)
  | s_rsleep t s : t < n -> pcs s t = Test R -> readers s = (W32 - 1)%Z -> step n s (mkSt None (readers s) (upd (pcs s) t (Sleep R)))
  | s_rgot t s : t < n -> pcs s t = Test R -> readers s <> (W32 - 1)%Z ->
      step n s (mkSt (owner s) ((readers s + 1) mod W32)%Z (upd (pcs s) t (Got R)))
  (* rw_wrlock: 396-398 *)
  | s_wsleep t s : t < n -> pcs s t = Test W -> readers s <> 0%Z -> step n s (mkSt None (readers s) (upd (pcs s) t (Sleep W)))
  | s_wgot t s : t < n -> pcs s t = Test W -> readers s = 0%Z -> step n s (mkSt (owner s) (W32 - 1)%Z (upd (pcs s) t (Got W)))
  | s_spurious t k s : t < n -> pcs s t = Sleep k -> step n s (mkSt (owner s) (readers s) (upd (pcs s) t (Woken k)))
  | s_relock t k s : t < n -> pcs s t = Woken k -> owner s = None -> step n s (mkSt (Some t) (readers s) (upd (pcs s) t (Test k)))
  | s_done t k s : t < n -> pcs s t = Got k -> step n s (mkSt None (readers s) (upd (pcs s) t (Hold k)))
  (* rw_unlock: 404-416 *)
  | s_ucall t k s : t < n -> pcs s t = Hold k -> step n s (mkSt (owner s) (readers s) (upd (pcs s) t (ULock k)))
  | s_ulock t k s : t < n -> pcs s t = ULock k -> owner s = None -> step n s (mkSt (Some t) (readers s) (upd (pcs s) t (USet k)))
  | s_uset t k s : t < n -> pcs s t = USet k ->
      step n s (mkSt (owner s) (if (readers s =? W32 - 1)%Z then 0 else (readers s - 1) mod W32)%Z (upd (pcs s) t UBw))
  | s_ubw t s : t < n -> pcs s t = UBw -> step n s (mkSt (owner s) (readers s) (upd (wake W (pcs s)) t UBr))
  | s_ubr t s : t < n -> pcs s t = UBr -> step n s (mkSt (owner s) (readers s) (upd (wake R (pcs s)) t UEnd))
  | s_uend t s : t < n -> pcs s t = UEnd -> step n s (mkSt None (readers s) (upd (pcs s) t Idle)).

  Inductive reachable (n : nat) : st -> Prop :=
  | r_init : reachable n init
  | r_step s s' : reachable n s -> step n s s' -> reachable n s'.
End RW.

(** ** Semaphores *)
Module Sem.
  Inductive pc :=
  | Idle
  | WLock | WTest | WSleep | WWoken | WEnd      (* sema_wait: before the lock, at the test, asleep, woken, count changed *)
  | TLock | TTest | TEnd (ok : bool)            (* sema_trywait; the result *)
  | PLock | PInc | PBc | PEnd.                  (* sema_post: before the lock, before the increment, before the broadcast *)

  (** count: unsigned int, eus_thr.h:97.  [posts] and [waits] are not in the program: they count the posts and the
      waits (or successful trywaits) so far. *)
  Record st := mkSt { owner : option nat; count : Z; pcs : nat -> pc; posts : nat; waits : nat }.
  Definition wake (f : nat -> pc) : nat -> pc := fun t => match f t with WSleep => WWoken | p => p end.

  (** mthread_posix.c:419-429: the initial value given is ignored *)
  Definition init : st := mkSt None 0 (fun _ => Idle) 0 0.

  Inductive step (n : nat) : st -> st -> Prop :=
  (* sema_wait: 439-448 *)
  | s_wait t s : t < n -> pcs s t = Idle -> step n s (mkSt (owner s) (count s) (upd (pcs s) t WLock) (posts s) (waits s))
  | s_wlock t s : t < n -> pcs s t = WLock -> owner s = None -> step n s (mkSt (Some t) (count s) (upd (pcs s) t WTest) (posts s) (waits s))
  | s_wsleep t s : t < n -> pcs s t = WTest -> count s = 0%Z -> step n s (mkSt None (count s) (upd (pcs s) t WSleep) (posts s) (waits s))
  | s_wdec t s : t < n -> pcs s t = WTest -> count s <> 0%Z ->
      step n s (mkSt (owner s) ((count s - 1) mod W32)%Z (upd (pcs s) t WEnd) (posts s) (S (waits s)))
  | s_spurious t s : t < n -> pcs s t = WSleep -> step n s (mkSt (owner s) (count s) (upd (pcs s) t WWoken) (posts s) (waits s))
  | s_relock t s : t < n -> pcs s t = WWoken -> owner s = None -> step n s (mkSt (Some t) (count s) (upd (pcs s) t WTest) (posts s) (waits s))
  | s_wend t s : t < n -> pcs s t = WEnd -> step n s (mkSt None (count s) (upd (pcs s) t Idle) (posts s) (waits s))
  (* sema_trywait: 450-462 *)
  | s_try t s : t < n -> pcs s t = Idle -> step n s (mkSt (owner s) (count s) (upd (pcs s) t TLock) (posts s) (waits s))
  | s_tlock t s : t < n -> pcs s t = TLock -> owner s = None -> step n s (mkSt (Some t) (count s) (upd (pcs s) t TTest) (posts s) (waits s))
  | s_tbusy t s : t < n -> pcs s t = TTest -> count s = 0%Z -> step n s (mkSt (owner s) (count s) (upd (pcs s) t (TEnd false)) (posts s) (waits s))
  | s_tdec t s : t < n -> pcs s t = TTest -> count s <> 0%Z ->
      step n s (mkSt (owner s) ((count s - 1) mod W32)%Z (upd (pcs s) t (TEnd true)) (posts s) (S (waits s)))
  | s_tend t b s : t < n -> pcs s t = TEnd b -> step n s (mkSt None (count s) (upd (pcs s) t Idle) (posts s) (waits s))
  (* sema_post: 464-472 *)
  | s_post t s : t < n -> pcs s t = Idle -> step n s (mkSt (owner s) (count s) (upd (pcs s) t PLock) (posts s) (waits s))
  | s_plock t s : t < n -> pcs s t = PLock -> owner s = None -> step n s (mkSt (Some t) (count s) (upd (pcs s) t PInc) (posts s) (waits s))
  | s_pinc t s : t < n -> pcs s t = PInc ->
      step n s (mkSt (owner s) ((count s + 1) mod W32)%Z (upd (pcs s) t PBc) (S (posts s)) (waits s))
  | s_pbc t s : t < n -> pcs s t = PBc -> step n s (mkSt (owner s) (count s) (upd (wake (pcs s)) t PEnd) (posts s) (waits s))
  | s_pend t s : t < n -> pcs s t = PEnd -> step n s (mkSt None (count s) (upd (pcs s) t Idle) (posts s) (waits s)).

  Inductive reachable (n : nat) : st -> Prop :=
  | r_init : reachable n init
  | r_step s s' : reachable n s -> step n s s' -> reachable n s'.
End Sem.
