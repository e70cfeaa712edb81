(** Model of the class synch-memory-port, lisp/l/par.l:75-92: a one-place buffer guarded by two semaphores.

    A semaphore is a counter: sema-wait goes on when the counter is positive and takes one, sema-post adds one
    (LockModel.v has the code of the semaphores, and C51 says that it behaves so below 2^32 pending posts; here the
    counters never exceed one).  Any number of threads read and write, one step at a time.  The slots empty and
    lock are not used by the methods. *)
From Verif Require Export LockModel.

Module Mem.
  Inductive pc :=
  | Idle
  | RWait                   (* :read, at (sema-wait sema-in) *)
  | RGet                    (* before the slot buf is read *)
  | RPost (v : nat)         (* before (sema-post sema-out) *)
  | WWait (v : nat)         (* :write, at (sema-wait sema-out) *)
  | WSet (v : nat)          (* before (setq buf p) *)
  | WPost.                  (* before (sema-post sema-in) *)

  (** [accepted] and [returned] are not in the program: the values stored by :write calls and the values fetched by
      :read calls, oldest first. *)
  Record st := mkSt { sin : nat; sout : nat; buf : nat; pcs : nat -> pc; accepted : list nat; returned : list nat }.

  (** par.l:86-92: both semaphores are new, sema-out is posted once; the buffer is NIL, here 0 *)
  Definition init : st := mkSt 0 1 0 (fun _ => Idle) [] [].

  Inductive step : st -> st -> Prop :=
  (* :read, par.l:79-81 *)
  | s_read t s : pcs s t = Idle -> step s (mkSt (sin s) (sout s) (buf s) (upd (pcs s) t RWait) (accepted s) (returned s))
  | s_rwait t s : pcs s t = RWait -> 0 < sin s ->
      step s (mkSt (sin s - 1) (sout s) (buf s) (upd (pcs s) t RGet) (accepted s) (returned s))
  | s_rget t s : pcs s t = RGet ->
      step s (mkSt (sin s) (sout s) (buf s) (upd (pcs s) t (RPost (buf s))) (accepted s) (returned s ++ [buf s]))
  | s_rpost t v s : pcs s t = RPost v ->
      step s (mkSt (sin s) (sout s + 1) (buf s) (upd (pcs s) t Idle) (accepted s) (returned s))
  (* :write, par.l:82-85 *)
  | s_write t v s : pcs s t = Idle -> step s (mkSt (sin s) (sout s) (buf s) (upd (pcs s) t (WWait v)) (accepted s) (returned s))
  | s_wwait t v s : pcs s t = WWait v -> 0 < sout s ->
      step s (mkSt (sin s) (sout s - 1) (buf s) (upd (pcs s) t (WSet v)) (accepted s) (returned s))
  | s_wset t v s : pcs s t = WSet v ->
      step s (mkSt (sin s) (sout s) v (upd (pcs s) t WPost) (accepted s ++ [v]) (returned s))
  | s_wpost t s : pcs s t = WPost ->
      step s (mkSt (sin s + 1) (sout s) (buf s) (upd (pcs s) t Idle) (accepted s) (returned s)).

  Inductive reachable : st -> Prop :=
  | r_init : reachable init
  | r_step s s' : reachable s -> step s s' -> reachable s'.
End Mem.
