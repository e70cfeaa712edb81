(** C52 and C62: the thread pool under every interleaving.

    [calls s] are the calls of thread (true) and thread-no-wait (false) with function and arguments, [runs s] what the
    workers ran: number of the request, function, arguments, result; [rets s] what wait-thread returned: number of the
    request and value.  A client calls wait-thread once for each port that thread returned. *)
From Verif Require Import PoolModel PoolProofs PoolProofs2 PoolProofs3.

(** ** C52 *)
(** The value wait-thread returns for request i is the result of one run of that request's function on its
    arguments; a worker runs every request at most once, and wait-thread returns at most once for it. *)
Theorem C52_result n m s i v : reachable n m s -> In (i, v) (rets s) ->
  exists f a, nth_error (calls s) i = Some (true, f, a) /\ In (i, f, a, v) (runs s) /\
    (forall f' a' v', In (i, f', a', v') (runs s) -> f' = f /\ a' = a /\ v' = v) /\
    (forall v', In (i, v') (rets s) -> v' = v).
Proof.
  intros H R. destruct (ret_ok n m s i v H R) as (f & a & C & X). exists f, a. split; [exact C|]. split; [exact X|]. split.
  - intros f' a' v' Y. pose proof (nodup_unique _ _ _ _ (runs_nodup n m s H) X Y eq_refl) as E. injection E as <- <- <-. auto.
  - intros v' Y. exact (ret_once n m s i v' v H Y R).
Qed.
Print Assumptions C52_result.

(** Whatever a worker runs is a request as it was made, and no request is run twice: a worker handles one request at
    a time and no slot is overwritten under it. *)
Theorem C52_runs n m s : reachable n m s ->
  (forall i f a v, In (i, f, a, v) (runs s) -> exists w, nth_error (calls s) i = Some (w, f, a)) /\
  NoDup (map (fun x => fst (fst (fst x))) (runs s)) /\ NoDup (map fst (rets s)).
Proof. intros H. split; [exact (fun i f a v => run_ok n m s i f a v H)|]. split; [exact (runs_nodup n m s H)|exact (rets_nodup n m s H)]. Qed.
Print Assumptions C52_runs.

(** No port is taken from an empty free list, and wait-thread does not report an idle thread. *)
Theorem C52_no_error n m s : reachable n m s -> crashed s = false.
Proof. exact (no_crash n m s). Qed.
Print Assumptions C52_no_error.

(** A thread in thread or wait-thread on port p can go on, or the worker of p can. *)
Theorem C52_progress n m s c p w i : reachable n m s -> c < n -> clients s c = QDone p i \/ clients s c = CRun p w i ->
  exists s', step n m s s' /\ (clients s' c <> clients s c \/ work (ports s' p) <> work (ports s p)).
Proof. intros H L [E|E]; [exact (wait_goes_on n m s c p i H L E)|exact (request_goes_on n m s c p w i H L E)]. Qed.
Print Assumptions C52_progress.

Tactic Notation "next" hyp(H) uconstr(c) := let K := fresh in
  match type of H with reachable ?n ?m ?s =>
    eassert (K : step n m s _) by (apply c; cbn; try (left; reflexivity); try reflexivity; try apply Nat.lt_0_succ; try (repeat constructor));
    apply (r_step n m s _ H) in K; clear H; rename K into H;
    cbn [ports clients free freesem pend calls runs rets crashed work reqsem runsem donesem func args wait result gid init port0 set_work st_p st_c set_free set_pend log_call log_run log_ret upd Nat.eqb Nat.sub length app] in H
  end.

(** Two requests on two workers; the second client waits for the first one's port, while its own request runs. *)
Example C52_ex : exists s, reachable 2 2 s /\ calls s = [(true, 10, 11); (true, 20, 21)] /\ runs s = [(0, 10, 11, 12)] /\
  rets s = [(0, 12)] /\ pend s 0 = Some 1 /\ work (ports s 0) = WArgs.
Proof.
  pose proof (r_init 2 2) as H.
  next H (w_push 2 2 0).
  next H (w_post 2 2 0).
  next H (w_push 2 2 1).
  next H (c_call 2 2 0 true 10 11).
  next H (c_free 2 2 0 true 10 11 0).
  next H (c_pop 2 2 0 true 10 11 0 1 [0]).
  next H (c_func 2 2 0 1 true 10 11 0).
  next H (c_args 2 2 0 1 true 10 11 0).
  next H (c_wait 2 2 0 1 true 10 11 0).
  next H (c_post 2 2 0 1 true 10 11 0).
  next H (w_post 2 2 1).
  next H (c_call 2 2 1 true 20 21).
  next H (c_free 2 2 1 true 20 21 1).
  next H (c_pop 2 2 1 true 20 21 1 0 []).
  next H (c_func 2 2 1 0 true 20 21 1).
  next H (c_args 2 2 1 0 true 20 21 1).
  next H (c_wait 2 2 1 0 true 20 21 1).
  next H (c_post 2 2 1 0 true 20 21 1).
  next H (w_wait 2 2 1).
  next H (w_copy 2 2 1).
  next H (w_args 2 2 1).
  next H (w_func 2 2 1 11).
  next H (w_run 2 2 1 10 11 12).
  next H (w_store 2 2 1 12).
  next H (w_test 2 2 1).
  next H (w_done 2 2 1).
  next H (w_wait 2 2 0).
  next H (w_copy 2 2 0).
  next H (c_run 2 2 1 0 true 1).
  next H (c_run 2 2 0 1 true 0).
  next H (q_call 2 2 1 1 0).
  next H (q_done 2 2 1 1 0).
  next H (q_read 2 2 1 1 0).
  next H (q_ack 2 2 1 1 0 12).
  eexists. split; [exact H|]. repeat split; reflexivity.
Qed.

(** ** C62 *)
(** When only thread is used, thread returns a port only after the worker has copied the special bindings of the
    requester.  Not covered: programs that also use thread-no-wait. *)
Theorem C62_copied_partial n m s p i : reachable n m s -> p < m -> (forall w f a, In (w, f, a) (calls s) -> w = true) ->
  pend s p = Some i ->
  gid (ports s p) = i /\ work (ports s p) <> WPost /\ work (ports s p) <> WWait /\ work (ports s p) <> WCopy.
Proof.
  intros H L A E. destruct (copied n m s p i H L A E) as [G W]. split; [exact G|].
  split; [|split]; intros X; rewrite X in W; exact W.
Qed.
Print Assumptions C62_copied_partial.
(** [C52_ex] meets these hypotheses. *)

(** After a thread-no-wait whose caller has not yet picked up its runsem post, thread returns before the worker has
    copied anything. *)
Theorem C62_copied_refuted : exists s, reachable 2 1 s /\ pend s 0 = Some 1 /\ gid (ports s 0) = 1 /\ work (ports s 0) = WWait.
Proof.
  pose proof (r_init 2 1) as H.
  next H (w_push 2 1 0).
  next H (w_post 2 1 0).
  next H (c_call 2 1 0 false 10 11).
  next H (c_free 2 1 0 false 10 11 0).
  next H (c_pop 2 1 0 false 10 11 0 0 []).
  next H (c_func 2 1 0 0 false 10 11 0).
  next H (c_args 2 1 0 0 false 10 11 0).
  next H (c_wait 2 1 0 0 false 10 11 0).
  next H (c_post 2 1 0 0 false 10 11 0).
  next H (w_wait 2 1 0).
  next H (w_copy 2 1 0).
  next H (w_args 2 1 0).
  next H (w_func 2 1 0 11).
  next H (w_run 2 1 0 10 11 12).
  next H (w_store 2 1 0 12).
  next H (w_test 2 1 0).
  next H (w_push 2 1 0).
  next H (w_post 2 1 0).
  next H (c_call 2 1 1 true 20 21).
  next H (c_free 2 1 1 true 20 21 1).
  next H (c_pop 2 1 1 true 20 21 1 0 []).
  next H (c_func 2 1 1 0 true 20 21 1).
  next H (c_args 2 1 1 0 true 20 21 1).
  next H (c_wait 2 1 1 0 true 20 21 1).
  next H (c_post 2 1 1 0 true 20 21 1).
  next H (c_run 2 1 1 0 true 1).
  eexists. split; [exact H|]. repeat split; reflexivity.
Qed.
Print Assumptions C62_copied_refuted.
