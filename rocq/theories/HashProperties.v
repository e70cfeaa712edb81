(** Properties C22, C23, C24. *)
From Verif Require Import HashModel HashProofs.

(** ** C22 a hash table is a finite map *)
(** The load test is [fill > size / factor] with factor [p/q]; make-hash-table's 1.7 is 17/10 and the
    :init default 2.0 is 2/1, for both of which [big_enough] means an initial size of at least 3. *)
Theorem C22_hash_table_is_a_map :
  forall (K V : Type) (hash : K -> nat) (test : K -> K -> bool) (vnil : V),
  (forall a b, test a b = true -> test b a = true) ->
  (forall a b c, test a b = true -> test b c = true -> test a c = true) ->
  (forall a b, test a b = true -> hash a = hash b) ->
  forall p q n, q < p -> p <= 2 * q -> p < (p - q) * n ->
  forall not_found history,
  exists results, run hash test (over_factor p q) vnil not_found (empty_table vnil n) history = Some results /\
                  Forall2 same_result results (srun test not_found [] history).
Proof. exact @map_factor. Qed.
Print Assumptions C22_hash_table_is_a_map.

Theorem C22_lookup_returns_latest :
  forall (K V : Type) (hash : K -> nat) (test : K -> K -> bool) (vnil : V),
  (forall a b, test a b = true -> test b a = true) ->
  (forall a b c, test a b = true -> test b c = true -> test a c = true) ->
  (forall a b, test a b = true -> hash a = hash b) ->
  forall p q n, q < p -> p <= 2 * q -> p < (p - q) * n ->
  forall not_found history k,
  exists earlier, run hash test (over_factor p q) vnil not_found (empty_table vnil n) (history ++ [Get k]) =
    Some (earlier ++ [RVal (match latest test k (rev history) with Some v => v | None => not_found end)]).
Proof. exact @latest_factor. Qed.
Print Assumptions C22_lookup_returns_latest.

(** collisions, a tombstone, growth, and keys equivalent without being equal *)
Example C22_ex : run (K := nat) (V := nat) (fun k => (k / 2) mod 4) (fun a b => a / 2 =? b / 2) (over_factor 17 10) 0 99
    (empty_table 0 3) [Put 0 1; Put 8 2; Rem 1; Put 9 3; Put 16 4; Put 5 6; Get 8; Get 0; Get 4; Count; ListAll] =
  Some [RVal 1; RVal 2; RNone; RVal 3; RVal 4; RVal 6; RVal 3; RVal 99; RVal 6; RCount 3; RList [(5, 6); (16, 4); (9, 3)]].
Proof. vm_compute. reflexivity. Qed.
Example C22_hyp : 10 < 17 /\ 17 <= 2 * 10 /\ 17 < (17 - 10) * 3 /\ 1 < 2 /\ 2 <= 2 * 1 /\ 2 < (2 - 1) * 3 /\
  forall f n, over_factor 17 10 f n = over17 f n.
Proof. repeat split; lia. Qed.

(** ** C23 lookups terminate *)
(** full statement: [forall n history k, n > 0 -> run ... (empty_table n) (history ++ [Get k]) <> None] *)
Theorem C23_lookup_terminates_refuted :
  exists n history, n > 0 /\
    run (K := nat) (V := nat) (fun k => k) Nat.eqb over17 0 0 (empty_table 0 n) history = None.
Proof. exists 2, [Put 5 50; Put 6 60; Get 7]. split; [lia|exact (proj2 small_table_hangs)]. Qed.
Print Assumptions C23_lookup_terminates_refuted.

(** [run] is [None] exactly when some :find probes every slot without meeting an empty one *)
Theorem C23_lookup_terminates_partial :
  forall (K V : Type) (hash : K -> nat) (test : K -> K -> bool) (vnil : V),
  (forall a b, test a b = true -> test b a = true) ->
  (forall a b c, test a b = true -> test b c = true -> test a c = true) ->
  (forall a b, test a b = true -> hash a = hash b) ->
  forall n, 3 <= n -> forall not_found history,
  run hash test over17 vnil not_found (empty_table vnil n) history <> None.
Proof. exact @terminates17. Qed.
Print Assumptions C23_lookup_terminates_partial.

Example C23_ex : run (K := nat) (V := nat) (fun k => k) Nat.eqb over17 0 0 (empty_table 0 3)
  [Put 5 50; Put 6 60; Put 7 70; Get 8; Get 6] = Some [RVal 50; RVal 60; RVal 70; RVal 0; RVal 60].
Proof. vm_compute. reflexivity. Qed.

(** ** C24 queues *)
(** for every interleaving the queue answers as a list does: enqueue at the end, dequeue from the front *)
Theorem C24_queue_is_fifo : forall (X : Type) (os : list (@qop X)), qrun qinit os = Some (sqrun [] os).
Proof. exact @queue_fifo. Qed.
Print Assumptions C24_queue_is_fifo.

(** what has come out is a prefix of what went in, and dequeuing often enough returns all of it, each
    element once and in order *)
Theorem C24_none_lost_or_duplicated : forall (X : Type) (os : list (@qop X)), Forall io os ->
    (exists rs rest, qrun qinit os = Some rs /\ enqueued os = dequeued rs ++ rest) /\
    (exists rs, qrun qinit (os ++ repeat Deq (length (enqueued os))) = Some rs /\ dequeued rs = enqueued os).
Proof. exact @queue_conserves. Qed.
Print Assumptions C24_none_lost_or_duplicated.

Example C24_ex : qrun qinit [Enq 1; Enq 2; Deq; Enq 3; QLength; QLast; Deq; Deq; Deq; Enq 4; QFirst] =
  Some [QUnit; QUnit; QVal (Some 1); QUnit; QNat 2; QVal (Some 3); QVal (Some 2); QVal (Some 3); QVal None; QUnit; QVal (Some 4)].
Proof. vm_compute. reflexivity. Qed.
