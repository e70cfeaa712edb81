(** Properties of the allocator and the sweeper: C31 and C33. *)
From Verif Require Export HeapProofs7.

(** ** C31 *)
(** Full statement: in every history of allocations and collections the chunks are tiled by cells, an allocated cell is
    large enough and apart from every other allocated cell.  False for cells of index 39 (3*10^8 words): sweepall does not
    empty that list, two collections put a dead cell on it twice, and two allocations return the same cell. *)
Theorem C31_double_allocation_refuted : exists e s1 s2 s3 s4 s5 n b, malloc_ok e /\
  gc_alloc e 0 empty_state n = Ret (s1, b, false) /\ gc e s1 = Ret s2 /\ gc e s2 = Ret s3 /\
  gc_alloc e 0 s3 n = Ret (s4, b, false) /\ gc_alloc e 0 s4 n = Ret (s5, b, false).
Proof.
  destruct (double_allocK 39 is39_39) as [s1 [s2 [s3 [s4 [s5 [E1 [E2 [E3 [E4 E5]]]]]]]]].
  exists (envK 39), s1, s2, s3, s4, s5, (size 39 - 1), 1. split; [apply envK_malloc|]. auto.
Qed.
Print Assumptions C31_double_allocation_refuted.

(** Proved for all histories of requests below index 39: the chunks are disjoint and each is exactly covered by
    consecutive cells, cells are apart, the allocated cells are cells, each free list holds cells of its index, without repetition, and no cell is at two places. *)
Theorem C31_heap_partition_partial : forall N s A, history N s A ->
  (forall c k, In (c, k) (chunks s) -> exists ls, consecutive (head s) c ls (c + size k)) /\
  ForallOrdPairs disj (chunks s) /\
  (forall x y, cell s x -> cell s y -> x <> y -> apart s x y) /\
  (forall a, In a A -> cell s a) /\ NoDup A /\
  (forall i x, In x (buddy s i) -> cell s x /\ hbix (head s x) = i /\ ~ In x A /\ forall t j, ~ In x (tbuddy s t j)) /\
  (forall i, NoDup (buddy s i)) /\
  (forall t i x, In x (tbuddy s t i) -> cell s x /\ hbix (head s x) = i /\ ~ In x A /\ forall u j, In x (tbuddy s u j) -> u = t) /\
  (forall t i, NoDup (tbuddy s t i)).
Proof. exact history_heap. Qed.
Print Assumptions C31_heap_partition_partial.

(** An allocation that returns gives a zeroed cell that is large enough and apart from all allocated cells (those kept, when a
    collection took place), whose sizes and contents are unchanged.  It never goes wrong; [Hang] is running out of fuel. *)
Theorem C31_alloc_partial : forall N s A e t n, history N s A -> env_ok N s e -> t < N -> n + 1 <= size 38 ->
  gc_alloc e t s n = Hang \/
  exists s' b g, gc_alloc e t s n = Ret (s', b, g) /\
    cell s' b /\ n + 1 <= size (hbix (head s' b)) /\ (forall off, 0 < off < size (hbix (head s' b)) -> mem s' (b + off) = 0) /\
    (forall a, In a A -> (g = true -> live e a = true \/ hnod (head s a) = true) ->
       a <> b /\ cell s' a /\ apart s' a b /\ hbix (head s' a) = hbix (head s a) /\
       forall off, 0 < off < size (hbix (head s a)) -> mem s' (a + off) = mem s (a + off)).
Proof. exact history_alloc. Qed.
Print Assumptions C31_alloc_partial.

(** splitting a free cell and merging the parts again: conserved by [consecutive], and on single steps: *)
Theorem C31_split_merge : forall H a k b m pre p post, tiles H a k b m (pre ++ p :: post) -> 2 <= hbix (H p) ->
  let q := p + size (hbix (H p) - 1) in
  let H1 := upd (upd H q (mkHdr false true (hm (H p)) (rk (hbix (H p))) false)) p (mkHdr false false (hb (H p)) (hbix (H p) - 1) false) in
  let H2 := upd H1 p (mkHdr false (hm (H1 p)) (hm (H1 q)) (hbix (H1 p) + 1) false) in
  tiles H1 a k b m (pre ++ p :: q :: post) /\ tiles H2 a k b m (pre ++ p :: post) /\ hbix (H2 p) = hbix (H p) /\ hb (H2 p) = hb (H p) /\ hm (H2 p) = hm (H p).
Proof.
  intros H a k b m pre p post T J q H1 H2. assert (Nq : q <> p) by (unfold q; pose proof (size_ge (hbix (H p) - 1)); lia).
  assert (P1 : H1 p = mkHdr false false (hb (H p)) (hbix (H p) - 1) false) by (unfold H1, upd; rewrite Nat.eqb_refl; reflexivity).
  assert (Q1 : H1 q = mkHdr false true (hm (H p)) (rk (hbix (H p))) false) by (unfold H1, upd; rewrite (proj2 (Nat.eqb_neq q p) Nq), Nat.eqb_refl; reflexivity).
  assert (T1 : tiles H1 a k b m (pre ++ p :: q :: post)).
  { eapply tiles_split; [exact T|reflexivity|exact J| | | | | | |]; fold q; rewrite ?P1, ?Q1; try reflexivity.
    intros x X1 X2. unfold H1, upd. rewrite (proj2 (Nat.eqb_neq x p) X1), (proj2 (Nat.eqb_neq x q) X2). reflexivity. }
  assert (P2 : H2 p = mkHdr false (hm (H1 p)) (hm (H1 q)) (hbix (H1 p) + 1) false) by (unfold H2, upd; rewrite Nat.eqb_refl; reflexivity).
  split; [exact T1|]. split; [|rewrite P2, P1, Q1; cbn; repeat split; lia].
  eapply tiles_merge; [exact T1|reflexivity|rewrite P1; reflexivity|rewrite Q1; reflexivity| | | |]; rewrite ?P2; try reflexivity.
  intros x X. unfold H2, upd. rewrite (proj2 (Nat.eqb_neq x p) X). reflexivity.
Qed.
Print Assumptions C31_split_merge.

(** ** C33 *)
(** A collection always comes to an end.  Marked cells, cells with a dispose hook and the free cells of the threads stay with
    unchanged contents; every other cell is, merged or not, on the free list of its index.  (The cells marked are the reachable ones: C32.)
    Chunks of index 39 excluded, as above. *)
Theorem C33_collection_partial : forall N s A e, history N s A -> env_ok N s e ->
  exists s', gc e s = Ret s' /\ chunks s' = chunks s /\ tbuddy s' = tbuddy s /\
    (forall a, cell s a -> live e a = true \/ hnod (head s a) = true \/ (exists t i, In a (tbuddy s t i)) ->
       cell s' a /\ hbix (head s' a) = hbix (head s a) /\ (forall i, ~ In a (buddy s' i)) /\
       forall off, 0 < off < size (hbix (head s a)) -> mem s' (a + off) = mem s (a + off)) /\
    (forall x, cell s' x -> cell s x /\ (live e x = true \/ hnod (head s x) = true \/ (exists t i, In x (tbuddy s t i)) \/ In x (buddy s' (hbix (head s' x))))) /\
    (forall i x, In x (buddy s' i) -> cell s' x /\ hbix (head s' x) = i) /\ (forall i, NoDup (buddy s' i)).
Proof. exact history_gc. Qed.
Print Assumptions C33_collection_partial.

(** ** A history: two cells of more than 100 words, a collection that keeps the second, and a new cell *)
Definition ex_env (lv : nat -> bool) : env := mkEnv (fun s _ => 2 + top_of (chunks s)) (fun _ => false) (fun _ => 0%Z) lv 1 5000.
Definition st (r : out (state * nat * bool)) : state := match r with Ret (s, _, _) => s | _ => empty_state end.
Definition res (r : out (state * nat * bool)) : option (nat * bool) := match r with Ret (_, b, g) => Some (b, g) | _ => None end.
Lemma res_st : forall r b g, res r = Some (b, g) -> r = Ret (st r, b, g).
Proof. intros [[[s b'] g']| | |] b g H; try discriminate H. cbn in *. congruence. Qed.
Definition nolive (_ : nat) : bool := false.
Definition ex1 : out (state * nat * bool) := gc_alloc (ex_env nolive) 0 empty_state 102.
Definition ex2 : out (state * nat * bool) := gc_alloc (ex_env nolive) 0 (st ex1) 110.
Definition ex3 : out state := gc (ex_env (Nat.eqb 4362)) (st ex2).
Definition st3 : state := match ex3 with Ret s => s | _ => empty_state end.
Definition ex4 : out (state * nat * bool) := gc_alloc (ex_env nolive) 0 st3 120.
Example ex1_res : res ex1 = Some (4527, false). Proof. vm_compute. reflexivity. Qed.
Example ex2_res : res ex2 = Some (4362, false). Proof. vm_compute. reflexivity. Qed.
Example ex3_res : (match ex3 with Ret s => map (fun i => buddy s i) [9; 10; 11; 12; 13; 14; 15] | _ => [] end) = [[]; [4527; 4095]; []; []; [2964]; []; [3]].
Proof. vm_compute. reflexivity. Qed.
Example ex4_res : res ex4 = Some (4527, false). Proof. vm_compute. reflexivity. Qed.
Example ex_history : history 1 (st ex4) [4527; 4362].
Proof.
  assert (M : forall lv, malloc_ok (ex_env lv)) by (intros lv s k ck I; right; cbn [fst snd malloc ex_env]; pose proof (top_of_ge (chunks s) ck I); lia).
  assert (Sz : size 16 < 5000) by (apply Nat.ltb_lt; vm_compute; reflexivity).
  assert (S38 : forall n, n < 16 * 10 -> n + 1 <= size 38). { intros n Hn. assert (size 16 <= size 38) by (apply size_mono; lia). assert (161 <= size 16) by (apply Nat.leb_le; vm_compute; reflexivity). lia. }
  assert (H1 : history 1 (st ex1) [4527]).
  { apply (h_alloc 1 empty_state [] (ex_env nolive) 0 102 (st ex1) 4527 false); [constructor| |lia|apply S38; lia|apply res_st, ex1_res]. constructor; [apply M|discriminate|reflexivity|constructor]. }
  assert (C1 : chunks (st ex1) = [(3, 16)]) by (vm_compute; reflexivity).
  assert (H2 : history 1 (st ex2) [4362; 4527]).
  { apply (h_alloc 1 (st ex1) [4527] (ex_env nolive) 0 110 (st ex2) 4362 false); [exact H1| |lia|apply S38; lia|apply res_st, ex2_res]. constructor; [apply M|discriminate|reflexivity|]. rewrite C1. constructor; [exact Sz|constructor]. }
  assert (C2 : chunks (st ex2) = [(3, 16)]) by (vm_compute; reflexivity).
  assert (H3 : history 1 st3 [4362]).
  { replace [4362] with (survivors (ex_env (Nat.eqb 4362)) (st ex2) [4362; 4527]) by (vm_compute; reflexivity). apply (h_gc 1 (st ex2) [4362; 4527] (ex_env (Nat.eqb 4362)) st3); [exact H2| |].
    - constructor; [apply M| |reflexivity|rewrite C2; constructor; [exact Sz|constructor]]. intros x Hx. cbn [live ex_env] in Hx. apply Nat.eqb_eq in Hx. subst x.
      apply (history_heap 1 _ _ H2). left. reflexivity.
    - unfold st3. fold ex3. destruct ex3 as [s| | |] eqn:E; [reflexivity| | |]; assert (K := ex3_res); rewrite E in K; discriminate K. }
  assert (C3 : chunks st3 = [(3, 16)]) by (vm_compute; reflexivity).
  apply (h_alloc 1 st3 [4362] (ex_env nolive) 0 120 (st ex4) 4527 false); [exact H3| |lia|apply S38; lia|apply res_st, ex4_res]. constructor; [apply M|discriminate|reflexivity|]. rewrite C3. constructor; [exact Sz|constructor].
Qed.
