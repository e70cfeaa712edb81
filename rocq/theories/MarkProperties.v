(** Properties of the garbage collector: C32, and C33 with the marker. *)
From Verif Require Export HeapProperties MarkProofs2.

(** ** C32 *)
(** Full statement: markall marks the objects reachable from the roots and no others.  The code does not follow the slots of closures:
    what is referred to only by a closure is not marked. *)
Definition all_slots (o : objs) : objs := mkObjs (elm o) (fun _ => false) (brk o).
Definition exg_mem (x : nat) : nat := nth (x - 10) [0; 8 * 13; 6;  0; 4; 8 * 16; 0; 8 * 19; 8 * 10; 0; 8 * 25; 8 * 13;  0; 0; 0; 0; 0; 0] 0.
Definition exg_state : state :=
  mkState (fun _ => mkHdr false true false 1 false) (fun _ => []) (fun _ => 0%Z) (fun t i => match t, i with 0, 1 => [22] | _, _ => [] end) (fun _ _ => 0%Z) [(10, 6)] 0 39 exg_mem.
Definition exg_objs : objs := mkObjs (fun a => match a with 13 => ELM_POINTER | _ => ELM_FIXED end) (fun a => Nat.eqb a 19) 0.
Definition exg_roots (w : nat) : roots := mkRoots (8 * 10) 0 [mkCtx 0 [w; 3; 900; 4] 880 960 0 0] [1; 0].
Example exg_marks : (match markall 60 exg_objs exg_state (new_stack 32) (exg_roots 6) with Ret (M, _) => map M [10; 13; 16; 19; 22; 25] | _ => [] end) = [true; true; true; true; true; false].
Proof. vm_compute. reflexivity. Qed.
Theorem C32_closure_refuted : exists f o s g r M g' a, markall f o s g r = Ret (M, g') /\ reach (all_slots o) s (root r) nowhere a /\ M a = false.
Proof.
  exists 60, exg_objs, exg_state, (new_stack 32), (exg_roots (8 * 19)).
  destruct (markall 60 exg_objs exg_state (new_stack 32) (exg_roots (8 * 19))) as [[M g']| | |] eqn:E; [|vm_compute in E; discriminate E..].
  exists M, g', 25. split; [reflexivity|]. split.
  - change 25 with (8 * 25 / 8). apply (r_step _ _ _ _ 19).
    + change 19 with (8 * 19 / 8). apply r_root; [|vm_compute; reflexivity]. apply (rt_stack _ (mkCtx 0 [8 * 19; 3; 900; 4] 880 960 0 0)); [left; reflexivity|left; reflexivity|reflexivity|cbn [stack_lo]; lia].
    + intros [].
    + split; [reflexivity|]. exists 1. split; [apply Nat.ltb_lt; vm_compute; reflexivity|]. split; [vm_compute; reflexivity|]. split; [vm_compute; reflexivity|]. cbn. lia.
    + vm_compute. reflexivity.
  - assert (K : (match markall 60 exg_objs exg_state (new_stack 32) (exg_roots (8 * 19)) with Ret (M, _) => M 25 | _ => true end) = false) by (vm_compute; reflexivity). rewrite E in K. exact K.
Qed.
Print Assumptions C32_closure_refuted.

(** Proved, for every heap, graph and root set in which the pointers met are pointers to cells (L): the marker ends, never writes outside its
    stack however often that has to be extended, marks every object reachable from the roots through objects that are neither closures
    nor free cells of a thread, marks the free cells of the threads, and marks nothing that is not reachable or such a cell.
    The bound on the fuel is the number of words in the heap. *)
Theorem C32_markall_partial : forall f o s L g r, NoDup L -> stack_ok g -> total s L + 1 < f ->
  (forall a, In a L -> hmark (head s a) = false) ->
  (forall w, root r w \/ (exists a, reach o s (root r) nowhere a /\ points o s a w) -> in_heap o s w -> w mod 8 = 0 /\ In (w / 8) L) ->
  exists M g', markall f o s g r = Ret (M, g') /\ stack_ok g' /\
    (forall a, reach o s (root r) (thread_free s (length (contexts r))) a -> M a = true) /\
    (forall a, thread_free s (length (contexts r)) a -> M a = true) /\
    (forall a, M a = true -> hmark (head s a) = true \/ reach o s (root r) nowhere a \/ thread_free s (length (contexts r)) a).
Proof. exact markall_ok. Qed.
Print Assumptions C32_markall_partial.
(** the hypotheses hold for the cyclic graph above *)
Example exg_valid : let r := exg_roots 6 in let L := [10; 13; 16; 19; 22; 25] in
  NoDup L /\ stack_ok (new_stack 32) /\ total exg_state L + 1 < 60 /\
  (forall w, root r w \/ (exists a, reach exg_objs exg_state (root r) nowhere a /\ points exg_objs exg_state a w) -> in_heap exg_objs exg_state w -> w mod 8 = 0 /\ In (w / 8) L).
Proof.
  intros r L. split; [|split; [|split]].
  - unfold L. repeat (constructor; [cbn [In]; lia|]). constructor.
  - split; cbn [lim cap new_stack]; lia.
  - apply Nat.ltb_lt. vm_compute. reflexivity.
  - assert (Rt : forall w, root r w -> in_heap exg_objs exg_state w -> w = 80).
    { intros w H I. inversion H as [E|E|c Hc E|c v Hc Hw Hm Hs E|c Hc E|c Hc H1 H2 E|v Hw Hp E]; subst.
      - reflexivity.
      - vm_compute in I. discriminate I.
      - destruct Hc as [<-|[]]. vm_compute in I. discriminate I.
      - destruct Hc as [<-|[]]. cbn [stack In] in Hw. cbn [stack_lo stack_hi] in Hs. destruct Hw as [<-|[<-|[<-|[<-|[]]]]]; try (vm_compute in Hm; discriminate Hm).
      - destruct Hc as [<-|[]]. vm_compute in I. discriminate I.
      - destruct Hc as [<-|[]]. exfalso. apply H1. reflexivity.
      - destruct Hw as [<-|[<-|[]]]; [vm_compute in Hp; discriminate Hp|vm_compute in I; discriminate I]. }
    assert (Pt : forall a w, In a L -> points exg_objs exg_state a w -> in_heap exg_objs exg_state w -> w mod 8 = 0 /\ In (w / 8) L).
    { intros a w Ia [Hc [i [Hi [Hw [Hp He]]]]] Iw. change (size (hbix (head exg_state a))) with 3 in Hi.
      assert (Hi' : i = 0 \/ i = 1 \/ i = 2) by lia.
      assert (W : forallb (fun a => forallb (fun i => let w := mem exg_state (a + i) in out_of_heap exg_objs exg_state w || negb (ispointer w) || (Nat.eqb (w mod 8) 0 && existsb (Nat.eqb (w / 8)) L)) [1; 2]) L = true) by (vm_compute; reflexivity).
      rewrite forallb_forall in W. specialize (W a Ia). rewrite forallb_forall in W.
      assert (Ii : In i [1; 2]). { destruct Hi' as [E0|[E0|E0]]; subst i; [|cbn; auto|cbn; auto]. destruct (elm exg_objs a); [lia|lia|destruct He]. }
      specialize (W i Ii). cbv zeta in W. rewrite <- Hw in W. unfold in_heap in Iw. rewrite Iw, Hp in W. cbn [negb orb] in W. apply andb_true_iff in W as [W1 W2]. apply Nat.eqb_eq in W1. apply existsb_exists in W2 as [b [W2 W3]]. apply Nat.eqb_eq in W3. rewrite W3. auto. }
    assert (Rc : forall a, reach exg_objs exg_state (root r) nowhere a -> In a L).
    { intros a K. induction K as [w K I|b w K IH Nf P I]; [rewrite (Rt w K I); cbn; auto|]. apply (Pt b w IH P I). }
    intros w [H|[a [H1 H2]]] I; [rewrite (Rt w H I); cbn; auto|]. apply (Pt a w (Rc a H1) H2 I).
Qed.

(** ** C33 *)
(** A whole collection in any state reached by allocations, stores and collections, when there are no dangling pointers:
    it comes to an end, the cells kept are the used ones and those with a dispose hook, the used cells keep size and contents, the same
    cells are used afterwards and again there are no dangling pointers; all other cells are on free lists.
    Missing: chunks of index 39 (C31), and closures are not followed (C32; [used] does not go through them). *)
Theorem C33_collect_garbage_partial : forall N s A e o g r, history N s A -> collect_ok N s e g r -> no_dangling o s r A ->
  exists s' g' A', collect_garbage e o s g r = Ret (s', g') /\ stack_ok g' /\ chunks s' = chunks s /\
    history N s' A' /\ (forall a, In a A' <-> In a A /\ (used o s r A a \/ hnod (head s a) = true)) /\
    (forall a, In a A' -> hbix (head s' a) = hbix (head s a) /\ forall off, 0 < off < size (hbix (head s a)) -> mem s' (a + off) = mem s (a + off)) /\
    (forall a, used o s' r A' a <-> used o s r A a) /\ no_dangling o s' r A' /\
    (forall x, cell s' x -> In x A' \/ hnod (head s x) = true \/ (exists t i, In x (tbuddy s' t i)) \/ In x (buddy s' (hbix (head s' x)))).
Proof. exact collect_garbage_ok. Qed.
Print Assumptions C33_collect_garbage_partial.

(** the history of HeapProperties continued: the second cell gets a pointer to the first and is itself a root *)
Definition exc_state : state := set_word (st ex4) (4362 + 7) (8 * 4527).
Definition exc_objs : objs := mkObjs (fun _ => ELM_FIXED) (fun _ => false) 0.
Definition roots_at (p : nat) : roots := mkRoots (8 * p) 0 [mkCtx 0 [6; 0] 1 8 0 0] [].
Lemma two_cells : forall s p q, chunks s = [(3, 16)] -> 7 < size (hbix (head s q)) -> mem s (q + 7) = 8 * p ->
  (forall a i, In a [p; q] -> 1 <= i < size (hbix (head s a)) -> mem s (a + i) = 0 \/ mem s (a + i) = 8 * p) ->
  no_dangling exc_objs s (roots_at q) [p; q] /\ used exc_objs s (roots_at q) [p; q] p.
Proof.
  intros s p q C H7 Hp Hs. assert (Z0 : ~ in_heap exc_objs s 0). { unfold in_heap, out_of_heap. rewrite C. cbn [existsb fst]. discriminate. } split.
  - intros w Hw I. assert (K : w = 0 \/ w = 8 * q \/ w = 8 * p).
    { destruct Hw as [H|[a [Ha [_ [i [H1 [H2 [_ H3]]]]]]]].
      - inversion H as [E|E|c Hc E|c v Hc Hv Hm Hz E|c Hc E|c Hc G1 G2 E|v Hv Hq E]; try (destruct Hc as [<-|[]]); auto.
        + destruct Hv as [<-|[<-|[]]]; [discriminate Hm|auto].
        + destruct Hv.
      - apply used_in in Ha. change (1 <= i) in H3. destruct (Hs a i Ha) as [K|K]; [lia|left; congruence|right; right; congruence]. }
    destruct K as [E|[E|E]]; subst w; [contradiction|exists q|exists p]; (split; [reflexivity|]); cbn [In]; auto.
  - apply (u_step _ _ _ _ q); [apply u_root; [apply (rt_sys (roots_at q))|cbn [In]; auto]| |cbn [In]; auto]. split; [reflexivity|]. exists 7.
    split; [exact H7|]. split; [symmetry; exact Hp|]. split; [|cbn [elm exc_objs]; lia]. unfold ispointer. apply Nat.eqb_eq. replace (8 * p) with (2 * p * 4) by lia. apply Nat.mod_mul. lia.
Qed.
Example exc_history : history 1 exc_state [4527; 4362].
Proof. apply h_write; [exact ex_history|right; left; reflexivity|]. split; [lia|]. apply Nat.ltb_lt. vm_compute. reflexivity. Qed.
Definition check_slots (s : state) (p q : nat) : bool := forallb (fun a => forallb (fun i => let w := mem s (a + i) in Nat.eqb w 0 || Nat.eqb w (8 * p)) (seq 1 (size (hbix (head s a)) - 1))) [p; q].
Lemma exc_slots : check_slots exc_state 4527 4362 = true.
Proof. vm_compute. reflexivity. Qed.
Lemma check_slots_ok : forall s p q, check_slots s p q = true -> forall a i, In a [p; q] -> 1 <= i < size (hbix (head s a)) -> mem s (a + i) = 0 \/ mem s (a + i) = 8 * p.
Proof.
  intros s p q K a i Ia Hi. unfold check_slots in K. rewrite forallb_forall in K. specialize (K a Ia). rewrite forallb_forall in K.
  assert (Ii : In i (seq 1 (size (hbix (head s a)) - 1))) by (apply in_seq; lia). specialize (K i Ii). cbv zeta in K. apply orb_true_iff in K. rewrite !Nat.eqb_eq in K. exact K.
Qed.
Example exc_ok : no_dangling exc_objs exc_state (roots_at 4362) [4527; 4362] /\ used exc_objs exc_state (roots_at 4362) [4527; 4362] 4527.
Proof.
  apply two_cells; [vm_compute; reflexivity|apply Nat.ltb_lt; vm_compute; reflexivity|apply Nat.eqb_eq; vm_compute; reflexivity|].
  apply check_slots_ok. exact exc_slots.
Qed.
