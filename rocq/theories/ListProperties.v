(** Properties C16 and C17. *)
From Verif Require Import ListModel ListProofs.

(** a heap holding (1 2 3) at cells 0 1 2 and (4 5) at cells 3 4 *)
Definition demo_heap := mkHeap (fun a => match a with
  | 0 => (Atom 1, Ptr 1) | 1 => (Atom 2, Ptr 2) | 2 => (Atom 3, Nil) | 3 => (Atom 4, Ptr 4) | 4 => (Atom 5, Nil)
  | 5 => (Ptr 0, Ptr 6) | 6 => (Atom 9, Ptr 7) | 7 => (Ptr 3, Nil) | _ => (Nil, Nil) end) 8.
Example demo_list1 : is_list demo_heap (Ptr 0) [0; 1; 2] /\ allocated demo_heap [0; 1; 2] /\ elems demo_heap [0; 1; 2] = [Atom 1; Atom 2; Atom 3].
Proof. cbn. repeat split; auto. repeat constructor. Qed.
Example demo_list2 : is_list demo_heap (Ptr 3) [3; 4] /\ allocated demo_heap [3; 4].
Proof. cbn. repeat split; auto. repeat constructor. Qed.
Definition view (r : out (heap * val)) : option (list (val * val) * val) :=
  match r with Ret (h, v) => Some (map (mem h) (seq 0 (next h)), v) | _ => None end.

(** ** C16 copying and walking functions.  Fuel stands for the number of steps the C loop may take; any amount
    not smaller than the list length will do. *)
Theorem C16_append : forall h args css last fuel,
  Forall2 (is_list h) args css -> Forall (allocated h) css -> Forall (fun cs => length cs <= fuel) css ->
  exists h' r new, APPEND fuel h (args ++ [last]) = Ret (h', r) /\ chain h' r new last /\
    elems h' new = concat (map (elems h) css) /\ preserves h h' /\ fresh_between h h' new.
Proof. exact APPEND_ok. Qed.
Print Assumptions C16_append.
Example C16_append_ex : view (APPEND 3 demo_heap [Ptr 0; Nil; Ptr 3; Atom 7]) =
  Some (map (mem demo_heap) (seq 0 8) ++ [(Atom 5, Atom 7); (Atom 4, Ptr 8); (Atom 3, Ptr 9); (Atom 2, Ptr 10); (Atom 1, Ptr 11)], Ptr 12).
Proof. vm_compute. reflexivity. Qed.

Theorem C16_nth_partial : forall h v cells i, is_list h v cells -> (0 <= i < 2147483648)%Z ->
  NTH h i v = Ret (nth (Z.to_nat i) (elems h cells) Nil).
Proof. exact NTH_ok. Qed.
Print Assumptions C16_nth_partial.
Example C16_nth_ex : NTH demo_heap 2 (Ptr 0) = Ret (Atom 3) /\ NTH demo_heap 7 (Ptr 0) = Ret Nil.
Proof. split; vm_compute; reflexivity. Qed.

(** The index is read into a C int: (nth 4294967296 '(1 2 3)) is 1, and (nth 2147483648 '(1 2 3)) is an error. *)
Theorem C16_nth_refuted : exists h v cells i, is_list h v cells /\ (0 <= i)%Z /\
  NTH h i v <> Ret (nth (Z.to_nat i) (elems h cells) Nil).
Proof.
  exists demo_heap, (Ptr 0), [0; 1; 2], 4294967296%Z. split; [cbn; auto|]. split; [lia|].
  rewrite nth_overflow by (change (length (elems demo_heap [0; 1; 2])) with 3; lia).
  replace (NTH demo_heap 4294967296 (Ptr 0)) with (Ret (Atom 1)) by (vm_compute; reflexivity). discriminate.
Qed.
Print Assumptions C16_nth_refuted.

Theorem C16_nthcdr_partial : forall h v cells i, is_list h v cells -> (0 <= i < 2147483648)%Z ->
  exists r, NTHCDR h i v = Ret r /\ is_list h r (skipn (Z.to_nat i) cells).
Proof. exact NTHCDR_ok. Qed.
Print Assumptions C16_nthcdr_partial.
Theorem C16_nthcdr_refuted : exists h v cells i, is_list h v cells /\ (0 <= i)%Z /\
  forall r, NTHCDR h i v = Ret r -> ~ is_list h r (skipn (Z.to_nat i) cells).
Proof.
  exists demo_heap, (Ptr 0), [0; 1; 2], 4294967296%Z. split; [cbn; auto|]. split; [lia|].
  intros r E. replace (NTHCDR demo_heap 4294967296 (Ptr 0)) with (Ret (Ptr 0)) in E by (vm_compute; reflexivity). injection E as <-.
  rewrite skipn_all2 by (change (length [0; 1; 2]) with 3; lia). discriminate.
Qed.
Print Assumptions C16_nthcdr_refuted.
Example C16_nthcdr_ex : NTHCDR demo_heap 2 (Ptr 0) = Ret (Ptr 2).
Proof. vm_compute. reflexivity. Qed.

Theorem C16_last : forall cells fuel h v, is_list h v cells -> length cells < fuel ->
  exists r, last_loop fuel h v = Ret r /\ is_list h r (skipn (length cells - 1) cells).
Proof. exact last_loop_ok. Qed.
Print Assumptions C16_last.
Example C16_last_ex : last_loop 4 demo_heap (Ptr 0) = Ret (Ptr 2).
Proof. vm_compute. reflexivity. Qed.

Theorem C16_length : forall h v cells fuel, is_list h v cells -> length cells <= fuel -> LENGTH fuel h v = Ret (length cells).
Proof. exact LENGTH_ok. Qed.
Print Assumptions C16_length.
Example C16_length_ex : LENGTH 3 demo_heap (Ptr 5) = Ret 3.
Proof. vm_compute. reflexivity. Qed.

Theorem C16_butlast_partial : forall h v cells n fuel, is_list h v cells -> length cells <= fuel -> (0 <= n < 2147483648)%Z ->
  exists h' r new, BUTLAST fuel h v n = Ret (h', r) /\ is_list h' r new /\
    elems h' new = firstn (length cells - Z.to_nat n) (elems h cells) /\ preserves h h' /\ fresh_between h h' new.
Proof. exact BUTLAST_ok. Qed.
Print Assumptions C16_butlast_partial.
Example C16_butlast_ex : view (BUTLAST 3 demo_heap (Ptr 0) 1) = Some (map (mem demo_heap) (seq 0 8) ++ [(Atom 2, Nil); (Atom 1, Ptr 8)], Ptr 9).
Proof. vm_compute. reflexivity. Qed.

Theorem C16_reverse : forall h v cells fuel, is_list h v cells -> allocated h cells -> length cells <= fuel ->
  exists h' r new, REVERSE fuel h v = Ret (h', r) /\ is_list h' r new /\ elems h' new = rev (elems h cells) /\
    preserves h h' /\ fresh_between h h' new.
Proof. exact REVERSE_ok. Qed.
Print Assumptions C16_reverse.

Theorem C16_copy_seq : forall h v cells fuel, is_list h v cells -> length cells <= fuel ->
  exists h' r new, COPYSEQ fuel h v = Ret (h', r) /\ is_list h' r new /\ elems h' new = elems h cells /\
    preserves h h' /\ fresh_between h h' new.
Proof. exact COPYSEQ_ok. Qed.
Print Assumptions C16_copy_seq.

Theorem C16_copy_list : forall h v cells fuel, is_list h v cells -> allocated h cells -> length cells <= fuel ->
  exists h' r new, copy_list fuel h v = Ret (h', r) /\ is_list h' r new /\ elems h' new = elems h cells /\
    preserves h h' /\ fresh_between h h' new.
Proof. exact copy_list_ok. Qed.
Print Assumptions C16_copy_list.
Example C16_copy_list_ex : view (copy_list 3 demo_heap (Ptr 3)) = Some (map (mem demo_heap) (seq 0 8) ++ [(Atom 5, Nil); (Atom 4, Ptr 8)], Ptr 9).
Proof. vm_compute. reflexivity. Qed.

(** member returns the tail that starts at the first element accepted, or nil *)
Theorem C16_member : forall cells h test v fuel, is_list h v cells -> length cells <= fuel ->
  exists r pre post, SUPERMEMBER fuel h test v = Ret r /\ cells = pre ++ post /\ is_list h r post /\
    Forall (fun x => test x = false) (elems h pre) /\ match post with [] => True | a :: _ => test (car h a) = true end.
Proof. exact SUPERMEMBER_ok. Qed.
Print Assumptions C16_member.
Example C16_member_ex : SUPERMEMBER 3 demo_heap (val_eqb (Atom 2)) (Ptr 0) = Ret (Ptr 1).
Proof. vm_compute. reflexivity. Qed.

(** assoc returns the first pair whose car is accepted, or nil *)
Theorem C16_assoc : forall cells h test v fuel, is_list h v cells -> length cells <= fuel ->
  SUPERASSOC fuel h test v = Ret (match find (pair_matches h test) (elems h cells) with Some p => p | None => Nil end).
Proof. exact SUPERASSOC_ok. Qed.
Print Assumptions C16_assoc.
Example C16_assoc_ex : SUPERASSOC 3 demo_heap (val_eqb (Atom 4)) (Ptr 5) = Ret (Ptr 3).
Proof. vm_compute. reflexivity. Qed.

(** ** C17 destructive functions *)
Theorem C17_nconc : forall h args css fuel,
  Forall2 (is_list h) args css -> NoDup (concat css) -> Forall (fun cs => length cs <= fuel) css ->
  exists h' r, NCONC fuel h args = Ret (h', r) /\ is_list h' r (concat css) /\
    elems h' (concat css) = concat (map (elems h) css) /\ same_outside (concat css) h h'.
Proof. exact NCONC_ok. Qed.
Print Assumptions C17_nconc.
Example C17_nconc_ex : view (NCONC 3 demo_heap [Ptr 3; Nil; Ptr 0]) =
  Some ([(Atom 1, Ptr 1); (Atom 2, Ptr 2); (Atom 3, Nil); (Atom 4, Ptr 4); (Atom 5, Ptr 0); (Ptr 0, Ptr 6); (Atom 9, Ptr 7); (Ptr 3, Nil)], Ptr 3).
Proof. vm_compute. reflexivity. Qed.

Theorem C17_nreverse : forall h v cells fuel, is_list h v cells -> length cells <= fuel ->
  exists h', NREVERSE fuel h v = Ret (h', v) /\ is_list h' v cells /\ elems h' cells = rev (elems h cells) /\ same_outside cells h h'.
Proof. exact NREVERSE_ok. Qed.
Print Assumptions C17_nreverse.
Example C17_nreverse_ex : view (NREVERSE 3 demo_heap (Ptr 0)) =
  Some ([(Atom 3, Ptr 1); (Atom 2, Ptr 2); (Atom 1, Nil); (Atom 4, Ptr 4); (Atom 5, Nil); (Ptr 0, Ptr 6); (Atom 9, Ptr 7); (Ptr 3, Nil)], Ptr 0).
Proof. vm_compute. reflexivity. Qed.

(** nbutlast is right as long as something remains *)
Theorem C17_nbutlast_partial : forall h v cells n fuel, is_list h v cells -> length cells <= fuel -> (0 <= n < 2147483648)%Z ->
  Z.to_nat n < length cells ->
  exists h', NBUTLAST fuel h v n = Ret (h', v) /\ is_list h' v (firstn (length cells - Z.to_nat n) cells) /\
    elems h' (firstn (length cells - Z.to_nat n) cells) = firstn (length cells - Z.to_nat n) (elems h cells) /\ same_outside cells h h'.
Proof. exact NBUTLAST_ok. Qed.
Print Assumptions C17_nbutlast_partial.
Example C17_nbutlast_ex : view (NBUTLAST 3 demo_heap (Ptr 0) 2) =
  Some ([(Atom 1, Nil); (Atom 2, Ptr 2); (Atom 3, Nil); (Atom 4, Ptr 4); (Atom 5, Nil); (Ptr 0, Ptr 6); (Atom 9, Ptr 7); (Ptr 3, Nil)], Ptr 0).
Proof. vm_compute. reflexivity. Qed.

(** (nbutlast '(3)): the word below the pushed cells is used as a cons cell. *)
Theorem C17_nbutlast_refuted : exists h v cells, is_list h v cells /\ cells <> [] /\
  (exists h' r, BUTLAST (length cells) h v 1 = Ret (h', r) /\ r = Nil) /\ NBUTLAST (length cells) h v 1 = Undef.
Proof.
  exists demo_heap, (Ptr 2), [2]. split; [cbn; auto|]. split; [discriminate|]. split; [|vm_compute; reflexivity].
  eexists _, _. split; [vm_compute; reflexivity|reflexivity].
Qed.
Print Assumptions C17_nbutlast_refuted.
